(** Proofs about bartpy/data.py: columns, caches, masks, counts, sums. *)
From Coq Require Import Reals Lra QArith Qcanon.
From Verif Require Import Base Fl Ext MData MSplit MHist Spec LFl LList.
Close Scope Q_scope. Close Scope Qc_scope.

(** ** is_not_constant *)
Lemma inc_loop_some f s :
  inc_loop (Some f) s = true <-> exists x, In x s /\ feqb x f = false.
Proof.
  induction s as [|x s IH]; simpl.
  - split; [discriminate|]. intros (x&[]&_).
  - destruct (feqb x f) eqn:E; simpl.
    + rewrite IH. split; [intros (z&H1&H2); eauto|].
      intros (z&[<-|H1]&H2); [congruence|eauto].
    + split; auto. intros _; exists x; auto.
Qed.
Lemma is_not_constant_spec s :
  Forall (fun x => is_nan x = false) s ->
  is_not_constant s = true <-> exists x y, In x (tl s) /\ In y (tl s) /\ x <> y.
Proof.
  intros Hn. unfold is_not_constant.
  destruct s as [|a s]; simpl.
  - split; [discriminate|]. intros (x&y&[]&_).
  - inversion Hn as [|? ? _ Hs]; subst.
    destruct s as [|f s]; simpl.
    + split; [discriminate|]. intros (x&y&[]&_).
    + rewrite inc_loop_some. inversion Hs as [|? ? Hf Hs']; subst. split.
      * intros (x&Hx&He). exists x, f. repeat split; auto.
        intros ->. rewrite feqb_refl in He; congruence.
      * intros (x&y&Hx&Hy&Hxy).
        assert (Hall: forall z, In z (f :: s) -> is_nan z = false).
        { intros z [<-|Hz]; auto. rewrite Forall_forall in Hs'; auto. }
        destruct (feqb x f) eqn:E.
        -- apply feqb_eq in E as [-> _]. exists y. split.
           ++ destruct Hy as [<-|Hy]; [congruence|auto].
           ++ apply feqb_neq; auto.
        -- exists x. split; auto. destruct Hx as [<-|Hx]; auto.
           rewrite feqb_refl in E; congruence.
Qed.
Lemma is_not_constant_subseq s1 s2 :
  Forall (fun x => is_nan x = false) s2 -> subseq s1 s2 ->
  is_not_constant s2 = false -> is_not_constant s1 = false.
Proof.
  intros Hn Hs H2. destruct (is_not_constant s1) eqn:E; auto.
  apply is_not_constant_spec in E.
  - destruct E as (x&y&Hx&Hy&Hxy).
    assert (is_not_constant s2 = true); [|congruence].
    apply is_not_constant_spec; auto. exists x, y.
    repeat split; auto; eapply subseq_in; eauto using subseq_tl.
  - rewrite Forall_forall in *. intros z Hz; apply Hn; eapply subseq_in; eauto.
Qed.

(** ** columns *)
Lemma column_no_nan X m v :
  no_nan X -> v < mx_ncols X ->
  Forall (fun x => is_nan x = false) (map (fun r => cell r v) (select m (mx_rows X))).
Proof.
  intros Hn Hv. rewrite Forall_forall. intros x Hx.
  apply in_map_iff in Hx as (r&<-&Hr). apply in_select in Hr as (i&_&Hi).
  apply nth_error_In in Hi. specialize (Hn r v Hi Hv). destruct (cell r v); auto; congruence.
Qed.

Lemma in_column c v x : length (cm_mask c) = length (mx_rows (cm_X c)) ->
  In x (get_column c v) <->
  exists i, nth_error (cm_mask c) i = Some false /\ value_in (cm_X c) i v = x.
Proof.
  intros Hl. unfold get_column. rewrite in_map_iff. split.
  - intros (r&<-&Hr). apply in_select in Hr as (i&H1&H2). exists i. split; auto.
    unfold value_in. apply nth_error_nth with (d := []) in H2. now rewrite H2.
  - intros (i&H1&<-). eexists; split; [reflexivity|]. apply in_select. exists i. split; auto.
    apply nth_error_nth'. rewrite <- Hl. apply nth_error_Some. congruence.
Qed.
Lemma in_tl_column c v x : length (cm_mask c) = length (mx_rows (cm_X c)) ->
  In x (tl (get_column c v)) <->
  exists k i, k < i /\ nth_error (cm_mask c) k = Some false /\ nth_error (cm_mask c) i = Some false
              /\ value_in (cm_X c) i v = x.
Proof.
  intros Hl. unfold get_column.
  replace (tl (map (fun r => cell r v) (select (cm_mask c) (mx_rows (cm_X c)))))
    with (map (fun r => cell r v) (tl (select (cm_mask c) (mx_rows (cm_X c)))))
    by (destruct (select _ _); reflexivity).
  rewrite in_map_iff. split.
  - intros (r&<-&Hr). apply in_tl_select in Hr as (k&i&H0&H1&H2&H3). exists k, i. repeat split; auto.
    unfold value_in. apply nth_error_nth with (d := []) in H3. now rewrite H3.
  - intros (k&i&H0&H1&H2&<-). eexists; split; [reflexivity|]. apply in_tl_select. exists k, i.
    repeat split; auto.
    apply nth_error_nth'. rewrite <- Hl. apply nth_error_Some. congruence.
Qed.
Lemma get_column_length c v : length (cm_mask c) = length (mx_rows (cm_X c)) ->
  length (get_column c v) = count_false (cm_mask c).
Proof. intros. unfold get_column. rewrite map_length. now apply select_length. Qed.

(** two node rows, neither of them the node's first row, differ in column v *)
Lemma column_splittable_iff c v : length (cm_mask c) = length (mx_rows (cm_X c)) ->
  no_nan (cm_X c) -> v < mx_ncols (cm_X c) ->
  is_not_constant (get_column c v) = true <->
  exists k i j, k < i /\ k < j /\ nth_error (cm_mask c) k = Some false /\
    nth_error (cm_mask c) i = Some false /\ nth_error (cm_mask c) j = Some false /\
    value_in (cm_X c) i v <> value_in (cm_X c) j v.
Proof.
  intros Hl Hn Hv. rewrite is_not_constant_spec by (apply column_no_nan; auto). split.
  - intros (x&y&Hx&Hy&Hxy).
    apply in_tl_column in Hx as (k1&i&A1&A2&A3&<-); auto.
    apply in_tl_column in Hy as (k2&j&B1&B2&B3&<-); auto.
    destruct (Nat.le_ge_cases k1 k2).
    + exists k1, i, j. repeat split; auto; lia.
    + exists k2, i, j. repeat split; auto; lia.
  - intros (k&i&j&Hi&Hj&Hk&H1&H2&H3).
    exists (value_in (cm_X c) i v), (value_in (cm_X c) j v).
    repeat split; auto; apply in_tl_column; auto; [exists k, i|exists k, j]; auto.
Qed.

(** ** true_indices *)
Lemma true_indices_map (f : nat -> bool) n (cells : list (option bool)) :
  length cells = n -> (forall i, i < n -> nth i cells None = Some (f i)) ->
  true_indices cells = filter f (seq 0 n).
Proof.
  intros <- H. unfold true_indices. apply filter_ext_in. intros i Hi. apply in_seq in Hi.
  rewrite H by lia. destruct (f i); auto.
Qed.

(** ** The cache invariant of a CovariateMatrix *)
Record cvalid (c : covmat) : Prop := {
  cvd_len : length (cm_mask c) = length (mx_rows (cm_X c));
  cvd_n : pz (cm_nobsv c) = Z.of_nat (count_false (cm_mask c));
  cvd_lu : length (cm_unique c) = cm_nfeat c;
  cvd_ls : length (cm_split c) = cm_nfeat c;
  cvd_lm : length (cm_max c) = cm_nfeat c;
  cvd_unique : forall i b, nth i (cm_unique c) None = Some b ->
     truthy b = (n_unique (get_column c i) =? length (get_column c i));
  cvd_split : forall i b, nth i (cm_split c) None = Some b -> b = is_not_constant (get_column c i);
  cvd_max : forall i m, nth i (cm_max c) None = Some m -> list_max (get_column c i) = Ok m }.

Lemma nth_repeat_none {A} n i : nth i (repeat (@None A) n) None = None.
Proof. rewrite nth_repeat'. now destruct (_ <? _). Qed.

Lemma fill_splittable_spec c : cvalid c ->
  fill_splittable c = map (fun i => Some (is_not_constant (get_column c i))) (seq 0 (cm_nfeat c)).
Proof.
  intros [ ]. unfold fill_splittable. apply map_ext_in. intros i Hi.
  destruct (nth i (cm_split c) None) as [b|] eqn:E; auto.
  now rewrite (cvd_split0 _ _ E).
Qed.
Lemma splittable_variables_spec c : cvalid c ->
  fst (splittable_variables c) = filter (fun i => is_not_constant (get_column c i)) (seq 0 (cm_nfeat c)).
Proof.
  intros H. simpl. rewrite fill_splittable_spec by auto. apply true_indices_map.
  - now rewrite map_length, seq_length.
  - intros i Hi. now rewrite nth_map_seq.
Qed.
Lemma any_splittable_spec c : cvalid c ->
  fst (is_at_least_one_splittable_variable c) = negb (length (fst (splittable_variables c)) =? 0).
Proof.
  intros H. unfold is_at_least_one_splittable_variable.
  destruct (existsb _ (cm_split c)) eqn:E; simpl.
  - apply existsb_exists in E as (x&Hx&E).
    destruct x as [[]|]; try discriminate.
    apply In_nth with (d := None) in Hx as (i&Hi&Hx).
    pose proof (cvd_split _ H _ _ Hx) as Hs.
    assert (In i (fst (splittable_variables c))).
    { rewrite splittable_variables_spec by auto. apply filter_In. split; auto.
      apply in_seq. rewrite <- (cvd_ls _ H). lia. }
    simpl in H0. destruct (true_indices _); [destruct H0|]. reflexivity.
  - destruct (length _); reflexivity.
Qed.

(** caches only: the new object has the same rows *)
Definition same_rows (c c' : covmat) : Prop :=
  cm_X c' = cm_X c /\ cm_mask c' = cm_mask c /\ cm_nobsv c' = cm_nobsv c.
Lemma same_rows_refl c : same_rows c c.
Proof. repeat split. Qed.
Lemma same_rows_column c c' i : same_rows c c' -> get_column c' i = get_column c i.
Proof. intros (H1&H2&_). unfold get_column. now rewrite H1, H2. Qed.

Lemma cvalid_set_split c : cvalid c -> cvalid (snd (splittable_variables c)).
Proof.
  intros H. simpl. destruct H as [Hl Hn Hlu Hls Hlm Hu Hs Hm].
  split; auto.
  - simpl. rewrite fill_splittable_spec by (split; auto). now rewrite map_length, seq_length.
  - simpl. intros i b. rewrite fill_splittable_spec by (split; auto).
    intros E. destruct (Nat.lt_ge_cases i (cm_nfeat c)) as [Hi|Hi].
    + rewrite nth_map_seq in E by auto. injection E as <-. reflexivity.
    + rewrite nth_overflow in E; [discriminate|]. now rewrite map_length, seq_length.
Qed.
Lemma same_rows_set_split c : same_rows c (snd (splittable_variables c)).
Proof. repeat split. Qed.
Lemma cvalid_any c : cvalid c -> cvalid (snd (is_at_least_one_splittable_variable c)).
Proof.
  intros H. unfold is_at_least_one_splittable_variable.
  destruct (existsb _ _); auto. apply (cvalid_set_split c H).
Qed.
Lemma same_rows_any c : same_rows c (snd (is_at_least_one_splittable_variable c)).
Proof.
  unfold is_at_least_one_splittable_variable. destruct (existsb _ _); repeat split.
Qed.

(** is_column_unique *)
Lemma is_column_unique_spec c v b c' : cvalid c -> is_column_unique c v = Ok (b, c') ->
  v < cm_nfeat c /\ b = (n_unique (get_column c v) =? length (get_column c v)) /\ cvalid c' /\ same_rows c c'.
Proof.
  intros H. unfold is_column_unique. destruct (cm_nfeat c <=? v) eqn:Ev; [discriminate|].
  apply Nat.leb_gt in Ev.
  destruct (nth v (cm_unique c) None) as [b0|] eqn:E.
  - intros E2. injection E2 as <- <-. split; [auto|]. split; [|split; [auto|apply same_rows_refl]].
    now rewrite (cvd_unique _ H _ _ E).
  - intros E2.
    assert (Hz: (Z.of_nat (n_unique (get_column c v)) =? pz (cm_nobsv c))%Z
                = (n_unique (get_column c v) =? length (get_column c v))).
    { rewrite (cvd_n _ H), get_column_length by apply H.
      destruct (Z.eqb_spec (Z.of_nat (n_unique (get_column c v))) (Z.of_nat (count_false (cm_mask c))));
        destruct (Nat.eqb_spec (n_unique (get_column c v)) (count_false (cm_mask c))); auto; lia. }
    injection E2 as Eb <-. split; [auto|]. split; [congruence|]. split; [|repeat split].
    destruct H as [Hl Hn Hlu Hls Hlm Hu Hs Hm]. split; auto.
    + simpl. now rewrite set_nth_length.
    + simpl. intros i b1. rewrite set_nth_nth.
      destruct ((v =? i) && (v <? length (cm_unique c))) eqn:E3.
      * apply andb_true_iff in E3 as [E3 _]. apply Nat.eqb_eq in E3 as <-.
        intros E4; injection E4 as <-. change (get_column (cm_set_unique c _) v) with (get_column c v).
        rewrite <- Hz. now destruct (p_np (cm_nobsv c)).
      * apply Hu.
Qed.
Lemma is_column_unique_total c v : v < cm_nfeat c -> exists b c', is_column_unique c v = Ok (b, c').
Proof.
  intros H. unfold is_column_unique. apply Nat.leb_gt in H. rewrite H.
  destruct (nth v (cm_unique c) None); eauto.
Qed.

(** max_value_of_column *)
Lemma max_value_of_column_spec c v m c' : cvalid c -> max_value_of_column c v = Ok (m, c') ->
  v < cm_nfeat c /\ list_max (get_column c v) = Ok m /\ cvalid c' /\ same_rows c c'.
Proof.
  intros H. unfold max_value_of_column. destruct (cm_nfeat c <=? v) eqn:Ev; [discriminate|].
  apply Nat.leb_gt in Ev.
  destruct (nth v (cm_max c) None) as [b0|] eqn:E.
  - intros E2. injection E2 as <- <-. split; [auto|]. split; [|split; [auto|apply same_rows_refl]].
    now apply (cvd_max _ H).
  - destruct (list_max (get_column c v)) as [m0| |] eqn:El; simpl; try discriminate.
    intros E2; injection E2 as <- <-. split; [auto|]. split; [auto|]. split; [|repeat split].
    destruct H as [Hl Hn Hlu Hls Hlm Hu Hs Hm]. split; auto.
    1: simpl; now rewrite set_nth_length.
    simpl. intros i b1. rewrite set_nth_nth.
    destruct ((v =? i) && (v <? length (cm_max c))) eqn:E3; [|exact (Hm i b1)].
    apply andb_true_iff in E3 as [E3 _]. apply Nat.eqb_eq in E3 as <-.
    intros E4; injection E4 as <-. exact El.
Qed.
Lemma list_max_spec col : Forall (fun x => is_nan x = false) col ->
  match list_max col with
  | Ok m => In m col /\ forall x, In x col -> fle x m = true
  | Raise e => e = EValueError /\ col = []
  | NoDraws => False
  end.
Proof.
  intros H. destruct col as [|a l]; simpl; auto.
  inversion H; subst. destruct (fold_fmax_spec l a) as (A1&A2&A3); auto.
Qed.
Lemma max_value_of_column_total c v : cvalid c -> v < cm_nfeat c ->
  match list_max (get_column c v) with
  | Ok m => exists c', max_value_of_column c v = Ok (m, c')
  | Raise e => max_value_of_column c v = Raise e
  | NoDraws => False
  end.
Proof.
  intros H Hv. unfold max_value_of_column. apply Nat.leb_gt in Hv. rewrite Hv.
  destruct (nth v (cm_max c) None) as [m|] eqn:E.
  - rewrite (cvd_max _ H _ _ E). eauto.
  - destruct (list_max (get_column c v)) as [m0|e|] eqn:El; simpl; eauto.
    unfold list_max in El. destruct (get_column c v); discriminate.
Qed.

(** ** children *)
Definition excluded (q : rule) (r : row) : bool :=
  if rl_le q then fgt (cell r (rl_var q)) (rl_val q) else fle (cell r (rl_var q)) (rl_val q).
Definition rule_of (s : scond) : rule :=
  Rl (sc_var s) (sc_val s) (match sc_op s with OpLe => true | _ => false end).
Lemma update_mask_spec c s m : update_mask c s = Ok m ->
  sc_var s < cm_nfeat c /\ sc_op s <> OpOther /\ length (cm_mask c) = length (mx_rows (cm_X c)) /\
  m = map2 orb (cm_mask c) (map (excluded (rule_of s)) (mx_rows (cm_X c))).
Proof.
  unfold update_mask, column_mask, excluded, rule_of. destruct (sc_op s) eqn:Eo; simpl; try discriminate;
    destruct (cm_nfeat c <=? sc_var s) eqn:Ev; simpl; try discriminate; apply Nat.leb_gt in Ev;
    destruct (Nat.eqb_spec (length (cm_mask c)) (length (map (fun r => fgt (cell r (sc_var s)) (sc_val s)) (mx_rows (cm_X c)))));
    rewrite ?map_length in *; try (rewrite (proj2 (Nat.eqb_eq _ _)) by assumption);
    try (rewrite (proj2 (Nat.eqb_neq _ _)) by assumption); simpl; try discriminate;
    intros E; injection E as <-; repeat split; auto; congruence.
Qed.
Lemma update_mask_total c s : sc_var s < cm_nfeat c -> sc_op s <> OpOther ->
  length (cm_mask c) = length (mx_rows (cm_X c)) -> exists m, update_mask c s = Ok m.
Proof.
  intros Hv Ho Hl. unfold update_mask, column_mask. apply Nat.leb_gt in Hv. rewrite Hv.
  destruct (sc_op s) eqn:Eo; simpl; try congruence; rewrite map_length, Hl, Nat.eqb_refl; simpl; eauto.
Qed.

Lemma child_caches c m n : cvalid c -> no_nan (cm_X c) ->
  length m = length (cm_mask c) -> pz n = Z.of_nat (count_false (map2 orb (cm_mask c) m)) ->
  cvalid (make_covmat (cm_X c) (map2 orb (cm_mask c) m) n (Some (cm_unique c)) (Some (cm_split c))).
Proof.
  intros [Hl Hn Hlu Hls Hlm Hu Hs Hm] Hnan Hml Hpz.
  assert (Hsub: forall i, subseq (get_column (make_covmat (cm_X c) (map2 orb (cm_mask c) m) n (Some (cm_unique c)) (Some (cm_split c))) i) (get_column c i)).
  { intros i. unfold get_column. simpl. apply subseq_map, select_subseq. }
  split.
  - simpl. rewrite map2_length; auto.
  - exact Hpz.
  - simpl. now rewrite map_length.
  - simpl. now rewrite map_length.
  - simpl. now rewrite repeat_length.
  - intros i b. simpl. intros E.
    rewrite nth_map_d with (d := None) in E by reflexivity.
    destruct (nth i (cm_unique c) None) as [[[]|]|] eqn:E0; try discriminate.
    injection E as <-. simpl. specialize (Hu _ _ E0). simpl in Hu. symmetry in Hu.
    apply Nat.eqb_eq in Hu. symmetry. apply Nat.eqb_eq.
    unfold n_unique in *.
    assert (Hnd: NoDup (get_column c i)).
    { apply NoDup_incl_NoDup with (l := nodup fl_eq_dec (get_column c i)).
      - apply NoDup_nodup.
      - rewrite Hu; auto.
      - intros x Hx. apply nodup_In in Hx; auto. }
    rewrite nodup_fixed_point; auto. eapply subseq_nodup; eauto.
  - intros i b. simpl. intros E.
    destruct (Nat.lt_ge_cases i (length (cm_split c))) as [Hi|Hi];
      [|rewrite nth_overflow in E; [discriminate|now rewrite map_length]].
    rewrite nth_map_d with (d := None) in E by reflexivity.
    destruct (nth i (cm_split c) None) as [[]|] eqn:E0; try discriminate.
    injection E as <-. symmetry. eapply is_not_constant_subseq; [|apply Hsub|symmetry; exact (Hs _ _ E0)].
    apply column_no_nan; auto. unfold cm_nfeat in Hls. lia.
  - intros i b. simpl. rewrite nth_repeat_none. discriminate.
Qed.

(** ** counting and summing over the rows of a node *)
Lemma count_false_split (f : row -> bool) (m : list bool) (rows : list row) :
  length m = length rows ->
  count_false (map2 orb m (map f rows)) + count_false (map2 orb m (map (fun r => negb (f r)) rows))
  = count_false m.
Proof.
  revert rows; induction m as [|b m IH]; destruct rows as [|r rows]; simpl; intros H; try discriminate; auto.
  injection H as H. specialize (IH _ H). destruct b, (f r); simpl; lia.
Qed.
Lemma masked_sum_split (f : row -> bool) (m : list bool) (rows : list row) y :
  length m = length rows -> length y = length rows ->
  (masked_sum y (map2 orb m (map f rows)) + masked_sum y (map2 orb m (map (fun r => negb (f r)) rows))
   = masked_sum y m)%R.
Proof.
  unfold masked_sum.
  revert m y; induction rows as [|r rows IH]; destruct m as [|b m], y as [|a y]; simpl; intros H1 H2;
    try discriminate; try lra.
  injection H1 as H1. injection H2 as H2. specialize (IH _ _ H1 H2). destruct b, (f r); simpl; lra.
Qed.
Lemma excluded_compl v x r : is_nan (cell r v) = false -> is_nan x = false ->
  excluded (Rl v x false) r = negb (excluded (Rl v x true) r).
Proof. intros. unfold excluded; simpl. rewrite fgt_negb by auto. now rewrite negb_involutive. Qed.

Lemma count_count_false m n : length m = n ->
  count (fun i => match nth_error m i with Some false => true | _ => false end) n = count_false m.
Proof.
  intros <-. induction m as [|b m IH] using rev_ind; auto.
  rewrite app_length, Nat.add_1_r. simpl count.
  rewrite nth_error_app2, Nat.sub_diag by auto. simpl.
  rewrite count_false_app. simpl.
  assert (E: forall k, k <= length m ->
     count (fun i => match nth_error (m ++ [b]) i with Some false => true | _ => false end) k
     = count (fun i => match nth_error m i with Some false => true | _ => false end) k).
  { induction k; intros Hk; simpl; auto. rewrite IHk by lia. rewrite nth_error_app1 by lia. auto. }
  rewrite E, IH by auto. destruct b; lia.
Qed.
Lemma rsum_app l1 l2 : rsum (l1 ++ l2) = (rsum l1 + rsum l2)%R.
Proof. induction l1; simpl; [lra|rewrite IHl1; lra]. Qed.
Lemma map2_app {A B C} (f : A -> B -> C) l1 l2 m1 m2 : length l1 = length m1 ->
  map2 f (l1 ++ l2) (m1 ++ m2) = map2 f l1 m1 ++ map2 f l2 m2.
Proof. revert m1; induction l1; destruct m1; simpl; intros; try discriminate; auto. f_equal; auto. Qed.
Lemma sum_over_masked_sum m y n : length m = n -> length y = n ->
  sum_over (fun i => match nth_error m i with Some false => true | _ => false end) y n = masked_sum y m.
Proof.
  intros Hm Hy. subst n. revert y Hy. induction m as [|b m IH] using rev_ind; intros y Hy.
  - destruct y; [reflexivity|discriminate].
  - rewrite app_length, Nat.add_1_r in *. simpl sum_over.
    destruct y as [|a y] using rev_ind; [discriminate|]. clear IHy.
    rewrite app_length in Hy; simpl in Hy. rewrite Nat.add_1_r in Hy. injection Hy as Hy.
    rewrite nth_error_app2, Nat.sub_diag by auto. simpl nth_error.
    rewrite <- Hy at 2. rewrite app_nth2, Nat.sub_diag by auto. simpl nth.
    unfold masked_sum in *. rewrite map_app. simpl map.
    rewrite map2_app by (rewrite map_length; auto). rewrite rsum_app. simpl.
    rewrite <- (IH y Hy).
    assert (E: forall k, k <= length m ->
       sum_over (fun i => match nth_error (m ++ [b]) i with Some false => true | _ => false end) (y ++ [a]) k
       = sum_over (fun i => match nth_error m i with Some false => true | _ => false end) y k).
    { induction k; intros Hk; simpl; auto. rewrite IHk by lia.
      rewrite nth_error_app1 by lia. rewrite app_nth1 by lia. auto. }
    rewrite E by auto. destruct b; lra.
Qed.
