(** The data- and split-level properties (C01-C15), proved from the invariant [sinv]. *)
From Coq Require Import Reals Lra Permutation.
From Verif Require Import Base Fl Ext MData MSplit MHist Spec LFl LList PData PSplit.

Lemma not_nan x : x <> FNaN -> is_nan x = false.
Proof. destruct x; auto; congruence. Qed.

Section Reached.
  Variables (X : matrix) (oy : option (list R)) (path : list rule) (s : split).
  Hypothesis Hnan : no_nan X.
  Hypothesis Hs : sinv X oy path s.
  Local Notation c := (d_X (sp_data s)).
  Lemma HX : cm_X c = X. Proof. apply (si_X _ _ _ _ Hs). Qed.
  Lemma Hc : cvalid c. Proof. apply (si_c _ _ _ _ Hs). Qed.
  Hint Resolve Hc : core.

  Lemma offered_iff v : In v (fst (splittable_variables c)) <->
    v < mx_ncols X /\
    exists k i j, k < i /\ k < j /\ in_node s k /\ in_node s i /\ in_node s j /\
      value_in X i v <> value_in X j v.
  Proof.
    rewrite splittable_variables_spec by auto. rewrite filter_In, in_seq. unfold cm_nfeat. rewrite HX.
    split.
    - intros [Hv H]. assert (Hv' : v < mx_ncols X) by lia. split; auto.
      apply column_splittable_iff in H; [| apply (cvd_len _ Hc) | now rewrite HX | now rewrite HX].
      rewrite HX in H. exact H.
    - intros [Hv H]. split; [lia|].
      apply column_splittable_iff; [apply (cvd_len _ Hc) | now rewrite HX | now rewrite HX |].
      rewrite HX. exact H.
  Qed.
  Lemma offered_varies v : In v (fst (splittable_variables c)) ->
    v < mx_ncols X /\ exists i j, in_node s i /\ in_node s j /\ value_in X i v <> value_in X j v.
  Proof.
    intros H. apply offered_iff in H as (Hv&k&i&j&_&_&_&Hi&Hj&Hd). split; auto. eauto.
  Qed.

  (** caches: same answers as an object built afresh on the same rows *)
  Local Notation f := (make_covmat X (cm_mask c) (cm_nobsv c) None None).
  Lemma fresh_cvalid' : cvalid f.
  Proof.
    destruct Hc. rewrite HX in *. split; simpl; auto; rewrite ?repeat_length; auto;
      intros i b; rewrite nth_repeat_none; discriminate.
  Qed.
  Lemma fresh_same : same_rows c f.
  Proof. repeat split; simpl; auto. symmetry; apply HX. Qed.
  Lemma fresh_col i : get_column f i = get_column c i.
  Proof. apply same_rows_column, fresh_same. Qed.
  Lemma nfeat_f : cm_nfeat f = cm_nfeat c.
  Proof. unfold cm_nfeat. simpl. now rewrite HX. Qed.
  Lemma caches_invisible :
    fst (splittable_variables c) = fst (splittable_variables f) /\
    fst (n_splittable_variables c) = fst (n_splittable_variables f) /\
    fst (is_at_least_one_splittable_variable c) = fst (is_at_least_one_splittable_variable f) /\
    (forall v, answer (is_column_unique c v) = answer (is_column_unique f v)) /\
    (forall v, answer (max_value_of_column c v) = answer (max_value_of_column f v)) /\
    (forall v x, answer (proportion_of_value_in_variable c v x) = answer (proportion_of_value_in_variable f v x)).
  Proof.
    pose proof fresh_cvalid' as Hf.
    assert (E: fst (splittable_variables c) = fst (splittable_variables f)).
    { rewrite !splittable_variables_spec by auto. rewrite nfeat_f. apply filter_ext. intros i. now rewrite fresh_col. }
    assert (Eu: forall v, answer (is_column_unique c v) = answer (is_column_unique f v)).
    { intros v. destruct (Nat.lt_ge_cases v (cm_nfeat c)) as [Hv|Hv].
      - destruct (is_column_unique_total c v Hv) as (b&c'&E1).
        destruct (is_column_unique_total f v) as (b'&c''&E2); [now rewrite nfeat_f|].
        rewrite E1, E2. simpl. apply is_column_unique_spec in E1 as (_&->&_); auto.
        apply is_column_unique_spec in E2 as (_&->&_); auto. now rewrite fresh_col.
      - unfold is_column_unique. rewrite nfeat_f. apply Nat.leb_le in Hv. now rewrite Hv. }
    split; [auto|]. split; [|split; [|split; [auto|split]]].
    - change (length (fst (splittable_variables c)) = length (fst (splittable_variables f))). now rewrite E.
    - rewrite !any_splittable_spec by auto. now rewrite E.
    - intros v. destruct (Nat.lt_ge_cases v (cm_nfeat c)) as [Hv|Hv].
      + pose proof (max_value_of_column_total c v Hc Hv) as H1.
        pose proof (max_value_of_column_total f v Hf) as H2. rewrite nfeat_f, fresh_col in H2.
        specialize (H2 Hv). destruct (list_max (get_column c v)) as [m|e|]; [|congruence|tauto].
        destruct H1 as (c1&->), H2 as (c2&->). reflexivity.
      + unfold max_value_of_column. rewrite nfeat_f. apply Nat.leb_le in Hv. now rewrite Hv.
    - intros v x. specialize (Eu v). unfold proportion_of_value_in_variable.
      destruct (is_column_unique c v) as [[b c1]| |] eqn:E1, (is_column_unique f v) as [[b' c2]| |] eqn:E2;
        simpl in *; try discriminate; try congruence.
      injection Eu as <-.
      apply is_column_unique_spec in E1 as (_&_&_&S1); auto.
      apply is_column_unique_spec in E2 as (_&_&_&S2); auto.
      destruct b; simpl.
      + destruct S1 as (_&_&->), S2 as (_&_&->). reflexivity.
      + rewrite (same_rows_column _ _ _ S1), (same_rows_column _ _ _ S2), fresh_col. reflexivity.
  Qed.

  (** what the answers mean *)
  Lemma nodup_column_iff v : NoDup (get_column c v) <->
    forall i j, in_node s i -> in_node s j -> value_in X i v = value_in X j v -> i = j.
  Proof.
    unfold in_node, value_in. change (d_mask (sp_data s)) with (cm_mask c).
    pose proof (cvd_len _ Hc) as Hl. rewrite HX in Hl. unfold get_column. rewrite HX.
    revert Hl. generalize (cm_mask c) (mx_rows X). intros m rows. revert rows.
    induction m as [|b m IH]; destruct rows as [|r rows]; simpl; intros Hl; try discriminate.
    - split; [|constructor]. intros _ i j Hi. destruct i; discriminate.
    - injection Hl as Hl. specialize (IH rows Hl). destruct b; simpl.
      + rewrite IH. split.
        * intros H [|i] [|j] Hi Hj E; simpl in *; try discriminate. f_equal; auto.
        * intros H i j Hi Hj E. assert (S i = S j); [|lia]. apply H; auto.
      + split.
        * intros H. inversion H as [|? ? Hni Hnd]; subst.
          intros [|i] [|j] Hi Hj E; simpl in *; auto.
          -- exfalso. apply Hni. rewrite in_map_iff. exists (nth j rows []). split; auto.
             apply in_select. exists j. split; auto. apply nth_error_nth'. rewrite <- Hl. apply nth_error_Some; congruence.
          -- exfalso. apply Hni. rewrite in_map_iff. exists (nth i rows []). split; auto.
             apply in_select. exists i. split; auto. apply nth_error_nth'. rewrite <- Hl. apply nth_error_Some; congruence.
          -- f_equal. apply IH; auto.
        * intros H. constructor.
          -- rewrite in_map_iff. intros (r'&E&Hi). apply in_select in Hi as (i&H1&H2).
             assert (E0: 0 = S i); [|discriminate]. apply H; simpl; auto.
             apply nth_error_nth with (d := []) in H2. now rewrite H2.
          -- apply IH. intros i j Hi Hj E. assert (S i = S j); [|lia]. apply H; auto.
  Qed.
  Lemma unique_meaning v b c' : is_column_unique c v = Ok (b, c') ->
    v < mx_ncols X /\
    (b = true <-> forall i j, in_node s i -> in_node s j -> value_in X i v = value_in X j v -> i = j).
  Proof.
    intros H. apply is_column_unique_spec in H as (Hv&->&_); auto.
    unfold cm_nfeat in Hv. rewrite HX in Hv. split; auto.
    rewrite <- nodup_column_iff, Nat.eqb_eq. unfold n_unique. split.
    - intros E. apply NoDup_incl_NoDup with (l := nodup fl_eq_dec (get_column c v)).
      + apply NoDup_nodup. + rewrite E; auto. + intros x Hx. apply nodup_In in Hx; auto.
    - intros H. now rewrite nodup_fixed_point.
  Qed.
  Lemma max_meaning v m c' : max_value_of_column c v = Ok (m, c') ->
    v < mx_ncols X /\ (exists i, in_node s i /\ value_in X i v = m) /\
    forall i, in_node s i -> fle (value_in X i v) m = true.
  Proof.
    intros H. apply max_value_of_column_spec in H as (Hv&Hm&_); auto.
    unfold cm_nfeat in Hv. rewrite HX in Hv. split; auto.
    pose proof (list_max_spec (get_column c v)) as Hl. rewrite Hm in Hl.
    destruct Hl as [H1 H2]. { unfold get_column. rewrite HX. apply column_no_nan; auto. }
    apply in_column in H1 as (i&Hi&E); [|apply (cvd_len _ Hc)]. rewrite HX in E. split; [exists i; auto|].
    intros j Hj. apply H2. apply in_column; [apply (cvd_len _ Hc)|]. exists j. rewrite HX. auto.
  Qed.
  Lemma max_raises v e : v < mx_ncols X -> max_value_of_column c v = Raise e ->
    e = EValueError /\ forall i, ~ in_node s i.
  Proof.
    intros Hv H. pose proof (max_value_of_column_total c v Hc) as Ht.
    unfold cm_nfeat in Ht. rewrite HX in Ht. specialize (Ht Hv).
    pose proof (list_max_spec (get_column c v)) as Hl.
    destruct (list_max (get_column c v)) as [m|e'|].
    - destruct Ht as (c'&Ht). congruence.
    - destruct Hl as [-> Hl]. { unfold get_column. rewrite HX. apply column_no_nan; auto. }
      split; [congruence|]. intros i Hi.
      assert (In (value_in X i v) (get_column c v)). { apply in_column; [apply (cvd_len _ Hc)|]. exists i. rewrite HX; auto. }
      rewrite Hl in H0. destruct H0.
    - tauto.
  Qed.
  Lemma any_meaning : fst (is_at_least_one_splittable_variable c) = true <->
    exists v, In v (fst (splittable_variables c)).
  Proof.
    rewrite any_splittable_spec by auto. rewrite negb_true_iff, Nat.eqb_neq.
    destruct (fst (splittable_variables c)) as [|v l]; simpl; split; intros H; try lia; eauto.
    destruct H as (v&[]).
  Qed.
  Lemma offered_sorted : exists p, fst (splittable_variables c) = filter p (seq 0 (mx_ncols X)).
  Proof. rewrite splittable_variables_spec by auto. unfold cm_nfeat. rewrite HX. eauto. Qed.

  (** counts and sums *)
  Local Notation n := (length (mx_rows X)).
  Lemma mask_len : length (cm_mask c) = n.
  Proof. rewrite (cvd_len _ Hc), HX. reflexivity. Qed.
  Lemma n_obsv_exact : pz (cm_nobsv c) = Z.of_nat (count (in_nodeb s) n).
  Proof.
    rewrite (cvd_n _ Hc). f_equal. symmetry. apply count_count_false. apply mask_len.
  Qed.
  Lemma sum_exact y : oy = Some y ->
    t_y (d_y (sp_data s)) = Some y /\
    exists t', summed_y (d_y (sp_data s)) = Ok (sum_over (in_nodeb s) y n, t').
  Proof.
    intros Ey. pose proof mask_len as Hml. pose proof Hs as H. rewrite Ey in H.
    split; [apply (tv_y _ _ _ (si_t _ _ _ _ H))|].
    clear Hs Ey. rename H into Hs. destruct (summed_y_total _ _ _ (si_t _ _ _ _ Hs)) as (t'&E). exists t'. rewrite E. do 2 f_equal.
    rewrite <- (si_mask _ _ _ _ Hs). symmetry. apply sum_over_masked_sum; [exact Hml|].
    pose proof (tv_len _ _ _ (si_t _ _ _ _ Hs) _ eq_refl) as Hl. now rewrite mask_of_length in Hl.
  Qed.

  (** proportion *)
  Local Notation n_node := (count (in_nodeb s) n).
  Definition n_eq v x := count (fun i => in_nodeb s i && feqb (value_in X i v) x) n.
  Lemma count_eq_spec v x : count_eq (get_column c v) x = n_eq v x.
  Proof.
    unfold n_eq, count_eq, get_column, in_nodeb, value_in. rewrite HX.
    change (d_mask (sp_data s)) with (cm_mask c).
    pose proof mask_len as Hl. revert Hl. generalize (cm_mask c). 
    induction (mx_rows X) as [|r rows IH] using rev_ind; intros m Hl.
    - destruct m; [reflexivity|discriminate].
    - destruct m as [|b m] using rev_ind; [rewrite app_length in Hl; simpl in Hl; lia|]. clear IHm.
      rewrite !app_length in Hl; simpl in Hl. assert (Hl': length m = length rows) by lia.
      rewrite app_length, Nat.add_1_r. simpl count.
      assert (E: forall k, k <= length rows ->
        count (fun i => match nth_error (m ++ [b]) i with Some false => true | _ => false end
                        && feqb (cell (nth i (rows ++ [r]) []) v) x) k
        = count (fun i => match nth_error m i with Some false => true | _ => false end
                        && feqb (cell (nth i rows []) v) x) k).
      { induction k; intros Hk; simpl; auto. rewrite IHk by lia.
        rewrite nth_error_app1 by lia. rewrite app_nth1 by lia. auto. }
      rewrite E by auto. rewrite <- IH by auto.
      rewrite nth_error_app2, Hl', Nat.sub_diag by lia. rewrite app_nth2, Nat.sub_diag by lia. simpl.
      assert (Es: select (m ++ [b]) (rows ++ [r]) = select m rows ++ (if b then [] else [r])).
      { clear -Hl'. revert rows Hl'. induction m as [|b0 m IH]; destruct rows; simpl; intros; try discriminate.
        - destruct b; auto. - injection Hl' as Hl'. destruct b0; simpl; rewrite IH by auto; auto. }
      rewrite Es, map_app, filter_app, app_length. f_equal.
      destruct b; simpl; auto. destruct (feqb _ _); auto.
  Qed.
  Lemma column_length v : length (get_column c v) = n_node.
  Proof.
    rewrite get_column_length by apply (cvd_len _ Hc). symmetry. apply count_count_false, mask_len.
  Qed.
  Lemma count_pos p k i : i < k -> p i = true -> 0 < count p k.
  Proof.
    induction k; intros Hi Hp; [lia|]. simpl. destruct (Nat.eq_dec i k) as [->|].
    - rewrite Hp. lia. - assert (0 < count p k) by (apply IHk; auto; lia). lia.
  Qed.
  Lemma count_le_one p k : (forall i j, i < k -> j < k -> p i = true -> p j = true -> i = j) -> count p k <= 1.
  Proof.
    induction k; intros H; simpl; [lia|].
    assert (count p k <= 1) by (apply IHk; intros; apply H; auto; lia).
    destruct (p k) eqn:E; [|lia].
    assert (count p k = 0); [|lia].
    destruct (count p k) as [|m] eqn:Em; auto. exfalso.
    assert (exists i, i < k /\ p i = true) as (i&Hi&Hp).
    { clear -Em. revert m Em. induction k; simpl; intros m Em; [discriminate|].
      destruct (p k) eqn:E; [exists k; auto|]. rewrite Nat.add_0_r in Em.
      destruct (IHk _ Em) as (i&?&?). exists i; auto. }
    assert (i = k) by (apply H; auto). lia.
  Qed.
  Lemma in_nodeb_iff i : in_nodeb s i = true <-> in_node s i.
  Proof. unfold in_nodeb, in_node. destruct (nth_error _ i) as [[]|]; split; congruence. Qed.
  Lemma in_node_lt i : in_node s i -> i < n.
  Proof.
    intros H. rewrite <- mask_len. apply nth_error_Some. unfold in_node in H.
    change (d_mask (sp_data s)) with (cm_mask c) in H. congruence.
  Qed.

  Lemma xdiv_fin a b : b <> 0%R -> xdiv (XFin a) (XFin b) = XFin (a / b).
  Proof. intros H. simpl. destruct (Req_EM_T b 0); congruence. Qed.
  Lemma proportion_occurring v x i : v < mx_ncols X -> in_node s i -> value_in X i v = x ->
    exists c', proportion_of_value_in_variable c v x = Ok (XFin (INR (n_eq v x) / INR n_node), c').
  Proof.
    intros Hv Hi Hx.
    assert (Hnz: 0 < n_node). { apply count_pos with (i := i); [apply in_node_lt; auto|apply in_nodeb_iff; auto]. }
    assert (Hnr: INR n_node <> 0%R) by (apply not_0_INR; lia).
    unfold proportion_of_value_in_variable.
    destruct (is_column_unique_total c v) as (b&c'&E); [unfold cm_nfeat; now rewrite HX|].
    rewrite E. cbn [rbind]. pose proof E as E'. apply is_column_unique_spec in E' as (_&_&Hc'&Hsr); auto.
    exists c'. destruct b.
    - rewrite xdiv_fin.
      + do 2 f_equal. destruct Hsr as (_&_&->). rewrite n_obsv_exact. rewrite <- INR_IZR_INZ.
        assert (E1: n_eq v x = 1).
        { apply unique_meaning in E as (_&E). pose proof (proj1 E eq_refl) as Hu.
          assert (0 < n_eq v x).
          { apply count_pos with (i := i); [apply in_node_lt; auto|].
            apply andb_true_iff; split; [apply in_nodeb_iff; auto|]. rewrite Hx. apply feqb_refl.
            rewrite <- Hx. apply not_nan. unfold value_in. apply Hnan; auto. apply nth_In. apply in_node_lt; auto. }
          assert (n_eq v x <= 1); [|lia]. apply count_le_one. intros a b _ _ Ha Hb.
          apply andb_true_iff in Ha as [Ha Ha'], Hb as [Hb Hb'].
          apply feqb_eq in Ha' as [Ha' _], Hb' as [Hb' _]. apply in_nodeb_iff in Ha, Hb.
          apply Hu; auto; congruence. }
        rewrite E1. simpl. reflexivity.
      + destruct Hsr as (_&_&->). rewrite n_obsv_exact, <- INR_IZR_INZ. exact Hnr.
    - rewrite (same_rows_column _ _ v Hsr), count_eq_spec, column_length, xdiv_fin; auto.
  Qed.
  Lemma proportion_absent v x : v < mx_ncols X -> 0 < n_node ->
    (forall i, in_node s i -> value_in X i v <> x) ->
    exists c', proportion_of_value_in_variable c v x =
      Ok (XFin (if match is_column_unique c v with Ok (b, _) => b | _ => false end
                then / INR n_node else 0), c').
  Proof.
    intros Hv Hnz Hx.
    assert (Hnr: INR n_node <> 0%R) by (apply not_0_INR; lia).
    unfold proportion_of_value_in_variable.
    destruct (is_column_unique_total c v) as (b&c'&E); [unfold cm_nfeat; now rewrite HX|].
    rewrite E. cbn [rbind]. pose proof E as E'. apply is_column_unique_spec in E' as (_&_&Hc'&Hsr); auto.
    exists c'. destruct b.
    - rewrite xdiv_fin; destruct Hsr as (_&_&->); rewrite n_obsv_exact, <- INR_IZR_INZ; auto.
      do 2 f_equal. f_equal. unfold Rdiv. now rewrite Rmult_1_l.
    - rewrite (same_rows_column _ _ v Hsr), count_eq_spec, column_length, xdiv_fin by auto.
      assert (E0: n_eq v x = 0).
      { destruct (n_eq v x) as [|n0] eqn:E0; auto. exfalso.
        assert (H: exists i, i < n /\ (in_nodeb s i && feqb (value_in X i v) x) = true).
        { revert E0. unfold n_eq. generalize n n0. intros k. induction k; simpl; intros m Em; [discriminate|].
          destruct (in_nodeb s k && feqb (value_in X k v) x) eqn:Ek; [exists k; auto|]. rewrite Nat.add_0_r in Em.
          destruct (IHk _ Em) as (i&?&?). exists i; auto. }
        destruct H as (i&Hi&H). apply andb_true_iff in H as [H1 H2]. apply feqb_eq in H2 as [H2 _].
        apply in_nodeb_iff in H1. eapply Hx; eauto. }
      rewrite E0. do 2 f_equal. f_equal. simpl. unfold Rdiv. apply Rmult_0_l.
  Qed.

  (** random_splittable_value *)
  Lemma in_existsb v l : existsb (Nat.eqb v) l = true <-> In v l.
  Proof.
    rewrite existsb_exists. split.
    - intros (w&Hw&E). apply Nat.eqb_eq in E. now subst.
    - intros H. exists v. split; auto. apply Nat.eqb_refl.
  Qed.
  Lemma value_loop_spec col mx ds x rest : value_loop col mx ds = Ok (x, rest) <->
    exists pre d, ds = pre ++ d :: rest /\ x = choose FNaN col d /\ feqb x mx = false /\
      Forall (fun d => feqb (choose FNaN col d) mx = true) pre.
  Proof.
    revert x rest; induction ds as [|d ds IH]; intros x rest; simpl.
    - split; [discriminate|]. intros (pre&d&E&_). destruct pre; discriminate.
    - destruct (feqb (choose FNaN col d) mx) eqn:E.
      + rewrite IH. split.
        * intros (pre&d'&->&H). exists (d :: pre), d'. simpl. intuition.
        * intros (pre&d'&Ed&Hx&Hf&Hp). destruct pre as [|d0 pre]; simpl in Ed; injection Ed as -> ->.
          -- congruence. -- inversion Hp; subst. exists pre, d'. auto.
      + split.
        * intros H; injection H as <- <-. exists [], d. auto.
        * intros (pre&d'&Ed&Hx&Hf&Hp). destruct pre as [|d0 pre]; simpl in Ed; injection Ed as -> ->.
          -- congruence. -- inversion Hp; subst. congruence.
  Qed.
  Lemma rsv_unfold v ds : In v (fst (splittable_variables c)) ->
    exists m, list_max (get_column c v) = Ok m /\
      random_splittable_value c v ds = value_loop (get_column c v) m ds.
  Proof.
    intros H. unfold random_splittable_value.
    destruct (splittable_variables c) as [vs c1] eqn:E. simpl in H.
    assert (E1: c1 = snd (splittable_variables c)) by now rewrite E.
    assert (Hc1 : cvalid c1) by (rewrite E1; now apply cvalid_set_split).
    assert (Hs1 : same_rows c c1) by (rewrite E1; apply same_rows_set_split).
    apply in_existsb in H as Hi. rewrite Hi. simpl negb. cbv iota.
    assert (Hin: In v (fst (splittable_variables c))) by now rewrite E.
    apply offered_varies in Hin as (Hv&i&j&Hi1&_).
    pose proof (max_value_of_column_total c1 v Hc1) as Ht.
    assert (Hnf: cm_nfeat c1 = mx_ncols X). { unfold cm_nfeat. destruct Hs1 as (->&_). now rewrite HX. }
    rewrite Hnf, (same_rows_column _ _ v Hs1) in Ht. specialize (Ht Hv).
    pose proof (list_max_spec (get_column c v)) as Hl.
    destruct (list_max (get_column c v)) as [m|e'|].
    - exists m. split; auto. destruct Ht as (c2&E2). rewrite E2. simpl.
      apply max_value_of_column_spec in E2 as (_&_&_&Hs2); auto.
      now rewrite (same_rows_column _ _ v Hs2), (same_rows_column _ _ v Hs1).
    - destruct Hl as [_ Hl]. { unfold get_column. rewrite HX. apply column_no_nan; auto. }
      assert (In (value_in X i v) (get_column c v)). { apply in_column; [apply (cvd_len _ Hc)|]. exists i. rewrite HX; auto. }
      rewrite Hl in H0. destruct H0.
    - tauto.
  Qed.
  Lemma rsv_value v ds x rest : random_splittable_value c v ds = Ok (x, rest) ->
    In v (fst (splittable_variables c)) /\
    exists i j, in_node s i /\ in_node s j /\ value_in X i v = x /\ flt x (value_in X j v) = true /\
      forall k, in_node s k -> fle (value_in X k v) (value_in X j v) = true.
  Proof.
    intros H. assert (Hin: In v (fst (splittable_variables c))).
    { unfold random_splittable_value in H. destruct (splittable_variables c) as [vs c1].
      destruct (existsb (Nat.eqb v) vs) eqn:E; simpl in H; [|discriminate]. now apply in_existsb in E. }
    split; auto. destruct (rsv_unfold v ds Hin) as (m&Hm&E). rewrite E in H.
    apply offered_varies in Hin as (Hv&i0&_&Hi0&_).
    assert (Hcol: Forall (fun x => is_nan x = false) (get_column c v)).
    { unfold get_column. rewrite HX. apply column_no_nan; auto. }
    pose proof (list_max_spec _ Hcol) as Hl. rewrite Hm in Hl. destruct Hl as [Hm1 Hm2].
    apply value_loop_spec in H as (pre&d&->&->&Hf&_).
    assert (Hne: get_column c v <> []) by (intros E0; rewrite E0 in Hm1; destruct Hm1).
    pose proof (choose_in FNaN _ d Hne) as Hci.
    pose proof (Hm2 _ Hci) as Hle.
    apply in_column in Hci as (i&Hi&Ei); [|apply (cvd_len _ Hc)].
    apply in_column in Hm1 as (j&Hj&Ej); [|apply (cvd_len _ Hc)].
    rewrite HX in Ei, Ej. exists i, j. repeat split; auto.
    - rewrite Ej. apply fle_flt_or_eq; auto. intros E0. rewrite E0 in Hf.
      rewrite feqb_refl in Hf; [discriminate|]. apply fle_not_nan in Hle. tauto.
    - intros k Hk. rewrite Ej. apply Hm2. apply in_column; [apply (cvd_len _ Hc)|]. exists k. rewrite HX; auto.
  Qed.
  Lemma rsv_raises v ds e : random_splittable_value c v ds = Raise e ->
    e = ENoSplittableVariable /\ ~ In v (fst (splittable_variables c)).
  Proof.
    intros H. destruct (existsb (Nat.eqb v) (fst (splittable_variables c))) eqn:E.
    - apply in_existsb in E. destruct (rsv_unfold v ds E) as (m&_&E'). rewrite E' in H.
      exfalso. revert H. clear. induction ds; simpl; [discriminate|]. destruct (feqb _ _); auto. discriminate.
    - assert (~ In v (fst (splittable_variables c))) by (rewrite <- in_existsb; congruence).
      split; auto. unfold random_splittable_value in H. destruct (splittable_variables c) as [vs c1].
      simpl in E. rewrite E in H. simpl in H. congruence.
  Qed.
  Lemma rsv_no_col v ds : ~ In v (fst (splittable_variables c)) ->
    random_splittable_value c v ds = Raise ENoSplittableVariable.
  Proof.
    intros H. unfold random_splittable_value. rewrite <- in_existsb in H.
    destruct (splittable_variables c) as [vs c1]. simpl in H.
    destruct (existsb (Nat.eqb v) vs); [congruence|reflexivity].
  Qed.
  (** the loop returns the first non-maximal draw *)
  Lemma rsv_first v ds x rest : In v (fst (splittable_variables c)) ->
    random_splittable_value c v ds = Ok (x, rest) <->
    exists pre d m c', max_value_of_column c v = Ok (m, c') /\
      ds = pre ++ d :: rest /\ x = choose FNaN (get_column c v) d /\ x <> m /\
      Forall (fun d => choose FNaN (get_column c v) d = m) pre.
  Proof.
    intros H. destruct (rsv_unfold v ds H) as (m&Hm&E). rewrite E, value_loop_spec.
    apply offered_varies in H as (Hv&i0&_&Hi0&_).
    assert (Hcol: Forall (fun x => is_nan x = false) (get_column c v)).
    { unfold get_column. rewrite HX. apply column_no_nan; auto. }
    pose proof (list_max_spec _ Hcol) as Hl. rewrite Hm in Hl. destruct Hl as [Hm1 Hm2].
    assert (Hmn: is_nan m = false). { rewrite Forall_forall in Hcol. apply Hcol; auto. }
    assert (Hne: get_column c v <> []) by (intros E0; rewrite E0 in Hm1; destruct Hm1).
    assert (Hch: forall d, is_nan (choose FNaN (get_column c v) d) = false).
    { intros d. rewrite Forall_forall in Hcol. apply Hcol, choose_in; auto. }
    pose proof (max_value_of_column_total c v Hc) as Ht.
    unfold cm_nfeat in Ht. rewrite HX, Hm in Ht. destruct (Ht Hv) as (c'&Ec').
    split.
    - intros (pre&d&->&->&Hf&Hp). exists pre, d, m, c'. split; auto. split; auto. split; auto.
      split.
      + apply (feqb_neq _ m (Hch d)). exact Hf.
      + eapply Forall_impl; [|exact Hp]. intros a Ha. now apply feqb_eq in Ha.
    - intros (pre&d&m'&c''&Em&->&->&Hf&Hp). rewrite Ec' in Em. injection Em as <- <-.
      exists pre, d. split; auto. split; auto. split.
      + apply feqb_neq; auto.
      + eapply Forall_impl; [|exact Hp]. intros a Ha. rewrite Ha. now apply feqb_refl.
  Qed.
  Lemma rsv_escape v : In v (fst (splittable_variables c)) ->
    exists d, d < n_node /\ forall pre rest m c', max_value_of_column c v = Ok (m, c') ->
      Forall (fun d => choose FNaN (get_column c v) d = m) pre ->
      exists x, random_splittable_value c v (pre ++ d :: rest) = Ok (x, rest).
  Proof.
    intros H. pose proof H as H0. apply offered_varies in H0 as (Hv&i&j&Hi&Hj&Hd).
    assert (exists k, in_node s k /\ forall m c', max_value_of_column c v = Ok (m, c') -> value_in X k v <> m) as (k&Hk&Hkm).
    { destruct (max_value_of_column c v) as [[m c']| |] eqn:Em.
      - destruct (fl_eq_dec (value_in X i v) m) as [E|E].
        + exists j. split; auto. intros m' c'' E'; injection E' as <- <-. congruence.
        + exists i. split; auto. intros m' c'' E'; injection E' as <- <-. auto.
      - exists i. split; auto. discriminate.
      - exists i. split; auto. discriminate. }
    assert (Hin: In (value_in X k v) (get_column c v)). { apply in_column; [apply (cvd_len _ Hc)|]. exists k. rewrite HX; auto. }
    apply In_nth with (d := FNaN) in Hin as (d&Hdl&Hdv).
    exists d. split; [now rewrite column_length in Hdl|]. intros pre rest m c' Em Hp. exists (value_in X k v).
    apply rsv_first; auto. exists pre, d, m, c'. split; auto. split; auto. split.
    - rewrite choose_nth by auto. auto.
    - split; auto. eapply Hkm; eauto.
  Qed.

  (** partition *)
  Lemma add_in_node q s' i : split_add s q = Ok s' ->
    in_node s' i <-> in_node s i /\ excluded (rule_of q) (nth i (mx_rows X) []) = false.
  Proof.
    unfold split_add, data_add.
    destruct (update_mask c q) as [m| |] eqn:Em; simpl; try discriminate.
    destruct (cc_add (sp_cc s) q) as [cc| |]; simpl; try discriminate.
    intros E; injection E as <-. apply update_mask_spec in Em as (_&_&Hl&->).
    unfold in_node, d_mask. simpl. rewrite HX in *. rewrite map2_nth_error, nth_error_map. split.
    - destruct (nth_error (cm_mask c) i) as [b|]; [|discriminate].
      destruct (nth_error (mx_rows X) i) as [r|] eqn:Er; simpl; [|discriminate].
      apply nth_error_nth with (d := []) in Er. rewrite Er.
      intros E; injection E as E. apply orb_false_iff in E as [-> ->]. auto.
    - unfold d_mask. intros [H1 H2]. rewrite H1.
      assert (Hi: i < length (mx_rows X)). { rewrite <- Hl. apply nth_error_Some. congruence. }
      pose proof (nth_error_nth' (mx_rows X) ([] : row) Hi) as En. rewrite En. simpl. now rewrite H2.
  Qed.
  Lemma partition_add v x sl sr i : x <> FNaN ->
    split_add s (fresh_le v x) = Ok sl -> split_add s (fresh_gt v x) = Ok sr ->
    (in_node s i -> (in_node sl i /\ ~ in_node sr i) \/ (~ in_node sl i /\ in_node sr i)) /\
    (~ in_node s i -> ~ in_node sl i /\ ~ in_node sr i) /\
    (in_node sl i <-> in_node s i /\ fle (value_in X i v) x = true) /\
    (in_node sr i <-> in_node s i /\ fgt (value_in X i v) x = true).
  Proof.
    intros Hx Hl Hrr.
    assert (Hv: v < mx_ncols X).
    { apply (split_add_sinv _ _ _ _ _ _ Hnan Hs) in Hl as (_&Hv&_); try discriminate. exact Hv. }
    assert (Al: in_node sl i <-> in_node s i /\ fle (value_in X i v) x = true).
    { rewrite (add_in_node _ _ i Hl). split; intros [H1 H2]; split; auto;
        unfold excluded in *; simpl in *; unfold value_in;
        assert (is_nan (cell (nth i (mx_rows X) []) v) = false) by
          (apply not_nan, Hnan; auto; apply nth_In, in_node_lt; auto);
        rewrite fgt_negb in * by (auto using not_nan); now rewrite ?negb_false_iff in *. }
    assert (Ar: in_node sr i <-> in_node s i /\ fgt (value_in X i v) x = true).
    { rewrite (add_in_node _ _ i Hrr). split; intros [H1 H2]; split; auto;
        unfold excluded in *; simpl in *; unfold value_in;
        assert (is_nan (cell (nth i (mx_rows X) []) v) = false) by
          (apply not_nan, Hnan; auto; apply nth_In, in_node_lt; auto);
        rewrite fgt_negb in * by (auto using not_nan); now rewrite ?negb_true_iff in *. }
    rewrite Al, Ar. split; [|split; [|split; reflexivity]].
    - intros Hi. assert (is_nan (value_in X i v) = false) by
          (apply not_nan, Hnan; auto; apply nth_In, in_node_lt; auto).
      rewrite fgt_negb by (auto using not_nan).
      destruct (fle (value_in X i v) x); simpl; [left|right]; split; auto; intros [_ ?]; discriminate.
    - tauto.
  Qed.
  Lemma count_filter p k : count p k = length (filter p (seq 0 k)).
  Proof.
    induction k; auto. rewrite seq_S, filter_app, app_length. simpl. rewrite IHk. now destruct (p k).
  Qed.
  Lemma two_rows_nothing : n_node <= 2 -> fst (splittable_variables c) = [].
  Proof.
    intros H. destruct (fst (splittable_variables c)) as [|v l] eqn:E; auto. exfalso.
    assert (Hv: In v (fst (splittable_variables c))) by (rewrite E; left; auto).
    apply offered_iff in Hv as (_&k&i&j&Hki&Hkj&Hk&Hi&Hj&Hd).
    assert (Hij: i <> j) by (intros ->; congruence).
    rewrite count_filter in H.
    assert (H3: length [k; i; j] <= length (filter (in_nodeb s) (seq 0 n))).
    { apply NoDup_incl_length.
      - repeat constructor; simpl; intuition lia.
      - intros x Hx. apply filter_In. simpl in Hx.
        destruct Hx as [<-|[<-|[<-|[]]]]; (split; [apply in_seq; split; [lia|]; simpl; now apply in_node_lt|now apply in_nodeb_iff]). }
    simpl in H3. lia.
  Qed.
  Lemma rsv_separates v ds x rest : random_splittable_value c v ds = Ok (x, rest) ->
    In v (fst (splittable_variables c)) /\
    (exists i, in_node s i /\ value_in X i v = x) /\
    (forall m c', max_value_of_column c v = Ok (m, c') -> flt x m = true) /\
    exists sl sr, split_add s (fresh_le v x) = Ok sl /\ split_add s (fresh_gt v x) = Ok sr /\
      (exists i, in_node sl i) /\ (exists j, in_node sr j).
  Proof.
    intros H. apply rsv_value in H as (Hin&i&j&Hi&Hj&Hx&Hlt&Hmax). split; auto. split; [eauto|]. split.
    - intros m c' Hm. apply max_meaning in Hm as (_&(k&Hk&<-)&Hall).
      rewrite (fle_antisym (value_in X k v) (value_in X j v)); auto.
    - apply offered_varies in Hin as (Hv&_).
      assert (Hxn: x <> FNaN). { apply flt_not_nan in Hlt as [Hlt _]. intros ->. discriminate. }
      destruct (split_add_total _ _ _ _ (fresh_le v x) Hs) as (sl&El); [auto|discriminate|].
      destruct (split_add_total _ _ _ _ (fresh_gt v x) Hs) as (sr&Er); [auto|discriminate|].
      exists sl, sr. split; auto. split; auto. split.
      + exists i. apply (partition_add _ _ _ _ i Hxn El Er). split; auto. rewrite Hx. apply fle_refl. now apply not_nan.
      + exists j. apply (partition_add _ _ _ _ j Hxn El Er). split; auto.
  Qed.
  Lemma counts_add_up v x s' sl sr : x <> FNaN ->
    split_children s (fresh_le v x) (fresh_gt v x) = Ok (s', sl, sr) ->
    reported_n sl = Z.of_nat (rows_in X sl) /\ reported_n sr = Z.of_nat (rows_in X sr) /\
    (reported_n sl + reported_n sr = reported_n s)%Z.
  Proof.
    intros Hx H. apply (split_children_sinv _ _ _ _ _ _ _ _ _ Hnan Hx Hs) in H as (Hv&_&Hl&Hr).
    pose proof (cvd_n _ (si_c _ _ _ _ Hs)) as N0. pose proof (cvd_n _ (si_c _ _ _ _ Hl)) as N1.
    pose proof (cvd_n _ (si_c _ _ _ _ Hr)) as N2. unfold reported_n, rows_in.
    split; [|split].
    - rewrite N1. f_equal. symmetry. apply count_count_false.
      rewrite (cvd_len _ (si_c _ _ _ _ Hl)), (si_X _ _ _ _ Hl). auto.
    - rewrite N2. f_equal. symmetry. apply count_count_false.
      rewrite (cvd_len _ (si_c _ _ _ _ Hr)), (si_X _ _ _ _ Hr). auto.
    - rewrite N0, N1, N2, (si_mask _ _ _ _ Hs), (si_mask _ _ _ _ Hl), (si_mask _ _ _ _ Hr).
      pose proof (count_of_split X v x path Hnan Hv Hx) as Hc0. unfold count_of in Hc0. lia.
  Qed.
End Reached.

(** the two ways of making children agree on rows *)
Lemma split_children_masks s c0 c1 s' sl sr : split_children s c0 c1 = Ok (s', sl, sr) ->
  (exists sl0, split_add s c0 = Ok sl0 /\ d_mask (sp_data sl) = d_mask (sp_data sl0)) /\
  (exists sr0, split_add s c1 = Ok sr0 /\ d_mask (sp_data sr) = d_mask (sp_data sr0)) /\
  d_mask (sp_data s') = d_mask (sp_data s).
Proof.
  unfold split_children.
  destruct (split_add s c0) as [sl0| |] eqn:El; simpl; try discriminate.
  destruct (summed_y (d_y (sp_data s))) as [[sy ty]| |] eqn:Es; simpl; try discriminate.
  destruct (summed_y (d_y (sp_data sl0))) as [[ly tl]| |] eqn:Esl; simpl; try discriminate.
  destruct (split_add (sp_set_y s ty) _) as [sr0| |] eqn:Er; simpl; try discriminate.
  intros E; injection E as <- <- <-. split; [|split; [|reflexivity]].
  - exists sl0. split; auto.
  - unfold split_add, data_add, cc_add in *. simpl in *.
    unfold update_mask, column_mask in *. simpl in *.
    assert (Hcc: forall k, match make_cc k (cc_conds (sp_cc s) ++ [SC (sc_var c1) (sc_val c1) (sc_op c1)
        (Some (sy - ly)%R) (Some (pint_sub (cm_nobsv (d_X (sp_data s))) (cm_nobsv (d_X (sp_data sl0)))))]) with
        | Ok a => exists b, make_cc k (cc_conds (sp_cc s) ++ [c1]) = Ok b | _ => True end).
    { intros k. unfold make_cc. generalize (map (fun v => (v, CV FNInf FPInf)) k). 
      generalize (pint_sub (cm_nobsv (d_X (sp_data s))) (cm_nobsv (d_X (sp_data sl0)))). intros p.
      generalize (sy - ly)%R. intros r.
      assert (Hf: forall cs d, fold_conditions d (cs ++ [SC (sc_var c1) (sc_val c1) (sc_op c1) (Some r) (Some p)])
                  = fold_conditions d (cs ++ [c1])).
      { induction cs as [|a cs IH]; intros d; simpl.
        - destruct (dict_get (sc_var c1) d); auto.
        - destruct (dict_get (sc_var a) d); auto. }
      intros l. rewrite Hf. destruct (fold_conditions l (cc_conds (sp_cc s) ++ [c1])); simpl; eauto. }
    destruct (sc_op c1) eqn:Eo; simpl in *; try discriminate;
      destruct (cm_nfeat (d_X (sp_data s)) <=? sc_var c1); simpl in *; try discriminate;
      match type of Er with context [negb ?b] => destruct (negb b) end; simpl in *; try discriminate;
      (match type of Er with context [make_cc ?k ?cs] => specialize (Hcc k); destruct (make_cc k cs); simpl in *; try discriminate end);
      destruct Hcc as (b&->); simpl; injection Er as <-; eexists; split; eauto.
Qed.

Lemma nan_row_both s v x sl sr i :
  split_add s (fresh_le v x) = Ok sl -> split_add s (fresh_gt v x) = Ok sr ->
  in_node s i -> value_in (cm_X (d_X (sp_data s))) i v = FNaN -> in_node sl i /\ in_node sr i.
Proof.
  assert (Hgen: forall q s', split_add s q = Ok s' -> in_node s i ->
    excluded (rule_of q) (nth i (mx_rows (cm_X (d_X (sp_data s)))) []) = false -> in_node s' i).
  { intros q s'. unfold split_add, data_add.
    destruct (update_mask (d_X (sp_data s)) q) as [m| |] eqn:Em; simpl; try discriminate.
    destruct (cc_add (sp_cc s) q) as [cc| |]; simpl; try discriminate.
    intros E; injection E as <-. apply update_mask_spec in Em as (_&_&Hl&->).
    unfold in_node, d_mask. simpl. rewrite map2_nth_error, nth_error_map. intros H1 H2. rewrite H1.
    assert (Hi: i < length (mx_rows (cm_X (d_X (sp_data s))))) by (rewrite <- Hl; apply nth_error_Some; congruence).
    pose proof (nth_error_nth' (mx_rows (cm_X (d_X (sp_data s)))) ([] : row) Hi) as En. rewrite En.
    simpl. now rewrite H2. }
  intros Hl Hr Hi Hn. unfold value_in in Hn. split; [apply (Hgen _ _ Hl Hi)|apply (Hgen _ _ Hr Hi)];
    unfold excluded; simpl; rewrite Hn; unfold fgt; destruct x; reflexivity.
Qed.
