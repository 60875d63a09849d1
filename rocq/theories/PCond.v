(** Combined conditions, in-sample/out-of-sample agreement, normalisation: C10-C15. *)
From Coq Require Import Reals Lra Permutation.
From Verif Require Import Base Fl Ext MData MSplit MHist Spec LFl LList PData PSplit PDataProps.

(** ** CombinedCondition *)
Lemma table_get f n v : dict_get v (table f n) = if v <? n then Some (f v) else None.
Proof.
  unfold table. rewrite dict_get_map. destruct (Nat.ltb_spec v n) as [H|H].
  - replace (existsb (Nat.eqb v) (seq 0 n)) with true; auto. symmetry.
    apply in_existsb. apply in_seq; lia.
  - destruct (existsb (Nat.eqb v) (seq 0 n)) eqn:E; auto. apply in_existsb, in_seq in E. lia.
Qed.
Lemma fold_conditions_vars n conds : forall f d, fold_conditions (table f n) conds = Ok d ->
  Forall (fun s => sc_var s < n) conds.
Proof.
  induction conds as [|s conds IH]; intros f d; cbn [fold_conditions]; [constructor|].
  rewrite table_get. destruct (Nat.ltb_spec (sc_var s) n) as [Hv|]; [|discriminate].
  unfold table at 1. rewrite dict_set_map by (try apply seq_NoDup; apply in_seq; lia).
  intros H. constructor; auto.
  exact (IH (fun w => if sc_var s =? w then add_condition (f (sc_var s)) s else f w) d H).
Qed.
Lemma fold_conditions_raises n conds : forall f, Exists (fun s => n <= sc_var s) conds ->
  fold_conditions (table f n) conds = Raise EKeyError.
Proof.
  induction conds as [|s conds IH]; intros f H; cbn [fold_conditions]; [inversion H|].
  rewrite table_get. destruct (Nat.ltb_spec (sc_var s) n) as [Hv|]; [|reflexivity].
  unfold table at 1. rewrite dict_set_map by (try apply seq_NoDup; apply in_seq; lia).
  inversion H; subst; [lia|].
  exact (IH (fun w => if sc_var s =? w then add_condition (f (sc_var s)) s else f w) H1).
Qed.
Lemma make_cc_vars n conds cc : make_cc (seq 0 n) conds = Ok cc -> Forall (fun s => sc_var s < n) conds.
Proof.
  unfold make_cc. change (map (fun v => (v, CV FNInf FPInf)) (seq 0 n)) with (table (fun _ => CV FNInf FPInf) n).
  destruct (fold_conditions _ conds) as [d| |] eqn:E; try discriminate. intros _.
  eapply fold_conditions_vars; eauto.
Qed.
Lemma make_cc_raises n conds : Exists (fun s => n <= sc_var s) conds -> make_cc (seq 0 n) conds = Raise EKeyError.
Proof.
  intros H. unfold make_cc. change (map (fun v => (v, CV FNInf FPInf)) (seq 0 n)) with (table (fun _ => CV FNInf FPInf) n).
  now rewrite fold_conditions_raises.
Qed.

Lemma cvc_of_nan b : in_cvc b FNaN = false.
Proof. unfold in_cvc, fgt. destruct (cv_min b); reflexivity. Qed.
Lemma row_clean_iff n r : row_clean n r = true <-> forall v, v < n -> cell r v <> FNaN /\ cell r v <> FNInf.
Proof.
  unfold row_clean. rewrite forallb_forall. split.
  - intros H v Hv. specialize (H v). rewrite in_seq in H. specialize (H ltac:(lia)).
    apply andb_true_iff in H as [H1 H2]. destruct (cell r v); simpl in *; split; congruence.
  - intros H v Hv. apply in_seq in Hv. destruct (H v) as [H1 H2]; [lia|].
    destruct (cell r v); simpl; congruence.
Qed.
Lemma bounds_unclean v rules r : cell r v = FNaN \/ cell r v = FNInf -> in_cvc (bounds v rules) (cell r v) = false.
Proof.
  intros [->| E]; [apply cvc_of_nan|].
  rewrite bounds_in by (rewrite E; auto). rewrite E. reflexivity.
Qed.
Definition effective (c : scond) (r : row) : bool := is_nan (sc_val c) || cond_holds c r.
Lemma effective_spec c r : sc_op c <> OpOther -> is_nan (cell r (sc_var c)) = false ->
  effective c r = negb (excluded (rule_of c) r).
Proof.
  intros Ho Hn. unfold effective, excluded, rule_of, cond_holds. simpl.
  destruct (is_nan (sc_val c)) eqn:E.
  - destruct (sc_val c); try discriminate. simpl.
    destruct (sc_op c); simpl; try congruence; unfold fgt; destruct (cell r (sc_var c)); reflexivity.
  - destruct (sc_op c); simpl; try congruence.
    + rewrite fgt_negb, negb_involutive; auto.
    + rewrite fgt_negb; auto.
Qed.
Lemma row_selected_exact n conds r :
  Forall (fun c => sc_var c < n /\ sc_op c <> OpOther) conds ->
  row_selected (CC (table (fun v => bounds v (map rule_of conds)) n) conds) r
  = row_clean n r && forallb (fun c => effective c r) conds.
Proof.
  intros Hc. destruct (row_clean n r) eqn:Er.
  - pose proof Er as Er'. rewrite row_clean_iff in Er'. rewrite row_selected_spec; auto.
    + simpl. clear Er. induction Hc as [|c conds [Hv Ho] Hc IH]; simpl; auto.
      rewrite negb_orb, IH. f_equal. rewrite effective_spec; auto.
      apply not_nan. now apply Er'.
    + rewrite Forall_map. eapply Forall_impl; [|exact Hc]. intros c [H _]. exact H.
  - simpl. apply not_true_iff_false. intros H. unfold row_selected, table in H. simpl in H.
    rewrite forallb_forall in H.
    assert (Hcl: row_clean n r = true); [|congruence].
    apply row_clean_iff. intros v Hv.
    assert (Hi: in_cvc (bounds v (map rule_of conds)) (cell r v) = true).
    { apply (H (v, bounds v (map rule_of conds))). rewrite in_map_iff. exists v. split; auto. apply in_seq; lia. }
    split; intros E; rewrite bounds_unclean in Hi; auto; discriminate.
Qed.
Lemma cc_condition_exact n conds cc X :
  make_cc (seq 0 n) conds = Ok cc -> Forall (fun c => sc_op c <> OpOther) conds -> n <= mx_ncols X ->
  cc_condition cc X = Ok (map (fun r => row_clean n r && forallb (fun c => effective c r) conds) (mx_rows X)).
Proof.
  intros H Ho Hn. pose proof (make_cc_vars _ _ _ H) as Hv.
  assert (Hc: Forall (fun c => sc_var c < n /\ sc_op c <> OpOther) conds).
  { rewrite Forall_forall in *. auto. }
  rewrite make_cc_spec in H by auto. injection H as <-.
  unfold cc_condition. simpl.
  replace (forallb _ (table _ n)) with true.
  - f_equal. apply map_ext. intros r. now apply row_selected_exact.
  - symmetry. apply forallb_forall. intros vb Hin. unfold table in Hin.
    apply in_map_iff in Hin as (v&<-&Hin). apply in_seq in Hin. simpl. apply Nat.ltb_lt. lia.
Qed.
Lemma forallb_perm {A} (f : A -> bool) l l' : Permutation l l' -> forallb f l = forallb f l'.
Proof.
  induction 1; simpl; auto; [congruence| |congruence].
  destruct (f x), (f y); auto.
Qed.

(** ** in-sample = out-of-sample *)
Definition minv (X : matrix) (rules : list rule) (s : split) : Prop :=
  cm_X (d_X (sp_data s)) = X /\ d_mask (sp_data s) = mask_of X rules /\
  cc_vars (sp_cc s) = table (fun v => bounds v rules) (mx_ncols X) /\
  map rule_of (cc_conds (sp_cc s)) = rules /\
  Forall (fun c => sc_var c < mx_ncols X /\ sc_op c <> OpOther) (cc_conds (sp_cc s)).
Lemma sinv_minv X oy rules s : sinv X oy rules s -> minv X rules s.
Proof. intros [ ]. repeat split; auto. Qed.
Lemma minv_add X rules s c s' : minv X rules s -> split_add s c = Ok s' -> minv X (rules ++ [rule_of c]) s'.
Proof.
  intros (H1&H2&H3&H4&H5). unfold split_add, data_add.
  destruct (update_mask (d_X (sp_data s)) c) as [m| |] eqn:Em; simpl; try discriminate.
  destruct (cc_add (sp_cc s) c) as [cc| |] eqn:Ec; simpl; try discriminate.
  intros E; injection E as <-. apply update_mask_spec in Em as (Hv&Ho&Hl&->).
  unfold cm_nfeat in Hv. rewrite H1 in *. unfold d_mask in H2. rewrite H2, mask_of_snoc in *.
  unfold cc_add in Ec. rewrite H3, table_keys in Ec.
  assert (Hops: Forall (fun c0 => sc_var c0 < mx_ncols X /\ sc_op c0 <> OpOther) (cc_conds (sp_cc s) ++ [c])).
  { apply Forall_app. split; auto. }
  rewrite make_cc_spec in Ec by auto. injection Ec as <-.
  repeat split; simpl; auto.
  - now rewrite map_app, H4.
  - now rewrite map_app, H4.
Qed.
Lemma minv_add_all X cs : forall rules s s', minv X rules s -> split_add_all s cs = Ok s' ->
  minv X (rules ++ map rule_of cs) s'.
Proof.
  induction cs as [|c cs IH]; intros rules s s' H; simpl.
  - intros E; injection E as <-. now rewrite app_nil_r.
  - destruct (split_add s c) as [s1| |] eqn:E1; simpl; try discriminate. intros E.
    apply (minv_add _ _ _ _ _ H) in E1. apply (IH _ _ _ E1) in E. now rewrite <- app_assoc in E.
Qed.
Lemma minv_agree X rules s : clean X -> minv X rules s -> split_condition_out s X = Ok (split_condition_in s).
Proof.
  intros Hc (H1&H2&H3&H4&H5). unfold split_condition_out, split_condition_in, cc_condition.
  rewrite H3. replace (forallb _ (table _ _)) with true.
  - f_equal. rewrite H2. unfold mask_of. rewrite map_map. apply map_ext_in. intros r Hr.
    rewrite <- (row_selected_spec (mx_ncols X) rules (cc_conds (sp_cc s)) r).
    + unfold row_selected. now rewrite H3.
    + intros v Hv. apply Hc; auto.
    + rewrite <- H4, Forall_map. eapply Forall_impl; [|exact H5]. intros c [H _]. exact H.
  - symmetry. apply forallb_forall. intros vb Hin. unfold table in Hin.
    apply in_map_iff in Hin as (v&<-&Hin). apply in_seq in Hin. simpl. apply Nat.ltb_lt. lia.
Qed.
Lemma root_minv X y nrm s : root_split X y nrm = Ok s -> length y = length (mx_rows X) -> minv X [] s.
Proof.
  intros H Hl. destruct nrm.
  - destruct (root_sinv_norm _ _ _ H Hl) as (ny&_&_&Hs&_). eapply sinv_minv; eauto.
  - eapply sinv_minv, root_sinv; eauto.
Qed.

(** ** most recent condition *)
Lemma root_no_recent X y nrm s : root_split X y nrm = Ok s ->
  split_most_recent s = None /\ cc_splitting_variable (sp_cc s) = None.
Proof.
  unfold root_split. destruct (make_data _ _ _ _ _ _ _ _) as [d| |]; simpl; try discriminate.
  rewrite make_split_spec. intros E; injection E as <-. split; reflexivity.
Qed.
Lemma add_recent s c s' : split_add s c = Ok s' ->
  split_most_recent s' = Some c /\ cc_splitting_variable (sp_cc s') = Some (sc_var c).
Proof.
  unfold split_add. destruct (data_add _ _) as [d| |]; simpl; try discriminate.
  unfold cc_add, make_cc. destruct (fold_conditions _ _) as [vs| |]; simpl; try discriminate.
  intros E; injection E as <-. unfold split_most_recent, cc_most_recent, cc_splitting_variable. simpl.
  rewrite last_opt_app. auto.
Qed.
Lemma add_all_recent cs : forall s s', split_add_all s cs = Ok s' -> cs <> [] ->
  split_most_recent s' = last_opt cs /\
  cc_splitting_variable (sp_cc s') = match last_opt cs with Some c => Some (sc_var c) | None => None end.
Proof.
  induction cs as [|c cs IH]; intros s s'; [congruence|]. cbn [split_add_all].
  destruct (split_add s c) as [s1| |] eqn:E; simpl rbind; try discriminate. intros H _.
  destruct cs as [|c' cs].
  - simpl in H. injection H as <-. apply add_recent in E as [E1 E2]. rewrite E1, E2. auto.
  - assert (Hl: last_opt (c :: c' :: cs) = last_opt (c' :: cs)).
    { unfold last_opt. cbn [rev]. destruct (rev cs ++ [c']) as [|x l] eqn:Er; [destruct (rev cs); discriminate|]. reflexivity. }
    rewrite Hl. eapply IH; eauto. discriminate.
Qed.

(** ** reused conditions *)
Lemma carried_reported s c s' n v : sc_n c = Some n -> sc_ysum c = Some v -> split_add s c = Ok s' ->
  cm_nobsv (d_X (sp_data s')) = n /\ exists t, summed_y (d_y (sp_data s')) = Ok (v, t).
Proof.
  intros Hn Hv. unfold split_add, data_add.
  destruct (update_mask (d_X (sp_data s)) c) as [m| |]; simpl; try discriminate.
  destruct (cc_add (sp_cc s) c) as [cc| |]; simpl; try discriminate.
  intros E; injection E as <-. simpl. rewrite Hn, Hv. split; auto. unfold summed_y. simpl. eauto.
Qed.
Lemma right_condition_carries s c0 c1 s' sl sr : split_children s c0 c1 = Ok (s', sl, sr) ->
  exists c, split_most_recent sr = Some c /\ sc_var c = sc_var c1 /\ sc_val c = sc_val c1 /\ sc_op c = sc_op c1 /\
   sc_n c = Some (cm_nobsv (d_X (sp_data sr))) /\
   exists v t, sc_ysum c = Some v /\ summed_y (d_y (sp_data sr)) = Ok (v, t).
Proof.
  unfold split_children.
  destruct (split_add s c0) as [sl0| |]; simpl; try discriminate.
  destruct (summed_y (d_y (sp_data s))) as [[sy ty]| |]; simpl; try discriminate.
  destruct (summed_y (d_y (sp_data sl0))) as [[ly tl]| |]; simpl; try discriminate.
  destruct (split_add (sp_set_y s ty) _) as [sr0| |] eqn:Er; simpl; try discriminate.
  intros E; injection E as <- <- <-.
  pose proof (add_recent _ _ _ Er) as [Hm _]. rewrite Hm. eexists; split; [reflexivity|]. simpl.
  pose proof (fun n v H1 H2 => carried_reported _ _ _ n v H1 H2 Er) as Hc.
  destruct (Hc _ _ eq_refl eq_refl) as [Hc1 (t&Ht)].
  repeat split; auto.
  - now rewrite Hc1.
  - eauto.
Qed.

Lemma reused_reports s c0 c1 s' sl sr c w w' :
  split_children s c0 c1 = Ok (s', sl, sr) -> split_most_recent sr = Some c ->
  split_add w c = Ok w' ->
  reported_n w' = reported_n sr /\
  answer (summed_y (d_y (sp_data w'))) = answer (summed_y (d_y (sp_data sr))).
Proof.
  intros H Hm Ha. apply right_condition_carries in H as (c'&Hm'&_&_&_&Hn&v&t&Hv&Hsum).
  rewrite Hm in Hm'. injection Hm' as <-.
  destruct (carried_reported _ _ _ _ _ Hn Hv Ha) as (E&t'&E'). unfold reported_n. rewrite E, E', Hsum. auto.
Qed.

Lemma cc_conjunction conds cc X :
  clean X -> make_cc (seq 0 (mx_ncols X)) conds = Ok cc ->
  Forall (fun c => sc_op c <> OpOther /\ sc_val c <> FNaN) conds ->
  cc_condition cc X = Ok (map (fun r => forallb (fun c => cond_holds c r) conds) (mx_rows X)).
Proof.
  intros Hc H Ho. erewrite cc_condition_exact; eauto.
  - f_equal. apply map_ext_in. intros r Hr.
    replace (row_clean (mx_ncols X) r) with true. 2:{ symmetry. apply row_clean_iff. intros v Hv. now apply Hc. }
    simpl. induction Ho as [|c conds0 [_ Hn] Ho IH]; simpl; auto.
    apply make_cc_vars in H. f_equal.
    + unfold effective. now rewrite not_nan.
    + clear -Ho. induction Ho as [|c conds0 [_ Hn] Ho IH]; simpl; auto. f_equal; auto.
      unfold effective. now rewrite not_nan.
  - eapply Forall_impl; [|exact Ho]. intros c0 [H1 H2]; exact H1.
Qed.
Lemma cc_order n conds conds' cc cc' X :
  Permutation conds conds' -> make_cc (seq 0 n) conds = Ok cc -> make_cc (seq 0 n) conds' = Ok cc' ->
  Forall (fun c => sc_op c <> OpOther) conds -> n <= mx_ncols X ->
  cc_condition cc X = cc_condition cc' X.
Proof.
  intros Hp H H' Ho Hn. erewrite (cc_condition_exact n conds), (cc_condition_exact n conds'); eauto.
  - f_equal. apply map_ext. intros r. f_equal. now apply forallb_perm.
  - rewrite Forall_forall in *. intros c Hc. apply Ho. eapply Permutation_in; [symmetry|]; eauto.
Qed.
Lemma cc_built_iff n conds : Forall (fun c => sc_op c <> OpOther) conds ->
  ((exists cc, make_cc (seq 0 n) conds = Ok cc) <-> Forall (fun c => sc_var c < n) conds) /\
  (~ Forall (fun c => sc_var c < n) conds -> make_cc (seq 0 n) conds = Raise EKeyError).
Proof.
  intros Ho. split; [split|].
  - intros (cc&H). eapply make_cc_vars; eauto.
  - intros Hv. rewrite make_cc_spec; eauto. rewrite Forall_forall in *. auto.
  - intros Hv. apply make_cc_raises. apply Exists_exists.
    destruct (existsb (fun c => n <=? sc_var c) conds) eqn:E.
    + apply existsb_exists in E as (c&Hc&E). apply Nat.leb_le in E. eauto.
    + exfalso. apply Hv. apply Forall_forall. intros c Hc. destruct (Nat.lt_ge_cases (sc_var c) n) as [|Hge]; auto.
      assert (existsb (fun c => n <=? sc_var c) conds = true); [|congruence].
      apply existsb_exists. exists c. split; auto. now apply Nat.leb_le.
Qed.
Lemma unclean_rejected n conds cc X i v :
  make_cc (seq 0 n) conds = Ok cc -> Forall (fun c => sc_op c <> OpOther) conds -> n <= mx_ncols X ->
  i < length (mx_rows X) -> v < n -> value_in X i v = FNaN \/ value_in X i v = FNInf ->
  exists sel, cc_condition cc X = Ok sel /\ nth_error sel i = Some false.
Proof.
  intros H Ho Hn Hi Hv Hx. erewrite cc_condition_exact; eauto. eexists; split; [reflexivity|].
  pose proof (nth_error_nth' (mx_rows X) ([] : row) Hi) as En. rewrite nth_error_map, En. simpl.
  assert (Ef: row_clean n (nth i (mx_rows X) []) = false); [|now rewrite Ef].
  apply not_true_iff_false. rewrite row_clean_iff. intros Hc. destruct (Hc v Hv).
  unfold value_in in Hx. tauto.
Qed.

(** ** normalisation *)
Local Open Scope R_scope.
Lemma fold_min_spec l : forall a, (In (fold_left Rmin l a) (a :: l)) /\ forall x, In x (a :: l) -> fold_left Rmin l a <= x.
Proof.
  induction l as [|b l IH]; intros a; simpl fold_left.
  - split; [left; auto|]. intros x [<-|[]]. lra.
  - destruct (IH (Rmin a b)) as [H1 H2]. split.
    + destruct H1 as [H1|H1]; [|right; right; auto].
      rewrite <- H1. unfold Rmin. destruct (Rle_dec a b); [left|right; left]; auto.
    + assert (H3: fold_left Rmin l (Rmin a b) <= Rmin a b) by (apply H2; left; auto).
      pose proof (Rmin_l a b). pose proof (Rmin_r a b).
      intros x [<-|[<-|Hx]]; try lra. apply H2. right; auto.
Qed.
Lemma fold_max_spec l : forall a, (In (fold_left Rmax l a) (a :: l)) /\ forall x, In x (a :: l) -> x <= fold_left Rmax l a.
Proof.
  induction l as [|b l IH]; intros a; simpl fold_left.
  - split; [left; auto|]. intros x [<-|[]]. lra.
  - destruct (IH (Rmax a b)) as [H1 H2]. split.
    + destruct H1 as [H1|H1]; [|right; right; auto].
      rewrite <- H1. unfold Rmax. destruct (Rle_dec a b); [right; left|left]; auto.
    + assert (H3: Rmax a b <= fold_left Rmax l (Rmax a b)) by (apply H2; left; auto).
      pose proof (Rmax_l a b). pose proof (Rmax_r a b).
      intros x [<-|[<-|Hx]]; try lra. apply H2. right; auto.
Qed.
Lemma vmin_spec y : y <> [] -> In (vmin y) y /\ forall x, In x y -> vmin y <= x.
Proof. destruct y as [|a l]; [congruence|]. intros _. apply fold_min_spec. Qed.
Lemma vmax_spec y : y <> [] -> In (vmax y) y /\ forall x, In x y -> x <= vmax y.
Proof. destruct y as [|a l]; [congruence|]. intros _. apply fold_max_spec. Qed.

Definition norm1 (lo hi v : R) : R := (-/2) + (v - lo) / (hi - lo).
Lemma finite_vec_map (f : R -> R) y : finite_vec (map (fun v => XFin (f v)) y) = Some (map f y).
Proof. induction y; simpl; auto. now rewrite IHy. Qed.
Lemma normalize_nonconst y : vmin y <> vmax y ->
  normalize_y y = map (fun v => XFin (norm1 (vmin y) (vmax y) v)) y.
Proof.
  intros H. unfold normalize_y. apply map_ext. intros v. unfold xdiv.
  destruct (Req_EM_T (vmax y - vmin y) 0); [exfalso; apply H; lra|]. reflexivity.
Qed.
Lemma nonconst_range y a b : In a y -> In b y -> a <> b -> vmin y < vmax y.
Proof.
  intros Ha Hb Hab. assert (Hy: y <> []) by (intros ->; destruct Ha).
  destruct (vmin_spec y Hy) as [_ H1], (vmax_spec y Hy) as [_ H2].
  pose proof (H1 _ Ha). pose proof (H1 _ Hb). pose proof (H2 _ Ha). pose proof (H2 _ Hb).
  destruct (Rle_lt_dec (vmax y) (vmin y)); [|auto]. exfalso. apply Hab. lra.
Qed.
Lemma norm1_bounds lo hi v : lo < hi -> lo <= v <= hi -> -/2 <= norm1 lo hi v <= /2.
Proof.
  intros H [H1 H2]. unfold norm1.
  assert (0 <= (v - lo) / (hi - lo)). { apply Rmult_le_pos; [lra|]. apply Rlt_le, Rinv_0_lt_compat; lra. }
  assert ((v - lo) / (hi - lo) <= 1). { apply Rmult_le_reg_r with (hi - lo); [lra|]. unfold Rdiv. rewrite Rmult_assoc, Rinv_l; lra. }
  lra.
Qed.
Lemma norm1_mono lo hi u v : lo < hi -> u < v <-> norm1 lo hi u < norm1 lo hi v.
Proof.
  intros H. unfold norm1, Rdiv. assert (Hi: 0 < / (hi - lo)) by (apply Rinv_0_lt_compat; lra). split; intros Huv.
  - apply Rplus_lt_compat_l. apply Rmult_lt_compat_r; lra.
  - apply Rplus_lt_reg_l in Huv. apply Rmult_lt_reg_r in Huv; lra.
Qed.
Lemma unnorm_norm1 lo hi y : lo <> hi -> unnormalize_with lo hi (map (norm1 lo hi) y) = y.
Proof.
  intros H. unfold unnormalize_with. rewrite map_map. rewrite <- map_id. apply map_ext. intros v.
  unfold norm1. field. lra.
Qed.

Lemma target_normalised y mask t : make_target y mask true None = Ok t ->
  y <> [] /\ vmin y <> vmax y /\ t = Tg (Some (map (norm1 (vmin y) (vmax y)) y)) mask false None (Some (vmin y, vmax y)).
Proof.
  unfold make_target. destruct y as [|a l] eqn:Ey; [discriminate|]. rewrite <- Ey in *.
  destruct (Req_EM_T (vmin y) (vmax y)) as [E|E].
  - unfold normalize_y. rewrite Ey at 1. cbn [map finite_vec]. unfold xdiv at 1. rewrite E.
    destruct (Req_EM_T (vmax y - vmax y) 0); [|lra]. 
    replace (xfin _) with (@None R); [discriminate|].
    unfold rsign. destruct (Rlt_dec (a - vmax y) 0); simpl; auto.
    destruct (Rlt_dec 0 (a - vmax y)); simpl; auto.
  - rewrite normalize_nonconst by auto. rewrite finite_vec_map. intros H; injection H as <-.
    split; [rewrite Ey; discriminate|]. auto.
Qed.
Lemma make_target_normal y mask : vmin y <> vmax y -> y <> [] ->
  make_target y mask true None = Ok (Tg (Some (map (norm1 (vmin y) (vmax y)) y)) mask false None (Some (vmin y, vmax y))).
Proof.
  intros H Hy. unfold make_target. rewrite normalize_nonconst, finite_vec_map by auto.
  destruct y; congruence.
Qed.

Lemma vmin_affine a b y : 0 < a -> y <> [] -> vmin (map (fun v => a * v + b) y) = a * vmin y + b.
Proof.
  intros Ha Hy. destruct (vmin_spec y Hy) as [H1 H2].
  destruct (vmin_spec (map (fun v => a * v + b) y)) as [H3 H4]; [destruct y; simpl; congruence|].
  apply Rle_antisym.
  - apply H4. apply in_map_iff. eauto.
  - apply in_map_iff in H3 as (v&<-&Hv). apply H2 in Hv.
    apply Rplus_le_compat_r. apply Rmult_le_compat_l; lra.
Qed.
Lemma vmax_affine a b y : 0 < a -> y <> [] -> vmax (map (fun v => a * v + b) y) = a * vmax y + b.
Proof.
  intros Ha Hy. destruct (vmax_spec y Hy) as [H1 H2].
  destruct (vmax_spec (map (fun v => a * v + b) y)) as [H3 H4]; [destruct y; simpl; congruence|].
  apply Rle_antisym.
  - apply in_map_iff in H3 as (v&<-&Hv). apply H2 in Hv.
    apply Rplus_le_compat_r. apply Rmult_le_compat_l; lra.
  - apply H4. apply in_map_iff. eauto.
Qed.
Lemma rsign_scale a r : 0 < a -> rsign (a * r) = rsign r.
Proof.
  intros Ha. unfold rsign.
  destruct (Rlt_dec (a * r) 0) as [H|H], (Rlt_dec r 0) as [H'|H']; auto.
  - exfalso. apply H'. apply Rmult_lt_reg_l with a; lra.
  - exfalso. apply H. replace 0 with (a * 0) by ring. apply Rmult_lt_compat_l; lra.
  - destruct (Rlt_dec 0 (a * r)) as [G|G], (Rlt_dec 0 r) as [G'|G']; auto.
    + exfalso. apply G'. apply Rmult_lt_reg_l with a; lra.
    + exfalso. apply G. replace 0 with (a * 0) by ring. apply Rmult_lt_compat_l; lra.
Qed.
Lemma normalize_affine a b y : 0 < a -> normalize_y (map (fun v => a * v + b) y) = normalize_y y.
Proof.
  intros Ha. destruct (list_eq_dec Req_EM_T y []) as [->|Hy]; [reflexivity|].
  unfold normalize_y. rewrite map_map. apply map_ext. intros v.
  rewrite vmin_affine, vmax_affine by auto.
  replace (a * v + b - (a * vmin y + b)) with (a * (v - vmin y)) by ring.
  replace (a * vmax y + b - (a * vmin y + b)) with (a * (vmax y - vmin y)) by ring.
  f_equal. unfold xdiv.
  destruct (Req_EM_T (a * (vmax y - vmin y)) 0) as [E|E], (Req_EM_T (vmax y - vmin y) 0) as [E'|E'].
  - now rewrite rsign_scale.
  - exfalso. apply Rmult_integral in E as [E|E]; lra.
  - exfalso. apply E. rewrite E'. ring.
  - f_equal. field. split; lra.
Qed.
Lemma unnormalize_affine a b y p : 0 < a -> y <> [] ->
  unnormalize_with (vmin (map (fun v => a * v + b) y)) (vmax (map (fun v => a * v + b) y)) p =
  map (fun v => a * v + b) (unnormalize_with (vmin y) (vmax y) p).
Proof.
  intros Ha Hy. rewrite vmin_affine, vmax_affine by auto. unfold unnormalize_with. rewrite map_map.
  apply map_ext. intros v. ring.
Qed.

Lemma normalise_constant y k : (forall v, In v y -> v = k) -> normalize_y y = map (fun _ => XNaN) y.
Proof.
  intros H. unfold normalize_y. apply map_ext_in. intros v Hv.
  assert (Hy: y <> []) by (intros ->; destruct Hv).
  destruct (vmin_spec y Hy) as [H1 _], (vmax_spec y Hy) as [H2 _].
  rewrite (H _ H1), (H _ H2), (H _ Hv). unfold xdiv.
  destruct (Req_EM_T (k - k) 0); [|lra]. unfold rsign.
  destruct (Rlt_dec (k - k) 0); [lra|]. destruct (Rlt_dec 0 (k - k)); [lra|]. reflexivity.
Qed.
Lemma normalised_range y mask a b :
  In a y -> In b y -> a <> b ->
  exists t ny lo hi, make_target y mask true None = Ok t /\ t_y t = Some ny /\ length ny = length y /\
    In lo y /\ In hi y /\ (forall v, In v y -> lo <= v <= hi) /\
    (forall v, In v ny -> -/2 <= v <= /2) /\
    (forall i, (i < length y)%nat -> nth i y 0 = lo <-> nth i ny 0 = -/2) /\
    (forall i, (i < length y)%nat -> nth i y 0 = hi <-> nth i ny 0 = /2) /\
    (forall i j, (i < length y)%nat -> (j < length y)%nat -> nth i y 0 < nth j y 0 <-> nth i ny 0 < nth j ny 0) /\
    unnormalize_y t ny = Ok y /\ unnormalized_y t = Ok y /\ normalizing_scale t = Ok (hi - lo).
Proof.
  intros Ha Hb Hab. pose proof (nonconst_range y a b Ha Hb Hab) as Hlt.
  assert (Hy: y <> []) by (intros ->; destruct Ha).
  destruct (vmin_spec y Hy) as [L1 L2], (vmax_spec y Hy) as [U1 U2].
  rewrite make_target_normal by (auto; lra).
  set (f := norm1 (vmin y) (vmax y)).
  do 2 eexists. exists (vmin y), (vmax y).
  assert (Hn: forall i, (i < length y)%nat -> nth i (map f y) 0 = f (nth i y 0)).
  { intros i Hi. rewrite nth_indep with (d' := f 0) by (rewrite map_length; auto). apply map_nth. }
  assert (Hinj: forall u v, f u = f v <-> u = v).
  { intros u v. split; [|congruence]. intros E. pose proof (norm1_mono _ _ u v Hlt) as M1. pose proof (norm1_mono _ _ v u Hlt) as M2.
    fold f in M1, M2. destruct (Rtotal_order u v) as [G|[G|G]]; auto; exfalso; [apply M1 in G|apply M2 in G]; lra. }
  assert (Hlo: f (vmin y) = -/2). { unfold f, norm1. field. lra. }
  assert (Hhi: f (vmax y) = /2). { unfold f, norm1. field. lra. }
  split; [reflexivity|]. split; [reflexivity|]. split; [apply map_length|].
  split; auto. split; auto. split; [intros v Hv; auto|].
  split. { intros v Hv. apply in_map_iff in Hv as (u&<-&Hu). apply norm1_bounds; auto. }
  split. { intros i Hi. rewrite Hn, <- Hlo by auto. symmetry. apply Hinj. }
  split. { intros i Hi. rewrite Hn, <- Hhi by auto. symmetry. apply Hinj. }
  split. { intros i j Hi Hj. rewrite !Hn by auto. now apply norm1_mono. }
  assert (E: unnormalize_with (vmin y) (vmax y) (map f y) = y) by (apply unnorm_norm1; lra).
  split; [|split]; unfold unnormalized_y, unnormalize_y, normalizing_scale; simpl; try rewrite E; auto.
Qed.
Lemma affine_range a b y : 0 < a -> y <> [] -> vmin y <> vmax y <->
  vmin (map (fun v => a * v + b) y) <> vmax (map (fun v => a * v + b) y).
Proof.
  intros Ha Hy. rewrite vmin_affine, vmax_affine by auto. split; intros H E; apply H.
  - apply Rmult_eq_reg_l with a; lra.
  - rewrite E. reflexivity.
Qed.
Lemma unnormalise_affine a b y mask t t' p q : 0 < a ->
  make_target y mask true None = Ok t ->
  make_target (map (fun v => a * v + b) y) mask true None = Ok t' ->
  t_y t' = t_y t /\
  (unnormalize_y t p = Ok q -> unnormalize_y t' p = Ok (map (fun v => a * v + b) q)).
Proof.
  intros Ha H H'. apply target_normalised in H as (Hy&Hr&->). apply target_normalised in H' as (Hy'&Hr'&->).
  simpl. split.
  - f_equal. rewrite map_map. apply map_ext. intros v. rewrite vmin_affine, vmax_affine in * by auto.
    unfold norm1. f_equal.
    replace (a * v + b - (a * vmin y + b)) with (a * (v - vmin y)) by ring.
    replace (a * vmax y + b - (a * vmin y + b)) with (a * (vmax y - vmin y)) by ring.
    field. split; lra.
  - unfold unnormalize_y. simpl. intros E; injection E as <-. now rewrite unnormalize_affine.
Qed.
Lemma affine_same_failures a b y mask : 0 < a ->
  (exists t, make_target y mask true None = Ok t) <->
  (exists t, make_target (map (fun v => a * v + b) y) mask true None = Ok t).
Proof.
  intros Ha. split; intros (t&H); apply target_normalised in H as (Hy&Hr&_).
  - eexists. apply make_target_normal; [now apply affine_range|]. destruct y; simpl; congruence.
  - assert (Hy': y <> []) by (destruct y; simpl in *; congruence).
    eexists. apply make_target_normal; auto. eapply affine_range; eauto.
Qed.
