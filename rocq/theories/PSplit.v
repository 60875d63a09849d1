(** Proofs about splitcondition.py, split.py and the Split part of split_node: the invariant [sinv]. *)
From Coq Require Import Reals Lra.
From Verif Require Import Base Fl Ext MData MSplit MHist Spec LFl LList PData.

(** ** CombinedCondition *)
Definition add_rule (b : cvc) (q : rule) : cvc :=
  if rl_le q then (if flt (rl_val q) (cv_max b) then CV (cv_min b) (rl_val q) else b)
  else (if fgt (rl_val q) (cv_min b) then CV (rl_val q) (cv_max b) else b).
Lemma add_condition_rule b s : sc_op s <> OpOther -> add_condition b s = add_rule b (rule_of s).
Proof. intros H. unfold add_condition, add_rule, rule_of. destruct (sc_op s); simpl; congruence. Qed.

Definition bound_step (v : nat) (b : cvc) (q : rule) : cvc :=
  if Nat.eqb (rl_var q) v then add_rule b q else b.
Definition bounds (v : nat) (rules : list rule) : cvc :=
  fold_left (bound_step v) rules (CV FNInf FPInf).

Definition table (f : nat -> cvc) (n : nat) : list (nat * cvc) := map (fun v => (v, f v)) (seq 0 n).
Lemma dict_get_map (f : nat -> cvc) vs v : 
  dict_get v (map (fun v => (v, f v)) vs) = if existsb (Nat.eqb v) vs then Some (f v) else None.
Proof.
  induction vs as [|w vs IH]; simpl; auto.
  destruct (Nat.eqb_spec v w) as [->|]; simpl; auto.
Qed.
Lemma dict_set_map (f : nat -> cvc) vs v b : NoDup vs -> In v vs ->
  dict_set v b (map (fun v => (v, f v)) vs) = map (fun w => (w, if Nat.eqb v w then b else f w)) vs.
Proof.
  induction vs as [|w vs IH]; simpl; intros Hn Hi; [tauto|].
  inversion Hn as [|? ? Hw Hn']; subst.
  destruct (Nat.eqb_spec v w) as [->|Hne].
  - f_equal. apply map_ext_in. intros u Hu. destruct (Nat.eqb_spec w u) as [->|]; auto. contradiction.
  - destruct Hi as [->|Hi]; [congruence|]. f_equal. auto.
Qed.
Lemma fold_conditions_spec n conds f :
  Forall (fun s => sc_var s < n /\ sc_op s <> OpOther) conds ->
  fold_conditions (table f n) conds =
  Ok (table (fun v => fold_left (bound_step v) (map rule_of conds) (f v)) n).
Proof.
  revert f; induction conds as [|s conds IH]; intros f H; simpl; auto.
  inversion H as [|? ? [Hv Ho] Hc]; subst.
  unfold table at 1. rewrite dict_get_map.
  replace (existsb (Nat.eqb (sc_var s)) (seq 0 n)) with true.
  2:{ symmetry. apply existsb_exists. exists (sc_var s). split; [apply in_seq; lia|apply Nat.eqb_refl]. }
  unfold table at 1. rewrite dict_set_map by (try apply seq_NoDup; apply in_seq; lia).
  rewrite add_condition_rule by auto.
  specialize (IH (fun w => if sc_var s =? w then add_rule (f (sc_var s)) (rule_of s) else f w) Hc).
  unfold table at 1 in IH. rewrite IH. f_equal. unfold table. apply map_ext_in.
  intros w _. f_equal. unfold bound_step at 3. simpl rl_var.
  destruct (Nat.eqb_spec (sc_var s) w) as [<-|]; auto.
Qed.
Lemma make_cc_spec n conds :
  Forall (fun s => sc_var s < n /\ sc_op s <> OpOther) conds ->
  make_cc (seq 0 n) conds = Ok (CC (table (fun v => bounds v (map rule_of conds)) n) conds).
Proof.
  intros H. unfold make_cc. change (map (fun v => (v, CV FNInf FPInf)) (seq 0 n)) with (table (fun _ => CV FNInf FPInf) n).
  rewrite fold_conditions_spec by auto. reflexivity.
Qed.
Lemma table_keys f n : map fst (table f n) = seq 0 n.
Proof. unfold table. rewrite map_map. simpl. apply map_id. Qed.
(** the interval of a variable describes exactly the rows kept by all rules on that variable *)
Definition in_cvc (b : cvc) (x : fl) : bool := fgt x (cv_min b) && fle x (cv_max b).
Lemma add_rule_in b q x : is_nan x = false -> 
  is_nan (cv_min b) = false -> is_nan (cv_max b) = false ->
  in_cvc (add_rule b q) x = in_cvc b x && negb (if rl_le q then fgt x (rl_val q) else fle x (rl_val q)).
Proof.
  intros Hx Hmin Hmax. unfold in_cvc, add_rule. destruct (rl_le q).
  - (* le *)
    destruct (is_nan (rl_val q)) eqn:Hq.
    { destruct (rl_val q); try discriminate. simpl. unfold fgt at 2. simpl. now rewrite andb_true_r. }
    destruct (flt (rl_val q) (cv_max b)) eqn:E; simpl.
    + rewrite <- andb_assoc. f_equal. rewrite (fgt_negb x (rl_val q)), negb_involutive by auto.
      destruct (fle x (rl_val q)) eqn:E1; [|now rewrite andb_false_r].
      rewrite andb_true_r. symmetry. apply flt_fle. eapply fle_flt_trans; eauto.
    + assert (Hle: fle (cv_max b) (rl_val q) = true) by (rewrite fle_negb, E; auto).
      rewrite (fgt_negb x (rl_val q)), negb_involutive by auto.
      destruct (fle x (cv_max b)) eqn:E1; [|now rewrite andb_false_r].
      rewrite (fle_trans _ _ _ E1 Hle). now rewrite !andb_true_r.
  - destruct (is_nan (rl_val q)) eqn:Hq.
    { destruct (rl_val q); try discriminate.
      replace (fgt FNaN (cv_min b)) with false by (unfold fgt; destruct (cv_min b); auto).
      replace (fle x FNaN) with false by (destruct x; auto). simpl. now rewrite andb_true_r. }
    change (fgt (rl_val q) (cv_min b)) with (flt (cv_min b) (rl_val q)).
    destruct (flt (cv_min b) (rl_val q)) eqn:E; simpl.
    + rewrite <- fgt_negb by auto. rewrite <- andb_assoc, (andb_comm (fle x (cv_max b))), andb_assoc. f_equal.
      unfold fgt. destruct (flt (rl_val q) x) eqn:E1; [|now rewrite andb_false_r].
      rewrite andb_true_r. symmetry. eapply flt_trans; eauto.
    + rewrite <- fgt_negb by auto. unfold fgt.
      destruct (flt (cv_min b) x) eqn:E1; [|reflexivity]. simpl.
      assert (Hlt: flt (rl_val q) x = true).
      { eapply fle_flt_trans; [|exact E1]. rewrite fle_negb, E; auto. }
      rewrite Hlt. now rewrite andb_true_r.
Qed.
Lemma add_rule_nan b q : is_nan (cv_min b) = false -> is_nan (cv_max b) = false ->
  is_nan (cv_min (add_rule b q)) = false /\ is_nan (cv_max (add_rule b q)) = false.
Proof.
  intros H1 H2. unfold add_rule. destruct (rl_le q).
  - destruct (flt (rl_val q) (cv_max b)) eqn:E; simpl; auto. split; auto. now apply flt_not_nan in E.
  - unfold fgt. destruct (flt (cv_min b) (rl_val q)) eqn:E; simpl; auto. split; auto. now apply flt_not_nan in E.
Qed.
Lemma fold_bounds_in v rules b r : is_nan (cell r v) = false ->
  is_nan (cv_min b) = false -> is_nan (cv_max b) = false ->
  in_cvc (fold_left (bound_step v) rules b) (cell r v) =
  in_cvc b (cell r v) && forallb (fun q => implb (rl_var q =? v) (negb (excluded q r))) rules.
Proof.
  intros Hx. revert b; induction rules as [|q rules IH]; intros b Hmin Hmax; simpl.
  - now rewrite andb_true_r.
  - unfold bound_step at 2. destruct (Nat.eqb_spec (rl_var q) v) as [<-|Hne].
    + destruct (add_rule_nan b q Hmin Hmax). rewrite IH by auto. rewrite add_rule_in by auto.
      rewrite <- andb_assoc. f_equal.
    + rewrite IH by auto. simpl. reflexivity.
Qed.
Lemma bounds_in v rules r : is_nan (cell r v) = false ->
  in_cvc (bounds v rules) (cell r v) =
  negb (feqb (cell r v) FNInf) && forallb (fun q => implb (rl_var q =? v) (negb (excluded q r))) rules.
Proof.
  intros Hx. unfold bounds. rewrite fold_bounds_in by auto. f_equal.
  unfold in_cvc; simpl. destruct (cell r v); try discriminate; reflexivity.
Qed.
(** out-of-sample selection of a row *)
Lemma row_selected_spec n rules conds r :
  (forall v, v < n -> cell r v <> FNaN /\ cell r v <> FNInf) ->
  Forall (fun q => rl_var q < n) rules ->
  row_selected (CC (table (fun v => bounds v rules) n) conds) r = negb (existsb (fun q => excluded q r) rules).
Proof.
  intros Hr Hq. unfold row_selected, table. simpl.
  apply eq_true_iff_eq. rewrite forallb_forall, negb_true_iff.
  split.
  - intros H. apply not_true_iff_false. intros He. apply existsb_exists in He as (q&Hin&He).
    rewrite Forall_forall in Hq. specialize (Hq _ Hin).
    destruct (Hr _ Hq) as [Hn1 Hn2].
    assert (Hnan: is_nan (cell r (rl_var q)) = false) by (destruct (cell r (rl_var q)); auto; congruence).
    specialize (H (rl_var q, bounds (rl_var q) rules)).
    rewrite in_map_iff in H. simpl in H.
    assert (Hi: in_cvc (bounds (rl_var q) rules) (cell r (rl_var q)) = true).
    { apply H. exists (rl_var q). split; auto. apply in_seq; lia. }
    rewrite bounds_in in Hi by auto. apply andb_true_iff in Hi as [_ Hi].
    rewrite forallb_forall in Hi. specialize (Hi _ Hin). rewrite Nat.eqb_refl, He in Hi. discriminate.
  - intros He vb Hin. apply in_map_iff in Hin as (v&<-&Hv). apply in_seq in Hv. simpl.
    destruct (Hr v) as [Hn1 Hn2]; [lia|].
    assert (Hnan: is_nan (cell r v) = false) by (destruct (cell r v); auto; congruence).
    change (in_cvc (bounds v rules) (cell r v) = true). rewrite bounds_in by auto.
    apply andb_true_iff. split.
    + apply negb_true_iff. apply feqb_neq; auto.
    + apply forallb_forall. intros q Hin. destruct (excluded q r) eqn:E; [|now destruct (_ =? _)].
      assert (existsb (fun q => excluded q r) rules = true); [|congruence].
      apply existsb_exists; eauto.
Qed.

(** ** The invariant of a Split reached from a root *)
Definition mask_of (X : matrix) (rules : list rule) : list bool :=
  map (fun r => existsb (fun q => excluded q r) rules) (mx_rows X).
Lemma mask_of_snoc X rules q :
  map2 orb (mask_of X rules) (map (excluded q) (mx_rows X)) = mask_of X (rules ++ [q]).
Proof.
  unfold mask_of. rewrite map2_map. apply map_ext. intros r. rewrite existsb_app. simpl.
  now rewrite orb_false_r.
Qed.
Lemma mask_of_length X rules : length (mask_of X rules) = length (mx_rows X).
Proof. unfold mask_of. apply map_length. Qed.

Record tvalid (oy : option (list R)) (mask : list bool) (t : target) : Prop := {
  tv_y : t_y t = oy;
  tv_mask : t_mask t = mask;
  tv_len : forall y, oy = Some y -> length y = length mask;
  tv_sum : t_fresh t = true -> exists y, oy = Some y /\ t_sum t = Some (masked_sum y mask) }.

Record sinv (X : matrix) (oy : option (list R)) (rules : list rule) (s : split) : Prop := {
  si_X : cm_X (d_X (sp_data s)) = X;
  si_mask : cm_mask (d_X (sp_data s)) = mask_of X rules;
  si_c : cvalid (d_X (sp_data s));
  si_t : tvalid oy (mask_of X rules) (d_y (sp_data s));
  si_vars : cc_vars (sp_cc s) = table (fun v => bounds v rules) (mx_ncols X);
  si_conds : map rule_of (cc_conds (sp_cc s)) = rules;
  si_ops : Forall (fun c => sc_var c < mx_ncols X /\ sc_op c <> OpOther) (cc_conds (sp_cc s)) }.

Lemma sinv_rules_lt X oy rules s : sinv X oy rules s -> Forall (fun q => rl_var q < mx_ncols X) rules.
Proof.
  intros H. rewrite <- (si_conds _ _ _ _ H). rewrite Forall_forall. intros q Hq.
  apply in_map_iff in Hq as (c&<-&Hc). pose proof (si_ops _ _ _ _ H) as Ho.
  rewrite Forall_forall in Ho. apply Ho in Hc as [Hc _]. exact Hc.
Qed.

Lemma summed_y_spec oy mask t v t' : tvalid oy mask t -> summed_y t = Ok (v, t') ->
  (exists y, oy = Some y /\ v = masked_sum y mask) /\ tvalid oy mask t'.
Proof.
  intros [Hy Hm Hl Hs]. unfold summed_y. destruct (t_fresh t) eqn:Ef.
  - destruct (Hs eq_refl) as (y&->&E). rewrite E. intros E2; injection E2 as <- <-.
    split; [eauto|]. split; auto.
  - rewrite Hy. destruct oy as [y|]; [|discriminate]. rewrite Hm. 
    destruct (negb _); [discriminate|]. intros E2; injection E2 as <- <-.
    split; [eauto|]. split; simpl; auto. eauto.
Qed.
Lemma summed_y_total y mask t : tvalid (Some y) mask t -> exists t', summed_y t = Ok (masked_sum y mask, t').
Proof.
  intros [Hy Hm Hl Hs]. unfold summed_y. destruct (t_fresh t) eqn:Ef.
  - destruct (Hs eq_refl) as (y'&E0&E). injection E0 as <-. rewrite E. eauto.
  - rewrite Hy, Hm. rewrite (Hl _ eq_refl), Nat.eqb_refl. simpl. eauto.
Qed.
Lemma summed_y_none mask t : tvalid None mask t -> summed_y t = Raise ETypeError.
Proof.
  intros [Hy Hm Hl Hs]. unfold summed_y. destruct (t_fresh t) eqn:Ef.
  - destruct (Hs eq_refl) as (y'&E0&E). discriminate.
  - now rewrite Hy.
Qed.

Lemma sinv_set_y X oy rules s t : sinv X oy rules s -> tvalid oy (mask_of X rules) t -> sinv X oy rules (sp_set_y s t).
Proof. intros [ ] Ht. split; simpl; auto. Qed.
Lemma sinv_set_X X oy rules s c : sinv X oy rules s -> cvalid c -> same_rows (d_X (sp_data s)) c ->
  sinv X oy rules (sp_set_X s c).
Proof. intros [ ] Hc (H1&H2&H3). split; simpl; auto; congruence. Qed.
Lemma sinv_update_y X oy rules s oy' : sinv X oy rules s ->
  (forall y, oy' = Some y -> length y = length (mx_rows X)) ->
  sinv X oy' rules (Sp (data_update_y (sp_data s) oy') (sp_cc s)).
Proof.
  intros [ ] Hl. split; simpl; auto. destruct si_t0. split; simpl; auto.
  - intros y Hy. rewrite mask_of_length. auto.
  - discriminate.
Qed.

(** roots *)
Lemma make_cc_root n : make_cc (seq 0 n) [] = Ok (CC (table (fun v => bounds v []) n) []).
Proof. apply (make_cc_spec n []). constructor. Qed.
Lemma mask_of_nil X n : n = length (mx_rows X) -> repeat false n = mask_of X [].
Proof.
  intros ->. unfold mask_of. simpl. induction (mx_rows X); simpl; congruence.
Qed.
Lemma make_split_spec d : make_split d = Ok (Sp d (CC (table (fun v => bounds v []) (mx_ncols (cm_X (d_X d)))) [])).
Proof. unfold make_split, cm_nfeat. now rewrite make_cc_root. Qed.
Lemma fresh_cvalid X m : length m = length (mx_rows X) ->
  cvalid (make_covmat X m (PI (Z.of_nat (count_false m)) true) None None).
Proof.
  intros H. split; simpl; auto; rewrite ?repeat_length; auto;
    intros i b; rewrite nth_repeat_none; discriminate.
Qed.
Lemma root_sinv_gen X ny t : length ny = length (mx_rows X) ->
  tvalid (Some ny) (mask_of X []) t ->
  sinv X (Some ny) []
    (Sp (Dt (make_covmat X (mask_of X []) (PI (Z.of_nat (count_false (mask_of X []))) true) None None) t)
        (CC (table (fun v => bounds v []) (mx_ncols X)) [])).
Proof.
  intros Hl Ht. split; simpl; auto. apply fresh_cvalid. apply mask_of_length.
Qed.
Lemma root_sinv X y s : root_split X y false = Ok s -> length y = length (mx_rows X) -> sinv X (Some y) [] s.
Proof.
  unfold root_split, make_data, make_target. simpl. rewrite make_split_spec.
  intros E Hl; injection E as <-. rewrite (mask_of_nil X (length y)) by auto. simpl.
  apply root_sinv_gen; auto. split; simpl; auto; [|discriminate].
  intros y0 E. injection E as <-. now rewrite mask_of_length.
Qed.
Lemma finite_vec_length v l : finite_vec v = Some l -> length l = length v.
Proof.
  revert l; induction v as [|x v IH]; simpl; intros l.
  - intros E; injection E as <-; auto.
  - destruct (xfin x), (finite_vec v); try discriminate. intros E; injection E as <-. simpl. f_equal; auto.
Qed.
Lemma root_split_norm X y s : root_split X y true = Ok s ->
  exists ny, finite_vec (normalize_y y) = Some ny /\ y <> [] /\
   s = Sp (Dt (make_covmat X (repeat false (length y)) (PI (Z.of_nat (count_false (repeat false (length y)))) true) None None)
              (Tg (Some ny) (repeat false (length y)) false None (Some (vmin y, vmax y))))
          (CC (table (fun v => bounds v []) (mx_ncols X)) []).
Proof.
  unfold root_split, make_data, make_target. remember (repeat false (length y)) as m.
  destruct y as [|a l]; [discriminate|].
  destruct (finite_vec (normalize_y (a :: l))) as [ny|] eqn:En; [|discriminate].
  cbn [rbind]. rewrite make_split_spec. intros E; injection E as <-. exists ny.
  split; [auto|]. split; [discriminate|]. reflexivity.
Qed.
Lemma root_sinv_norm X y s : root_split X y true = Ok s -> length y = length (mx_rows X) ->
  exists ny, finite_vec (normalize_y y) = Some ny /\ y <> [] /\
    sinv X (Some ny) [] s /\ t_range (d_y (sp_data s)) = Some (vmin y, vmax y).
Proof.
  intros E Hl. apply root_split_norm in E as (ny&En&Hy&->). exists ny.
  split; [auto|]. split; [auto|]. split; [|reflexivity].
  assert (Hny: length ny = length (mx_rows X)).
  { rewrite <- Hl. apply finite_vec_length in En. rewrite En. unfold normalize_y. now rewrite map_length. }
  rewrite (mask_of_nil X (length y)) by auto. apply root_sinv_gen; auto.
  split; simpl; auto; [|discriminate].
  intros y0 E. injection E as <-. now rewrite mask_of_length.
Qed.

(** split + condition *)
Definition count_of (X : matrix) (rules : list rule) : nat := count_false (mask_of X rules).
Definition sum_of (X : matrix) (y : list R) (rules : list rule) : R := masked_sum y (mask_of X rules).
Lemma split_add_sinv X oy rules s c s' : no_nan X -> sinv X oy rules s -> split_add s c = Ok s' ->
  (forall n, sc_n c = Some n -> pz n = Z.of_nat (count_of X (rules ++ [rule_of c]))) ->
  (forall v, sc_ysum c = Some v -> exists y, oy = Some y /\ v = sum_of X y (rules ++ [rule_of c])) ->
  sinv X oy (rules ++ [rule_of c]) s' /\ sc_var c < mx_ncols X /\ sc_op c <> OpOther.
Proof.
  intros Hnan H. unfold split_add, data_add.
  destruct (update_mask (d_X (sp_data s)) c) as [m| |] eqn:Em; simpl; try discriminate.
  destruct (cc_add (sp_cc s) c) as [cc| |] eqn:Ec; simpl; try discriminate.
  intros E Hn Hs; injection E as <-.
  apply update_mask_spec in Em as (Hv&Ho&Hl&->).
  pose proof H as H0. destruct H0. unfold cm_nfeat in Hv. rewrite si_X0 in *.
  rewrite si_mask0, mask_of_snoc in *.
  unfold cc_add in Ec. rewrite si_vars0, table_keys in Ec.
  assert (Hops: Forall (fun c0 => sc_var c0 < mx_ncols X /\ sc_op c0 <> OpOther) (cc_conds (sp_cc s) ++ [c])).
  { apply Forall_app. split; auto. }
  rewrite make_cc_spec in Ec by auto. injection Ec as <-.
  split; [|auto].
  split; simpl; auto.
  - replace (mask_of X (rules ++ [rule_of c]))
      with (map2 orb (cm_mask (d_X (sp_data s))) (map (excluded (rule_of c)) (mx_rows X)))
      by (rewrite si_mask0; apply mask_of_snoc).
    pose proof (child_caches (d_X (sp_data s)) (map (excluded (rule_of c)) (mx_rows X))) as Hc.
    rewrite si_X0 in Hc. apply Hc; auto.
    + rewrite map_length, si_mask0. now rewrite mask_of_length.
    + rewrite si_mask0, mask_of_snoc. destruct (sc_n c) as [n|]; [apply Hn; auto|reflexivity].
  - destruct si_t0. split; simpl; auto.
    + intros y Hy. rewrite mask_of_length. erewrite <- (mask_of_length X rules). auto.
    + destruct (sc_ysum c) as [v|]; [|discriminate].
      intros _. destruct (Hs _ eq_refl) as (y&->&->). eauto.
  - now rewrite map_app, si_conds0.
  - now rewrite map_app, si_conds0.
Qed.
Lemma split_add_total X oy rules s c : sinv X oy rules s -> sc_var c < mx_ncols X -> sc_op c <> OpOther ->
  exists s', split_add s c = Ok s'.
Proof.
  intros [ ] Hv Ho. unfold split_add, data_add.
  destruct (update_mask_total (d_X (sp_data s)) c) as (m&Em); auto.
  { unfold cm_nfeat. now rewrite si_X0. } { apply si_c0. }
  rewrite Em. simpl. unfold cc_add. rewrite si_vars0, table_keys.
  rewrite make_cc_spec; simpl; eauto. apply Forall_app. split; auto.
Qed.

(** splitting a node in two *)
Lemma mask_compl X v x rules : no_nan X -> v < mx_ncols X -> x <> FNaN ->
  mask_of X (rules ++ [Rl v x false]) =
  map2 orb (mask_of X rules) (map (fun r => negb (excluded (Rl v x true) r)) (mx_rows X)).
Proof.
  intros Hn Hv Hx. rewrite <- mask_of_snoc. f_equal. apply map_ext_in. intros r Hr.
  specialize (Hn r v Hr Hv). apply excluded_compl.
  - destruct (cell r v); auto; congruence.
  - destruct x; auto; congruence.
Qed.
Lemma count_of_split X v x rules : no_nan X -> v < mx_ncols X -> x <> FNaN ->
  count_of X (rules ++ [Rl v x true]) + count_of X (rules ++ [Rl v x false]) = count_of X rules.
Proof.
  intros Hn Hv Hx. unfold count_of. rewrite mask_compl by auto. rewrite <- mask_of_snoc.
  apply (count_false_split (excluded (Rl v x true))). apply mask_of_length.
Qed.
Lemma sum_of_split X y v x rules : no_nan X -> v < mx_ncols X -> x <> FNaN ->
  length y = length (mx_rows X) ->
  (sum_of X y (rules ++ [Rl v x true]) + sum_of X y (rules ++ [Rl v x false]) = sum_of X y rules)%R.
Proof.
  intros Hn Hv Hx Hy. unfold sum_of. rewrite mask_compl by auto. rewrite <- mask_of_snoc.
  apply (masked_sum_split (excluded (Rl v x true))); auto. apply mask_of_length.
Qed.

Lemma split_children_sinv X oy rules s v x s' sl sr : no_nan X -> x <> FNaN -> sinv X oy rules s ->
  split_children s (fresh_le v x) (fresh_gt v x) = Ok (s', sl, sr) ->
  v < mx_ncols X /\ sinv X oy rules s' /\
  sinv X oy (rules ++ [Rl v x true]) sl /\ sinv X oy (rules ++ [Rl v x false]) sr.
Proof.
  intros Hnan Hx H. unfold split_children.
  destruct (split_add s (fresh_le v x)) as [sl0| |] eqn:El; simpl; try discriminate.
  destruct (split_add_sinv _ _ _ _ _ _ Hnan H El) as (Hl&Hv&_); [discriminate|discriminate|].
  simpl in Hv. change (rule_of (fresh_le v x)) with (Rl v x true) in Hl.
  destruct (summed_y (d_y (sp_data s))) as [[sy ty]| |] eqn:Es; simpl; try discriminate.
  destruct (summed_y (d_y (sp_data sl0))) as [[ly tl]| |] eqn:Esl; simpl; try discriminate.
  apply (summed_y_spec _ _ _ _ _ (si_t _ _ _ _ H)) in Es as ((y&->&->)&Hty).
  apply (summed_y_spec _ _ _ _ _ (si_t _ _ _ _ Hl)) in Esl as ((y'&E0&->)&Htl).
  injection E0 as <-.
  destruct (split_add (sp_set_y s ty) _) as [sr0| |] eqn:Er; simpl; try discriminate.
  intros E; injection E as <- <- <-.
  pose proof (sinv_set_y _ _ _ _ _ H Hty) as Hs'.
  pose proof (tv_len _ _ _ (si_t _ _ _ _ H) _ eq_refl) as Hly. rewrite mask_of_length in Hly.
  destruct (split_add_sinv _ _ _ _ _ _ Hnan Hs' Er) as (Hr&_&_).
  - simpl. intros n E; injection E as <-. unfold pint_sub; simpl.
    change (rule_of _) with (Rl v x false).
    rewrite (cvd_n _ (si_c _ _ _ _ H)), (cvd_n _ (si_c _ _ _ _ Hl)).
    rewrite (si_mask _ _ _ _ H), (si_mask _ _ _ _ Hl).
    pose proof (count_of_split X v x rules Hnan Hv Hx). unfold count_of in *. lia.
  - simpl. intros w E; injection E as <-. exists y. split; auto.
    change (rule_of _) with (Rl v x false).
    pose proof (sum_of_split X y v x rules Hnan Hv Hx Hly). unfold sum_of in *. lra.
  - split; [auto|]. split; [auto|]. split; [|exact Hr].
    apply sinv_set_y; auto.
Qed.
Lemma split_children_total X y rules s v x : no_nan X -> x <> FNaN -> v < mx_ncols X ->
  sinv X (Some y) rules s ->
  exists s' sl sr, split_children s (fresh_le v x) (fresh_gt v x) = Ok (s', sl, sr).
Proof.
  intros Hnan Hx Hv H. unfold split_children.
  destruct (split_add_total _ _ _ _ (fresh_le v x) H) as (sl&El); [auto|discriminate|]. rewrite El. simpl.
  destruct (split_add_sinv _ _ _ _ _ _ Hnan H El) as (Hl&_&_); [discriminate|discriminate|].
  destruct (summed_y_total _ _ _ (si_t _ _ _ _ H)) as (t1&E1). rewrite E1. simpl.
  destruct (summed_y_total _ _ _ (si_t _ _ _ _ Hl)) as (t2&E2). rewrite E2. simpl.
  apply (summed_y_spec _ _ _ _ _ (si_t _ _ _ _ H)) in E1 as (_&Ht1).
  match goal with |- context [split_add (sp_set_y s t1) ?c] =>
    destruct (split_add_total _ _ _ _ c (sinv_set_y _ _ _ _ _ H Ht1)) as (sr&Er) end;
    [auto|discriminate|]. rewrite Er. simpl. eauto.
Qed.

(** ** histories *)
Lemma client_step_sinv X y rules s o s' : no_nan X -> sinv X (Some y) rules s ->
  sane_op (length (mx_rows X)) o -> client_step s o = Ok s' ->
  sinv X (Some (last_target y [o])) (rules ++ path_of [o]) s'.
Proof.
  intros Hnan H Ho. pose proof (si_c _ _ _ _ H) as Hc.
  destruct o; cbn [client_step path_of last_target]; rewrite ?app_nil_r.
  - intros E; injection E as <-.
    apply sinv_set_X; auto; [apply (cvalid_set_split _ Hc)|apply same_rows_set_split].
  - intros E; injection E as <-.
    apply sinv_set_X; auto; [apply (cvalid_set_split _ Hc)|apply same_rows_set_split].
  - intros E; injection E as <-.
    apply sinv_set_X; auto; [apply (cvalid_any _ Hc)|apply same_rows_any].
  - destruct (is_column_unique _ v) as [[b c]| |] eqn:E0; simpl; try discriminate.
    intros E; injection E as <-.
    apply is_column_unique_spec in E0 as (_&_&Hc'&Hs); auto. apply sinv_set_X; auto.
  - destruct (max_value_of_column _ v) as [[b c]| |] eqn:E0; simpl; try discriminate.
    intros E; injection E as <-.
    apply max_value_of_column_spec in E0 as (_&_&Hc'&Hs); auto. apply sinv_set_X; auto.
  - unfold proportion_of_value_in_variable.
    destruct (is_column_unique _ v) as [[b c]| |] eqn:E0; simpl; try discriminate.
    apply is_column_unique_spec in E0 as (_&_&Hc'&Hs); auto.
    destruct b; simpl; intros E; injection E as <-; apply sinv_set_X; auto.
  - destruct (summed_y _) as [[b t]| |] eqn:E0; simpl; try discriminate.
    intros E; injection E as <-.
    apply (summed_y_spec _ _ _ _ _ (si_t _ _ _ _ H)) in E0 as (_&Ht). apply sinv_set_y; auto.
  - intros E; injection E as <-. eapply sinv_update_y; eauto.
    intros y1 E; injection E as <-. exact Ho.
  - destruct (split_children _ _ _) as [[[s1 sl] sr]| |] eqn:E0; simpl; try discriminate.
    intros E; injection E as <-. apply (split_children_sinv _ _ _ _ _ _ _ _ _ Hnan Ho H) in E0. tauto.
  - destruct (split_children _ _ _) as [[[s1 sl] sr]| |] eqn:E0; simpl; try discriminate.
    intros E; injection E as <-. apply (split_children_sinv _ _ _ _ _ _ _ _ _ Hnan Ho H) in E0. tauto.
  - intros E. apply (split_add_sinv _ _ _ _ _ _ Hnan H) in E; [|discriminate|discriminate]. apply E.
  - intros E. apply (split_add_sinv _ _ _ _ _ _ Hnan H) in E; [|discriminate|discriminate]. apply E.
Qed.
Lemma last_target_cons y o os : last_target y (o :: os) = last_target (last_target y [o]) os.
Proof. destruct o; reflexivity. Qed.
Lemma path_of_cons o os : path_of (o :: os) = path_of [o] ++ path_of os.
Proof. destruct o; reflexivity. Qed.
Lemma client_run_sinv X os : forall y rules s s', no_nan X -> sinv X (Some y) rules s ->
  Forall (sane_op (length (mx_rows X))) os -> client_run s os = Ok s' ->
  sinv X (Some (last_target y os)) (rules ++ path_of os) s'.
Proof.
  induction os as [|o os IH]; intros y rules s s' Hnan H Ho.
  - simpl. intros E; injection E as <-. now rewrite app_nil_r.
  - cbn [client_run]. destruct (client_step s o) as [s1| |] eqn:E1; simpl rbind; try discriminate.
    intros E. inversion Ho; subst.
    apply (client_step_sinv _ _ _ _ _ _ Hnan H) in E1; auto.
    apply (IH _ _ _ _ Hnan E1) in E; auto.
    rewrite last_target_cons, path_of_cons, app_assoc. exact E.
Qed.

Lemma reached_sinv X y normalize os s : no_nan X -> reached X y normalize os s ->
  sinv X (Some (last_target (start_target y normalize) os)) (path_of os) s.
Proof.
  intros Hnan (Hl&Ho&s0&H0&Hr). rewrite Hl in Ho. unfold start_target. destruct normalize.
  - destruct (root_sinv_norm _ _ _ H0 Hl) as (ny&->&_&H&_).
    apply (client_run_sinv _ _ _ [] _ _ Hnan H Ho) in Hr. exact Hr.
  - apply (client_run_sinv _ _ _ [] _ _ Hnan (root_sinv _ _ _ H0 Hl) Ho) in Hr. exact Hr.
Qed.
