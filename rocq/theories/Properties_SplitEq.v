(** C118: when two split conditions are equal. *)
From Coq Require Import Reals QArith Qcanon.
From Verif Require Import Base Fl Ext MData MSplit MSplitEq Spec LFl.
Import ListNotations.
Local Open Scope nat_scope.

Lemma op_eqb_eq a b : op_eqb a b = true <-> a = b.
Proof. destruct a, b; simpl; split; congruence. Qed.
Lemma sc_eq_iff a b : sc_eq a b = true <-> sc_var a = sc_var b /\ sc_val a = sc_val b /\ sc_op a = sc_op b /\ sc_val a <> FNaN.
Proof.
  unfold sc_eq. rewrite !andb_true_iff, Nat.eqb_eq, feqb_eq, op_eqb_eq. tauto.
Qed.
(** Equal conditions hold for the same rows, exclude the same rows from a node, and are interchangeable in every combined condition:
    both can be combined with the others or neither, and the same rows are selected. *)
Lemma fold_same a b pre post : sc_var a = sc_var b -> sc_val a = sc_val b -> sc_op a = sc_op b ->
  forall vars, fold_conditions vars (pre ++ a :: post) = fold_conditions vars (pre ++ b :: post).
Proof.
  intros Hv Hx Ho. induction pre as [|c pre IH]; intros vars; simpl.
  - assert (E : forall bd, add_condition bd a = add_condition bd b) by (intros bd; unfold add_condition; now rewrite Ho, Hx). rewrite Hv. destruct (dict_get (sc_var b) vars); [now rewrite E|reflexivity].
  - destruct (dict_get (sc_var c) vars); auto.
Qed.
Theorem C118_same_rows : forall a b, sc_eq a b = true ->
  (forall r, cond_holds a r = cond_holds b r) /\
  (forall c, update_mask c a = update_mask c b) /\
  (forall variables pre post,
     match make_cc variables (pre ++ a :: post), make_cc variables (pre ++ b :: post) with
     | Ok x, Ok y => forall X, cc_condition x X = cc_condition y X
     | Raise e, Raise e' => e = e'
     | _, _ => False
     end).
Proof.
  intros a b H. apply sc_eq_iff in H as (Hv & Hx & Ho & _). split; [|split].
  - intros r. unfold cond_holds. now rewrite Hv, Hx, Ho.
  - intros c. unfold update_mask, column_mask. now rewrite Hv, Hx, Ho.
  - intros vs pre post. unfold make_cc. rewrite (fold_same a b pre post Hv Hx Ho).
    destruct (fold_conditions (map (fun v => (v, CV FNInf FPInf)) vs) (pre ++ b :: post)) as [d|e|] eqn:E; simpl; auto.
    clear - E. assert (N : forall cs vars, fold_conditions vars cs <> NoDraws); [|now apply (N _ _ E)].
    induction cs as [|c cs IH]; intros vars; simpl; [discriminate|]. destruct (dict_get (sc_var c) vars); [apply IH|discriminate].
Qed.
(** Conditions "<=" and ">" with finite values that hold for the same rows of finite numbers are equal. *)
Definition finite_row (n : nat) (r : row) : Prop := length r = n /\ Forall (fun x => exists q, x = FFin q) r.
Lemma cell_other n (x y : fl) v w : v < n -> w < n -> v <> w -> exists r, length r = n /\ Forall (fun z => z = x \/ z = y) r /\ cell r v = x /\ cell r w = y.
Proof.
  intros Hv Hw N. exists (map (fun i => if Nat.eqb i v then x else y) (seq 0 n)). split; [now rewrite map_length, seq_length|]. split.
  - rewrite Forall_map. apply Forall_forall. intros i _. destruct (Nat.eqb i v); auto.
  - unfold cell. split.
    + rewrite (nth_indep _ FNaN ((fun i => if Nat.eqb i v then x else y) 0)) by (rewrite map_length, seq_length; exact Hv). rewrite (map_nth (fun i => if Nat.eqb i v then x else y)), seq_nth by auto. simpl. now rewrite Nat.eqb_refl.
    + rewrite (nth_indep _ FNaN ((fun i => if Nat.eqb i v then x else y) 0)) by (rewrite map_length, seq_length; exact Hw). rewrite (map_nth (fun i => if Nat.eqb i v then x else y)), seq_nth by auto. simpl.
      destruct (Nat.eqb w v) eqn:E; auto. apply Nat.eqb_eq in E. congruence.
Qed.
Lemma cell_same n x v : v < n -> exists r, length r = n /\ Forall (fun z => z = x) r /\ cell r v = x.
Proof.
  intros Hv. exists (repeat x n). split; [apply repeat_length|]. split; [apply Forall_forall; intros z I; now apply repeat_spec in I|].
  unfold cell. clear - Hv. revert v Hv. induction n as [|n IH]; intros v Hv; [lia|]. destruct v as [|v]; [reflexivity|]. simpl. apply IH. lia.
Qed.
Definition below (q : Qc) : Qc := (q - 1)%Qc.
Definition above (q : Qc) : Qc := (q + 1)%Qc.
Lemma below_lt q : flt (FFin (below q)) (FFin q) = true.
Proof.
  simpl. apply qc_ltb_lt. unfold below. apply Qclt_minus_iff. replace (q + - (q - 1))%Qc with 1%Qc by ring. reflexivity.
Qed.
Lemma above_gt q : flt (FFin q) (FFin (above q)) = true.
Proof.
  simpl. apply qc_ltb_lt. unfold above. apply Qclt_minus_iff. replace (q + 1 + - q)%Qc with 1%Qc by ring. reflexivity.
Qed.
Lemma le_false q x : flt (FFin q) (FFin x) = true -> fle (FFin x) (FFin q) = false.
Proof. intros H. rewrite fle_negb by reflexivity. now rewrite H. Qed.
(** a value for which a condition holds and one for which it does not *)
Lemma both_answers c q : sc_op c <> OpOther -> sc_val c = FFin q ->
  (exists x, forall r, cell r (sc_var c) = FFin x -> cond_holds c r = true) /\ (exists x, forall r, cell r (sc_var c) = FFin x -> cond_holds c r = false).
Proof.
  intros Ho Hq. unfold cond_holds. rewrite Hq. destruct (sc_op c) eqn:E; try congruence.
  - split; [exists (below q)|exists (above q)]; intros r ->; [apply flt_fle, below_lt|apply le_false, above_gt].
  - split; [exists (above q)|exists (below q)]; intros r ->; unfold fgt; [apply above_gt|apply flt_asym, below_lt].
Qed.
Theorem C118_told_apart : forall n a b, sc_var a < n -> sc_var b < n -> sc_op a <> OpOther -> sc_op b <> OpOther ->
  (exists p, sc_val a = FFin p) -> (exists q, sc_val b = FFin q) ->
  (forall r, finite_row n r -> cond_holds a r = cond_holds b r) -> sc_eq a b = true.
Proof.
  intros n a b Va Vb Oa Ob (p & Hp) (q & Hq) H. apply sc_eq_iff.
  assert (V : sc_var a = sc_var b).
  { destruct (Nat.eq_dec (sc_var a) (sc_var b)) as [E|N]; auto. exfalso.
    destruct (both_answers a p Oa Hp) as ((x & Hx) & _). destruct (both_answers b q Ob Hq) as (_ & (y & Hy)).
    destruct (cell_other n (FFin x) (FFin y) _ _ Va Vb N) as (r & L & F & Cx & Cy). specialize (H r). rewrite (Hx r Cx), (Hy r Cy) in H. discriminate H. split; [exact L|].
    eapply Forall_impl; [|exact F]. intros z [->| ->]; eauto. }
  assert (K : forall x, cond_holds a (repeat (FFin x) n) = cond_holds b (repeat (FFin x) n)).
  { intros x. apply H. split; [apply repeat_length|]. apply Forall_forall. intros z I. apply repeat_spec in I. eauto. }
  assert (C : forall x, cell (repeat (FFin x) n) (sc_var b) = FFin x).
  { intros x. clear - Vb. unfold cell. revert Vb. generalize (sc_var b) as v. induction n as [|n IH]; intros v Hv; [lia|]. destruct v as [|v]; [reflexivity|]. simpl. apply IH. lia. }
  assert (O : sc_op a = sc_op b).
  { destruct (sc_op a) eqn:Ea, (sc_op b) eqn:Eb; try congruence; exfalso.
    - destruct (flt (FFin p) (FFin q)) eqn:L.
      + specialize (K p). unfold cond_holds in K. rewrite Ea, Eb, V, C, Hp, Hq in K. rewrite fle_refl in K by reflexivity. unfold fgt in K. rewrite (flt_asym _ _ L) in K. discriminate.
      + specialize (K (below q)). unfold cond_holds in K. rewrite Ea, Eb, V, C, Hp, Hq in K. unfold fgt in K. rewrite (flt_asym _ _ (below_lt q)) in K.
        assert (G : fle (FFin (below q)) (FFin p) = true); [|rewrite G in K; discriminate]. apply fle_trans with (FFin q); [apply flt_fle, below_lt|]. rewrite fle_negb by reflexivity. now rewrite L.
    - destruct (flt (FFin q) (FFin p)) eqn:L.
      + specialize (K q). unfold cond_holds in K. rewrite Ea, Eb, V, C, Hp, Hq in K. rewrite fle_refl in K by reflexivity. unfold fgt in K. rewrite (flt_asym _ _ L) in K. discriminate.
      + specialize (K (below p)). unfold cond_holds in K. rewrite Ea, Eb, V, C, Hp, Hq in K. unfold fgt in K. rewrite (flt_asym _ _ (below_lt p)) in K.
        assert (G : fle (FFin (below p)) (FFin q) = true); [|rewrite G in K; discriminate]. apply fle_trans with (FFin p); [apply flt_fle, below_lt|]. rewrite fle_negb by reflexivity. now rewrite L. }
  split; [exact V|]. split; [|split; [exact O|rewrite Hp; discriminate]]. rewrite Hp, Hq.
  assert (A : fle (FFin p) (FFin q) = true /\ fle (FFin q) (FFin p) = true).
  { pose proof (K p) as K1. pose proof (K q) as K2. unfold cond_holds in K1, K2. rewrite <- O, V, C, Hp, Hq in K1, K2. destruct (sc_op a) eqn:Ea; try congruence.
    - rewrite fle_refl in K1 by reflexivity. rewrite (fle_refl (FFin q)) in K2 by reflexivity. auto.
    - unfold fgt in K1, K2. rewrite flt_irrefl in K1, K2. rewrite !fle_negb by reflexivity. now rewrite K2, <- K1. }
  destruct A. now apply fle_antisym.
Qed.
(** With infinite values it is not so: neither of these conditions ever excludes a row of finite numbers. *)
Theorem C118_told_apart_refuted : exists a b, sc_val a <> FNaN /\ sc_val b <> FNaN /\ sc_op a = OpLe /\ sc_op b = OpLe /\ sc_eq a b = false /\
  forall r, finite_row 2 r -> cond_holds a r = cond_holds b r.
Proof.
  exists (SC 0 FPInf OpLe None None), (SC 1 FPInf OpLe None None). do 5 (split; [try discriminate; reflexivity|]). intros r (L & F).
  destruct r as [|x [|z [|]]]; try discriminate. inversion F as [|? ? (p & ->) F1]; subst. inversion F1 as [|? ? (q & ->) _]; subst. reflexivity.
Qed.
(** Equality is an equivalence between conditions whose value is not NaN, and ignores what the condition carries; *)
Theorem C118_equivalence : forall a b c,
  (sc_val a <> FNaN -> sc_eq a a = true) /\ sc_eq a b = sc_eq b a /\ (sc_eq a b = true -> sc_eq b c = true -> sc_eq a c = true) /\
  (forall s n, sc_eq (SC (sc_var a) (sc_val a) (sc_op a) s n) b = sc_eq a b).
Proof.
  intros a b c. split; [|split; [|split]].
  - intros H. apply sc_eq_iff. auto.
  - apply eq_iff_eq_true. rewrite !sc_eq_iff. split; intros (A & B & C & D); rewrite <- A, <- B, <- C; auto.
  - rewrite !sc_eq_iff. intros (A & B & C & D) (E & F & G & H). rewrite A, B, C. auto.
  - reflexivity.
Qed.
(** one whose value is NaN is not equal to any condition, not even to itself, *)
Theorem C118_nan : forall a b, sc_val a = FNaN -> sc_eq a b = false /\ sc_eq b a = false.
Proof.
  intros a b H. split; apply not_true_iff_false; rewrite sc_eq_iff; intros (A & B & C & D); congruence.
Qed.

(** *** the bounds of one column *)
Definition within_bounds (b : cvc) (x : fl) : bool := fgt x (cv_min b) && fle x (cv_max b).
(** A condition on another column leaves the bounds as they are; one on this column, with a value that is not NaN, selects from the
    values within the bounds those for which it holds; adding an equal condition again changes nothing. *)
Theorem C118_bounds : forall b s,
  (vc_var b <> sc_var s -> vc_add b s = b) /\
  vc_var (vc_add b s) = vc_var b /\
  (vc_var b = sc_var s -> sc_op s <> OpOther -> sc_val s <> FNaN -> cv_min (vc_bounds b) <> FNaN -> cv_max (vc_bounds b) <> FNaN ->
     forall r, within_bounds (vc_bounds (vc_add b s)) (cell r (vc_var b)) = within_bounds (vc_bounds b) (cell r (vc_var b)) && cond_holds s r) /\
  (forall s', sc_eq s s' = true -> vc_add (vc_add b s) s' = vc_add b s).
Proof.
  intros b s. split; [|split; [|split]].
  - intros H. unfold vc_add. rewrite (proj2 (Nat.eqb_neq _ _) H). reflexivity.
  - unfold vc_add. destruct (negb _); reflexivity.
  - intros V O N N1 N2 r. unfold vc_add. rewrite V, Nat.eqb_refl. cbn [negb vc_bounds]. unfold cond_holds, add_condition, within_bounds.
    set (x := cell r (sc_var s)). destruct (sc_op s) eqn:E; try congruence.
    + destruct (flt (sc_val s) (cv_max (vc_bounds b))) eqn:L; cbn [cv_min cv_max].
      * rewrite <- andb_assoc. f_equal. apply eq_iff_eq_true. rewrite andb_true_iff. split; [|tauto]. intros H. split; auto. eapply fle_trans; [exact H|]. now apply flt_fle.
      * rewrite <- andb_assoc. f_equal. apply eq_iff_eq_true. rewrite andb_true_iff. split; [|tauto]. intros H. split; auto. eapply fle_trans; [exact H|].
        rewrite fle_negb; [now rewrite L| |]; [destruct (cv_max (vc_bounds b)); auto; congruence|destruct (sc_val s); auto; congruence].
    + unfold fgt. destruct (flt (cv_min (vc_bounds b)) (sc_val s)) eqn:L; cbn [cv_min cv_max].
      * apply eq_iff_eq_true. rewrite !andb_true_iff. split; [intros (A & B)|tauto]. repeat split; auto. eapply flt_trans; eauto.
      * apply eq_iff_eq_true. rewrite !andb_true_iff. split; [intros (A & B)|tauto]. repeat split; auto.
        assert (G : fle (sc_val s) (cv_min (vc_bounds b)) = true). { rewrite fle_negb; [now rewrite L| |]; [destruct (sc_val s); auto; congruence|destruct (cv_min (vc_bounds b)); auto; congruence]. }
        eapply fle_flt_trans; eauto.
  - intros s' H. apply sc_eq_iff in H as (Hv & Hx & Ho & _). unfold vc_add. rewrite <- Hv. destruct (Nat.eqb (vc_var b) (sc_var s)) eqn:E; cbn [negb vc_var vc_bounds]; rewrite E; cbn [negb vc_var vc_bounds]; auto.
    unfold add_condition. rewrite <- Ho, <- Hx. destruct (sc_op s); auto.
    + destruct (flt (sc_val s) (cv_max (vc_bounds b))) eqn:L; cbn [cv_min cv_max]; [now rewrite flt_irrefl|now rewrite L].
    + unfold fgt. destruct (flt (cv_min (vc_bounds b)) (sc_val s)) eqn:L; cbn [cv_min cv_max]; [now rewrite flt_irrefl|now rewrite L].
Qed.
(** x1 <= 3 with and without carried statistics, and x1 > 3 *)
Example C118_case : sc_eq (SC 1 (fz 3) OpLe (Some 2%R) None) (SC 1 (fz 3) OpLe None None) = true /\ sc_eq (SC 1 (fz 3) OpLe None None) (SC 1 (fz 3) OpGt None None) = false /\
  (exists p, fz 3 = FFin p) /\ finite_row 2 [fz 1; fz 2] /\
  vc_add (VC 1 (CV FNInf FPInf)) (SC 1 (fz 3) OpLe None None) = VC 1 (CV FNInf (fz 3)) /\ vc_add (VC 1 (CV FNInf (fz 3))) (SC 1 (fz 2) OpGt None None) = VC 1 (CV (fz 2) (fz 3)).
Proof.
  split; [reflexivity|]. split; [reflexivity|]. split; [eexists; reflexivity|]. split; [|split; reflexivity]. split; [reflexivity|]. repeat constructor; eexists; reflexivity.
Qed.

Print Assumptions C118_same_rows.
Print Assumptions C118_told_apart.
Print Assumptions C118_told_apart_refuted.
Print Assumptions C118_equivalence.
Print Assumptions C118_nan.
Print Assumptions C118_bounds.
