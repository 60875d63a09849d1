(** Property C95: see /verif/properties.jsonl. *)
From Coq Require Import Reals Lra Lia ZArith QArith Qcanon.
From Verif Require Import Base Fl Ext MData MSplit MTree MSampler MModel MModelHist MSklearn MOblivious MObModel MObSklearn Spec SpecModel SpecSklearn SpecInvariance SpecColumn.
From Verif Require Import PRel PRel2 PRel3 PInvar PSklearn PCol PColOb PObRel PObRel2 Properties_Model Properties_Model2 Properties_Sklearn Properties_Invariance Properties_ObSklearn.
Local Open Scope R_scope.

Lemma h_empty_ok : heap_ok h_empty.
Proof. intros j _. reflexivity. Qed.
Lemma follow_settings b b' s s' h h' X y rs : heap_ok h -> heap_ok h' -> same_settings s s' ->
  same_outcome (follows (fun v => v) (fun X' => X')) (fit b s h X y rs) (fit b' s' h' X y rs).
Proof.
  intros W W' Hs.
  pose proof (fit_follow idc ltac:(auto) ltac:(auto) ltac:(auto) ltac:(auto) ltac:(auto) idr eq_refl 1 ltac:(ring) X y y
    (convert_recode idc X y) (fun v => v) (fun d v _ => units_id d v) b b' s s' h h' rs W W' Hs) as H.
  now rewrite tX_idc, trgs_1 in H.
Qed.
Lemma same_eq (m m' : res (list R)) : same_outcome (fun v v' => v' = map (fun x => x) v) m m' <-> m' = m.
Proof. split; [destruct m, m'; simpl; try contradiction; intros; subst; now rewrite ?map_id|intros ->; destruct m; simpl; auto; now rewrite map_id]. Qed.
Lemma same_eq' (m m' : res (list R)) : same_outcome eq m m' <-> m' = m.
Proof. split; [destruct m, m'; simpl; try contradiction; intros; now subst|intros ->; destruct m; simpl; auto]. Qed.
Lemma ignores_between k s1 s2 s3 s4 : follows (fun v => v) (fun X => X) s1 s2 -> ignores_column k s2 s3 -> follows (fun v => v) (fun X => X) s3 s4 -> ignores_column k s1 s4.
Proof.
  intros (A1&A2&A3&A4&A5&A6) (B1&B2&B3&B4&B5&B6&B7) (C1&C2&C3&C4&C5&C6). apply same_eq in A1, C1. apply same_eq' in B1. split; [|split; [|split; [|split; [|split; [|split]]]]]; try congruence.
  - apply same_eq'. congruence.
  - intros cs X F O. specialize (B2 cs X F O). apply same_eq' in B2. specialize (A2 X). specialize (C2 (with_column k cs X)). apply same_eq in A2, C2. apply same_eq'. congruence.
  - intros columns. rewrite C6, <- A6. apply B6.
Qed.

(** ** C95: a constant column changes nothing *)
(** Putting one more column into the training matrix, at any position, whose entries are all the same (the first
    one may even differ: the code never looks at it), changes nothing: with the same draws the fit ends the same
    way, takes the same decisions, draws the same sigmas and predicts the same, in-sample and for every new row,
    whatever ordinary number the new row has in that column.  No stored tree splits on the new column, and every
    other column has the share of the splits it had. *)
Theorem C95_constant_column : forall k cs bk s h h' X y rs, fits_in k cs X -> mx_ncols X <> 0%nat -> flat_from_second cs -> heap_ok h -> heap_ok h' ->
  same_outcome (ignores_column k) (fit bk s h X y rs) (fit bk s h' (with_column k cs X) y rs).
Proof.
  intros k cs bk s h h' X y rs F N Fl W W'.
  pose proof (follow_settings bk Processes s s h h_empty X y rs W h_empty_ok ltac:(repeat split)) as A.
  pose proof (fit_tr k cs X F Fl N s y rs) as B.
  pose proof (follow_settings Processes bk (tsk k cs X s) s h_empty h' (with_column k cs X) y rs h_empty_ok W' ltac:(repeat split)) as C.
  rewrite B in C. destruct (fit bk s h X y rs) as [s1|e|], (fit Processes s h_empty X y rs) as [s2|e2|], (fit bk s h' (with_column k cs X) y rs) as [s4|e4|];
    cbn [rmap same_outcome] in *; try contradiction; auto; try congruence.
  eapply ignores_between; eauto. apply tsk_ignores; auto.
Qed.
Print Assumptions C95_constant_column.

(** the same for an estimator that uses the tree sampler of bartpy/samplers/oblivioustrees *)
Lemma ob_follow_settings b b' s s' h h' X y rs : heap_ok h -> heap_ok h' -> same_settings s s' ->
  same_outcome (follows (fun v => v) (fun X' => X')) (ob_fit b s h X y rs) (ob_fit b' s' h' X y rs).
Proof.
  intros W W' Hs.
  pose proof (ob_fit_follow idc ltac:(auto) ltac:(auto) ltac:(auto) ltac:(auto) ltac:(auto) idr eq_refl 1 ltac:(ring) X y y
    (convert_recode idc X y) (fun v => v) (fun d v _ => units_id d v) b b' s s' h h' rs W W' Hs) as H.
  now rewrite tX_idc, trgs_1 in H.
Qed.
Theorem C95_constant_column_oblivious : forall k cs bk s h h' X y rs, fits_in k cs X -> mx_ncols X <> 0%nat -> flat_from_second cs -> heap_ok h -> heap_ok h' ->
  same_outcome (ignores_column k) (ob_fit bk s h X y rs) (ob_fit bk s h' (with_column k cs X) y rs).
Proof.
  intros k cs bk s h h' X y rs F N Fl W W'.
  pose proof (ob_follow_settings bk Processes s s h h_empty X y rs W h_empty_ok ltac:(repeat split)) as A.
  pose proof (ob_fit_tr k cs X F Fl N s y rs) as B.
  pose proof (ob_follow_settings Processes bk (tsk k cs X s) s h_empty h' (with_column k cs X) y rs h_empty_ok W' ltac:(repeat split)) as C.
  rewrite B in C. destruct (ob_fit bk s h X y rs) as [s1|e|], (ob_fit Processes s h_empty X y rs) as [s2|e2|], (ob_fit bk s h' (with_column k cs X) y rs) as [s4|e4|];
    cbn [rmap same_outcome] in *; try contradiction; auto; try congruence.
  eapply ignores_between; eauto. apply tsk_ignores; auto.
Qed.
Print Assumptions C95_constant_column_oblivious.

(** three rows, one column; a second column put in front of it, [9; 4; 4] from top to bottom: both samplers build the
    same model, and new rows are predicted the same with 7 in the new column *)
Example C95_case : forall bk, let cs := [fz 9; fz 4; fz 4] in
  fits_in 0 cs mx_X /\ flat_from_second cs /\ with_column 0 cs mx_X <> mx_X /\
  exists rs rs' s1 s2 s3 s4, fit bk ex_sk ex_empty mx_X mx_y rs = Ok s1 /\ fit bk ex_sk ex_empty (with_column 0 cs mx_X) mx_y rs = Ok s2 /\ ignores_column 0 s1 s2 /\
  ob_fit bk ex_sk ex_empty mx_X mx_y rs' = Ok s3 /\ ob_fit bk ex_sk ex_empty (with_column 0 cs mx_X) mx_y rs' = Ok s4 /\ ignores_column 0 s3 s4 /\
  sk_predict s2 (Some (with_column 0 [fz 7; fz 7; fz 7] mx_X)) = sk_predict s1 (Some mx_X).
Proof.
  intros bk cs. assert (F : forall cs, length cs = 3%nat -> fits_in 0 cs mx_X).
  { intros cs0 L. split; [|split]; auto; [|apply Nat.le_0_l]. repeat constructor. }
  assert (Fl : flat_from_second cs) by (exists (fz 4); split; [discriminate|intros x [<-|[<-|[]]]; reflexivity]).
  split; [now apply F|]. split; auto. split; [discriminate|]. destruct (ex_fit bk) as (rs&s1&_&E). destruct (ob_ex_fit bk) as (rs'&s3&_&E3).
  pose proof (C95_constant_column 0 cs bk ex_sk ex_empty ex_empty mx_X mx_y rs (F cs eq_refl) ltac:(discriminate) Fl ex_heap_ok ex_heap_ok) as A.
  pose proof (C95_constant_column_oblivious 0 cs bk ex_sk ex_empty ex_empty mx_X mx_y rs' (F cs eq_refl) ltac:(discriminate) Fl ex_heap_ok ex_heap_ok) as B.
  rewrite E in A. rewrite E3 in B. destruct (fit bk ex_sk ex_empty (with_column 0 cs mx_X) mx_y rs) as [s2| |] eqn:E2; try contradiction.
  destruct (ob_fit bk ex_sk ex_empty (with_column 0 cs mx_X) mx_y rs') as [s4| |] eqn:E4; try contradiction.
  exists rs, rs', s1, s2, s3, s4. repeat match goal with |- _ /\ _ => split; [assumption || reflexivity|] end.
  destruct A as (_&A&_). apply same_eq', A; [now apply F|repeat constructor; discriminate].
Qed.
