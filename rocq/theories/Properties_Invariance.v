(** Properties C51, C67, C68 and C73: see /verif/properties.jsonl. *)
From Coq Require Import Reals Lra Lia ZArith QArith Qcanon.
From Verif Require Import Base Fl Ext MData MSplit MTree MSampler MModel MModelHist MSklearn Spec SpecModel SpecSklearn SpecInvariance.
From Verif Require Import PRel PRel2 PRel3 PInvar PSklearn Properties_Model Properties_Model2 Properties_Sklearn.
Local Open Scope R_scope.

(** ** C51: the target in other units *)
(** With the same draws, fitting [a + b*y] with [b > 0] in place of [y] ends the same way (returns, or raises
    the same exception), takes the same accept/reject decisions and draws the same normalised sigmas, and every
    prediction [v], in-sample or for any matrix, becomes [a + b*v]. *)
Theorem C51_affine : forall a b bk s h h' X y rs, 0 < b -> heap_ok h -> heap_ok h' ->
  same_outcome (follows (fun v => a + b * v) (fun X' => X')) (fit bk s h X y rs) (fit bk s h' X (affine a b y) rs).
Proof.
  intros a b bk s h h' X y rs Hb W W'.
  pose proof (fit_follow idc ltac:(auto) ltac:(auto) ltac:(auto) ltac:(auto) ltac:(auto) (rho_up a b) eq_refl 1 ltac:(ring) X y (affine a b y)
    (convert_affine_up a b X y Hb) (g a b) (fun d v _ => units_up a b (d_y d) v) bk bk s s h h' rs W W' ltac:(repeat split)) as H.
  now rewrite tX_idc, trgs_1 in H.
Qed.
Print Assumptions C51_affine.
(** a change of units that reverses the order, with the sign of every normal draw reversed (the draws are
    symmetric about 0) *)
Theorem C51_reflected : forall a b bk s h h' X y rs, b < 0 -> heap_ok h -> heap_ok h' ->
  same_outcome (follows (fun v => a + b * v) (fun X' => X')) (fit bk s h X y rs) (fit bk s h' X (affine a b y) (map mirrored rs)).
Proof.
  intros a b bk s h h' X y rs Hb W W'.
  pose proof (fit_follow idc ltac:(auto) ltac:(auto) ltac:(auto) ltac:(auto) ltac:(auto) (rho_dn a b) eq_refl (-1) ltac:(ring) X y (affine a b y)
    (convert_affine_dn a b X y Hb) (g a b) (fun d v _ => units_dn a b (d_y d) v) bk bk s s h h' rs W W' ltac:(repeat split)) as H.
  now rewrite tX_idc, <- mirrored_trg in H.
Qed.
Print Assumptions C51_reflected.
(** with [b = 0] the target is constant and no fit succeeds *)
Theorem C51_degenerate : forall a bk s h X y rs s', fit bk s h X (affine a 0 y) rs <> Ok s'.
Proof.
  intros a bk s h X y rs s' H. unfold fit, construct_model in H. destruct (_ || _); [discriminate|].
  destruct (convert_to_data X (affine a 0 y)) as [d| |] eqn:E; try discriminate. clear H. unfold convert_to_data, make_data in E.
  destruct (make_target _ _ true None) as [t| |] eqn:Et; try discriminate. clear E. unfold make_target in Et. destruct y as [|v y]; [discriminate|].
  assert (Hm : forall op l, (forall x, op x x = x) -> fold_left op (affine a 0 l) (a + 0 * v) = a + 0 * v).
  { intros op l Hop. induction l as [|z l IH]; simpl; auto. replace (a + 0 * z) with (a + 0 * v) by ring. now rewrite Hop. }
  cbn [affine map] in Et. fold (affine a 0 y) in Et. unfold normalize_y, vmin, vmax in Et. rewrite !Hm in Et by (intros x; unfold Rmin, Rmax; destruct (Rle_dec x x); auto).
  cbn [map finite_vec] in Et. unfold xdiv in Et. destruct (Req_EM_T (a + 0 * v - (a + 0 * v)) 0) as [_|N]; [|exfalso; apply N; ring].
  destruct (rsign _); cbn [xadd xfin] in Et; discriminate.
Qed.
Print Assumptions C51_degenerate.

Lemma ex_heap_ok : heap_ok ex_empty.
Proof. intros j _. reflexivity. Qed.
(** a fit of three rows whose target is also given in other units, and reversed *)
Example C51_case : forall bk, exists rs s1 s2 s3, length rs = 2%nat /\ fit bk ex_sk ex_empty mx_X mx_y rs = Ok s1 /\
  fit bk ex_sk ex_empty mx_X (affine 32 (9/5) mx_y) rs = Ok s2 /\ follows (fun v => 32 + 9/5 * v) (fun X => X) s1 s2 /\
  fit bk ex_sk ex_empty mx_X (affine 1 (-2) mx_y) (map mirrored rs) = Ok s3 /\ follows (fun v => 1 + -2 * v) (fun X => X) s1 s3.
Proof.
  intros bk. destruct (ex_fit bk) as (rs&s1&Hl&E). exists rs, s1.
  pose proof (C51_affine 32 (9/5) bk ex_sk ex_empty ex_empty mx_X mx_y rs ltac:(lra) ex_heap_ok ex_heap_ok) as A.
  pose proof (C51_reflected 1 (-2) bk ex_sk ex_empty ex_empty mx_X mx_y rs ltac:(lra) ex_heap_ok ex_heap_ok) as B.
  rewrite E in A, B. destruct (fit bk ex_sk ex_empty mx_X (affine 32 (9/5) mx_y) rs) as [s2| |]; try contradiction.
  destruct (fit bk ex_sk ex_empty mx_X (affine 1 (-2) mx_y) (map mirrored rs)) as [s3| |]; try contradiction. exists s2, s3. auto 10.
Qed.

(** ** C67: only the order of the covariate values matters *)
(** Recoding the finite values of every column by a strictly increasing function, in the training matrix and in
    every matrix predicted for, changes nothing: same outcome, same decisions, same sigmas, same predictions. *)
Theorem C67_monotone_recoding : forall psi bk s h h' X y rs, strictly_increasing psi -> heap_ok h -> heap_ok h' ->
  same_outcome (follows (fun v => v) (recode psi)) (fit bk s h X y rs) (fit bk s h' (recode psi X) y rs).
Proof.
  intros psi bk s h h' X y rs Hp W W'.
  pose proof (fit_follow (recode_cell psi) ltac:(auto) ltac:(auto) ltac:(auto) (recode_lt psi Hp) (recode_eq psi Hp) idr eq_refl 1 ltac:(ring) X y y
    (convert_recode (recode_cell psi) X y) (fun v => v) (fun d v _ => units_id d v) bk bk s s h h' rs W W' ltac:(repeat split)) as H.
  now rewrite trgs_1 in H.
Qed.
Print Assumptions C67_monotone_recoding.
(** a fit of data in which nothing varies (first row aside) never succeeds *)
Theorem C66_constant_fit_stuck : forall bk s h X y rs s', no_nan X -> length y = length (mx_rows X) -> sane_params (sk_par s) ->
  (0 < sk_nburn s + sk_nsamples s)%nat -> ~ varies X -> fit bk s h X y rs <> Ok s'.
Proof.
  intros bk s h X y rs s' Hn Hl Hp Hk Hv Hf. assert (Hx : mx_rows X <> []).
  { unfold fit in Hf. destruct (construct_model s h X y) as [s1| |] eqn:Ec; try discriminate. now destruct (construct_spec _ _ _ _ _ Ec). }
  destruct (fit_spec _ _ _ _ _ _ _ Hn Hl Hf) as (d&m&es&_&_&_&_&_&_&Hne&_&HF&_).
  destruct HF as [|e r es' rs' Hran _]; [congruence|]. destruct Hran as (hs&m0&m'&r'&kept&Hm0&Hsm&_).
  assert (Hr : model_reached X y true hs 1 (sk_par s) [] m0) by (split; auto; split; [constructor|]; exists m0; split; auto).
  assert (Hstuck : forall r0 q, gibbs_step m0 r0 <> Ok q).
  { intros r0 q. destruct (C66_constant_data_stuck X y true hs 1 (sk_par s) [] m0 r0 Hn Hx Rlt_0_1 Hp (Forall_nil _) Hr Hv) as [->| ->]; discriminate. }
  revert Hsm. unfold samples. destruct (sk_nburn s) as [|nb]; simpl.
  - destruct (sk_thin s) as [|num den]; [discriminate|]. destruct (sk_nsamples s) as [|n]; [lia|]. simpl. unfold sample_iter.
    destruct (gibbs_step m0 r) as [q| |] eqn:E; try discriminate. now apply Hstuck in E.
  - destruct (gibbs_step m0 r) as [q| |] eqn:E; try discriminate. now apply Hstuck in E.
Qed.
Print Assumptions C66_constant_fit_stuck.
(** For C67, being non-decreasing would not be enough: values made equal cannot be separated any more. *)
Definition collapse : nat -> Qc -> Qc := fun _ _ => 0%Qc.
Theorem C67_non_strict_refuted : exists bk s X y rs, (forall v a b, (a <= b)%Qc -> (collapse v a <= collapse v b)%Qc) /\
  ~ same_outcome (follows (fun v => v) (recode collapse)) (fit bk s ex_empty X y rs) (fit bk s ex_empty (recode collapse X) y rs).
Proof.
  destruct (ex_fit ThisProcess) as (rs&s1&_&E). exists ThisProcess, ex_sk, mx_X, mx_y, rs. split; [intros; apply Qcle_refl|].
  rewrite E. destruct (fit ThisProcess ex_sk ex_empty (recode collapse mx_X) mx_y rs) as [s2| |] eqn:E2; [|simpl; auto|simpl; auto]. exfalso. revert E2.
  apply C66_constant_fit_stuck; [|reflexivity|exact mx_sane|simpl; lia|].
  - intros r v Hr Hv. simpl in Hr, Hv. assert (v = 0)%nat as -> by lia. destruct Hr as [<-|[<-|[<-|[]]]]; discriminate.
  - intros (v&i&j&Hv&Hi&Hj&H). apply H. simpl in Hv, Hi, Hj. assert (v = 0)%nat as -> by lia.
    destruct i as [|[|[|i]]], j as [|[|[|j]]]; try reflexivity; lia.
Qed.
Print Assumptions C67_non_strict_refuted.
Lemma cube_up : strictly_increasing (fun _ q => q * q * q + 1)%Qc.
Proof.
  intros _ a b. unfold Qclt. intros H. change (this (a*a*a+1)%Qc) with (Qred (Qred (Qred (a*a) * a) + 1)). change (this (b*b*b+1)%Qc) with (Qred (Qred (Qred (b*b) * b) + 1)).
  rewrite !Qred_correct. generalize dependent (this a). generalize dependent (this b). intros q p H.
  assert (0 < q - p)%Q by Lqa.lra. assert (0 < q*q + q*p + p*p)%Q; [|Lqa.nra].
  assert (0 < (q - p) * (q - p))%Q by Lqa.nra.
  assert (0 <= (q + p) * (q + p))%Q by (destruct (Qlt_le_dec 0 (q + p)); Lqa.nra). Lqa.nra.
Qed.
Example C67_case : forall bk, let psi := fun (_ : nat) (q : Qc) => (q * q * q + 1)%Qc in exists rs s1 s2, length rs = 2%nat /\
  recode psi mx_X <> mx_X /\
  fit bk ex_sk ex_empty mx_X mx_y rs = Ok s1 /\ fit bk ex_sk ex_empty (recode psi mx_X) mx_y rs = Ok s2 /\ follows (fun v => v) (recode psi) s1 s2.
Proof.
  intros bk psi. destruct (ex_fit bk) as (rs&s1&Hl&E). exists rs, s1.
  pose proof (C67_monotone_recoding psi bk ex_sk ex_empty ex_empty mx_X mx_y rs cube_up ex_heap_ok ex_heap_ok) as A. rewrite E in A.
  destruct (fit bk ex_sk ex_empty (recode psi mx_X) mx_y rs) as [s2| |]; try contradiction. exists s2.
  split; auto. split; [|auto]. intros F. apply (f_equal (fun X => match mx_rows X with (FFin q :: _) :: _ => Qeq_bool (this q) 1 | _ => true end)) in F. vm_compute in F. discriminate.
Qed.

(** ** C68: where the chains run does not matter *)
(** Worker processes and the calling process give estimators that predict the same, store the same acceptance
    traces and the same sigmas, and fail in the same way. *)
Theorem C68_backend : forall b b' s h h' X y rs, heap_ok h -> heap_ok h' ->
  same_outcome (follows (fun v => v) (fun X' => X')) (fit b s h X y rs) (fit b' s h' X y rs).
Proof.
  intros b b' s h h' X y rs W W'.
  pose proof (fit_follow idc ltac:(auto) ltac:(auto) ltac:(auto) ltac:(auto) ltac:(auto) idr eq_refl 1 ltac:(ring) X y y
    (convert_recode idc X y) (fun v => v) (fun d v _ => units_id d v) b b' s s h h' rs W W' ltac:(repeat split)) as H.
  now rewrite tX_idc, trgs_1 in H.
Qed.
Print Assumptions C68_backend.
Example C68_case : exists rs s1 s2, length rs = 2%nat /\ fit Processes ex_sk ex_empty mx_X mx_y rs = Ok s1 /\ fit ThisProcess ex_sk ex_empty mx_X mx_y rs = Ok s2 /\
  follows (fun v => v) (fun X => X) s1 s2.
Proof.
  destruct (ex_fit Processes) as (rs&s1&Hl&E). exists rs, s1. pose proof (C68_backend Processes ThisProcess ex_sk ex_empty ex_empty mx_X mx_y rs ex_heap_ok ex_heap_ok) as A.
  rewrite E in A. destruct (fit ThisProcess ex_sk ex_empty mx_X mx_y rs) as [s2| |]; try contradiction. eauto 10.
Qed.

(** ** C73: fitting again starts afresh *)
(** An estimator that was already fitted, to whatever data and with whatever draws, behaves on the next fit like
    a new one with the same settings, whatever else lives in memory. *)
Theorem C73_refit : forall b b0 s h0 X0 y0 rs0 s1 h h' X y rs, heap_ok h -> heap_ok h' -> no_nan X0 -> length y0 = length (mx_rows X0) ->
  fit b0 s h0 X0 y0 rs0 = Ok s1 ->
  same_outcome (follows (fun v => v) (fun X' => X')) (fit b s h X y rs) (fit b s1 h' X y rs).
Proof.
  intros b b0 s h0 X0 y0 rs0 s1 h h' X y rs W W' Hn Hl Hf.
  assert (Hs : same_settings s s1).
  { destruct (fit_spec _ _ _ _ _ _ _ Hn Hl Hf) as (d&m&es&_&_&_&_&Hset&_). apply settings_fields in Hset. unfold same_settings. tauto. }
  pose proof (fit_follow idc ltac:(auto) ltac:(auto) ltac:(auto) ltac:(auto) ltac:(auto) idr eq_refl 1 ltac:(ring) X y y
    (convert_recode idc X y) (fun v => v) (fun d v _ => units_id d v) b b s s1 h h' rs W W' Hs) as H.
  now rewrite tX_idc, trgs_1 in H.
Qed.
Print Assumptions C73_refit.
Example C73_case : exists rs0 s1 rs s2 s3, fit ThisProcess ex_sk ex_empty mx_X (affine 5 3 mx_y) rs0 = Ok s1 /\
  fit ThisProcess ex_sk ex_empty mx_X mx_y rs = Ok s2 /\ fit ThisProcess s1 ex_empty mx_X mx_y rs = Ok s3 /\ follows (fun v => v) (fun X => X) s2 s3.
Proof.
  destruct (ex_fit ThisProcess) as (rs&s2&Hl&E).
  pose proof (C51_affine 5 3 ThisProcess ex_sk ex_empty ex_empty mx_X mx_y rs ltac:(lra) ex_heap_ok ex_heap_ok) as A. rewrite E in A.
  destruct (fit ThisProcess ex_sk ex_empty mx_X (affine 5 3 mx_y) rs) as [s1| |] eqn:E1; try contradiction.
  pose proof (C73_refit ThisProcess ThisProcess ex_sk ex_empty mx_X (affine 5 3 mx_y) rs s1 ex_empty ex_empty mx_X mx_y rs ex_heap_ok ex_heap_ok mx_no_nan eq_refl E1) as B.
  rewrite E in B. destruct (fit ThisProcess s1 ex_empty mx_X mx_y rs) as [s3| |] eqn:E3; try contradiction. exists rs, s1, rs, s2, s3. auto.
Qed.
