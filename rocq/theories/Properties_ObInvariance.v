(** Property C94: what C51, C67, C68 and C73 say of fits, for estimators whose tree sampler is the one of
    bartpy/samplers/oblivioustrees. *)
From Coq Require Import Reals Lra Lia ZArith QArith Qcanon.
From Verif Require Import Base Fl Ext MData MSplit MTree MSampler MModel MModelHist MSklearn MOblivious MObModel MObSklearn Spec SpecModel SpecSklearn SpecInvariance SpecOblivious SpecObModel SpecObSklearn.
From Verif Require Import PRel PRel2 PRel3 PInvar PObRel PObRel2 PSklearn PObSklearn Properties_Model Properties_Model2 Properties_Sklearn Properties_Invariance Properties_ObSklearn.
Local Open Scope R_scope.

(** ** the target in other units *)
(** [a + b*y] with [b > 0] and the same draws: same outcome, same decisions, same sigmas, every prediction [v] becomes [a + b*v] *)
Theorem C94_affine : forall a b bk s h h' X y rs, 0 < b -> heap_ok h -> heap_ok h' ->
  same_outcome (follows (fun v => a + b * v) (fun X' => X')) (ob_fit bk s h X y rs) (ob_fit bk s h' X (affine a b y) rs).
Proof.
  intros a b bk s h h' X y rs Hb W W'.
  pose proof (ob_fit_follow idc ltac:(auto) ltac:(auto) ltac:(auto) ltac:(auto) ltac:(auto) (rho_up a b) eq_refl 1 ltac:(ring) X y (affine a b y)
    (convert_affine_up a b X y Hb) (g a b) (fun d v _ => units_up a b (d_y d) v) bk bk s s h h' rs W W' ltac:(repeat split)) as H.
  now rewrite tX_idc, trgs_1 in H.
Qed.
Print Assumptions C94_affine.
(** [b < 0], with the sign of every normal draw reversed *)
Theorem C94_reflected : forall a b bk s h h' X y rs, b < 0 -> heap_ok h -> heap_ok h' ->
  same_outcome (follows (fun v => a + b * v) (fun X' => X')) (ob_fit bk s h X y rs) (ob_fit bk s h' X (affine a b y) (map mirrored rs)).
Proof.
  intros a b bk s h h' X y rs Hb W W'.
  pose proof (ob_fit_follow idc ltac:(auto) ltac:(auto) ltac:(auto) ltac:(auto) ltac:(auto) (rho_dn a b) eq_refl (-1) ltac:(ring) X y (affine a b y)
    (convert_affine_dn a b X y Hb) (g a b) (fun d v _ => units_dn a b (d_y d) v) bk bk s s h h' rs W W' ltac:(repeat split)) as H.
  now rewrite tX_idc, <- mirrored_trg in H.
Qed.
Print Assumptions C94_reflected.

(** ** only the order of the covariate values matters *)
Theorem C94_monotone_recoding : forall psi bk s h h' X y rs, strictly_increasing psi -> heap_ok h -> heap_ok h' ->
  same_outcome (follows (fun v => v) (recode psi)) (ob_fit bk s h X y rs) (ob_fit bk s h' (recode psi X) y rs).
Proof.
  intros psi bk s h h' X y rs Hp W W'.
  pose proof (ob_fit_follow (recode_cell psi) ltac:(auto) ltac:(auto) ltac:(auto) (recode_lt psi Hp) (recode_eq psi Hp) idr eq_refl 1 ltac:(ring) X y y
    (convert_recode (recode_cell psi) X y) (fun v => v) (fun d v _ => units_id d v) bk bk s s h h' rs W W' ltac:(repeat split)) as H.
  now rewrite trgs_1 in H.
Qed.
Print Assumptions C94_monotone_recoding.

(** ** where the chains run does not matter *)
Theorem C94_backend : forall b b' s h h' X y rs, heap_ok h -> heap_ok h' ->
  same_outcome (follows (fun v => v) (fun X' => X')) (ob_fit b s h X y rs) (ob_fit b' s h' X y rs).
Proof.
  intros b b' s h h' X y rs W W'.
  pose proof (ob_fit_follow idc ltac:(auto) ltac:(auto) ltac:(auto) ltac:(auto) ltac:(auto) idr eq_refl 1 ltac:(ring) X y y
    (convert_recode idc X y) (fun v => v) (fun d v _ => units_id d v) b b' s s h h' rs W W' ltac:(repeat split)) as H.
  now rewrite tX_idc, trgs_1 in H.
Qed.
Print Assumptions C94_backend.

(** ** fitting again starts afresh *)
Lemma construct_settings s h X y s1 : construct_model s h X y = Ok s1 -> same_settings s s1.
Proof.
  rewrite construct_eq. destruct (_ || _); [discriminate|]. destruct (convert_to_data X y); try discriminate. cbn [rbind].
  destruct (make_model _ _ _ _); try discriminate. cbn [rbind]. intros [= <-]. repeat split.
Qed.
Lemma same_settings_trans s1 s2 s3 : same_settings s1 s2 -> same_settings s2 s3 -> same_settings s1 s3.
Proof. unfold same_settings. intuition congruence. Qed.
Lemma store_settings s es s1 : store_chains s es = Ok s1 -> same_settings s s1.
Proof. unfold store_chains. destruct (combine_chains es) as [[[ss ps] acs]| |]; try discriminate. cbn [rbind]. intros [= <-]. repeat split. Qed.
Lemma run_here_settings X y : forall n s h rs cs s1 h1, run_here n s h X y rs = Ok (cs, s1, h1) -> same_settings s s1.
Proof.
  induction n as [|n IH]; intros s h rs cs s1 h1; cbn [run_here]; [intros [= _ <- _]; repeat split|]. destruct rs as [|r rs]; [discriminate|].
  unfold run_chain. destruct (construct_model s h X y) as [s0| |] eqn:Ec; try discriminate. cbn [rbind]. apply construct_settings in Ec.
  destruct (sk_model s0); try discriminate. destruct (sk_data s0); try discriminate. destruct (samples _ _ _ _ _ _ _) as [[[c m1] r1]| |]; try discriminate. cbn [rbind].
  destruct (run_here n _ _ X y rs) as [[[cs' s2] h2]| |] eqn:E; try discriminate. cbn [rbind]. intros [= _ <- _]. apply IH in E.
  eapply same_settings_trans; [exact Ec|]. eapply same_settings_trans; [|exact E]. repeat split.
Qed.
Lemma ob_run_here_settings X y : forall n s h rs cs s1 h1, ob_run_here n s h X y rs = Ok (cs, s1, h1) -> same_settings s s1.
Proof.
  induction n as [|n IH]; intros s h rs cs s1 h1; cbn [ob_run_here]; [intros [= _ <- _]; repeat split|]. destruct rs as [|r rs]; [discriminate|].
  unfold ob_run_chain. destruct (construct_model s h X y) as [s0| |] eqn:Ec; try discriminate. cbn [rbind]. apply construct_settings in Ec.
  destruct (sk_model s0); try discriminate. destruct (sk_data s0); try discriminate. destruct (ob_samples _ _ _ _ _ _ _) as [[[c m1] r1]| |]; try discriminate. cbn [rbind].
  destruct (ob_run_here n _ _ X y rs) as [[[cs' s2] h2]| |] eqn:E; try discriminate. cbn [rbind]. intros [= _ <- _]. apply IH in E.
  eapply same_settings_trans; [exact Ec|]. eapply same_settings_trans; [|exact E]. repeat split.
Qed.
Lemma fit_settings b s h X y rs s1 : fit b s h X y rs = Ok s1 -> same_settings s s1.
Proof.
  unfold fit. destruct (construct_model s h X y) as [s0| |] eqn:Ec; try discriminate. cbn [rbind]. apply construct_settings in Ec. destruct (sk_model s0); try discriminate.
  destruct b.
  - destruct (run_processes _ _); try discriminate. cbn [rbind]. intros E. apply store_settings in E. eapply same_settings_trans; eauto.
  - destruct (run_here _ _ _ _ _ _) as [[[cs s2] h2]| |] eqn:Er; try discriminate. cbn [rbind]. intros E. apply store_settings in E. apply run_here_settings in Er.
    eapply same_settings_trans; [exact Ec|]. eapply same_settings_trans; eauto.
Qed.
Lemma ob_fit_settings b s h X y rs s1 : ob_fit b s h X y rs = Ok s1 -> same_settings s s1.
Proof.
  unfold ob_fit. destruct (construct_model s h X y) as [s0| |] eqn:Ec; try discriminate. cbn [rbind]. apply construct_settings in Ec. destruct (sk_model s0); try discriminate.
  destruct b.
  - destruct (ob_run_processes _ _); try discriminate. cbn [rbind]. intros E. apply store_settings in E. eapply same_settings_trans; eauto.
  - destruct (ob_run_here _ _ _ _ _ _) as [[[cs s2] h2]| |] eqn:Er; try discriminate. cbn [rbind]. intros E. apply store_settings in E. apply ob_run_here_settings in Er.
    eapply same_settings_trans; [exact Ec|]. eapply same_settings_trans; eauto.
Qed.
(** [s'] is [s] after any number of completed fits, to any data (with NaNs or not), each with either tree sampler *)
Inductive fitted_before : sklearn -> sklearn -> Prop :=
| fb_new s : fitted_before s s
| fb_fit b s h X y rs s1 s2 : fit b s h X y rs = Ok s1 -> fitted_before s1 s2 -> fitted_before s s2
| fb_ob_fit b s h X y rs s1 s2 : ob_fit b s h X y rs = Ok s1 -> fitted_before s1 s2 -> fitted_before s s2.
Lemma fitted_before_settings s s' : fitted_before s s' -> same_settings s s'.
Proof.
  induction 1 as [|b s h X y rs s1 s2 E _ IH|b s h X y rs s1 s2 E _ IH]; [repeat split| |]; (eapply same_settings_trans; [|exact IH]); eauto using fit_settings, ob_fit_settings.
Qed.
Theorem C94_refit : forall b s s1 h h' X y rs, heap_ok h -> heap_ok h' -> fitted_before s s1 ->
  same_outcome (follows (fun v => v) (fun X' => X')) (ob_fit b s h X y rs) (ob_fit b s1 h' X y rs) /\
  same_outcome (follows (fun v => v) (fun X' => X')) (fit b s h X y rs) (fit b s1 h' X y rs).
Proof.
  intros b s s1 h h' X y rs W W' Hb. apply fitted_before_settings in Hb. split.
  - pose proof (ob_fit_follow idc ltac:(auto) ltac:(auto) ltac:(auto) ltac:(auto) ltac:(auto) idr eq_refl 1 ltac:(ring) X y y
      (convert_recode idc X y) (fun v => v) (fun d v _ => units_id d v) b b s s1 h h' rs W W' Hb) as H.
    now rewrite tX_idc, trgs_1 in H.
  - pose proof (fit_follow idc ltac:(auto) ltac:(auto) ltac:(auto) ltac:(auto) ltac:(auto) idr eq_refl 1 ltac:(ring) X y y
      (convert_recode idc X y) (fun v => v) (fun d v _ => units_id d v) b b s s1 h h' rs W W' Hb) as H.
    now rewrite tX_idc, trgs_1 in H.
Qed.
Print Assumptions C94_refit.

(** three rows, in other units, reversed, recoded, on the other backend, and by an estimator fitted with the ordinary sampler before *)
Example C94_case : forall bk, let psi := fun (_ : nat) (q : Qc) => (q * q * q + 1)%Qc in
  exists rs s1 s2 s3 s4 s5 s6 s7 rs0, ob_fit bk ex_sk ex_empty mx_X mx_y rs = Ok s1 /\
  ob_fit bk ex_sk ex_empty mx_X (affine 32 (9/5) mx_y) rs = Ok s2 /\ follows (fun v => 32 + 9/5 * v) (fun X => X) s1 s2 /\
  ob_fit bk ex_sk ex_empty mx_X (affine 1 (-2) mx_y) (map mirrored rs) = Ok s3 /\ follows (fun v => 1 + -2 * v) (fun X => X) s1 s3 /\
  ob_fit bk ex_sk ex_empty (recode psi mx_X) mx_y rs = Ok s4 /\ follows (fun v => v) (recode psi) s1 s4 /\
  ob_fit (match bk with Processes => ThisProcess | ThisProcess => Processes end) ex_sk ex_empty mx_X mx_y rs = Ok s5 /\ follows (fun v => v) (fun X => X) s1 s5 /\
  fit bk ex_sk ex_empty mx_X mx_y rs0 = Ok s6 /\ ob_fit bk s6 ex_empty mx_X mx_y rs = Ok s7 /\ follows (fun v => v) (fun X => X) s1 s7.
Proof.
  intros bk psi. destruct (ob_ex_fit bk) as (rs&s1&_&E). destruct (ex_fit bk) as (rs0&s6&_&E6).
  pose proof (C94_affine 32 (9/5) bk ex_sk ex_empty ex_empty mx_X mx_y rs ltac:(lra) ex_heap_ok ex_heap_ok) as A.
  pose proof (C94_reflected 1 (-2) bk ex_sk ex_empty ex_empty mx_X mx_y rs ltac:(lra) ex_heap_ok ex_heap_ok) as B.
  pose proof (C94_monotone_recoding psi bk ex_sk ex_empty ex_empty mx_X mx_y rs cube_up ex_heap_ok ex_heap_ok) as C.
  pose proof (C94_backend bk (match bk with Processes => ThisProcess | ThisProcess => Processes end) ex_sk ex_empty ex_empty mx_X mx_y rs ex_heap_ok ex_heap_ok) as D.
  destruct (C94_refit bk ex_sk s6 ex_empty ex_empty mx_X mx_y rs ex_heap_ok ex_heap_ok (fb_fit _ _ _ _ _ _ _ _ E6 (fb_new s6))) as [F _].
  rewrite E in A, B, C, D, F.
  destruct (ob_fit bk ex_sk ex_empty mx_X (affine 32 (9/5) mx_y) rs) as [s2| |] eqn:Es2; try contradiction.
  destruct (ob_fit bk ex_sk ex_empty mx_X (affine 1 (-2) mx_y) (map mirrored rs)) as [s3| |] eqn:Es3; try contradiction.
  destruct (ob_fit bk ex_sk ex_empty (recode psi mx_X) mx_y rs) as [s4| |] eqn:Es4; try contradiction.
  destruct (ob_fit (match bk with Processes => _ | ThisProcess => _ end) ex_sk ex_empty mx_X mx_y rs) as [s5| |] eqn:Es5; try contradiction.
  destruct (ob_fit bk s6 ex_empty mx_X mx_y rs) as [s7| |] eqn:Es7; try contradiction.
  exists rs, s1, s2, s3, s4, s5, s6, s7, rs0. repeat match goal with |- _ /\ _ => split; [assumption || reflexivity|] end. assumption.
Qed.
