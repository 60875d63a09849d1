(** C111: the likelihood ratio of a split, and the decision it leads to, in double precision. *)
From Coq Require Import ZArith Reals List Lra Lia Psatz.
From Flocq Require Import Core.Core IEEE754.BinarySingleNaN.
From Verif Require Import Base Ext MData MTree MSampler PSampler MFloat MFloat2 MFloat3 MFloat4 SpecDouble SpecDouble3 SpecDouble4 PFloat PFloat2 PFloat3 PFloat5 PFloat6 PFloat7 PFloat8 PFloat10 PFloat11
  Properties_Double Properties_Drift Properties_Double2 Properties_Double3.
Import ListNotations.
Local Open Scope R_scope.

(** The computed log likelihood ratio is finite and accurate, relatively to the size of the numbers it is added up from. *)
Theorem C111_accurate : forall sigma tau n nl nr s sl sr r k kl kr,
  moderate sigma -> moderate tau -> counts n k -> counts nl kl -> counts nr kr ->
  finite s -> finite sl -> finite sr -> Rabs (val s) <= bpow radix2 100 -> Rabs (val sl) <= bpow radix2 100 -> Rabs (val sr) <= bpow radix2 100 ->
  likelihood_f sigma tau n nl nr s sl sr r ->
  finite r /\
  Rabs (val r - exact_ratio (val sigma) (val tau) (INR k) (INR kl) (INR kr) (val s) (val sl) (val sr)) <=
    bpow radix2 (-47) * ratio_size (val sigma) (val tau) (INR k) (INR kl) (INR kr) (val s) (val sl) (val sr).
Proof.
  intros sigma tau n nl nr s sl sr r k kl kr H1 H2 H3 H4 H5 H6 H7 H8 H9 HA HB L.
  destruct (ratio_accuracy _ _ _ _ _ _ _ _ _ _ _ _ H1 H2 (counts_any _ _ H3) (counts_any _ _ H4) (counts_any _ _ H5) H6 H7 H8 H9 HA HB L) as (F & E & _). auto.
Qed.

(** The exact ratio is the one of the model with exact numbers (C33 to C35). *)
Theorem C111_exact_model : forall sigma tau n nl nr s sl sr, 0 < sigma -> 0 < tau ->
  log_grow_ratio (Z.of_nat n) (Z.of_nat nl) (Z.of_nat nr) s sl sr sigma (XFin tau) = XFin (exact_ratio sigma tau (INR n) (INR nl) (INR nr) s sl sr).
Proof.
  intros sigma tau n nl nr s sl sr Hs Ht. rewrite log_grow_ratio_fin by auto. f_equal. unfold grow_val, exact_ratio, counts_part, sums_part, weight. ring.
Qed.

(** The decision is the one of exact arithmetic, unless the draw is within the error of the ratio: [a] and [c] are the
    transition ratio and the tree ratio as computed, [w] is the draw. *)
Theorem C111_decision : forall (grow : bool) a c w sigma tau n nl nr s sl sr r k kl kr,
  moderate sigma -> moderate tau -> counts n k -> counts nl kl -> counts nr kr ->
  finite s -> finite sl -> finite sr -> Rabs (val s) <= bpow radix2 100 -> Rabs (val sl) <= bpow radix2 100 -> Rabs (val sr) <= bpow radix2 100 ->
  finite a -> finite c -> finite w -> Rabs (val a) <= bpow radix2 800 -> Rabs (val c) <= bpow radix2 800 ->
  likelihood_f sigma tau n nl nr s sl sr r ->
  let exact := exact_ratio (val sigma) (val tau) (INR k) (INR kl) (INR kr) (val s) (val sl) (val sr) in
  let total := val a + (if grow then exact else - exact) + val c in
  let error := bpow radix2 (-46) * (ratio_size (val sigma) (val tau) (INR k) (INR kl) (INR kr) (val s) (val sl) (val sr) + Rabs (val a) + Rabs (val c)) in
  (val w < total - error -> accepted_f w grow a r c = true) /\ (total + error < val w -> accepted_f w grow a r c = false).
Proof. intros. eapply decision; eauto using counts_any. Qed.

(** Once the square of sigma is below the smallest double no split is accepted, whatever the targets and the draw ... *)
Theorem C111_vanishing_grow : forall a c w sigma tau n nl nr s sl sr r k kl kr,
  counts n k -> counts nl kl -> counts nr kr -> finite sigma -> Rabs (val sigma) < bpow radix2 (-538) -> moderate tau ->
  likelihood_f sigma tau n nl nr s sl sr r -> (nan r \/ r = B754_infinity true) /\ accepted_f w true a r c = false.
Proof.
  intros a c w sigma tau n nl nr s sl sr r k kl kr Cn Cl Cr F B M L. destruct (ratio_vanishing _ _ _ _ _ _ _ _ _ _ _ _ Cn Cl Cr F B M L) as (H & _).
  split; [destruct H as [->| ->]; [left; reflexivity|now right]|now apply grow_rejected].
Qed.
(** ... and a split is undone exactly if, as computed, the node's own sum fits better than those of the two below it. *)
Theorem C111_vanishing_prune : forall a c w sigma tau n nl nr s sl sr r k kl kr,
  counts n k -> counts nl kl -> counts nr kr -> finite sigma -> Rabs (val sigma) < bpow radix2 (-538) -> moderate tau ->
  finite a -> finite c -> finite w -> likelihood_f sigma tau n nl nr s sl sr r ->
  accepted_f w false a r c = fless (fsub (fadd (fdiv (fmul sl sl) (fmul nl tau)) (fdiv (fmul sr sr) (fmul nr tau))) (fdiv (fmul s s) (fmul n tau))) (B754_zero false).
Proof.
  intros a c w sigma tau n nl nr s sl sr r k kl kr Cn Cl Cr F B M Fa Fc Fw L. destruct (ratio_vanishing _ _ _ _ _ _ _ _ _ _ _ _ Cn Cl Cr F B M L) as (H & K).
  destruct (t_ok _ M) as (Nt & Ft & Bt).
  assert (Z : forall m j, counts m j -> fadd (B754_zero false) (fmul m tau) = fmul m tau).
  { intros m j C. destruct (n_ok _ _ C) as (Nm & Fm & Bm). pose proof (between_mul _ _ _ _ _ _ Bm Bt) as P. cbn in P.
    destruct (near_fmul _ _ _ _ _ _ Nm Nt Fm Ft ltac:(lia)) as (Np & Fp); [bw P|]. exact (zero_add _ _ _ Np Fp). }
  unfold resps_f, resp_f in K. rewrite (Z _ _ Cn), (Z _ _ Cl), (Z _ _ Cr) in K.
  destruct H as [->| ->].
  - rewrite rejected_nan. symmetry. apply Bool.not_true_iff_false. intros E. apply K in E. discriminate.
  - rewrite prune_accepted by auto. symmetry. now apply K.
Qed.
(** Once the square of sigma overflows, or sigma is infinite, nothing is accepted any more; *)
Theorem C111_exploding : forall (grow : bool) a c w sigma tau n nl nr s sl sr r k kl kr,
  counts n k -> counts nl kl -> counts nr kr -> ~ nan sigma -> (finite sigma -> bpow radix2 512 <= Rabs (val sigma)) -> finite tau -> 0 < val tau ->
  likelihood_f sigma tau n nl nr s sl sr r -> nan r /\ accepted_f w grow a r c = false.
Proof. intros. assert (r = B754_nan) by (eapply (ratio_exploding sigma tau n nl nr); eauto). subst. split; [reflexivity|apply rejected_nan]. Qed.
(** and neither if one of the sums, sigma or the prior spread is NaN. *)
Theorem C111_missing : forall (grow : bool) a c w sigma tau n nl nr s sl sr r, nan s \/ nan sl \/ nan sr \/ nan sigma \/ nan tau ->
  likelihood_f sigma tau n nl nr s sl sr r -> nan r /\ accepted_f w grow a r c = false.
Proof. intros gr a c w sigma tau n nl nr s sl sr r H L. rewrite (ratio_nan _ _ _ _ _ _ _ _ _ H L). split; [reflexivity|apply rejected_nan]. Qed.
Theorem C111_value_exists : forall sigma tau n nl nr s sl sr, exists r, likelihood_f sigma tau n nl nr s sl sr r.
Proof.
  intros. destruct (log_exists (first_f (fmul sigma sigma) (fmul tau tau) tau n nl nr)) as (lf & L).
  eexists. exists (fmul sigma sigma), (fmul tau tau), lf. repeat split; auto using square_exists.
Qed.

(** Two rows with targets -1 and 1, sigma 2^-600: in exact arithmetic the split is accepted for every draw below 1, as C85
    has it, in double precision it never is. *)
Lemma counts_1 : counts d1 1.
Proof. unfold counts. rewrite (val_d1 : val d1 = 1). pose proof two52. repeat split; auto; cbn; lra. Qed.
Lemma counts_2 : counts d2 2.
Proof. unfold counts. rewrite val_d2. pose proof two52. repeat split; auto; cbn; lra. Qed.
Lemma moderate_1 : moderate d1.
Proof.
  unfold moderate. rewrite (val_d1 : val d1 = 1). assert (1 <= bpow radix2 100) by (change 1 with (bpow radix2 0); apply bpow_le; lia). assert (bpow radix2 (-100) <= 1) by (change 1 with (bpow radix2 0); apply bpow_le; lia). split; [reflexivity|lra].
Qed.
Lemma tiny_sigma q : 0 < q <= / 1024 -> forall b, (2 <= b <= 2000)%Z -> bpow radix2 (- b) <= q -> q * IZR b <= / 8 -> 1 < ln (sqrt (q * (q + 2) / ((q + 1) * (q + 1)))) + (1 / (2 * q) * (1 / (q + 1)) + 1 / (2 * q) * (1 / (q + 1))).
Proof.
  intros Hq b Hb B1 B2. set (x := q * (q + 2) / ((q + 1) * (q + 1))).
  assert (X : between (- b) b x).
  { unfold x. split.
    - eapply Rle_trans; [exact B1|]. apply (Rmult_le_reg_r ((q + 1) * (q + 1))); [nra|]. unfold Rdiv. rewrite Rmult_assoc, Rinv_l, Rmult_1_r by nra. nra.
    - apply Rle_trans with 1; [|change 1 with (bpow radix2 0); apply bpow_le; lia]. apply (Rmult_le_reg_r ((q + 1) * (q + 1))); [nra|]. unfold Rdiv. rewrite Rmult_assoc, Rinv_l, Rmult_1_r by nra. nra. }
  assert (L : Rabs (ln (sqrt x)) <= IZR b).
  { apply ln_between; [lia|]. assert (Y : between (2 * - b) (2 * b) x) by (apply (between_weaken (- b) b); auto; lia). pose proof (between_sqrt _ _ _ Y) as W. exact W. }
  apply abs_interval in L. assert (2 <= IZR b) by (apply IZR_le; lia).
  assert (I1 : / 2 <= / (q + 1)) by (apply Rinv_le; lra).
  assert (I2 : 0 < / q) by (apply Rinv_0_lt_compat; lra).
  assert (I3 : 8 * IZR b <= / q). { apply (Rmult_le_reg_l q); [lra|]. rewrite Rinv_r by lra. lra. }
  replace (1 / (2 * q) * (1 / (q + 1)) + 1 / (2 * q) * (1 / (q + 1))) with (/ q * / (q + 1)) by (field; lra).
  assert (/ q * / 2 <= / q * / (q + 1)) by (apply Rmult_le_compat_l; lra). lra.
Qed.
Theorem C111_vanishing_refuted : exists sigma,
  finite sigma /\ 0 < val sigma /\
  1 < exact_ratio (val sigma) (val d1) 2 1 1 (val (fadd dm1 d1)) (val dm1) (val d1) /\
  (forall r, likelihood_f sigma d1 d2 d1 d1 (fadd dm1 d1) dm1 d1 r -> forall a c w, accepted_f w true a r c = false).
Proof.
  exists d_m600. assert (V : val d_m600 = bpow radix2 (-600)) by (unfold d_m600; rewrite val_pow, p52, <- bpow_plus; reflexivity).
  split; [reflexivity|]. split; [rewrite V; apply bpow_gt_0|]. split.
  - unfold exact_ratio, counts_part, sums_part, weight. rewrite V, (val_d1 : val d1 = 1). assert (Vm : val dm1 = -1) by (unfold val, dm1, d_of, B2R, F2R; cbn; lra).
    assert (V0 : val (fadd dm1 d1) = 0) by (cbv; reflexivity). rewrite Vm, V0, <- bpow_plus. change (-600 + -600)%Z with (-1200)%Z.
    set (q := bpow radix2 (-1200)).
    assert (Q : 0 < q <= / 1024) by (split; [apply bpow_gt_0|replace (/1024) with (bpow radix2 (-10)) by (cbn; lra); apply bpow_le; lia]).
    assert (B : q * IZR 1200 <= / 8).
    { apply Rle_trans with (bpow radix2 (-1200) * bpow radix2 11); [apply Rmult_le_compat_l; [apply bpow_ge_0|cbn; lra]|]. rewrite <- bpow_plus. replace (/8) with (bpow radix2 (-3)) by (cbn; lra). apply bpow_le. lia. }
    pose proof (tiny_sigma q Q 1200 ltac:(lia) ltac:(apply Rle_refl) B) as H. rewrite ?Rmult_1_r, ?Rmult_1_l. rewrite ?Rmult_1_r, ?Rmult_1_l in H. clearbody q.
    replace (-1 * -1) with 1 by ring. replace (0 * 0) with 0 by ring. unfold Rdiv in *. rewrite !Rmult_0_l, ?Rmult_0_r, ?Rmult_1_l in *. lra.
  - intros r L a c w. assert (B : Rabs (val d_m600) < bpow radix2 (-538)) by (rewrite V, Rabs_pos_eq by apply bpow_ge_0; apply bpow_lt; lia).
    exact (proj2 (C111_vanishing_grow a c w d_m600 d1 d2 d1 d1 _ _ _ r 2 1 1 counts_2 counts_1 counts_1 eq_refl B moderate_1 L)).
Qed.

(** three rows, one and two: all the hypotheses of [C111_accurate] and [C111_decision] hold *)
Lemma counts_3 : counts d3 3.
Proof. unfold counts. rewrite val_d3'. pose proof two52. repeat split; auto; cbn; lra. Qed.
Example C111_case : moderate d1 /\ counts d3 3 /\ counts d1 1 /\ counts d2 2 /\ finite d2 /\ finite dm1 /\ finite d3 /\
  Rabs (val d2) <= bpow radix2 100 /\ Rabs (val dm1) <= bpow radix2 100 /\ Rabs (val d3) <= bpow radix2 100 /\ Rabs (val d1) <= bpow radix2 800 /\
  exists r, likelihood_f d1 d1 d3 d1 d2 d2 dm1 d3 r.
Proof.
  split; [apply moderate_1|]. split; [apply counts_3|]. split; [apply counts_1|]. split; [apply counts_2|].
  assert (4 <= bpow radix2 100) by (change 4 with (bpow radix2 2); apply bpow_le; lia). assert (1 <= bpow radix2 800) by (change 1 with (bpow radix2 0); apply bpow_le; lia).
  rewrite val_d2, val_d3', (val_d1 : val d1 = 1). assert (Vm : val dm1 = -1) by (unfold val, dm1, d_of, B2R, F2R; cbn; lra). rewrite Vm.
  replace (Rabs (-1)) with 1 by (unfold Rabs; destruct (Rcase_abs (-1)); lra). rewrite !Rabs_pos_eq by lra. repeat split; auto; try lra. apply C111_value_exists.
Qed.
(** a sigma for [C111_vanishing_grow] and one for [C111_exploding] *)
Example C111_extremes : finite d_m600 /\ Rabs (val d_m600) < bpow radix2 (-538) /\ ~ nan d_p600 /\ bpow radix2 512 <= Rabs (val d_p600) /\
  (exists r, likelihood_f d_m600 d1 d3 d1 d2 d2 dm1 d3 r) /\ (exists r, likelihood_f d_p600 d1 d3 d1 d2 d2 dm1 d3 r).
Proof. destruct C108_extremes as (A & B & _ & C & D & _). repeat split; auto using C111_value_exists. Qed.

Print Assumptions C111_accurate.
Print Assumptions C111_exact_model.
Print Assumptions C111_decision.
Print Assumptions C111_vanishing_grow.
Print Assumptions C111_vanishing_prune.
Print Assumptions C111_exploding.
Print Assumptions C111_missing.
Print Assumptions C111_value_exists.
Print Assumptions C111_vanishing_refuted.
