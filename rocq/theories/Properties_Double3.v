(** C108: leaf draws in double precision.  C109: the scale of the gamma draw behind sigma. *)
From Coq Require Import ZArith Reals List Lra Lia Psatz Permutation.
From Flocq Require Import Core.Core IEEE754.BinarySingleNaN.
From Verif Require Import Base Ext MData MTree MSampler MFloat MFloat2 MFloat3 SpecDouble SpecDouble3 PFloat PFloat2 PFloat3 PFloat4 PFloat5 PFloat6 PFloat7 PFloat8 PFloat9
  Properties_Double Properties_Drift Properties_Double2.
Import ListNotations.
Local Open Scope R_scope.

(** ** C108 *)
(** The value drawn for a leaf is within a relative 2^-47 of what exact arithmetic gives for the same sums, sigma and draw. *)
Theorem C108_accurate : forall n nt s sigma sm z r k kt,
  counts n k -> counts nt kt -> finite s -> finite sigma -> finite sm -> finite z ->
  bpow radix2 (-200) <= val sigma <= bpow radix2 200 -> bpow radix2 (-200) <= val sm <= bpow radix2 200 ->
  Rabs (val s) <= bpow radix2 1000 -> Rabs (val z) <= bpow radix2 500 ->
  leaf_draw_f n nt s sigma sm z r ->
  finite r /\
  Rabs (val r - exact_leaf (INR k) (INR kt) (val s) (val sigma) (val sm) (val z)) <=
    bpow radix2 (-47) * (Rabs (posterior_mean (INR k) (val s) (val sigma) (val sm)) + Rabs (val z) * exact_spread (INR k) (INR kt) (val sigma) (val sm)) +
    bpow radix2 (-1071).
Proof. exact leaf_accuracy. Qed.

Lemma xdiv_fin a b : b <> 0 -> xdiv (XFin a) (XFin b) = XFin (a / b).
Proof. intros H. cbn. destruct (Req_EM_T b 0); [contradiction|reflexivity]. Qed.
(** The exact value is the one of the model with exact numbers (C32). *)
Theorem C108_exact_model : forall k kt s sigma tau z p,
  (1 <= k)%nat -> pa_ntrees p = kt -> (1 <= kt)%nat -> 0 < sigma -> 0 < tau -> sigma_m p = XFin tau ->
  leaf_sample (Z.of_nat k) s sigma p z = XFin (exact_leaf (INR k) (INR kt) s sigma tau z).
Proof.
  intros k kt s sigma tau z p Hk Hp Ht Hs Hm E. unfold leaf_sample. rewrite E, Hp, <- INR_IZR_INZ. cbn [xmul].
  assert (K : 0 < INR k) by (apply lt_0_INR; lia). assert (T : 0 < INR kt) by (apply lt_0_INR; lia).
  assert (S2 : 0 < sigma * sigma) by nra. assert (T2 : 0 < tau * tau) by nra.
  assert (L : 0 < sigma * sigma / INR k) by (apply Rmult_lt_0_compat; auto using Rinv_0_lt_compat).
  assert (I1 : 0 < 1 / (tau * tau)) by (apply Rmult_lt_0_compat; auto using Rinv_0_lt_compat; lra).
  assert (I2 : 0 < 1 / (sigma * sigma / INR k)) by (apply Rmult_lt_0_compat; auto using Rinv_0_lt_compat; lra).
  rewrite !(xdiv_fin _ (INR k)), (xdiv_fin 1 (tau * tau)), (xdiv_fin 1 (sigma * sigma / INR k)) by lra. cbn [xadd].
  rewrite (xdiv_fin 1), (xdiv_fin (tau * tau)), xdiv_fin by lra. cbn [xmul].
  assert (V : 1 / (1 / (tau * tau) + 1 / (sigma * sigma / INR k)) / INR kt = posterior_variance (INR k) sigma tau / INR kt).
  { f_equal. unfold posterior_variance. unfold Rdiv at 1. rewrite Rmult_1_l. f_equal. f_equal; field; repeat split; lra. }
  rewrite V. assert (P : 0 < posterior_variance (INR k) sigma tau / INR kt).
  { apply Rmult_lt_0_compat; [|now apply Rinv_0_lt_compat]. apply Rinv_0_lt_compat. assert (0 < / (tau * tau)) by now apply Rinv_0_lt_compat. assert (0 < INR k / (sigma * sigma)) by (apply Rmult_lt_0_compat; auto using Rinv_0_lt_compat). lra. }
  unfold xsqrt, rsign. destruct (Rlt_dec (posterior_variance (INR k) sigma tau / INR kt) 0); [lra|]. destruct (Rlt_dec 0 (posterior_variance (INR k) sigma tau / INR kt)); [reflexivity|lra].
Qed.

(** If the normal draw is zero the value lies between 0 and the leaf's mean, whatever sigma is, even infinite or so small that
    its square vanishes. *)
Theorem C108_shrinks : forall n nt s sigma sm b r k kt,
  counts n k -> counts nt kt -> finite s -> ~ nan sigma -> finite sm -> bpow radix2 (-200) <= val sm <= bpow radix2 200 ->
  leaf_draw_f n nt s sigma sm (B754_zero b) r ->
  finite r /\ Rabs (val r) <= Rabs (val (fdiv s n)) /\ 0 <= val s * val r.
Proof. exact leaf_shrinks. Qed.

(** A sigma whose square is below the smallest double: the value is the leaf's mean, nothing random is added. *)
Theorem C108_no_noise : forall n nt s sigma sm z r k kt,
  counts n k -> counts nt kt -> finite s -> finite sigma -> finite sm -> finite z ->
  Rabs (val sigma) < bpow radix2 (-538) -> bpow radix2 (-200) <= val sm <= bpow radix2 200 ->
  leaf_draw_f n nt s sigma sm z r -> finite r /\ val r = val (fdiv s n).
Proof. exact leaf_no_noise. Qed.

(** A sigma that is infinite or whose square is: the data of the leaf no longer count, the value is a draw from the prior. *)
Theorem C108_only_noise : forall n nt s sigma sm z r k kt,
  counts n k -> counts nt kt -> finite s -> ~ nan sigma -> (finite sigma -> bpow radix2 512 <= Rabs (val sigma)) -> finite sm -> finite z ->
  bpow radix2 (-200) <= val sm <= bpow radix2 200 -> Rabs (val z) <= bpow radix2 500 ->
  leaf_draw_f n nt s sigma sm z r ->
  finite r /\ Rabs (val r - val z * sqrt (val sm * val sm / INR kt)) <= bpow radix2 (-47) * (Rabs (val z) * sqrt (val sm * val sm / INR kt)) + bpow radix2 (-1075).
Proof. exact leaf_only_noise. Qed.

(** NaN in the sum, in sigma or in the draw gives NaN ... *)
Theorem C108_missing : forall n nt s sigma sm z r, nan s \/ nan sigma \/ nan z -> leaf_draw_f n nt s sigma sm z r -> nan r.
Proof. exact leaf_nan. Qed.
(** ... and so does a prior that vanishes together with sigma. *)
Theorem C108_both_vanish : forall n nt s sigma sm z r k,
  counts n k -> finite sigma -> finite sm -> Rabs (val sigma) < bpow radix2 (-538) -> Rabs (val sm) < bpow radix2 (-538) ->
  leaf_draw_f n nt s sigma sm z r -> nan r.
Proof. exact leaf_both_vanish. Qed.

(** *** every draw has a value: correctly rounded squares and roots are among those allowed *)
Lemma square_exists x : squares x (fmul x x).
Proof.
  destruct x as [s|s| |s m e b] eqn:Ex; try (destruct s; reflexivity); try reflexivity.
  - cbn [squares B2R]. cbv zeta. rewrite Rmult_0_l. pose proof (bpow_gt_0 radix2 (-1074)). pose proof (bpow_gt_0 radix2 1024).
    replace (fmul (B754_zero s) (B754_zero s)) with (@B754_zero 53 1024 false) by (destruct s; reflexivity). split; auto. right. repeat split; auto.
    cbn [B2R]. rewrite Rminus_0_r, Rabs_R0, Rmult_0_r. destruct (Rlt_dec 0 (bpow radix2 (-1022))); lra.
  - assert (Fx : fin x = true) by (now rewrite Ex). unfold squares. rewrite <- Ex. cbv zeta. set (q := fr x * fr x). assert (Q : 0 <= q) by apply Rle_0_sqr.
    pose proof (Bmult_correct 53 1024 prec64 emax64 mode_NE x x) as C. change (round radix2 (SpecFloat.fexp 53 1024) (round_mode mode_NE)) with rnd in C. fold (fmul x x) in C. fold q in C.
    rewrite Fx, xorb_nilpotent in C.
    assert (Er := any_err q). rewrite (Rabs_pos_eq q) in Er by lra. pose proof u_pos as U. pose proof u_small as US. pose proof two_u as T2.
    assert (H75 : bpow radix2 (-1074) = 2 * bpow radix2 (-1075)) by (change (-1074)%Z with (1 + -1075)%Z; rewrite bpow_plus; reflexivity).
    assert (H76 : bpow radix2 (-1075) = 2 * bpow radix2 (-1076)) by (change (-1075)%Z with (1 + -1076)%Z; rewrite bpow_plus; reflexivity).
    pose proof (bpow_gt_0 radix2 (-1075)) as P75. pose proof (bpow_gt_0 radix2 (-1076)) as P76.
    destruct (Rlt_bool_spec (Rabs (rnd q)) big) as [L|L].
    + destruct C as (A & B & D). assert (Sg : Bsign (fmul x x) = false) by (apply D; destruct (fmul x x); try discriminate; reflexivity).
      assert (P : 0 <= rnd q) by (rewrite <- rnd_0; now apply rnd_le).
      split.
      * right. repeat split; auto.
        -- destruct (Rlt_or_le q big) as [K|K]; auto. exfalso. apply (Rlt_irrefl big). eapply Rle_lt_trans; [|exact L]. rewrite Rabs_pos_eq by auto. rewrite <- (rnd_id big) by (apply bpow_format; lia). now apply rnd_le.
        -- rewrite A. destruct (Rlt_dec q (bpow radix2 (-1022))) as [K|K].
           ++ eapply Rle_trans; [exact Er|]. assert (0 <= u * q) by (apply Rmult_le_pos; lra). rewrite T2. lra.
           ++ eapply Rle_trans; [exact Er|]. rewrite Rplus_0_r, T2. apply Rnot_lt_le in K. assert (bpow radix2 (-1075) <= u * q); [|lra].
              replace (bpow radix2 (-1075)) with (u * bpow radix2 (-1022)) by (rewrite <- bpow_plus; reflexivity). apply Rmult_le_compat_l; lra.
      * intros K. assert (V : fr (fmul x x) < bpow radix2 (-1074)).
        { rewrite A. assert (rnd q - q <= u * q + bpow radix2 (-1075)) by (revert Er; unfold Rabs; destruct (Rcase_abs (rnd q - q)); lra). assert (u * q <= / 1024 * q) by (apply Rmult_le_compat_r; lra). lra. }
        destruct (fmul x x) as [t|t| |t mm ee bb]; try discriminate; cbn in Sg; subst t; auto. exfalso.
        pose proof (bounded_ge_emin 53 1024 mm ee bb) as G. change (SpecFloat.emin 53 1024) with (-1074)%Z in G. cbn [B2R cond_Zopp] in V. lra.
    + assert (E : fmul x x = inf) by (apply sf_inf; exact C). rewrite E.
      assert (K : bpow radix2 1023 < q).
      { destruct (Rlt_or_le (bpow radix2 1023) q) as [K|K]; auto. exfalso. assert (Rabs (rnd q) <= bpow radix2 1023) by (apply rnd_bound; [apply bpow_format; lia|rewrite Rabs_pos_eq; lra]).
        assert (bpow radix2 1023 < big) by (apply bpow_lt; lia). lra. }
      split; [left; auto|]. intros K'. exfalso. assert (bpow radix2 (-1076) <= bpow radix2 1023) by (apply bpow_le; lia). lra.
Qed.
Lemma root_exists x : exists r, roots x r.
Proof.
  destruct x as [s|[]| |[] m e b] eqn:Ex; cbn [roots]; eauto.
  rewrite <- Ex. exists (@Bsqrt 53 1024 prec64 emax64 mode_NE x). destruct (Bsqrt_correct 53 1024 prec64 emax64 mode_NE x) as (A & B & _).
  change (round radix2 (SpecFloat.fexp 53 1024) (round_mode mode_NE)) with rnd in A. split; [rewrite B, Ex; reflexivity|]. rewrite A.
  assert (P : bpow radix2 (-1074) <= fr x). { rewrite Ex. exact (bounded_ge_emin 53 1024 m e b). }
  assert (Q : bpow radix2 (-537) <= sqrt (fr x)). { rewrite <- (sqrt_square (bpow radix2 (-537))) by apply bpow_ge_0. apply sqrt_le_1_alt. rewrite <- bpow_plus. exact P. }
  eapply Rle_trans; [apply any_err|]. pose proof (bpow_gt_0 radix2 (-537)). rewrite Rabs_pos_eq by lra. rewrite two_u. pose proof u_pos.
  assert (bpow radix2 (-1075) <= u * sqrt (fr x)); [|lra]. apply Rle_trans with (u * bpow radix2 (-537)); [rewrite <- bpow_plus; apply bpow_le; lia|apply Rmult_le_compat_l; lra].
Qed.
Theorem C108_draw_exists : forall n nt s sigma sm z, exists r, leaf_draw_f n nt s sigma sm z r.
Proof.
  intros. destruct (root_exists (fdiv (leaf_var_f (fmul sm sm) (fmul sigma sigma) n) nt)) as (rt & H).
  exists (fadd (leaf_mean_f (fmul sm sm) (fmul sigma sigma) n s) (fmul z rt)), (fmul sm sm), (fmul sigma sigma), rt. auto using square_exists.
Qed.

(** three rows, two trees: all the hypotheses of [C108_accurate] hold *)
Definition d2 : b64 := d_of false 4503599627370496 (-51) eq_refl.
Lemma val_d2 : val d2 = 2.
Proof. unfold val, d2, d_of, B2R, F2R. cbn. lra. Qed.
Lemma val_d3' : val d3 = 3.
Proof. unfold val, d3, d_of, B2R, F2R. cbn. lra. Qed.
Lemma two52 : 1024 <= bpow radix2 52.
Proof. change 1024 with (bpow radix2 10). apply bpow_le. lia. Qed.
Example C108_case : counts d3 3 /\ counts d2 2 /\ finite d1 /\ finite dm1 /\
  bpow radix2 (-200) <= val d1 <= bpow radix2 200 /\ Rabs (val dm1) <= bpow radix2 500 /\ Rabs (val d3) <= bpow radix2 1000 /\
  exists r, leaf_draw_f d3 d2 d3 d1 d1 dm1 r.
Proof.
  pose proof two52. assert (1 <= bpow radix2 200) by (change 1 with (bpow radix2 0); apply bpow_le; lia). assert (bpow radix2 (-200) <= 1) by (change 1 with (bpow radix2 0); apply bpow_le; lia).
  assert (1 <= bpow radix2 500) by (change 1 with (bpow radix2 0); apply bpow_le; lia). assert (4 <= bpow radix2 1000) by (change 4 with (bpow radix2 2); apply bpow_le; lia).
  assert (V1 : val d1 = 1) by exact val_d1. assert (Vm : val dm1 = -1) by (unfold val, dm1, d_of, B2R, F2R; cbn; lra).
  unfold counts. rewrite val_d3', val_d2, V1, Vm. replace (INR 3) with 3 by (cbn; lra). replace (INR 2) with 2 by (cbn; lra).
  rewrite Rabs_Ropp || idtac. replace (Rabs (-1)) with 1 by (unfold Rabs; destruct (Rcase_abs (-1)); lra). rewrite (Rabs_pos_eq 3) by lra.
  repeat split; auto; try lra; try lia. apply C108_draw_exists.
Qed.
(** a sigma of 2^-600, for which [C108_no_noise] applies, and one of 2^600 for [C108_only_noise] *)
Definition d_m600 : b64 := d_of false 4503599627370496 (-652) eq_refl.
Definition d_p600 : b64 := d_of false 4503599627370496 548 eq_refl.
Lemma val_pow m e H : val (d_of false m e H) = IZR (Z.pos m) * bpow radix2 e.
Proof. reflexivity. Qed.
Lemma p52 : IZR 4503599627370496 = bpow radix2 52.
Proof. cbn. reflexivity. Qed.
Example C108_extremes : finite d_m600 /\ Rabs (val d_m600) < bpow radix2 (-538) /\ finite d_p600 /\ bpow radix2 512 <= Rabs (val d_p600) /\ ~ nan d_p600 /\
  (exists r, leaf_draw_f d3 d2 d3 d_m600 d1 dm1 r) /\ (exists r, leaf_draw_f d3 d2 d3 d_p600 d1 dm1 r).
Proof.
  unfold d_m600, d_p600. rewrite !val_pow, p52, <- !bpow_plus, !Rabs_pos_eq by apply bpow_ge_0.
  repeat split; try (apply bpow_lt; lia); try (apply bpow_le; lia); try apply C108_draw_exists. discriminate.
Qed.

(** ** C109 *)
(** The scale handed to the gamma draw is a positive finite number, and accurate. *)
Theorem C109_scale : forall b e r,
  finite b -> bpow radix2 (-500) <= val b <= bpow radix2 500 -> within (bpow radix2 400) e -> INR (length e) <= bpow radix2 48 ->
  gamma_scale_f b e r ->
  finite r /\ 0 < val r /\ Rabs (val r - exact_scale (val b) e) <= INR (length e + 6) * bpow radix2 (-51) * exact_scale (val b) e.
Proof. exact scale_accuracy. Qed.

(** A NaN residual makes it NaN. *)
Theorem C109_missing : forall b e r x, In x e -> nan x -> gamma_scale_f b e r -> nan r.
Proof.
  intros b e r x H N (q & S & ->). assert (I : In B754_nan (map (fun x => fmul x x) e)).
  { apply in_map_iff. exists x. split; auto. destruct x; try discriminate. reflexivity. }
  rewrite (sums_nan _ _ S I). destruct b; reflexivity.
Qed.

Lemma up_mul x : ~ nan x -> up (fmul x x).
Proof. intros N. exact (up_square x _ (square_exists x) N). Qed.
Lemma up_sums l s : sums l s -> Forall up l -> up s /\ (In inf l -> s = inf).
Proof.
  induction 1 as [|x|l1 l2 l s1 s2 N1 N2 S1 IH1 S2 IH2 P]; intros F.
  - split; [right; split; reflexivity|intros []].
  - inversion F; subst. split; auto. intros [H|[]]; auto.
  - apply (Permutation_Forall (Permutation_sym P)) in F. apply Forall_app in F as [F1 F2]. destruct (IH1 F1) as (U1 & I1), (IH2 F2) as (U2 & I2). split; [now apply up_add|].
    intros H. apply (Permutation_in _ (Permutation_sym P)) in H. apply in_app_iff in H as [H|H].
    + rewrite (I1 H). destruct U2 as [->|(G & T)]; [reflexivity|destruct s2; try discriminate; reflexivity].
    + rewrite (I2 H). destruct U1 as [->|(G & T)]; [reflexivity|destruct s1; try discriminate; reflexivity].
Qed.
(** A residual whose square is beyond the largest double makes it 0, so the draw no longer depends on the data. *)
Theorem C109_overflow : forall b e r x,
  finite b -> Forall (fun v => ~ nan v) e -> In x e -> (finite x -> bpow radix2 512 <= Rabs (val x)) -> gamma_scale_f b e r ->
  finite r /\ val r = 0.
Proof.
  intros b e r x Fb N I H (q & S & ->). assert (U : Forall up (map (fun x => fmul x x) e)).
  { apply Forall_forall. intros y Hy. apply in_map_iff in Hy as (v & <- & Hv). apply up_mul. rewrite Forall_forall in N. now apply N. }
  destruct (up_sums _ _ S U) as (_ & Hq). assert (J : In inf (map (fun x => fmul x x) e)).
  { apply in_map_iff. exists x. split; auto. rewrite Forall_forall in N. exact (square_large x _ (square_exists x) (N x I) H). }
  rewrite (Hq J). replace (fmul half_f inf) with (@B754_infinity 53 1024 false) by reflexivity. unfold finite in *. destruct b; try discriminate; split; reflexivity.
Qed.
Example C109_case : exists r, finite d1 /\ bpow radix2 (-500) <= val d1 <= bpow radix2 500 /\ within (bpow radix2 400) [d1; dm1; d3] /\ gamma_scale_f d1 [d1; dm1; d3] r.
Proof.
  destruct (any_sum (map (fun x => fmul x x) [d1; dm1; d3]) ltac:(discriminate)) as (q & S). exists (fdiv fone (fadd d1 (fmul half_f q))).
  assert (V1 : val d1 = 1) by exact val_d1. assert (Vm : val dm1 = -1) by (unfold val, dm1, d_of, B2R, F2R; cbn; lra).
  assert (1 <= bpow radix2 500) by (change 1 with (bpow radix2 0); apply bpow_le; lia). assert (bpow radix2 (-500) <= 1) by (change 1 with (bpow radix2 0); apply bpow_le; lia).
  assert (4 <= bpow radix2 400) by (change 4 with (bpow radix2 2); apply bpow_le; lia).
  split; [reflexivity|]. split; [lra|]. split; [|exists q; auto].
  repeat constructor; rewrite ?V1, ?Vm, ?val_d3'; unfold Rabs; destruct (Rcase_abs _); lra.
Qed.
Example C109_overflow_case : exists r, gamma_scale_f d1 [d1; d_p600] r /\ In d_p600 [d1; d_p600] /\ Forall (fun v => ~ nan v) [d1; d_p600] /\ bpow radix2 512 <= Rabs (val d_p600).
Proof.
  destruct (any_sum (map (fun x => fmul x x) [d1; d_p600]) ltac:(discriminate)) as (q & S). exists (fdiv fone (fadd d1 (fmul half_f q))).
  split; [exists q; auto|]. split; [cbn; auto|]. split; [repeat constructor; discriminate|]. apply C108_extremes.
Qed.

Print Assumptions C108_accurate.
Print Assumptions C108_exact_model.
Print Assumptions C108_shrinks.
Print Assumptions C108_no_noise.
Print Assumptions C108_only_noise.
Print Assumptions C108_missing.
Print Assumptions C108_both_vanish.
Print Assumptions C108_draw_exists.
Print Assumptions C109_scale.
Print Assumptions C109_missing.
Print Assumptions C109_overflow.
