(** Predictions for float32 targets: accuracy. *)
From Coq Require Import ZArith Reals List Lra Lia.
From Flocq Require Import Core.Core IEEE754.BinarySingleNaN.
From Verif Require Import Base MFloat MSingle2 SpecDouble PFloat PFloat2.
From Verif Require MSingle SpecSingle PSingle PSingle2.
Import ListNotations.
Local Open Scope R_scope.

#[local] Instance fx_valid : Valid_exp fx.
Proof. apply FLT_exp_valid. reflexivity. Qed.

Lemma wide_format x : generic_format radix2 (FLT_exp (-149) 24) x -> F64 x.
Proof. apply generic_inclusion_mag. intros _. unfold FLT_exp. lia. Qed.
Lemma widen_ok (x : MSingle.b32) : @is_finite 24 128 x = true -> fin (widen x) = true /\ fr (widen x) = @B2R 24 128 x.
Proof.
  intros F. assert (G := wide_format _ (PSingle.fr_format x)). assert (B := abs_B2R_lt_emax 24 128 x).
  destruct x as [s|s| |s m e H]; try discriminate F; [split; reflexivity|]. cbn [widen].
  pose proof (binary_normalize_correct 53 1024 prec64 emax64 mode_NE (cond_Zopp s (Zpos m)) e s) as C. cbv zeta in C.
  change (round radix2 (SpecFloat.fexp 53 1024) (round_mode mode_NE)) with rnd in C. cbn [B2R] in G, B |- *. rewrite (rnd_id _ G) in C.
  rewrite Rlt_bool_true in C; [destruct C as (A & A' & _); split; assumption|]. eapply Rlt_trans; [exact B|]. apply bpow_lt. lia.
Qed.

Section Predict.
  Variables (lo hi : MSingle.b32) (p : b64).
  Hypothesis Flo : @is_finite 24 128 lo = true.
  Hypothesis Fhi : @is_finite 24 128 hi = true.
  Hypothesis Fs : @is_finite 24 128 (MSingle.fsub hi lo) = true.
  Hypothesis Hlt : @B2R 24 128 lo < @B2R 24 128 hi.
  Hypothesis Fp : fin p = true.
  Hypothesis Hp : - /2 <= fr p <= /2.
  Notation l := (@B2R 24 128 lo).
  Notation h := (@B2R 24 128 hi).
  Notation D := (@B2R 24 128 (MSingle.fsub hi lo)).
  Definition pred : b64 := fadd (widen lo) (fmul (fsub p neg_half) (widen (MSingle.fsub hi lo))).

  Lemma range_err : Rabs (D - (h - l)) <= bpow radix2 (-24) * (h - l).
  Proof.
    rewrite (PSingle2.D_val lo hi Flo Fhi Fs). rewrite <- (Rabs_pos_eq (h - l)) at 3 by lra. apply PSingle.sub_err; apply PSingle.fr_format.
  Qed.
  Lemma range_pos : 0 < D.
  Proof. rewrite (PSingle2.D_val lo hi Flo Fhi Fs). apply PSingle2.D_pos. exact Hlt. Qed.
  Lemma pred_ok : fin pred = true /\
    Rabs (fr pred - (l + (fr p + /2) * (h - l))) <= bpow radix2 (-23) * (h - l) + bpow radix2 (-53) * Rabs l + bpow radix2 (-1074).
  Proof.
    pose proof range_err as RE. pose proof range_pos as RP. assert (BD := abs_B2R_lt_emax 24 128 (MSingle.fsub hi lo)). assert (BL := abs_B2R_lt_emax 24 128 lo).
    destruct (widen_ok lo Flo) as (FL & VL). destruct (widen_ok (MSingle.fsub hi lo) Fs) as (FD & VD).
    assert (W1 : 0 <= rnd (fr p - fr neg_half) <= 1) by (apply rnd_unit; rewrite neg_half_val; lra).
    destruct (fsub_ok p neg_half) as (V1 & F1); [exact Fp|reflexivity|rewrite Rabs_pos_eq by lra; pose proof big_gt1; lra|].
    assert (E1 := sub_err (fr p) (fr neg_half) (fr_format p) (fr_format neg_half)).
    set (w1 := rnd (fr p - fr neg_half)) in *. rewrite neg_half_val in E1. replace (fr p - - / 2) with (fr p + /2) in E1 by lra. rewrite (Rabs_pos_eq (fr p + /2)) in E1 by lra.
    set (l0 := l) in *. set (h0 := h) in *. set (D0 := D) in *. rewrite (Rabs_pos_eq D0) in BD by lra.
    assert (FD0 : F64 D0) by (apply wide_format, PSingle.fr_format).
    assert (W2 : 0 <= rnd (w1 * D0) <= D0).
    { split; [rewrite <- rnd_0; apply rnd_le; nra|]. rewrite <- (rnd_id D0 FD0) at 2. apply rnd_le. nra. }
    assert (E2 := any_err (w1 * D0)). rewrite (Rabs_pos_eq (w1 * D0)) in E2 by nra.
    assert (Bb : bpow radix2 130 < big) by (apply bpow_lt; lia). assert (B8 : bpow radix2 130 = 4 * bpow radix2 128) by (change 130%Z with (2 + 128)%Z; rewrite bpow_plus; reflexivity).
    assert (Bp : 0 < bpow radix2 128) by apply bpow_gt_0.
    destruct (fmul_ok (fsub p neg_half) (widen (MSingle.fsub hi lo))) as (V2 & F2); [exact F1|exact FD| |].
    { rewrite V1, VD. fold D0. rewrite Rabs_pos_eq by lra. lra. }
    rewrite V1, VD in V2. fold D0 in V2. set (w2 := rnd (w1 * D0)) in *.
    assert (B3 : Rabs (l0 + w2) <= bpow radix2 130). { eapply Rle_trans; [apply Rabs_triang|]. rewrite (Rabs_pos_eq w2) by lra. lra. }
    destruct (fadd_ok (widen lo) (fmul (fsub p neg_half) (widen (MSingle.fsub hi lo)))) as (V3 & F3); [exact FL|exact F2| |].
    { rewrite VL, V2. fold l0. apply Rle_lt_trans with (bpow radix2 130); [apply rnd_bound; [apply bpow_format; lia|exact B3]|exact Bb]. }
    rewrite VL, V2 in V3. fold l0 in V3. split; [exact F3|]. unfold pred. rewrite V3.
    assert (E3 : Rabs (rnd (l0 + w2) - (l0 + w2)) <= u * Rabs (l0 + w2)).
    { apply add_err; [unfold l0; apply wide_format, PSingle.fr_format|unfold w2; apply generic_format_round; auto with typeclass_instances]. }
    assert (T3 : Rabs (l0 + w2) <= Rabs l0 + D0) by (eapply Rle_trans; [apply Rabs_triang|]; rewrite (Rabs_pos_eq w2) by lra; lra).
    set (v := bpow radix2 (-24)) in *.
    assert (Uv : 8 * u <= v). { unfold v. change 8 with (bpow radix2 3). rewrite <- bpow_plus. apply bpow_le. lia. }
    assert (V23 : bpow radix2 (-23) = 2 * v) by (change (-23)%Z with (1 + -24)%Z; rewrite bpow_plus; reflexivity).
    assert (V1074 : bpow radix2 (-1074) = 2 * bpow radix2 (-1075)) by (change (-1074)%Z with (1 + -1075)%Z; rewrite bpow_plus; reflexivity).
    assert (Vs : v <= 1) by (unfold v; change 1 with (bpow radix2 0); apply bpow_le; lia).
    assert (Up := bpow_gt_0 radix2 (-53)). assert (Tp := bpow_gt_0 radix2 (-1075)). rewrite V23, V1074. set (t := bpow radix2 (-1075)) in *. set (a := fr p + /2) in *. assert (Ha : 0 <= a <= 1) by (unfold a; lra).
    assert (Hu : Rabs (w1 - a) <= u) by (eapply Rle_trans; [exact E1|]; rewrite <- (Rmult_1_r u) at 2; apply Rmult_le_compat_l; lra).
    set (Zr := h0 - l0) in *. assert (Zp : 0 < Zr) by (unfold Zr; lra).
    assert (DZ : D0 <= 2 * Zr). { apply Rabs_le_inv in RE. assert (v * Zr <= 1 * Zr) by (apply Rmult_le_compat_r; lra). lra. }
    assert (S1 : Rabs (w1 * D0 - a * D0) <= u * D0). { rewrite <- Rmult_minus_distr_r, Rabs_mult, (Rabs_pos_eq D0) by lra. apply Rmult_le_compat_r; lra. }
    assert (S2 : Rabs (a * D0 - a * Zr) <= v * Zr). { rewrite <- Rmult_minus_distr_l, Rabs_mult, (Rabs_pos_eq a) by lra. apply Rle_trans with (1 * Rabs (D0 - Zr)); [apply Rmult_le_compat_r; [apply Rabs_pos|lra]|]. rewrite Rmult_1_l. exact RE. }
    assert (S3 : Rabs (w2 - w1 * D0) <= u * D0 + t). { eapply Rle_trans; [exact E2|]. apply Rplus_le_compat_r. apply Rmult_le_compat_l; [lra|]. nra. }
    assert (S4 : Rabs (rnd (l0 + w2) - (l0 + w2)) <= u * Rabs l0 + u * D0) by (eapply Rle_trans; [exact E3|]; rewrite <- Rmult_plus_distr_l; apply Rmult_le_compat_l; lra).
    assert (UD : u * D0 <= u * (2 * Zr)) by (apply Rmult_le_compat_l; lra). assert (UV : u * Zr * 8 <= v * Zr) by (replace (u * Zr * 8) with (8 * u * Zr) by ring; apply Rmult_le_compat_r; lra).
    apply Rabs_le_inv in S1. apply Rabs_le_inv in S2. apply Rabs_le_inv in S3. apply Rabs_le_inv in S4. apply Rabs_le. lra.
  Qed.
End Predict.
