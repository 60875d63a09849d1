(** Rounding facts for the double precision model. *)
From Coq Require Import ZArith Reals List Lra Lia Psatz.
From Flocq Require Import Core.Core IEEE754.BinarySingleNaN Relative Plus_error.
From Verif Require Import Base MFloat.
Import ListNotations.
Local Open Scope R_scope.

#[global] Existing Instance prec64.
#[global] Existing Instance emax64.

Notation fx := (FLT_exp (-1074) 53).
Notation rnd := (round radix2 fx ZnearestE).
Notation F64 := (generic_format radix2 fx).
Notation fr := (@B2R 53 1024).
Notation fin := (@is_finite 53 1024).
Notation big := (bpow radix2 1024).
Notation u := (bpow radix2 (-53)).

Lemma fr_format x : F64 (fr x).
Proof. exact (generic_format_B2R 53 1024 x). Qed.

#[local] Instance fx_valid : Valid_exp fx.
Proof. apply FLT_exp_valid. reflexivity. Qed.

Lemma rnd_le x y : x <= y -> rnd x <= rnd y.
Proof. intros H. apply round_le; auto with typeclass_instances. Qed.
Lemma rnd_id x : F64 x -> rnd x = x.
Proof. intros H. apply round_generic; auto with typeclass_instances. Qed.
Lemma rnd_0 : rnd 0 = 0.
Proof. apply round_0; auto with typeclass_instances. Qed.
Lemma bpow_format e : (-1074 <= e)%Z -> F64 (bpow radix2 e).
Proof. intros H. apply generic_format_bpow. unfold FLT_exp. lia. Qed.
Lemma one_format : F64 1.
Proof. change 1 with (bpow radix2 0). apply bpow_format. lia. Qed.
Lemma half_format : F64 (/2).
Proof. change (/2) with (bpow radix2 (-1)). apply bpow_format. lia. Qed.
Lemma neg_half_val : fr neg_half = - /2.
Proof.
  unfold neg_half, B2R, F2R. cbn [Fnum Fexp cond_Zopp].
  rewrite opp_IZR.
  replace (IZR 4503599627370496) with (bpow radix2 52) by (rewrite <- IZR_Zpower by lia; reflexivity).
  rewrite Ropp_mult_distr_l_reverse, <- bpow_plus. reflexivity.
Qed.
Lemma neg_half_fin : fin neg_half = true.
Proof. reflexivity. Qed.

(** operations that do not overflow are the rounded exact ones *)
Lemma fadd_ok x y : fin x = true -> fin y = true -> Rabs (rnd (fr x + fr y)) < big ->
  fr (fadd x y) = rnd (fr x + fr y) /\ fin (fadd x y) = true.
Proof.
  intros Fx Fy H. pose proof (Bplus_correct 53 1024 prec64 emax64 mode_NE x y Fx Fy) as C.
  change (round radix2 (SpecFloat.fexp 53 1024) (round_mode mode_NE)) with rnd in C.
  rewrite Rlt_bool_true in C by exact H. destruct C as (A & B & _). split; assumption.
Qed.
Lemma fsub_ok x y : fin x = true -> fin y = true -> Rabs (rnd (fr x - fr y)) < big ->
  fr (fsub x y) = rnd (fr x - fr y) /\ fin (fsub x y) = true.
Proof.
  intros Fx Fy H. pose proof (Bminus_correct 53 1024 prec64 emax64 mode_NE x y Fx Fy) as C.
  change (round radix2 (SpecFloat.fexp 53 1024) (round_mode mode_NE)) with rnd in C.
  rewrite Rlt_bool_true in C by exact H. destruct C as (A & B & _). split; assumption.
Qed.
Lemma fmul_ok x y : fin x = true -> fin y = true -> Rabs (rnd (fr x * fr y)) < big ->
  fr (fmul x y) = rnd (fr x * fr y) /\ fin (fmul x y) = true.
Proof.
  intros Fx Fy H. pose proof (Bmult_correct 53 1024 prec64 emax64 mode_NE x y) as C.
  change (round radix2 (SpecFloat.fexp 53 1024) (round_mode mode_NE)) with rnd in C.
  rewrite Rlt_bool_true in C by exact H. destruct C as (A & B & _).
  rewrite Fx, Fy in B. split; assumption.
Qed.
Lemma fdiv_ok x y : fin x = true -> fr y <> 0 -> Rabs (rnd (fr x / fr y)) < big ->
  fr (fdiv x y) = rnd (fr x / fr y) /\ fin (fdiv x y) = true.
Proof.
  intros Fx Fy H. pose proof (Bdiv_correct 53 1024 prec64 emax64 mode_NE x y Fy) as C.
  change (round radix2 (SpecFloat.fexp 53 1024) (round_mode mode_NE)) with rnd in C.
  rewrite Rlt_bool_true in C by exact H. destruct C as (A & B & _).
  rewrite Fx in B. split; assumption.
Qed.

(** conversely a finite result did not overflow *)
Lemma fsub_fin x y : fin x = true -> fin y = true -> fin (fsub x y) = true ->
  Rabs (rnd (fr x - fr y)) < big.
Proof.
  intros Fx Fy H. pose proof (Bminus_correct 53 1024 prec64 emax64 mode_NE x y Fx Fy) as C.
  change (round radix2 (SpecFloat.fexp 53 1024) (round_mode mode_NE)) with rnd in C.
  destruct (Rlt_bool_spec (Rabs (rnd (fr x - fr y))) big) as [L|L]; [exact L|].
  destruct C as (C & _). exfalso. unfold fsub in H.
  rewrite <- is_finite_SF_B2SF, C in H. discriminate.
Qed.
Lemma fsub_inf x y : fin x = true -> fin y = true -> fin (fsub x y) = false ->
  fr y <= fr x -> fsub x y = B754_infinity false.
Proof.
  intros Fx Fy H L. pose proof (Bminus_correct 53 1024 prec64 emax64 mode_NE x y Fx Fy) as C.
  change (round radix2 (SpecFloat.fexp 53 1024) (round_mode mode_NE)) with rnd in C.
  destruct (Rlt_bool_spec (Rabs (rnd (fr x - fr y))) big) as [B|B].
  - destruct C as (_ & C & _). unfold fsub in H. congruence.
  - destruct C as (C & S).
    assert (S' : Bsign x = false).
    { destruct (Bsign x) eqn:Sx; [exfalso|reflexivity].
      assert (X : fr x <= 0).
      { destruct x as [sx|sx| |sx mx ex Hx]; try discriminate; cbn in Sx; subst sx; cbn [B2R].
        - lra.
        - apply F2R_le_0. cbn. lia. }
      assert (Y : 0 <= fr y).
      { destruct y as [sy|sy| |sy my ey Hy]; try discriminate; cbn [B2R]; [lra|].
        cbn in S. destruct sy; [discriminate|]. apply F2R_ge_0. cbn. lia. }
      replace (fr x - fr y) with 0 in B by lra. rewrite rnd_0, Rabs_R0 in B.
      pose proof (bpow_gt_0 radix2 1024). lra. }
    rewrite S' in C. cbn in C. unfold fsub. 
    destruct (@Bminus 53 1024 prec64 emax64 mode_NE x y) as [s|s| |s m e Hm]; cbn in C; try discriminate.
    injection C as ->. reflexivity.
Qed.

(** rounding errors *)
Lemma u_val : u_ro radix2 53 = u.
Proof. unfold u_ro. change (/2) with (bpow radix2 (-1)). rewrite <- bpow_plus. reflexivity. Qed.
Lemma u_pos : 0 < u.
Proof. apply bpow_gt_0. Qed.
Lemma u_le e : Rabs e <= u / (1 + u) -> Rabs e <= u.
Proof.
  intros H. eapply Rle_trans; [exact H|]. pose proof u_pos.
  apply (Rmult_le_reg_r (1 + u)); [lra|]. unfold Rdiv. rewrite Rmult_assoc, Rinv_l by lra. nra.
Qed.
Lemma add_err x y : F64 x -> F64 y -> Rabs (rnd (x + y) - (x + y)) <= u * Rabs (x + y).
Proof.
  intros Fx Fy.
  destruct (FLT_plus_error_N_ex radix2 (-1074) 53 (fun x => negb (Z.even x)) x y Fx Fy) as (e & He & E).
  rewrite u_val in He. apply u_le in He.
  rewrite E. replace ((x + y) * (1 + e) - (x + y)) with (e * (x + y)) by ring.
  rewrite Rabs_mult. apply Rmult_le_compat_r; [apply Rabs_pos|exact He].
Qed.
Lemma sub_err x y : F64 x -> F64 y -> Rabs (rnd (x - y) - (x - y)) <= u * Rabs (x - y).
Proof. intros Fx Fy. apply (add_err x (- y)); [exact Fx|apply generic_format_opp, Fy]. Qed.
Lemma any_err x : Rabs (rnd x - x) <= u * Rabs x + bpow radix2 (-1075).
Proof.
  destruct (relative_error_N_FLT'_ex radix2 (-1074) 53 (refl_equal _) (fun x => negb (Z.even x)) x)
    as (e & t & He & Ht & _ & E).
  rewrite u_val in He. apply u_le in He.
  rewrite E. replace (x * (1 + e) + t - x) with (e * x + t) by ring.
  eapply Rle_trans; [apply Rabs_triang|]. apply Rplus_le_compat.
  - rewrite Rabs_mult. apply Rmult_le_compat_r; [apply Rabs_pos|exact He].
  - eapply Rle_trans; [exact Ht|]. change (/2) with (bpow radix2 (-1)). rewrite <- bpow_plus. apply Rle_refl.
Qed.
