(** Accuracy of the draw of sigma. *)
From Coq Require Import ZArith Reals List Lra Lia Psatz.
From Flocq Require Import Core.Core IEEE754.BinarySingleNaN.
From Verif Require Import Base MFloat MFloat2 MFloat3 MFloat4 MFloat6 SpecDouble SpecDouble3 SpecDouble4 SpecDouble6 PFloat PFloat2 PFloat3 PFloat5 PFloat6 PFloat7 PFloat8 PFloat9 PFloat10 PFloat11.
Import ListNotations.
Local Open Scope R_scope.

Lemma inv_sqrt_close X y d : 0 < X -> Rabs (y - X) <= d * X -> 0 <= d <= / 4 -> 0 < y /\ Rabs (/ sqrt y - / sqrt X) <= d * / sqrt X.
Proof.
  intros P E D. apply abs_interval in E. assert (d * X <= / 4 * X) by (apply Rmult_le_compat_r; lra). assert (Py : 0 < y) by lra. split; auto.
  pose proof (sqrt_lt_R0 _ P) as Ps. pose proof (sqrt_lt_R0 _ Py) as Pt. set (s := sqrt X) in *. set (t := sqrt y) in *.
  assert (Es : s * s = X) by (apply sqrt_sqrt; lra). assert (Et : t * t = y) by (apply sqrt_sqrt; lra). clearbody s t.
  assert (K : s * s <= (s + t) * t) by nra.
  assert (Q : Rabs (s - t) * (s + t) <= d * (s * s)).
  { rewrite <- (Rabs_pos_eq (s + t)) by lra. rewrite <- Rabs_mult. replace ((s - t) * (s + t)) with (- (y - X)) by (subst; ring). rewrite Rabs_Ropp. apply Rabs_le. rewrite Es. lra. }
  replace (/ t - / s) with ((s - t) * (/ t * / s)) by (field; lra). rewrite Rabs_mult. assert (I : 0 < / t * / s) by (apply Rmult_lt_0_compat; apply Rinv_0_lt_compat; auto).
  rewrite (Rabs_pos_eq (/ t * / s)) by lra.
  apply Rmult_le_reg_r with (t * s * (s + t)); [repeat apply Rmult_lt_0_compat; lra|].
  replace (Rabs (s - t) * (/ t * / s) * (t * s * (s + t))) with (Rabs (s - t) * (s + t)) by (field; lra).
  replace (d * / s * (t * s * (s + t))) with (d * ((s + t) * t)) by (field; lra). eapply Rle_trans; [exact Q|]. apply Rmult_le_compat_l; lra.
Qed.
Lemma near_inverse_root x r : inverse_roots x r -> fin x = true -> 0 < fr x -> near 2 (fr r) (/ sqrt (fr x)) /\ fin r = true.
Proof.
  intros S F P. destruct x as [s|s| |[] m e b]; try discriminate; cbn [inverse_roots] in S; [cbn in P; lra| |].
  - exfalso. assert (F2R (Float radix2 (cond_Zopp true (Z.pos m)) e) <= 0); [apply F2R_le_0; cbn; lia|]. cbn [B2R] in P. lra.
  - destruct S as (G & H). split; auto. apply near_of_abs; auto. apply Rinv_0_lt_compat, sqrt_lt_R0, P.
Qed.
Lemma exact_sum_bound e B : within B e -> 0 <= B -> 0 <= fold_right Rplus 0 (map (fun x => val x * val x) e) <= INR (length e) * (B * B).
Proof.
  intros W PB. induction W as [|x l (F & H) W IH]; [cbn; lra|]. cbn [map fold_right length]. rewrite S_INR.
  assert (val x * val x <= B * B). { rewrite <- (Rabs_pos_eq (val x * val x)) by apply Rle_0_sqr. rewrite Rabs_mult. apply Rmult_le_compat; auto; apply Rabs_pos. }
  pose proof (Rle_0_sqr (val x)) as Z. unfold Rsqr in Z. lra.
Qed.
Lemma sigma_accuracy b e w r : finite b -> bpow radix2 (-500) <= val b <= bpow radix2 500 -> within (bpow radix2 400) e -> INR (length e) <= bpow radix2 48 ->
  finite w -> bpow radix2 (-100) <= val w <= bpow radix2 100 -> sigma_draw_f b e w r ->
  finite r /\ 0 < val r /\ Rabs (val r - exact_sigma (val b) e (val w)) <= INR (length e + 10) * bpow radix2 (-51) * exact_sigma (val b) e (val w).
Proof.
  intros Fb Hb We Hn Fw Hw (sc & Hsc & Hr). destruct (scale_accuracy _ _ _ Fb Hb We Hn Hsc) as (Fs & Ps & Es).
  destruct (exact_sum_bound e (bpow radix2 400) We (bpow_ge_0 _ _)) as (S0 & S1).
  set (SS := fold_right Rplus 0 (map (fun x => val x * val x) e)) in *. unfold exact_scale in Es. fold SS in Es. unfold exact_sigma. fold SS.
  set (B := val b + / 2 * SS) in *. unfold finite, val in *.
  assert (PB : bpow radix2 (-500) <= B) by (unfold B; lra). pose proof (bpow_gt_0 radix2 (-500)) as P5.
  assert (UB : B <= bpow radix2 849).
  { assert (INR (length e) * (bpow radix2 400 * bpow radix2 400) <= bpow radix2 848).
    { rewrite <- bpow_plus. apply Rle_trans with (bpow radix2 48 * bpow radix2 (400 + 400)); [apply Rmult_le_compat_r; [apply bpow_ge_0|exact Hn]|rewrite <- bpow_plus; apply bpow_le; lia]. }
    assert (bpow radix2 500 <= bpow radix2 848) by (apply bpow_le; lia). change 849%Z with (1 + 848)%Z. rewrite bpow_plus. change (bpow radix2 1) with 2. unfold B. lra. }
  set (N := length e) in *. set (d := INR (N + 6) * bpow radix2 (-51)) in *.
  assert (Dd : 0 <= d <= / 4).
  { unfold d. split; [apply Rmult_le_pos; [apply pos_INR|apply bpow_ge_0]|]. rewrite plus_INR. change (INR 6) with (1+1+1+1+1+1).
    apply Rle_trans with (bpow radix2 49 * bpow radix2 (-51)); [|rewrite <- bpow_plus; cbn; lra]. apply Rmult_le_compat_r; [apply bpow_ge_0|].
    change 49%Z with (1 + 48)%Z. rewrite bpow_plus. change (bpow radix2 1) with 2. assert (1024 <= bpow radix2 48) by (change 1024 with (bpow radix2 10); apply bpow_le; lia). lra. }
  assert (IB : 0 < / B) by (apply Rinv_0_lt_compat; lra).
  pose proof (bpow_gt_0 radix2 (-100)) as P1. assert (Pw : 0 < fr w) by lra.
  set (X := fr w / B) in *. assert (PX : 0 < X) by (apply Rmult_lt_0_compat; lra).
  assert (Ey : Rabs (fr sc * fr w - X) <= d * X).
  { unfold X. replace (fr sc * fr w - fr w / B) with ((fr sc - / B) * fr w) by (unfold Rdiv; ring). rewrite Rabs_mult, (Rabs_pos_eq (fr w)) by lra.
    replace (d * (fr w / B)) with (d * / B * fr w) by (unfold Rdiv; ring). apply Rmult_le_compat_r; [lra|exact Es]. }
  destruct (inv_sqrt_close _ _ _ PX Ey Dd) as (Py & Ei). set (y := fr sc * fr w) in *.
  assert (XL : bpow radix2 (-949) <= X).
  { unfold X, Rdiv. change (-949)%Z with (-100 + - (849))%Z. rewrite bpow_plus, bpow_opp. apply Rmult_le_compat; try lra; [apply Rlt_le, Rinv_0_lt_compat, bpow_gt_0|]. apply Rinv_le; lra. }
  assert (XU : X <= bpow radix2 600).
  { unfold X, Rdiv. change 600%Z with (100 + - (-500))%Z. rewrite bpow_plus, bpow_opp. apply Rmult_le_compat; try lra. apply Rinv_le; lra. }
  apply abs_interval in Ey. assert (dX : d * X <= / 4 * X) by (apply Rmult_le_compat_r; lra).
  assert (YB : bpow radix2 (-1000) <= y <= bpow radix2 1000).
  { split.
    - apply Rle_trans with (/ 4 * bpow radix2 (-949)); [|lra]. replace (/ 4) with (bpow radix2 (-2)) by (cbn; lra). rewrite <- bpow_plus. apply bpow_le. lia.
    - apply Rle_trans with (4 * bpow radix2 600); [lra|]. change 4 with (bpow radix2 2). rewrite <- bpow_plus. apply bpow_le. lia. }
  destruct (near_rnd 0 y y ltac:(lia) (near_refl _ Py) YB) as (Nr & Lr & _).
  destruct (fmul_ok sc w Fs Fw Lr) as (Ex & Fx). fold y in Ex. rewrite <- Ex in Nr.
  destruct (near_inverse_root _ _ Hr Fx (near_pos _ _ _ Nr)) as (N2 & F2).
  assert (N1 : near 1 (/ sqrt (fr (fmul sc w))) (/ sqrt y)) by (apply near_inv, near_sqrt; apply (near_weaken 1); [lia|exact Nr]).
  assert (N3 : near 3 (fr r) (/ sqrt y)).
  { destruct N2 as (A0 & A1 & A2), N1 as (B0 & B1 & B2). split; [exact B0|]. assert (G1 : 0 < g) by (unfold g; pose proof (bpow_gt_0 radix2 (-52)); lra). assert (G2 : 0 < g ^ 2) by (apply pow_lt; auto).
    split.
    - eapply Rle_trans; [exact B1|]. replace (fr r * g ^ 3) with (fr r * g ^ 2 * g ^ 1) by ring. apply Rmult_le_compat_r; [cbn; lra|exact A1].
    - eapply Rle_trans; [exact A2|]. replace (/ sqrt y * g ^ 3) with (/ sqrt y * g ^ 1 * g ^ 2) by ring. apply Rmult_le_compat_r; [lra|exact B2]. }
  split; [exact F2|]. split; [exact (near_pos _ _ _ N3)|].
  assert (Big : INR (2 * 3) <= bpow radix2 52) by (change (INR (2 * 3)) with (1+1+1+1+1+1); assert (1024 <= bpow radix2 52) by (change 1024 with (bpow radix2 10); apply bpow_le; lia); lra).
  pose proof (near_abs 3 _ _ Big N3) as Er. change (INR (2 * 3)) with (1+1+1+1+1+1) in Er.
  set (E := / sqrt X) in *. assert (PE : 0 < E) by (apply Rinv_0_lt_compat, sqrt_lt_R0, PX).
  replace (INR (N + 10) * bpow radix2 (-51) * E) with (d * E + 8 * bpow radix2 (-52) * E).
  2: { unfold d. rewrite !plus_INR. change (INR 6) with (1+1+1+1+1+1). change (INR 10) with (1+1+1+1+1+1+1+1+1+1). change (-51)%Z with (1 + -52)%Z. rewrite bpow_plus. change (bpow radix2 1) with 2. ring. }
  replace (fr r - E) with ((fr r - / sqrt y) + (/ sqrt y - E)) by ring. eapply Rle_trans; [apply Rabs_triang|].
  pose proof Ei as Ei'. apply abs_interval in Ei'. assert (d * E <= / 4 * E) by (apply Rmult_le_compat_r; lra).
  assert (bpow radix2 (-52) * / sqrt y <= bpow radix2 (-52) * (5 / 4 * E)) by (apply Rmult_le_compat_l; [apply bpow_ge_0|lra]).
  assert (0 <= bpow radix2 (-52) * E) by (apply Rmult_le_pos; [apply bpow_ge_0|lra]). lra.
Qed.
Lemma sigma_moderate b e w r : finite b -> bpow radix2 (-100) <= val b <= bpow radix2 100 -> within (bpow radix2 40) e -> INR (length e) <= bpow radix2 48 ->
  finite w -> bpow radix2 (-50) <= val w <= bpow radix2 60 -> sigma_draw_f b e w r -> moderate r.
Proof.
  intros Fb Hb We Hn Fw Hw Hr.
  assert (L1 : bpow radix2 (-500) <= bpow radix2 (-100)) by (apply bpow_le; lia). assert (L2 : bpow radix2 100 <= bpow radix2 500) by (apply bpow_le; lia).
  assert (L3 : bpow radix2 40 <= bpow radix2 400) by (apply bpow_le; lia). assert (L4 : bpow radix2 (-100) <= bpow radix2 (-50)) by (apply bpow_le; lia). assert (L5 : bpow radix2 60 <= bpow radix2 100) by (apply bpow_le; lia).
  assert (We' : within (bpow radix2 400) e) by (eapply Forall_impl; [|exact We]; cbn; intros x (F & H); split; [auto|lra]).
  destruct (sigma_accuracy b e w r Fb ltac:(lra) We' Hn Fw ltac:(lra) Hr) as (F & P & E). split; [exact F|].
  destruct (exact_sum_bound e (bpow radix2 40) We (bpow_ge_0 _ _)) as (S0 & S1). unfold exact_sigma in E.
  set (SS := fold_right Rplus 0 (map (fun x => val x * val x) e)) in *. set (B := val b + / 2 * SS) in *.
  assert (PB : bpow radix2 (-100) <= B) by (unfold B; lra). pose proof (bpow_gt_0 radix2 (-100)).
  assert (UB : B <= bpow radix2 128).
  { assert (INR (length e) * (bpow radix2 40 * bpow radix2 40) <= bpow radix2 128).
    { rewrite <- bpow_plus. apply Rle_trans with (bpow radix2 48 * bpow radix2 (40 + 40)); [apply Rmult_le_compat_r; [apply bpow_ge_0|exact Hn]|rewrite <- bpow_plus; apply bpow_le; lia]. }
    assert (bpow radix2 128 = bpow radix2 28 * bpow radix2 100) by (rewrite <- bpow_plus; reflexivity). assert (2 <= bpow radix2 28) by (change 2 with (bpow radix2 1); apply bpow_le; lia).
    assert (2 * bpow radix2 100 <= bpow radix2 28 * bpow radix2 100) by (apply Rmult_le_compat_r; lra). unfold B. lra. }
  pose proof (bpow_gt_0 radix2 (-50)). set (X := val w / B) in *.
  assert (XL : bpow radix2 (-178) <= X).
  { unfold X, Rdiv. change (-178)%Z with (-50 + - (128))%Z. rewrite bpow_plus, bpow_opp. apply Rmult_le_compat; try lra; [apply Rlt_le, Rinv_0_lt_compat, bpow_gt_0|]. apply Rinv_le; lra. }
  assert (XU : X <= bpow radix2 160).
  { unfold X, Rdiv. change 160%Z with (60 + - (-100))%Z. rewrite bpow_plus, bpow_opp. apply Rmult_le_compat; try lra; [apply Rlt_le, Rinv_0_lt_compat; lra|]. apply Rinv_le; lra. }
  assert (SB : between (-89) 80 (sqrt X)) by (apply between_sqrt; split; auto). destruct SB as (SL & SU).
  assert (EL : bpow radix2 (-80) <= / sqrt X). { change (-80)%Z with (- (80))%Z. rewrite bpow_opp. apply Rinv_le; [pose proof (bpow_gt_0 radix2 (-89)); lra|exact SU]. }
  assert (EU : / sqrt X <= bpow radix2 89). { change 89%Z with (- (-89))%Z. rewrite bpow_opp. apply Rinv_le; [apply bpow_gt_0|exact SL]. }
  set (Q := / sqrt X) in *. set (d := INR (length e + 10) * bpow radix2 (-51)) in *.
  assert (Dd : d <= / 4).
  { unfold d. rewrite plus_INR. change (INR 10) with (1+1+1+1+1+1+1+1+1+1).
    apply Rle_trans with (bpow radix2 49 * bpow radix2 (-51)); [|rewrite <- bpow_plus; cbn; lra]. apply Rmult_le_compat_r; [apply bpow_ge_0|].
    change 49%Z with (1 + 48)%Z. rewrite bpow_plus. change (bpow radix2 1) with 2. assert (1024 <= bpow radix2 48) by (change 1024 with (bpow radix2 10); apply bpow_le; lia). lra. }
  apply abs_interval in E. assert (0 < Q) by (pose proof (bpow_gt_0 radix2 (-80)); lra). assert (d * Q <= / 4 * Q) by (apply Rmult_le_compat_r; lra). split.
  - apply Rle_trans with (/ 4 * bpow radix2 (-80)); [|lra]. replace (/ 4) with (bpow radix2 (-2)) by (cbn; lra). rewrite <- bpow_plus. apply bpow_le. lia.
  - apply Rle_trans with (4 * bpow radix2 89); [lra|]. change 4 with (bpow radix2 2). rewrite <- bpow_plus. apply bpow_le. lia.
Qed.
