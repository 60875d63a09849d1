(** Normalisation of integer targets: facts. *)
From Coq Require Import ZArith Reals List Lra Lia.
From Flocq Require Import Core.Core IEEE754.BinarySingleNaN.
From Verif Require Import Base MFloat MConvert MIntTarget SpecDouble SpecConvert SpecIntTarget PFloat PFloat2 PConvert.
Import ListNotations.
Local Open Scope R_scope.

Lemma pow_half w : (2 <= w)%Z -> (2 ^ w = 2 * 2 ^ (w - 1))%Z.
Proof. intros H. rewrite <- Z.pow_succ_r by lia. f_equal. lia. Qed.
Lemma wrap_in w z : (2 <= w)%Z -> (- 2 ^ (w - 1) <= z < 2 ^ (w - 1))%Z -> wrap w z = z.
Proof. intros W H. unfold wrap. rewrite Z.mod_small; [lia|]. rewrite (pow_half w W). lia. Qed.
Lemma wrap_over w z : (2 <= w)%Z -> (2 ^ (w - 1) <= z < 2 ^ w)%Z -> wrap w z = (z - 2 ^ w)%Z.
Proof.
  intros W H. unfold wrap. rewrite <- (Z.mod_unique (z + 2 ^ (w - 1)) (2 ^ w) 1 (z + 2 ^ (w - 1) - 2 ^ w)); [lia| |lia]. rewrite (pow_half w W) in *. lia.
Qed.
Lemma half_pow w : (2 <= w <= 64)%Z -> (0 < 2 ^ (w - 1) <= 2 ^ 63)%Z.
Proof. intros H. split; [apply Z.pow_pos_nonneg; lia|]. apply Z.pow_le_mono_r; lia. Qed.

(** *** one entry *)
Definition ient (d D : Z) : b64 := fadd neg_half (fdiv (z_to_f d) (z_to_f D)).
Lemma rnd_ge1 z : (1 <= z)%Z -> 1 <= rnd (IZR z).
Proof. intros H. rewrite <- (rnd_id 1 one_format) at 1. apply rnd_le. apply IZR_le. exact H. Qed.
Lemma rnd_opp x : rnd (- x) = - rnd x.
Proof. apply round_NE_opp. Qed.
Lemma rnd_big z : (- 2 ^ 63 <= z <= 2 ^ 63)%Z -> Rabs (rnd (IZR z)) <= bpow radix2 63.
Proof. intros H. apply rnd_bound; [apply bpow_format; lia|]. apply izr_abs_le; lia. Qed.
Lemma rnd_nz z : z <> 0%Z -> 1 <= Rabs (rnd (IZR z)).
Proof.
  intros H. destruct (Z_lt_le_dec 0 z) as [P|N].
  - pose proof (rnd_ge1 z ltac:(lia)). rewrite Rabs_pos_eq; lra.
  - replace z with (- (- z))%Z by ring. rewrite opp_IZR, rnd_opp, Rabs_Ropp. pose proof (rnd_ge1 (- z) ltac:(lia)). rewrite Rabs_pos_eq; lra.
Qed.
Lemma ient_ok d D : (- 2 ^ 63 <= d <= 2 ^ 63)%Z -> (- 2 ^ 63 <= D <= 2 ^ 63)%Z -> D <> 0%Z ->
  fin (ient d D) = true /\ fr (ient d D) = rnd (- /2 + rnd (rnd (IZR d) / rnd (IZR D))).
Proof.
  intros Hd HD N. destruct (int_val d Hd) as (Fd & Vd). destruct (int_val D HD) as (FD & VD). unfold finite, val in *.
  pose proof (rnd_nz D N) as L. pose proof (rnd_big d Hd) as B.
  assert (NZ : rnd (IZR D) <> 0) by (intros K; rewrite K, Rabs_R0 in L; lra).
  assert (Q : Rabs (rnd (IZR d) / rnd (IZR D)) <= bpow radix2 63).
  { unfold Rdiv. rewrite Rabs_mult, Rabs_inv. rewrite <- (Rmult_1_r (bpow radix2 63)).
    apply Rmult_le_compat; try apply Rabs_pos; [apply Rlt_le, Rinv_0_lt_compat; lra|exact B|]. rewrite <- Rinv_1. apply Rinv_le_contravar; lra. }
  assert (Q' : Rabs (rnd (rnd (IZR d) / rnd (IZR D))) <= bpow radix2 63) by (apply rnd_bound; [apply bpow_format; lia|exact Q]).
  destruct (fdiv_ok (z_to_f d) (z_to_f D)) as (E & F); try assumption.
  { rewrite VD. exact NZ. }
  { rewrite Vd, VD. eapply Rle_lt_trans; [exact Q'|]. apply bpow_lt; lia. }
  rewrite Vd, VD in E. unfold ient.
  destruct (fadd_ok neg_half (fdiv (z_to_f d) (z_to_f D))) as (E2 & F2); [reflexivity|exact F| |].
  { rewrite neg_half_val, E. apply Rle_lt_trans with (bpow radix2 64); [|apply bpow_lt; lia]. apply rnd_bound; [apply bpow_format; lia|].
    eapply Rle_trans; [apply Rabs_triang|]. rewrite Rabs_Ropp, (Rabs_pos_eq (/2)) by lra. change (bpow radix2 64) with (bpow radix2 (1 + 63)). rewrite bpow_plus. change (bpow radix2 1) with 2.
    assert (1 <= bpow radix2 63) by (change 1 with (bpow radix2 0); apply bpow_le; lia). lra. }
  split; [exact F2|]. rewrite E2, neg_half_val, E. reflexivity.
Qed.
Lemma nhalf_format : F64 (- /2).
Proof. apply generic_format_opp. exact half_format. Qed.
Lemma ient_0 D : (- 2 ^ 63 <= D <= 2 ^ 63)%Z -> D <> 0%Z -> fr (ient 0 D) = - /2.
Proof.
  intros H N. destruct (ient_ok 0 D ltac:(lia) H N) as (_ & ->). change (IZR 0) with 0. rewrite rnd_0. unfold Rdiv. rewrite Rmult_0_l, rnd_0, Rplus_0_r. apply rnd_id, nhalf_format.
Qed.
Lemma ient_1 D : (- 2 ^ 63 <= D <= 2 ^ 63)%Z -> D <> 0%Z -> fr (ient D D) = /2.
Proof.
  intros H N. destruct (ient_ok D D H H N) as (_ & ->). pose proof (rnd_nz D N) as L. assert (NZ : rnd (IZR D) <> 0) by (intros K; rewrite K, Rabs_R0 in L; lra).
  unfold Rdiv. rewrite Rinv_r by exact NZ. rewrite (rnd_id 1 one_format). replace (- /2 + 1) with (/2) by lra. apply rnd_id, half_format.
Qed.
Lemma ient_up d e D : (- 2 ^ 63 <= d)%Z -> (d <= e)%Z -> (e <= 2 ^ 63)%Z -> (0 < D <= 2 ^ 63)%Z -> fr (ient d D) <= fr (ient e D).
Proof.
  intros A B C H. destruct (ient_ok d D) as (_ & ->); try lia. destruct (ient_ok e D) as (_ & ->); try lia. apply rnd_le. apply Rplus_le_compat_l. apply rnd_le.
  pose proof (rnd_ge1 D ltac:(lia)). unfold Rdiv. apply Rmult_le_compat_r; [apply Rlt_le, Rinv_0_lt_compat; lra|]. apply rnd_le. apply IZR_le. exact B.
Qed.
Lemma ient_down d e D : (- 2 ^ 63 <= d)%Z -> (d <= e)%Z -> (e <= 2 ^ 63)%Z -> (- 2 ^ 63 <= D < 0)%Z -> fr (ient e D) <= fr (ient d D).
Proof.
  intros A B C H. destruct (ient_ok d D) as (_ & ->); try lia. destruct (ient_ok e D) as (_ & ->); try lia. apply rnd_le. apply Rplus_le_compat_l. apply rnd_le.
  assert (L : rnd (IZR D) <= -1). { replace D with (- (- D))%Z by ring. rewrite opp_IZR, rnd_opp. pose proof (rnd_ge1 (- D) ltac:(lia)). lra. }
  assert (I : / rnd (IZR D) <= 0) by (apply Rlt_le, Rinv_lt_0_compat; lra).
  assert (K : rnd (IZR d) <= rnd (IZR e)) by (apply rnd_le, IZR_le; exact B). unfold Rdiv.
  assert (rnd (IZR e) * - / rnd (IZR D) >= rnd (IZR d) * - / rnd (IZR D)); [|lra]. apply Rle_ge, Rmult_le_compat_r; lra.
Qed.
(** the same as subtracting zero in floating point *)
Lemma sub_zero (x : b64) : fin x = true -> fsub x (B754_zero false) = x.
Proof. intros F. destruct x as [[]|s| |s m e b]; try discriminate F; reflexivity. Qed.
Lemma ient_entry d D : (- 2 ^ 63 <= d <= 2 ^ 63)%Z -> (- 2 ^ 63 <= D <= 2 ^ 63)%Z -> ient d D = entry (B754_zero false) (z_to_f D) (z_to_f d).
Proof. intros Hd HD. unfold ient, entry. rewrite !sub_zero; [reflexivity|apply int_val; exact HD|apply int_val; exact Hd]. Qed.
Lemma ient_close d D : (0 <= d <= D)%Z -> (0 < D <= 2 ^ 63)%Z -> Rabs (fr (ient d D) - (- /2 + IZR d / IZR D)) <= bpow radix2 (-50).
Proof.
  intros Hd HD. destruct (int_val d ltac:(lia)) as (Fd & Vd). destruct (int_val D ltac:(lia)) as (FD & VD). unfold finite, val in *.
  pose proof (rnd_ge1 D ltac:(lia)) as L. assert (P0 : 0 <= rnd (IZR d)) by (rewrite <- rnd_0; apply rnd_le, IZR_le; lia). assert (P1 : rnd (IZR d) <= rnd (IZR D)) by (apply rnd_le, IZR_le; lia).
  rewrite ient_entry by lia.
  assert (C : Rabs (fr (entry (B754_zero false) (z_to_f D) (z_to_f d)) - position 0 (rnd (IZR D)) (rnd (IZR d))) <= bpow radix2 (-51)).
  { rewrite <- Vd, <- VD. change 0 with (fr (B754_zero false)). apply entry_close; try assumption; try reflexivity; change (fr (B754_zero false)) with 0; rewrite ?Vd, ?VD; try lra. rewrite sub_zero; exact FD. }
  pose proof (int_err d) as E1. pose proof (int_err D) as E2. rewrite (Rabs_pos_eq (IZR d)) in E1 by (apply IZR_le; lia). rewrite (Rabs_pos_eq (IZR D)) in E2 by (apply IZR_le; lia).
  assert (Dp : 1 <= IZR D) by (apply IZR_le; lia). assert (dp : 0 <= IZR d <= IZR D) by (split; apply IZR_le; lia).
  assert (Us : u <= / 1024) by apply u_small. assert (Up : 0 < u) by apply bpow_gt_0.
  set (a := rnd (IZR d)) in *. set (A := rnd (IZR D)) in *. set (x := IZR d) in *. set (X := IZR D) in *. clearbody a A x X.
  apply Rabs_le_inv in E1. apply Rabs_le_inv in E2.
  assert (S : Rabs (a / A - x / X) <= bpow radix2 (-51)).
  { replace (a / A - x / X) with ((a * X - x * A) / (A * X)) by (field; lra). unfold Rdiv. rewrite Rabs_mult, Rabs_inv, (Rabs_pos_eq (A * X)) by nra.
    apply Rmult_le_reg_r with (A * X); [nra|]. rewrite Rmult_assoc, Rinv_l, Rmult_1_r by nra.
    change (bpow radix2 (-51)) with (bpow radix2 (2 + -53)). rewrite bpow_plus. change (bpow radix2 2) with 4.
    assert (T : Rabs (a * X - x * A) <= 2 * u * x * X).
    { replace (a * X - x * A) with ((a - x) * X - x * (A - X)) by ring. apply Rabs_le.
      assert (- (u * x) * X <= (a - x) * X <= (u * x) * X) by (split; apply Rmult_le_compat_r; lra).
      assert (x * - (u * X) <= x * (A - X) <= x * (u * X)) by (split; apply Rmult_le_compat_l; lra). lra. }
    eapply Rle_trans; [exact T|]. assert (X * (1 - u) <= A) by lra. assert (x <= 2 * A) by nra.
    replace (2 * u * x * X) with (u * X * (2 * x)) by ring. replace (4 * u * (A * X)) with (u * X * (4 * A)) by ring. apply Rmult_le_compat_l; [nra|lra]. }
  unfold position in C. rewrite !Rminus_0_r in C. change (bpow radix2 (-50)) with (bpow radix2 (1 + -51)). rewrite bpow_plus. change (bpow radix2 1) with 2.
  match goal with |- Rabs (?f - _) <= _ => replace (f - (- /2 + x / X)) with ((f - (- /2 + a / A)) + (a / A - x / X)) by ring end. eapply Rle_trans; [apply Rabs_triang|]. lra.
Qed.

(** *** the whole list *)
Lemma fold_min l a : let m := fold_left Z.min l a in In m (a :: l) /\ Forall (fun v => (m <= v)%Z) (a :: l).
Proof.
  cbv zeta. revert a. induction l as [|b l IH]; intros a; cbn [fold_left]; [split; [left; reflexivity|repeat constructor; lia]|].
  destruct (IH (Z.min a b)) as (I & F). inversion F as [|? ? F1 F2]; subst. split.
  - destruct I as [I|I]; [|right; right; exact I]. rewrite <- I. destruct (Z.min_spec a b) as [(_ & ->)|(_ & ->)]; [left|right; left]; reflexivity.
  - constructor; [lia|]. constructor; [lia|exact F2].
Qed.
Lemma fold_max l a : let m := fold_left Z.max l a in In m (a :: l) /\ Forall (fun v => (v <= m)%Z) (a :: l).
Proof.
  cbv zeta. revert a. induction l as [|b l IH]; intros a; cbn [fold_left]; [split; [left; reflexivity|repeat constructor; lia]|].
  destruct (IH (Z.max a b)) as (I & F). inversion F as [|? ? F1 F2]; subst. split.
  - destruct I as [I|I]; [|right; right; exact I]. rewrite <- I. destruct (Z.max_spec a b) as [(_ & ->)|(_ & ->)]; [right; left|left]; reflexivity.
  - constructor; [lia|]. constructor; [lia|exact F2].
Qed.
Lemma norm_eq w y lo hi : least lo y -> greatest hi y -> normalize_i w y = Ok (map (fun v => ient (wrap w (v - lo)) (wrap w (hi - lo))) y).
Proof.
  intros (I & F) (J & G). destruct y as [|a l]; [destruct I|]. destruct (fold_min l a) as (I' & F'). destruct (fold_max l a) as (J' & G').
  rewrite Forall_forall in F, G, F', G'. unfold normalize_i, imin_list, imax_list.
  replace (fold_left Z.min l a) with lo by (specialize (F _ I'); specialize (F' _ I); lia).
  replace (fold_left Z.max l a) with hi by (specialize (G _ J'); specialize (G' _ J); lia). reflexivity.
Qed.

(** *** small integers: the same doubles as for the float version of the targets *)
Lemma cmp_int a b : (- 2 ^ 53 <= a <= 2 ^ 53)%Z -> (- 2 ^ 53 <= b <= 2 ^ 53)%Z -> Bcompare (z_to_f a) (z_to_f b) = Some (a ?= b)%Z.
Proof.
  intros A B. destruct (small_int a A) as (Fa & Va). destruct (small_int b B) as (Fb & Vb). rewrite (Bcompare_correct 53 1024 _ _ Fa Fb).
  unfold val in *. rewrite Va, Vb, Rcompare_IZR. reflexivity.
Qed.
Lemma fmin_int a b : (- 2 ^ 53 <= a <= 2 ^ 53)%Z -> (- 2 ^ 53 <= b <= 2 ^ 53)%Z -> fmin (z_to_f a) (z_to_f b) = z_to_f (Z.min a b).
Proof. intros A B. unfold fmin. rewrite cmp_int by assumption. unfold Z.min. destruct (a ?= b)%Z; reflexivity. Qed.
Lemma fmax_int a b : (- 2 ^ 53 <= a <= 2 ^ 53)%Z -> (- 2 ^ 53 <= b <= 2 ^ 53)%Z -> fmax (z_to_f a) (z_to_f b) = z_to_f (Z.max a b).
Proof.
  intros A B. unfold fmax. rewrite cmp_int by assumption. unfold Z.max. destruct (a ?= b)%Z; reflexivity.
Qed.
Lemma fold_fmin l a : Forall (fun v => (- 2 ^ 53 <= v <= 2 ^ 53)%Z) (a :: l) -> fold_left fmin (map z_to_f l) (z_to_f a) = z_to_f (fold_left Z.min l a).
Proof.
  revert a. induction l as [|b l IH]; intros a F; [reflexivity|]. inversion F as [|? ? A F1]; subst. inversion F1 as [|? ? B F2]; subst. cbn [map fold_left]. rewrite fmin_int by assumption. apply IH. constructor; [lia|exact F2].
Qed.
Lemma fold_fmax l a : Forall (fun v => (- 2 ^ 53 <= v <= 2 ^ 53)%Z) (a :: l) -> fold_left fmax (map z_to_f l) (z_to_f a) = z_to_f (fold_left Z.max l a).
Proof.
  revert a. induction l as [|b l IH]; intros a F; [reflexivity|]. inversion F as [|? ? A F1]; subst. inversion F1 as [|? ? B F2]; subst. cbn [map fold_left]. rewrite fmax_int by assumption. apply IH. constructor; [lia|exact F2].
Qed.
Lemma fsub_int a b : (- 2 ^ 52 <= a <= 2 ^ 52)%Z -> (- 2 ^ 52 <= b <= 2 ^ 52)%Z -> fsub (z_to_f a) (z_to_f b) = z_to_f (a - b).
Proof.
  intros A B. destruct (small_int a ltac:(lia)) as (Fa & Va). destruct (small_int b ltac:(lia)) as (Fb & Vb). destruct (small_int (a - b) ltac:(lia)) as (Fc & Vc).
  destruct (Z.eq_dec a b) as [->|N].
  - rewrite Z.sub_diag. change (z_to_f 0) with (@B754_zero 53 1024 false). clear -Fb. set (x := z_to_f b) in *. clearbody x.
    pose proof (Bminus_correct 53 1024 prec64 emax64 mode_NE x x Fb Fb) as C. change (round radix2 (SpecFloat.fexp 53 1024) (round_mode mode_NE)) with rnd in C.
    replace (fr x - fr x) with 0 in C by ring. rewrite rnd_0, Rabs_R0 in C. rewrite Rlt_bool_true in C by apply bpow_gt_0. destruct C as (A & B & S).
    rewrite Rcompare_Eq in S by reflexivity. unfold fsub. destruct (@Bminus 53 1024 prec64 emax64 mode_NE x x) as [s|s| |s m e H]; try discriminate B.
    + cbn in S. rewrite S. destruct (Bsign x); reflexivity.
    + exfalso. cbn [B2R] in A. apply eq_0_F2R in A. destruct s; discriminate A.
  - assert (E : rnd (fr (z_to_f a) - fr (z_to_f b)) = IZR (a - b)) by (unfold val in *; rewrite Va, Vb, <- minus_IZR; apply rnd_id, small_format; lia).
    destruct (fsub_ok (z_to_f a) (z_to_f b)) as (V & F); [exact Fa|exact Fb| |].
    { rewrite E. apply Rle_lt_trans with (bpow radix2 53); [apply izr_abs_le; lia|apply bpow_lt; lia]. }
    rewrite E in V. assert (NZ : IZR (a - b) <> 0) by (apply not_0_IZR; lia).
    apply B2R_inj; [apply strict; [exact F|unfold val; congruence]|apply strict; [exact Fc|congruence]|unfold val in Vc; congruence].
Qed.
