(** A tree's turn in double precision. *)
From Coq Require Import ZArith Reals List Lra Lia Psatz.
From Flocq Require Import Core.Core IEEE754.BinarySingleNaN.
From Verif Require Import Base MFloat MFloat2 MFloat3 MFloat4 MFloat5 MFloat7 SpecDouble SpecDouble3 SpecDouble4 SpecDouble5 SpecDouble7
  PFloat PFloat2 PFloat3 PFloat5 PFloat6 PFloat7 PFloat8 PFloat9 PFloat10 PFloat11 Properties_Double2 Properties_Double3.
Import ListNotations.
Local Open Scope R_scope.

Lemma u_small : u <= / 16.
Proof. apply Rle_trans with (bpow radix2 (-4)); [apply bpow_le; lia|cbn; lra]. Qed.
Lemma sub_bound x y A B b : fin x = true -> fin y = true -> Rabs (fr x) <= A -> Rabs (fr y) <= B -> A + B <= bpow radix2 b -> (-1074 <= b < 1024)%Z ->
  fin (fsub x y) = true /\ Rabs (fr (fsub x y) - (fr x - fr y)) <= u * (A + B) /\ Rabs (fr (fsub x y)) <= (1 + u) * (A + B).
Proof.
  intros Fx Fy Ax By L H. assert (S : Rabs (fr x - fr y) <= A + B) by (eapply Rle_trans; [apply Rabs_triang|rewrite Rabs_Ropp; lra]).
  assert (O : Rabs (rnd (fr x - fr y)) < big).
  { apply (rnd_fits _ (fr x - fr y) 0 b); try lia; [replace (_ - _ - _) with 0 by ring; rewrite Rabs_R0; lra|lra]. }
  destruct (fsub_ok x y Fx Fy O) as (E & F). split; [exact F|]. rewrite E. pose proof (sub_err _ _ (fr_format x) (fr_format y)) as X. pose proof u_pos.
  assert (u * Rabs (fr x - fr y) <= u * (A + B)) by (apply Rmult_le_compat_l; lra). split; [lra|].
  replace (rnd (fr x - fr y)) with ((rnd (fr x - fr y) - (fr x - fr y)) + (fr x - fr y)) by ring. eapply Rle_trans; [apply Rabs_triang|]. lra.
Qed.
Lemma handed_ok M j r : 0 <= M <= bpow radix2 40 -> settled M j r ->
  fin (handed_f (fst r) (snd r) j) = true /\ Rabs (fr (handed_f (fst r) (snd r) j) - exact_handed j r) <= 6 * u * M /\ Rabs (fr (handed_f (fst r) (snd r) j)) <= 4 * M.
Proof.
  intros HM S. unfold settled in S. inversion S as [|? ? (F1 & B1) S1]; subst. inversion S1 as [|? ? (F2 & B2) S2]; subst. inversion S2 as [|? ? (F3 & B3) _]; subst.
  unfold handed_f, exact_handed, row_target, row_sum, row_own, finite, val in *.
  pose proof u_small as U. pose proof u_pos as U0. assert (UM : 0 <= u * M <= / 16 * M) by (split; [apply Rmult_le_pos|apply Rmult_le_compat_r]; lra).
  assert (B40 : 16 * bpow radix2 40 <= bpow radix2 44) by (change 44%Z with (4 + 40)%Z; rewrite bpow_plus; change (bpow radix2 4) with 16; lra).
  destruct (sub_bound (fst (snd r)) (nth j (snd (snd r)) (B754_zero false)) M M 44 F2 F3 B2 B3) as (G & E & A); [lra|lia|].
  set (q := fsub (fst (snd r)) _) in *.
  destruct (sub_bound (fst r) q M ((1 + u) * (M + M)) 44 F1 G B1 A) as (G' & E' & A'); [lra|lia|].
  assert (UUM : u * (u * M) <= / 16 * (u * M)) by (apply Rmult_le_compat_r; lra).
  split; [exact G'|]. split.
  - set (v := nth j (snd (snd r)) (B754_zero false)) in *.
    replace (fr (fsub (fst r) q) - (fr (fst r) - (fr (fst (snd r)) - fr v))) with ((fr (fsub (fst r) q) - (fr (fst r) - fr q)) - (fr q - (fr (fst (snd r)) - fr v))) by ring.
    eapply Rle_trans; [apply Rabs_triang|]. rewrite Rabs_Ropp. lra.
  - lra.
Qed.
Lemma exact_handed_bound M j r : settled M j r -> Rabs (exact_handed j r) <= 3 * M.
Proof.
  intros S. unfold settled in S. inversion S as [|? ? (F1 & B1) S1]; subst. inversion S1 as [|? ? (F2 & B2) S2]; subst. inversion S2 as [|? ? (F3 & B3) _]; subst.
  unfold exact_handed. unfold Rabs in *. repeat destruct (Rcase_abs _); lra.
Qed.
Lemma kept_nil y : kept y [] = [].
Proof. destruct y; reflexivity. Qed.
Lemma kept_facts M j rows : 0 <= M <= bpow radix2 40 -> Forall (settled M j) rows -> forall mask, length mask = length rows ->
  Rabs (total (kept (turn_targets_f rows j) mask) - exact_node_sum j rows mask) <= INR (members mask) * (6 * u * M) /\
  size (kept (turn_targets_f rows j) mask) <= INR (members mask) * (4 * M) /\
  Rabs (exact_node_sum j rows mask) <= INR (members mask) * (3 * M).
Proof.
  intros HM S. induction S as [|r rows Hr S IH]; intros [|b mask] L; try discriminate.
  - cbn. rewrite Rminus_0_r, Rabs_R0. lra.
  - injection L as L. destruct (IH mask L) as (A & B & C). unfold kept, exact_node_sum, members, turn_targets_f in *. destruct b; cbn [combine map filter negb snd fst] in *; [auto|].
    destruct (handed_ok M j r HM Hr) as (F & E & G). pose proof (exact_handed_bound _ _ _ Hr) as X.
    cbn [length]. rewrite S_INR. unfold total, size in *. cbn [map fold_right]. fold frow in *. unfold val in *.
    repeat split.
    + match goal with |- Rabs (?a + ?b - (?c + ?d)) <= _ => replace (a + b - (c + d)) with ((a - c) + (b - d)) by ring end. eapply Rle_trans; [apply Rabs_triang|]. lra.
    + lra.
    + eapply Rle_trans; [apply Rabs_triang|]. lra.
Qed.
Lemma members_le mask : (members mask <= length mask)%nat.
Proof. unfold members. induction mask as [|[] m IH]; cbn [filter negb length]; lia. Qed.
Lemma turn_finite M j rows : 0 <= M <= bpow radix2 40 -> Forall (settled M j) rows -> Forall finite (turn_targets_f rows j).
Proof. intros HM S. unfold turn_targets_f. apply Forall_forall. intros x Hx. apply in_map_iff in Hx as (r & <- & Hr). rewrite Forall_forall in S. exact (proj1 (handed_ok M j r HM (S r Hr))). Qed.
Definition sum_error (N k : nat) (M : R) : R := INR (N + 1) * INR k * M * bpow radix2 (-50).
Lemma node_sum_ok M j rows mask s : usual_rows M j rows -> length mask = length rows -> node_sum_f rows j mask s ->
  finite s /\ Rabs (val s - exact_node_sum j rows mask) <= sum_error (length rows) (members mask) M /\
  Rabs (val s) <= 4 * INR (members mask) * M /\ Rabs (exact_node_sum j rows mask) <= 3 * INR (members mask) * M /\ INR (members mask) <= bpow radix2 24.
Proof.
  intros (HM & S & LN) L H. destruct (kept_facts M j rows HM S mask L) as (A & B & C).
  assert (LT : length (turn_targets_f rows j) = length rows) by (unfold turn_targets_f; now rewrite map_length).
  assert (K : INR (members mask) <= bpow radix2 24). { eapply Rle_trans; [|exact LN]. apply le_INR. rewrite <- L. apply members_le. }
  set (k := INR (members mask)) in *. assert (K0 : 0 <= k) by apply pos_INR. assert (KM : 0 <= k * M) by (apply Rmult_le_pos; lra).
  assert (KMB : k * M <= bpow radix2 64). { change 64%Z with (24 + 40)%Z. rewrite bpow_plus. apply Rmult_le_compat; lra. }
  assert (Big : 4 * bpow radix2 64 <= bpow radix2 1000) by (change 4 with (bpow radix2 2); rewrite <- bpow_plus; apply bpow_le; lia).
  destruct (C103_node_sum (turn_targets_f rows j) mask s) as (Fs & E); auto.
  - exact (turn_finite M j rows HM S).
  - lia.
  - lra.
  - rewrite LT. eapply Rle_trans; [exact LN|apply bpow_le; lia].
  - rewrite LT in E. split; [exact Fs|]. unfold sum_error. fold k.
    set (N := length rows) in *. rewrite plus_INR. change (INR 1) with 1. set (nn := INR N) in *. assert (N0 : 0 <= nn) by apply pos_INR.
    assert (Eu : u * 2 = bpow radix2 (-52)) by (rewrite two_u; ring). set (t := bpow radix2 (-52)) in *.
    assert (E50 : bpow radix2 (-50) = 4 * t) by (unfold t; change (-50)%Z with (2 + -52)%Z; rewrite bpow_plus; reflexivity).
    assert (T0 : 0 < t) by apply bpow_gt_0.
    assert (nt : nn * t <= / 16). { assert (Q : bpow radix2 24 * t <= / 16) by (unfold t; rewrite <- bpow_plus; apply Rle_trans with (bpow radix2 (-4)); [apply bpow_le; lia|cbn; lra]). eapply Rle_trans; [|exact Q]. apply Rmult_le_compat_r; [lra|exact LN]. }
    assert (X : nn * t * size (kept (turn_targets_f rows j) mask) <= nn * t * (k * (4 * M))) by (apply Rmult_le_compat_l; [apply Rmult_le_pos; lra|exact B]).
    assert (D : Rabs (val s - exact_node_sum j rows mask) <= (nn + 1) * k * M * (4 * t)).
    { replace (val s - exact_node_sum j rows mask) with ((val s - total (kept (turn_targets_f rows j) mask)) + (total (kept (turn_targets_f rows j) mask) - exact_node_sum j rows mask)) by ring.
      eapply Rle_trans; [apply Rabs_triang|]. apply Rle_trans with (nn * t * (k * (4 * M)) + k * (6 * u * M)); [lra|].
      replace (k * (6 * u * M)) with (3 * t * (k * M)) by (rewrite <- Eu; ring). assert (0 <= t * (k * M)) by (apply Rmult_le_pos; lra). lra. }
    split; [rewrite E50; exact D|]. split; [|split; [lra|exact K]].
    replace (val s) with ((val s - exact_node_sum j rows mask) + exact_node_sum j rows mask) by ring. eapply Rle_trans; [apply Rabs_triang|].
    assert (Y : (nn + 1) * k * M * (4 * t) = 4 * ((nn * t) * (k * M)) + 4 * (t * (k * M))) by ring. rewrite Y in D.
    assert (T16 : t <= / 16) by (apply Rle_trans with (bpow radix2 (-4)); [apply bpow_le; lia|cbn; lra]).
    assert (nn * t * (k * M) <= / 16 * (k * M)) by (apply Rmult_le_compat_r; lra). assert (t * (k * M) <= / 16 * (k * M)) by (apply Rmult_le_compat_r; lra). lra.
Qed.

(** the posterior mean is linear in the sum and shrinks *)
Lemma mean_diff n s s' sigma tau : 0 < n -> 0 < sigma -> 0 < tau -> Rabs (posterior_mean n s sigma tau - posterior_mean n s' sigma tau) <= Rabs (s - s') / n.
Proof.
  intros Pn Ps Pt. unfold posterior_mean. set (q := tau * tau / (sigma * sigma / n + tau * tau)).
  assert (T : 0 < tau * tau) by (apply Rmult_lt_0_compat; lra). assert (S : 0 < sigma * sigma / n) by (apply Rmult_lt_0_compat; [apply Rmult_lt_0_compat; lra|now apply Rinv_0_lt_compat]).
  assert (Q : 0 <= q <= 1).
  { split; [apply Rlt_le, Rmult_lt_0_compat; [lra|apply Rinv_0_lt_compat; lra]|]. apply Rmult_le_reg_r with (sigma * sigma / n + tau * tau); [lra|]. unfold q, Rdiv. rewrite Rmult_assoc, Rinv_l by lra. unfold Rdiv in S. lra. }
  replace (s / n * q - s' / n * q) with ((s - s') * (/ n * q)) by (unfold Rdiv; ring). rewrite Rabs_mult. unfold Rdiv. apply Rmult_le_compat_l; [apply Rabs_pos|].
  assert (0 < / n) by now apply Rinv_0_lt_compat. rewrite Rabs_pos_eq by (apply Rmult_le_pos; lra). rewrite <- (Rmult_1_r (/ n)) at 2. apply Rmult_le_compat_l; lra.
Qed.
Lemma mean_zero n sigma tau : posterior_mean n 0 sigma tau = 0.
Proof. unfold posterior_mean, Rdiv. ring. Qed.
(** a computed sum [s] and the exact one *)
Definition close_sum (E k M : R) (s : b64) (S : R) : Prop := finite s /\ Rabs (val s - S) <= E /\ Rabs S <= 3 * k * M /\ E <= k * M.
Lemma share_sums j rows mask maskl maskr : length mask = length rows -> shared_out mask maskl maskr ->
  exact_node_sum j rows mask = exact_node_sum j rows maskl + exact_node_sum j rows maskr /\ members mask = (members maskl + members maskr)%nat.
Proof.
  intros L (Ll & Lr & H). revert mask maskl maskr L Ll Lr H. induction rows as [|r rows IH]; intros [|b mask] [|bl maskl] [|br maskr] L Ll Lr H; try discriminate.
  - split; [cbn; ring|reflexivity].
  - injection L as L. injection Ll as Ll. injection Lr as Lr.
    destruct (IH mask maskl maskr L Ll Lr (fun i => H (Datatypes.S i))) as (A & B). destruct (H 0%nat) as (X & Y). unfold in_node in X, Y. cbn [nth_error] in X, Y.
    unfold exact_node_sum, members in *. destruct b, bl, br; cbn [combine filter negb snd fst map fold_right length] in *;
      try (exfalso; intuition congruence); rewrite ?A, ?B; split; first [ring|lia].
Qed.
Lemma fresh_close M j rows mask s : usual_rows M j rows -> length mask = length rows -> (1 <= members mask)%nat -> node_sum_f rows j mask s ->
  close_sum (sum_error (length rows) (members mask) M) (INR (members mask)) M s (exact_node_sum j rows mask).
Proof.
  intros U L K H. destruct (node_sum_ok M j rows mask s U L H) as (F & E & A & B & C). destruct U as (HM & S & LN). split; [exact F|]. split; [exact E|]. split; [exact B|].
  unfold sum_error. set (k := INR (members mask)) in *. assert (0 <= k * M) by (apply Rmult_le_pos; [apply pos_INR|lra]).
  replace (INR (length rows + 1) * k * M * bpow radix2 (-50)) with (INR (length rows + 1) * bpow radix2 (-50) * (k * M)) by ring.
  rewrite <- (Rmult_1_l (k * M)) at 2. apply Rmult_le_compat_r; [auto|]. rewrite plus_INR. change (INR 1) with 1.
  apply Rle_trans with (bpow radix2 25 * bpow radix2 (-50)); [|rewrite <- bpow_plus; change 1 with (bpow radix2 0); apply bpow_le; lia]. apply Rmult_le_compat_r; [apply bpow_ge_0|].
  change 25%Z with (1 + 24)%Z. rewrite bpow_plus. change (bpow radix2 1) with 2. assert (1 <= bpow radix2 24) by (change 1 with (bpow radix2 0); apply bpow_le; lia). lra.
Qed.
Lemma right_close M j rows mask maskl maskr s sl : usual_rows M j rows -> length mask = length rows -> shared_out mask maskl maskr -> (1 <= members maskr)%nat ->
  node_sum_f rows j mask s -> node_sum_f rows j maskl sl ->
  close_sum (INR (length rows + 2) * (2 * INR (members mask)) * M * bpow radix2 (-50)) (INR (members maskr)) M (fsub s sl) (exact_node_sum j rows maskr).
Proof.
  intros U L Sh Kr Ns Nl. pose proof Sh as (Ll & Lr & _). destruct (share_sums j rows mask maskl maskr L Sh) as (ES & EK).
  destruct (node_sum_ok M j rows mask s U L Ns) as (F & E & A & B & C). destruct (node_sum_ok M j rows maskl sl U ltac:(lia) Nl) as (Fl & El & Al & Bl & Cl).
  destruct (kept_facts M j rows (proj1 U) (proj1 (proj2 U)) maskr ltac:(lia)) as (_ & _ & BR).
  destruct U as (HM & S & LN).
  assert (KL : INR (members maskl) <= INR (members mask)) by (apply le_INR; lia). assert (KR : 1 <= INR (members maskr)) by (change 1 with (INR 1); now apply le_INR).
  set (k := INR (members mask)) in *. set (kl := INR (members maskl)) in *. assert (K0 : 0 <= kl) by apply pos_INR. assert (KM : 0 <= k * M) by (apply Rmult_le_pos; lra). assert (KLM : 0 <= kl * M <= k * M) by (split; [apply Rmult_le_pos|apply Rmult_le_compat_r]; lra).
  assert (KMB : k * M <= bpow radix2 64). { change 64%Z with (24 + 40)%Z. rewrite bpow_plus. apply Rmult_le_compat; lra. }
  assert (Big : 8 * bpow radix2 64 <= bpow radix2 1000) by (change 8 with (bpow radix2 3); rewrite <- bpow_plus; apply bpow_le; lia).
  destruct (sub_bound s sl (4 * (k * M)) (4 * (k * M)) 1000 F Fl ltac:(unfold val in A; lra) ltac:(unfold val in Al; lra) ltac:(lra) ltac:(lia)) as (Fr & Er & _).
  split; [exact Fr|]. split; [|split; [unfold val in *; lra|]].
  - replace (exact_node_sum j rows maskr) with (exact_node_sum j rows mask - exact_node_sum j rows maskl) by lra. unfold val in *.
    set (S0 := exact_node_sum j rows mask) in *. set (Sl := exact_node_sum j rows maskl) in *.
    replace (fr (fsub s sl) - (S0 - Sl)) with ((fr (fsub s sl) - (fr s - fr sl)) + (fr s - S0) - (fr sl - Sl)) by ring.
    eapply Rle_trans; [apply Rabs_triang|]. rewrite Rabs_Ropp. eapply Rle_trans; [apply Rplus_le_compat_r, Rabs_triang|].
    unfold sum_error in *. fold k in E. fold kl in El. rewrite plus_INR in *. change (INR 1) with 1 in *. change (INR 2) with (1 + 1).
    set (N := INR (length rows)) in *. assert (N0 : 0 <= N) by apply pos_INR. set (t := bpow radix2 (-50)) in *. assert (T0 : 0 < t) by apply bpow_gt_0.
    assert (Eu : 8 * u = t). { unfold t. change 8 with (bpow radix2 3). rewrite <- bpow_plus. reflexivity. }
    assert (X : (N + 1) * t * (kl * M) <= (N + 1) * t * (k * M)) by (apply Rmult_le_compat_l; [apply Rmult_le_pos|]; lra).
    replace (u * (4 * (k * M) + 4 * (k * M))) with (t * (k * M)) in Er by (rewrite <- Eu; ring). assert (0 <= t * (k * M)) by (apply Rmult_le_pos; lra). lra.
  - rewrite plus_INR. change (INR 2) with (1 + 1). set (N := INR (length rows)) in *. assert (N0 : 0 <= N) by apply pos_INR.
    replace ((N + (1 + 1)) * (2 * k) * M * bpow radix2 (-50)) with ((N + 2) * (2 * k) * bpow radix2 (-50) * M) by ring. apply Rmult_le_compat_r; [lra|]. apply Rle_trans with 1; [|exact KR].
    assert (X : 16 <= bpow radix2 24) by (change 16 with (bpow radix2 4); apply bpow_le; lia).
    assert (Y : (N + 2) * (2 * k) <= (2 * bpow radix2 24) * (2 * bpow radix2 24)) by (apply Rmult_le_compat; lra).
    replace ((2 * bpow radix2 24) * (2 * bpow radix2 24)) with (bpow radix2 50) in Y by (change 50%Z with (1 + 24 + (1 + 24))%Z; rewrite !bpow_plus; change (bpow radix2 1) with 2; ring).
    apply Rle_trans with (bpow radix2 50 * bpow radix2 (-50)); [apply Rmult_le_compat_r; [apply bpow_ge_0|exact Y]|rewrite <- bpow_plus; change 1 with (bpow radix2 0); apply bpow_le; lia].
Qed.
Lemma leaf_ok E M n nt k kt sigma sm s S z v : 0 <= M <= bpow radix2 40 -> close_sum E (INR k) M s S -> INR k <= bpow radix2 24 -> counts n k -> counts nt kt -> moderate sigma -> moderate sm ->
  finite z -> Rabs (val z) <= bpow radix2 100 -> leaf_draw_f n nt s sigma sm z v ->
  finite v /\ Rabs (val v - exact_leaf (INR k) (INR kt) S (val sigma) (val sm) (val z)) <=
    E / INR k + bpow radix2 (-45) * M + bpow radix2 (-47) * (Rabs (val z) * exact_spread (INR k) (INR kt) (val sigma) (val sm)) + bpow radix2 (-1071).
Proof.
  intros HM (F & EE & B & EK) LK Cn Ct (Fs & Hs) (Fm & Hm) Fz Hz D. pose proof Cn as (_ & _ & K1 & _).
  assert (Pk : 1 <= INR k) by (change 1 with (INR 1); now apply le_INR). set (kk := INR k) in *.
  pose proof (bpow_gt_0 radix2 (-100)) as P1.
  assert (L1 : bpow radix2 (-200) <= bpow radix2 (-100)) by (apply bpow_le; lia). assert (L2 : bpow radix2 100 <= bpow radix2 200) by (apply bpow_le; lia). assert (L3 : bpow radix2 100 <= bpow radix2 500) by (apply bpow_le; lia).
  assert (KMB : kk * M <= bpow radix2 64). { change 64%Z with (24 + 40)%Z. rewrite bpow_plus. apply Rmult_le_compat; lra. }
  assert (A : Rabs (val s) <= 4 * kk * M). { replace (val s) with ((val s - S) + S) by ring. eapply Rle_trans; [apply Rabs_triang|]. lra. }
  assert (Big : 4 * bpow radix2 64 <= bpow radix2 1000) by (change 4 with (bpow radix2 2); rewrite <- bpow_plus; apply bpow_le; lia).
  destruct (C108_accurate n nt s sigma sm z v _ kt Cn Ct F Fs Fm Fz ltac:(lra) ltac:(lra) ltac:(lra) ltac:(lra) D) as (Fv & Ev). fold kk in Ev. split; [exact Fv|].
  pose proof (mean_diff kk (val s) S (val sigma) (val sm) ltac:(lra) ltac:(lra) ltac:(lra)) as DM.
  pose proof (mean_diff kk (val s) 0 (val sigma) (val sm) ltac:(lra) ltac:(lra) ltac:(lra)) as DZ. rewrite mean_zero, !Rminus_0_r in DZ.
  set (sp := exact_spread kk (INR kt) (val sigma) (val sm)) in *. set (t := bpow radix2 (-47)) in *. assert (T0 : 0 < t) by apply bpow_gt_0.
  assert (E45 : bpow radix2 (-45) = 4 * t) by (unfold t; change (-45)%Z with (2 + -47)%Z; rewrite bpow_plus; reflexivity). rewrite E45.
  assert (X1 : Rabs (val s - S) / kk <= E / kk) by (apply Rmult_le_compat_r; [apply Rlt_le, Rinv_0_lt_compat; lra|exact EE]).
  assert (X2 : Rabs (val s) / kk <= 4 * M).
  { apply Rmult_le_reg_r with kk; [lra|]. unfold Rdiv. rewrite Rmult_assoc, Rinv_l, Rmult_1_r by lra. eapply Rle_trans; [exact A|]. lra. }
  assert (Y : exact_leaf kk (INR kt) S (val sigma) (val sm) (val z) = exact_leaf kk (INR kt) (val s) (val sigma) (val sm) (val z) - (posterior_mean kk (val s) (val sigma) (val sm) - posterior_mean kk S (val sigma) (val sm))) by (unfold exact_leaf; ring).
  rewrite Y. set (el := exact_leaf kk (INR kt) (val s) (val sigma) (val sm) (val z)) in *. set (d := posterior_mean kk (val s) (val sigma) (val sm) - posterior_mean kk S (val sigma) (val sm)) in *. set (pm := Rabs (posterior_mean kk (val s) (val sigma) (val sm))) in *.
  replace (val v - (el - d)) with ((val v - el) + d) by ring. eapply Rle_trans; [apply Rabs_triang|].
  assert (Z1 : t * pm <= t * (4 * M)) by (apply Rmult_le_compat_l; lra). lra.
Qed.

(** sensitivity of the ratio to the sums *)
Lemma weight_diff sigma tau k s S E M : 0 < sigma -> 0 < tau -> 0 < k -> 0 <= M -> close_sum E k M s S ->
  Rabs (weight sigma tau k (val s) - weight sigma tau k S) <= 7 / 2 * E * M * (tau / (sigma * sigma)).
Proof.
  intros Ps Pt Pk PM (F & D & B & EK). set (x := val s) in *. clearbody x. assert (A : Rabs x <= 4 * k * M). { replace x with ((x - S) + S) by ring. eapply Rle_trans; [apply Rabs_triang|]. lra. }
  unfold weight. assert (S2 : 0 < sigma * sigma) by (apply Rmult_lt_0_compat; lra). assert (KT : 0 < k * tau) by (apply Rmult_lt_0_compat; lra).
  set (v := sigma * sigma) in *. set (c := tau * tau / (2 * v)). assert (C : 0 < c) by (apply Rmult_lt_0_compat; [apply Rmult_lt_0_compat; lra|apply Rinv_0_lt_compat; lra]).
  replace (c * (x * x / (v + k * tau)) - c * (S * S / (v + k * tau))) with (c * ((x - S) * (x + S) * / (v + k * tau))) by (unfold Rdiv; ring).
  rewrite Rabs_mult, (Rabs_pos_eq c) by lra. rewrite !Rabs_mult. assert (I : 0 < / (v + k * tau)) by (apply Rinv_0_lt_compat; lra). rewrite (Rabs_pos_eq (/ _)) by lra.
  assert (Q : Rabs (x - S) * Rabs (x + S) <= E * (7 * (k * M))).
  { apply Rmult_le_compat; try apply Rabs_pos; auto. eapply Rle_trans; [apply Rabs_triang|]. lra. }
  assert (J : / (v + k * tau) <= / (k * tau)) by (apply Rinv_le; lra).
  apply Rle_trans with (c * (E * (7 * (k * M)) * / (k * tau))).
  - apply Rmult_le_compat_l; [lra|]. apply Rmult_le_compat; auto; [apply Rmult_le_pos; apply Rabs_pos|lra].
  - right. unfold c. field. repeat split; lra.
Qed.
(** the exact ratio on the computed sums and on the exact ones *)
Lemma ratio_shift M N sigma tau k kl kr s sl sr S Sl Sr E El Er : 0 <= M -> 0 < sigma -> 0 < tau -> (1 <= k)%nat -> (1 <= kl)%nat -> (1 <= kr)%nat ->
  close_sum E (INR k) M s S -> close_sum El (INR kl) M sl Sl -> close_sum Er (INR kr) M sr Sr ->
  E + El + Er <= 4 * (INR (N + 2) * INR k * M * bpow radix2 (-50)) ->
  let D := / 2 * sums_error sigma tau M N k in
  Rabs (exact_ratio sigma tau (INR k) (INR kl) (INR kr) (val s) (val sl) (val sr) - exact_ratio sigma tau (INR k) (INR kl) (INR kr) S Sl Sr) <= D /\
  ratio_size sigma tau (INR k) (INR kl) (INR kr) (val s) (val sl) (val sr) <= ratio_size sigma tau (INR k) (INR kl) (INR kr) S Sl Sr + D.
Proof.
  intros PM Ps Pt K Kl Kr C Cl Cr EE D. assert (P : forall m, (1 <= m)%nat -> 0 < INR m) by (intros m H; apply lt_0_INR; lia).
  pose proof (weight_diff sigma tau _ _ _ _ M Ps Pt (P _ K) PM C) as W. pose proof (weight_diff sigma tau _ _ _ _ M Ps Pt (P _ Kl) PM Cl) as Wl. pose proof (weight_diff sigma tau _ _ _ _ M Ps Pt (P _ Kr) PM Cr) as Wr.
  assert (T : 0 <= tau / (sigma * sigma)) by (apply Rmult_le_pos; [lra|apply Rlt_le, Rinv_0_lt_compat, Rmult_lt_0_compat; lra]).
  set (q := tau / (sigma * sigma)) in *. assert (MQ : 0 <= M * q) by (apply Rmult_le_pos; auto).
  assert (DD : 7 / 2 * E * M * q + 7 / 2 * El * M * q + 7 / 2 * Er * M * q <= D).
  { replace (7 / 2 * E * M * q + 7 / 2 * El * M * q + 7 / 2 * Er * M * q) with (7 / 2 * ((E + El + Er) * (M * q))) by field.
    assert (X : (E + El + Er) * (M * q) <= 4 * (INR (N + 2) * INR k * M * bpow radix2 (-50)) * (M * q)) by (apply Rmult_le_compat_r; auto).
    unfold D, sums_error. fold q. change (-45)%Z with (5 + -50)%Z. rewrite (bpow_plus radix2 5 (-50)). change (bpow radix2 5) with 32.
    set (t := bpow radix2 (-50)) in *. assert (0 < t) by apply bpow_gt_0. assert (0 <= INR (N + 2) * INR k * M * t * (M * q)).
    { apply Rmult_le_pos; [|exact MQ]. apply Rmult_le_pos; [|lra]. apply Rmult_le_pos; [|lra]. apply Rmult_le_pos; apply pos_INR. } lra. }
  unfold exact_ratio, ratio_size, sums_part. split.
  - match goal with |- Rabs ?x <= _ => replace x with ((weight sigma tau (INR kl) (val sl) - weight sigma tau (INR kl) Sl) + (weight sigma tau (INR kr) (val sr) - weight sigma tau (INR kr) Sr) - (weight sigma tau (INR k) (val s) - weight sigma tau (INR k) S)) by ring end.
    eapply Rle_trans; [apply Rabs_triang|]. rewrite Rabs_Ropp. eapply Rle_trans; [apply Rplus_le_compat_r, Rabs_triang|]. lra.
  - apply abs_interval in W. apply abs_interval in Wl. apply abs_interval in Wr. lra.
Qed.
