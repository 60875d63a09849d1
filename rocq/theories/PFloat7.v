(** Accuracy of a leaf draw. *)
From Coq Require Import ZArith Reals List Lra Lia Psatz Permutation.
From Flocq Require Import Core.Core IEEE754.BinarySingleNaN.
From Verif Require Import Base MFloat MFloat2 MFloat3 SpecDouble SpecDouble3 PFloat PFloat2 PFloat3 PFloat5 PFloat6.
Import ListNotations.
Local Open Scope R_scope.

Lemma counts_between x k : counts x k -> fin x = true /\ fr x = INR k /\ between 0 52 (INR k).
Proof. intros (A & B & C & D). repeat split; auto. cbn. change 1 with (INR 1). now apply le_INR. Qed.

(** the numbers inside a draw *)
Lemma leaf_parts n nt k kt pv s2 a t :
  counts n k -> counts nt kt -> near 2 (fr pv) (t * t) -> fin pv = true -> near 2 (fr s2) (a * a) -> fin s2 = true ->
  between (-200) 200 a -> between (-200) 200 t ->
  (near 7 (fr (fdiv pv (fadd (fdiv s2 n) pv))) (t * t / (a * a / INR k + t * t)) /\ fin (fdiv pv (fadd (fdiv s2 n) pv)) = true) /\
  near 8 (fr (fdiv (leaf_var_f pv s2 n) nt)) (posterior_variance (INR k) a t / INR kt) /\ fin (fdiv (leaf_var_f pv s2 n) nt) = true /\
  between (-1000) 1000 (t * t / (a * a / INR k + t * t)) /\ between (-1000) 900 (posterior_variance (INR k) a t / INR kt).
Proof.
  intros Cn Ct Np Fp Ns Fs Ba Bt. destruct (counts_between _ _ Cn) as (Fn & En & Bn). destruct (counts_between _ _ Ct) as (Ft & Et & Bkt).
  pose proof (between_pos _ _ _ Bn) as Pn. pose proof (between_pos _ _ _ Bkt) as Pkt. pose proof (between_pos _ _ _ Ba) as Pa. pose proof (between_pos _ _ _ Bt) as Pt.
  pose proof (between_mul _ _ _ _ _ _ Ba Ba) as Ba2. pose proof (between_mul _ _ _ _ _ _ Bt Bt) as Bt2. cbn in Ba2, Bt2.
  pose proof (between_pos _ _ _ Ba2) as Pa2. pose proof (between_pos _ _ _ Bt2) as Pt2.
  assert (Nn : near 0 (fr n) (INR k)) by (rewrite En; now apply near_refl). assert (Nt : near 0 (fr nt) (INR kt)) by (rewrite Et; now apply near_refl).
  (* likihood_var *)
  pose proof (between_div _ _ _ _ _ _ Ba2 Bn) as Bl. cbn in Bl.
  destruct (near_fdiv 2 0 s2 (a * a) n (INR k) Ns Nn Fs) as (Nl & Fl); [lia|eapply between_weaken; [| |exact Bl]; lia|]. cbn [Nat.add] in Nl.
  (* the factor *)
  assert (Bs : between (-452) 401 (a * a / INR k + t * t)).
  { apply (between_add (-452) 400); [exact Bl|]. eapply between_weaken; [| |exact Bt2]; lia. }
  destruct (near_fadd 3 (fdiv s2 n) (a * a / INR k) pv (t * t) Nl (near_weaken 2 3 _ _ ltac:(lia) Np) Fl Fp) as (Nd & Fd); [lia|eapply between_weaken; [| |exact Bs]; lia|].
  assert (Bf : between (-801) 852 (t * t / (a * a / INR k + t * t))).
  { exact (between_div _ _ _ _ _ _ Bt2 Bs). }
  destruct (near_fdiv 2 4 pv (t * t) _ _ Np Nd Fp) as (Nf & Ff); [lia|eapply between_weaken; [| |exact Bf]; lia|].
  (* the variance *)
  assert (B1 : between 0 0 1) by (cbn; unfold between; cbn; lra).
  pose proof (between_div _ _ _ _ _ _ B1 Bt2) as Bip. cbn in Bip. pose proof (between_div _ _ _ _ _ _ B1 Bl) as Bil. cbn in Bil.
  destruct (near_fdiv 0 2 fone 1 pv (t * t) near_one Np eq_refl) as (Nip & Fip); [lia|eapply between_weaken; [| |exact Bip]; lia|].
  destruct (near_fdiv 0 3 fone 1 (fdiv s2 n) (a * a / INR k) near_one Nl eq_refl) as (Nil & Fil); [lia|eapply between_weaken; [| |exact Bil]; lia|].
  cbn [Nat.add] in Nip, Nil.
  assert (Bis : between (-400) 453 (1 / (t * t) + 1 / (a * a / INR k))).
  { apply (between_add (-400) 452); eapply between_weaken; try eassumption; lia. }
  destruct (near_fadd 4 (fdiv fone pv) (1 / (t * t)) (fdiv fone (fdiv s2 n)) (1 / (a * a / INR k)) (near_weaken 3 4 _ _ ltac:(lia) Nip) Nil Fip Fil) as (Nsum & Fsum);
    [lia|eapply between_weaken; [| |exact Bis]; lia|].
  pose proof (between_div _ _ _ _ _ _ B1 Bis) as Bv. cbn in Bv.
  destruct (near_fdiv 0 5 fone 1 _ _ near_one Nsum eq_refl) as (Nv & Fv); [lia|eapply between_weaken; [| |exact Bv]; lia|].
  pose proof (between_div _ _ _ _ _ _ Bv Bkt) as Bw. cbn in Bw.
  destruct (near_fdiv 6 0 _ _ nt (INR kt) Nv Nt Fv) as (Nw & Fw); [lia|eapply between_weaken; [| |exact Bw]; lia|].
  assert (E : 1 / (1 / (t * t) + 1 / (a * a / INR k)) = posterior_variance (INR k) a t).
  { unfold posterior_variance. unfold Rdiv at 1. rewrite Rmult_1_l. f_equal. f_equal; field; repeat split; lra. }
  rewrite E in Nw, Bw. split; [split; [exact Nf|exact Ff]|]. split; [|split; [exact Fw|split]].
  - eapply near_weaken; [|exact Nw]. lia.
  - eapply between_weaken; [| |exact Bf]; lia.
  - eapply between_weaken; [| |exact Bw]; lia.
Qed.

Notation d52 := (bpow radix2 (-52)).
Lemma d52_u : d52 = 2 * u.
Proof. exact two_u. Qed.

Lemma fr_lt x : Rabs (fr x) < big.
Proof. exact (abs_B2R_lt_emax 53 1024 x). Qed.
(** the mean of the rows of the leaf *)
Lemma leaf_mean_ok s n k : counts n k -> fin s = true -> fin (fdiv s n) = true /\ fr (fdiv s n) = rnd (fr s / INR k) /\ Rabs (fr (fdiv s n)) <= Rabs (fr s) /\
  Rabs (fr s / INR k) <= Rabs (fr s) /\ 0 <= fr s * fr (fdiv s n).
Proof.
  intros C F. destruct (counts_between _ _ C) as (Fn & En & Bn). pose proof (between_pos _ _ _ Bn) as P. destruct Bn as [B _]. cbn in B.
  assert (Q : Rabs (fr s / INR k) <= Rabs (fr s)).
  { unfold Rdiv. rewrite Rabs_mult, (Rabs_pos_eq (/ INR k)) by (left; now apply Rinv_0_lt_compat). rewrite <- (Rmult_1_r (Rabs (fr s))) at 2. apply Rmult_le_compat_l; [apply Rabs_pos|].
    rewrite <- Rinv_1. apply Rinv_le; lra. }
  assert (R : Rabs (rnd (fr s / INR k)) <= Rabs (fr s)) by (apply rnd_bound; auto; apply generic_format_abs, fr_format).
  destruct (fdiv_ok s n F) as (E & G); [lra|rewrite En; eapply Rle_lt_trans; [exact R|apply fr_lt]|]. rewrite En in E. rewrite E. repeat split; auto.
  destruct (Rle_or_lt 0 (fr s)) as [H|H].
  - apply Rmult_le_pos; auto. rewrite <- rnd_0. apply rnd_le. apply Rmult_le_pos; auto. left. now apply Rinv_0_lt_compat.
  - assert (rnd (fr s / INR k) <= 0); [|nra]. rewrite <- rnd_0. apply rnd_le. unfold Rdiv. pose proof (Rinv_0_lt_compat _ P). nra.
Qed.

Lemma abs_interval x e : Rabs x <= e <-> - e <= x <= e.
Proof. split; [intros H; revert H; unfold Rabs; destruct (Rcase_abs x); lra|intros H; apply Rabs_le; lra]. Qed.

(** a product of two approximate numbers *)
Lemma product_err x a ex hx y b ey : Rabs (x - a) <= ex * Rabs a + hx -> Rabs (y - b) <= ey * Rabs b -> 0 <= ex -> 0 <= ey -> 0 <= hx ->
  Rabs (x * y - a * b) <= (ex + ey + ex * ey) * Rabs (a * b) + hx * (1 + ey) * Rabs b.
Proof.
  intros X Y E1 E2 E3. replace (x * y - a * b) with ((x - a) * y + a * (y - b)) by ring. eapply Rle_trans; [apply Rabs_triang|]. rewrite !Rabs_mult.
  assert (Y' : Rabs y <= (1 + ey) * Rabs b). { replace y with (b + (y - b)) by ring. eapply Rle_trans; [apply Rabs_triang|]. lra. }
  pose proof (Rabs_pos a). pose proof (Rabs_pos b).
  apply Rle_trans with ((ex * Rabs a + hx) * ((1 + ey) * Rabs b) + Rabs a * (ey * Rabs b)).
  - apply Rplus_le_compat; [apply Rmult_le_compat; auto using Rabs_pos|apply Rmult_le_compat_l; auto].
  - apply Req_le. ring.
Qed.

Definition tiny : R := bpow radix2 (-1075).
Lemma tiny_pos : 0 < tiny.
Proof. apply bpow_gt_0. Qed.

Lemma grow c X y h : 0 <= X -> 0 <= c <= 1000 -> 0 <= y -> u * X + (1 + u) * (c * u * X + y) + h <= (c + 2) * u * X + 2 * y + h.
Proof.
  intros HX Hc Hy. pose proof u_pos. pose proof u_small. assert (A : u * c <= 1) by nra. assert (B : u * y <= y) by nra.
  assert (C : u * c * (u * X) <= 1 * (u * X)) by (apply Rmult_le_compat_r; nra). lra.
Qed.

Lemma leaf_accuracy n nt s sigma sm z r k kt :
  counts n k -> counts nt kt -> finite s -> finite sigma -> finite sm -> finite z ->
  bpow radix2 (-200) <= val sigma <= bpow radix2 200 -> bpow radix2 (-200) <= val sm <= bpow radix2 200 ->
  Rabs (val s) <= bpow radix2 1000 -> Rabs (val z) <= bpow radix2 500 ->
  leaf_draw_f n nt s sigma sm z r ->
  finite r /\
  Rabs (val r - exact_leaf (INR k) (INR kt) (val s) (val sigma) (val sm) (val z)) <=
    bpow radix2 (-47) * (Rabs (posterior_mean (INR k) (val s) (val sigma) (val sm)) + Rabs (val z) * exact_spread (INR k) (INR kt) (val sigma) (val sm)) +
    bpow radix2 (-1071).
Proof.
  unfold finite, val. intros Cn Ct Fs Fg Fm Fz Bg Bm Bs Bz (pv & s2 & rt & Sp & Ss & Sr & ->).
  destruct (near_square _ _ _ Sp Fm eq_refl Bm) as (Np & Fp). destruct (near_square _ _ _ Ss Fg eq_refl Bg) as (Ns & Fs2).
  destruct (leaf_parts n nt k kt pv s2 (fr sigma) (fr sm) Cn Ct Np Fp Ns Fs2 Bg Bm) as ((Nf & Ff) & Nw & Fw & Bf & Bw).
  destruct (near_root 4 _ _ _ Sr Nw Fw) as (Nr & Fr). cbn [Nat.add] in Nr.
  destruct (leaf_mean_ok s n k Cn Fs) as (Flm & Elm & _ & Blm & _).
  unfold exact_leaf, exact_spread, posterior_mean, leaf_mean_f in *.
  set (M := fr s / INR k) in *. set (F := fr sm * fr sm / (fr sigma * fr sigma / INR k + fr sm * fr sm)) in *. set (V := posterior_variance (INR k) (fr sigma) (fr sm) / INR kt) in *.
  set (f := fdiv pv (fadd (fdiv s2 n) pv)) in *. set (lm := fdiv s n) in *. clearbody f lm.
  pose proof (near_abs 7 _ _ (small_count 7 ltac:(lia)) Nf) as Ef. pose proof (near_abs 6 _ _ (small_count 6 ltac:(lia)) Nr) as Er.
  replace (INR (2 * 7)) with 14 in Ef by (cbn; lra). replace (INR (2 * 6)) with 12 in Er by (cbn; lra).
  pose proof u_pos as U. pose proof u_small as US. pose proof d52_u as D. pose proof tiny_pos as T.
  assert (US' : u <= / 1048576) by (replace (/ 1048576) with (bpow radix2 (-20)) by (cbn; lra); apply bpow_le; lia).
  assert (PF : 0 < F) by (destruct Nf as [Nf _]; exact Nf). assert (PV : 0 < sqrt V) by (destruct Nr as [Nr _]; exact Nr).
  assert (F1 : F <= 1).
  { unfold F. apply (Rmult_le_reg_r (fr sigma * fr sigma / INR k + fr sm * fr sm)).
    - assert (0 < fr sm) by (pose proof (bpow_gt_0 radix2 (-200)); lra). assert (0 < fr sigma) by (pose proof (bpow_gt_0 radix2 (-200)); lra).
      destruct (counts_between _ _ Cn) as (_ & _ & Bn). apply between_pos in Bn. assert (0 < fr sigma * fr sigma / INR k) by (apply Rmult_lt_0_compat; [nra|now apply Rinv_0_lt_compat]). nra.
    - unfold Rdiv at 1. rewrite Rmult_assoc, Rinv_l, Rmult_1_r, Rmult_1_l.
      + assert (0 <= fr sigma * fr sigma / INR k); [|lra]. apply Rmult_le_pos; [nra|]. destruct (counts_between _ _ Cn) as (_ & _ & Bn). apply between_pos in Bn. left. now apply Rinv_0_lt_compat.
      + assert (0 < fr sm) by (pose proof (bpow_gt_0 radix2 (-200)); lra). 
        assert (0 <= fr sigma * fr sigma / INR k); [|nra]. apply Rmult_le_pos; [nra|]. destruct (counts_between _ _ Cn) as (_ & _ & Bn). apply between_pos in Bn. left. now apply Rinv_0_lt_compat. }
  (* the mean *)
  pose proof (any_err M) as EM. rewrite <- Elm in EM. fold tiny in EM.
  assert (Ef' : Rabs (fr f - F) <= 28 * u * Rabs F) by (rewrite (Rabs_pos_eq F) by lra; rewrite D in Ef; lra).
  pose proof (product_err (fr lm) M u tiny (fr f) F (28 * u) EM Ef' ltac:(lra) ltac:(lra) ltac:(lra)) as P1.
  rewrite (Rabs_pos_eq F) in P1 by lra. set (m := M * F) in *. pose proof (Rabs_pos m) as Pm.
  assert (P1' : Rabs (fr lm * fr f - m) <= 30 * u * Rabs m + 2 * tiny).
  { eapply Rle_trans; [exact P1|]. apply Rplus_le_compat; [apply Rmult_le_compat_r; [lra|nra]|]. assert (tiny * (1 + 28 * u) <= 2 * tiny) by nra. nra. }
  assert (Bm' : Rabs m <= bpow radix2 1000).
  { unfold m. rewrite Rabs_mult, (Rabs_pos_eq F) by lra. pose proof (Rabs_pos M). nra. }
  pose proof (rnd_step (fr lm * fr f) m (30 * u * Rabs m + 2 * tiny) tiny P1' (any_err _)) as R1.
  assert (K : forall e, (e <= 1000)%Z -> bpow radix2 e <= bpow radix2 1000) by (intros; now apply bpow_le).
  assert (BT : tiny <= 1) by (change 1 with (bpow radix2 0); unfold tiny; apply bpow_le; lia).
  assert (B2 : bpow radix2 1001 = 2 * bpow radix2 1000) by (change 1001%Z with (1 + 1000)%Z; rewrite bpow_plus; reflexivity).
  assert (B3 : bpow radix2 1002 = 4 * bpow radix2 1000) by (change 1002%Z with (2 + 1000)%Z; rewrite bpow_plus; reflexivity).
  assert (B4 : 1024 <= bpow radix2 1000) by (change 1024 with (bpow radix2 10); apply bpow_le; lia).
  assert (O1 : Rabs (rnd (fr lm * fr f)) < big).
  { apply (rnd_fits _ m (30 * u * Rabs m + 2 * tiny) 1001); auto; try lia. rewrite B2. nra. }
  destruct (fmul_ok lm f Flm Ff O1) as (E1 & Fmean). rewrite <- E1 in R1.
  set (mean := fmul lm f) in *. clearbody mean.
  assert (R1' : Rabs (fr mean - m) <= 32 * u * Rabs m + 5 * tiny) by (eapply Rle_trans; [exact R1|]; eapply Rle_trans; [apply grow; lra|]; lra).
  (* the noise *)
  set (w := fr z * sqrt V) in *. pose proof (Rabs_pos w) as Pw.
  assert (Aw : Rabs w = Rabs (fr z) * sqrt V) by (unfold w; rewrite Rabs_mult, (Rabs_pos_eq (sqrt V)); lra).
  assert (Ez : Rabs (fr z - fr z) <= 0 * Rabs (fr z) + 0) by (replace (fr z - fr z) with 0 by ring; rewrite Rabs_R0; lra).
  assert (Er' : Rabs (fr rt - sqrt V) <= 24 * u * Rabs (sqrt V)) by (rewrite (Rabs_pos_eq (sqrt V)) by lra; rewrite D in Er; lra).
  pose proof (product_err (fr z) (fr z) 0 0 (fr rt) (sqrt V) (24 * u) Ez Er' ltac:(lra) ltac:(lra) ltac:(lra)) as P2. fold w in P2.
  assert (P2' : Rabs (fr z * fr rt - w) <= 24 * u * Rabs w) by (eapply Rle_trans; [exact P2|]; lra).
  assert (Bw' : Rabs w <= bpow radix2 1000).
  { rewrite Aw. assert (S : sqrt V <= bpow radix2 450). { rewrite <- (sqrt_square (bpow radix2 450)) by apply bpow_ge_0. apply sqrt_le_1_alt. rewrite <- bpow_plus. apply Bw. }
    eapply Rle_trans; [apply Rmult_le_compat; [apply Rabs_pos|lra|exact Bz|exact S]|]. rewrite <- bpow_plus. apply bpow_le. lia. }
  pose proof (rnd_step (fr z * fr rt) w (24 * u * Rabs w) tiny P2' (any_err _)) as R2.
  assert (O2 : Rabs (rnd (fr z * fr rt)) < big).
  { apply (rnd_fits _ w (24 * u * Rabs w) 1001); auto; try lia. rewrite B2. nra. }
  destruct (fmul_ok z rt Fz Fr O2) as (E2 & Fnoise). rewrite <- E2 in R2.
  set (noise := fmul z rt) in *. clearbody noise.
  assert (R2' : Rabs (fr noise - w) <= 26 * u * Rabs w + tiny) by (eapply Rle_trans; [exact R2|]; pose proof (grow 24 (Rabs w) 0 tiny); lra).
  (* the sum *)
  assert (P3 : Rabs (fr mean + fr noise - (m + w)) <= 32 * u * (Rabs m + Rabs w) + 6 * tiny).
  { replace (fr mean + fr noise - (m + w)) with ((fr mean - m) + (fr noise - w)) by ring. eapply Rle_trans; [apply Rabs_triang|]. assert (0 <= u * Rabs w) by nra. lra. }
  pose proof (Rabs_triang m w) as Tr.
  pose proof (rnd_step (fr mean + fr noise) (m + w) _ 0 P3 ltac:(rewrite Rplus_0_r; apply add_err; apply fr_format)) as R3.
  assert (O3 : Rabs (rnd (fr mean + fr noise)) < big).
  { apply (rnd_fits _ (m + w) (32 * u * (Rabs m + Rabs w) + 6 * tiny) 1002); auto; try lia. rewrite B3. assert (32 * u * (Rabs m + Rabs w) <= / 2 * (Rabs m + Rabs w)) by (apply Rmult_le_compat_r; lra). lra. }
  destruct (fadd_ok mean noise Fmean Fnoise O3) as (E3 & F3). split; auto. rewrite E3, <- Aw.
  eapply Rle_trans; [exact R3|].
  assert (E47 : bpow radix2 (-47) = 64 * u) by (change (-47)%Z with (6 + -53)%Z; rewrite bpow_plus; reflexivity).
  assert (E72 : bpow radix2 (-1071) = 16 * tiny) by (unfold tiny; change (-1071)%Z with (4 + -1075)%Z; rewrite bpow_plus; reflexivity).
  rewrite E47, E72. assert (u * Rabs (m + w) <= u * (Rabs m + Rabs w)) by (apply Rmult_le_compat_l; lra).
  pose proof (grow 32 (Rabs m + Rabs w) (6 * tiny) 0 ltac:(lra) ltac:(lra) ltac:(lra)). assert (0 <= u * (Rabs m + Rabs w)) by (apply Rmult_le_pos; lra). lra.
Qed.
