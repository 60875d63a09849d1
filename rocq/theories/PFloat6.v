(** The draws in double precision. *)
From Coq Require Import ZArith Reals List Lra Lia Psatz Permutation.
From Flocq Require Import Core.Core IEEE754.BinarySingleNaN.
From Verif Require Import Base MFloat MFloat2 MFloat3 SpecDouble SpecDouble3 PFloat PFloat2 PFloat3 PFloat5.
Import ListNotations.
Local Open Scope R_scope.

(** ** relative errors of positive numbers *)
Definition g : R := 1 + bpow radix2 (-52).
Lemma e52 : 0 < bpow radix2 (-52) <= / 1024.
Proof. split; [apply bpow_gt_0|]. replace (/1024) with (bpow radix2 (-10)) by (cbn; lra). apply bpow_le. lia. Qed.
Lemma g_ge : 1 <= g.
Proof. unfold g. pose proof e52. lra. Qed.
Lemma gk_ge k : 1 <= g ^ k.
Proof. apply pow_R1_Rle, g_ge. Qed.
Lemma gk_pos k : 0 < g ^ k.
Proof. pose proof (gk_ge k). lra. Qed.
Lemma gk_le k : INR (2 * k) <= bpow radix2 52 -> g ^ k <= 1 + INR (2 * k) * bpow radix2 (-52).
Proof.
  intros H. apply eps_le in H. assert (G : g ^ k <= (1 + u) ^ (2 * k)).
  { rewrite pow_mult. apply pow_incr. split; [pose proof g_ge; lra|]. unfold g. rewrite two_u. pose proof u_pos. cbn [pow]. nra. }
  unfold eps in H. lra.
Qed.
Definition near (k : nat) (a x : R) : Prop := 0 < x /\ x <= a * g ^ k /\ a <= x * g ^ k.
Lemma near_refl x : 0 < x -> near 0 x x.
Proof. intros H. split; [auto|]. cbn. lra. Qed.
Lemma near_pos k a x : near k a x -> 0 < a.
Proof. intros (A&B&_). pose proof (gk_pos k). destruct (Rle_or_lt a 0); auto. nra. Qed.
Lemma near_weaken j k a x : (j <= k)%nat -> near j a x -> near k a x.
Proof.
  intros L N. pose proof (near_pos _ _ _ N) as P. destruct N as (A&B&C). assert (G : g ^ j <= g ^ k) by (apply Rle_pow; auto using g_ge). split; [auto|]. nra.
Qed.
Lemma near_mul j k a x b y : near j a x -> near k b y -> near (j + k) (a * b) (x * y).
Proof.
  intros N M. pose proof (near_pos _ _ _ N) as P. pose proof (near_pos _ _ _ M) as Q. destruct N as (A&B&C), M as (A'&B'&C'). split; [nra|]. rewrite pow_add.
  split.
  - replace (a * b * (g ^ j * g ^ k)) with (a * g ^ j * (b * g ^ k)) by ring. apply Rmult_le_compat; lra.
  - replace (x * y * (g ^ j * g ^ k)) with (x * g ^ j * (y * g ^ k)) by ring. apply Rmult_le_compat; lra.
Qed.
Lemma near_inv k a x : near k a x -> near k (/ a) (/ x).
Proof.
  intros N. pose proof (near_pos _ _ _ N) as P. destruct N as (A&B&C). pose proof (gk_pos k) as G. split; [now apply Rinv_0_lt_compat|]. split.
  - apply (Rmult_le_reg_l x); auto. apply (Rmult_le_reg_l a); auto. replace (a * (x * / x)) with a by (field; lra). replace (a * (x * (/ a * g ^ k))) with (x * g ^ k) by (field; lra). lra.
  - apply (Rmult_le_reg_l x); auto. apply (Rmult_le_reg_l a); auto. replace (a * (x * / a)) with x by (field; lra). replace (a * (x * (/ x * g ^ k))) with (a * g ^ k) by (field; lra). lra.
Qed.
Lemma near_div j k a x b y : near j a x -> near k b y -> near (j + k) (a / b) (x / y).
Proof. intros N M. apply near_mul; auto using near_inv. Qed.
Lemma near_add k a x b y : near k a x -> near k b y -> near k (a + b) (x + y).
Proof. intros (A&B&C) (A'&B'&C'). split; [lra|]. split; lra. Qed.
Lemma near_sqrt k a x : near (2 * k) a x -> near k (sqrt a) (sqrt x).
Proof.
  intros N. pose proof (near_pos _ _ _ N) as P. destruct N as (A&B&C). pose proof (gk_pos k) as G. rewrite Nat.mul_comm, pow_mult in B, C. split; [now apply sqrt_lt_R0|].
  assert (E : g ^ k = sqrt ((g ^ k) ^ 2)) by (cbn [pow]; rewrite Rmult_1_r; symmetry; apply sqrt_square; lra). rewrite E. rewrite <- !sqrt_mult; try lra; try (apply pow2_ge_0). split; apply sqrt_le_1_alt; lra.
Qed.
Lemma near_abs k a x : INR (2 * k) <= bpow radix2 52 -> near k a x -> Rabs (a - x) <= INR (2 * k) * bpow radix2 (-52) * x.
Proof.
  intros L N. pose proof (near_pos _ _ _ N) as P. destruct N as (A&B&C). pose proof (gk_le k L) as G. pose proof (gk_ge k) as G1. set (d := INR (2 * k) * bpow radix2 (-52)) in *.
  apply Rabs_le. split; [|nra]. assert (x * (2 - g ^ k) <= a); [|nra].
  apply (Rmult_le_reg_r (g ^ k)); [lra|]. eapply Rle_trans; [|exact B]. rewrite <- (Rmult_1_r x) at 2. rewrite Rmult_assoc. apply Rmult_le_compat_l; [lra|].
  assert (0 <= (g ^ k - 1) ^ 2) by apply pow2_ge_0. nra.
Qed.
Lemma near_of_abs a x : 0 < x -> Rabs (a - x) <= bpow radix2 (-52) * x -> near 2 a x.
Proof.
  intros P H. pose proof e52 as E. assert (H' : - (bpow radix2 (-52) * x) <= a - x <= bpow radix2 (-52) * x) by (revert H; unfold Rabs; destruct (Rcase_abs (a - x)); lra).
  split; auto. unfold g. set (d := bpow radix2 (-52)) in *. cbn [pow]. rewrite Rmult_1_r. split.
  - assert (x * (1 - d) <= a) by nra. assert (1 <= (1 - d) * ((1 + d) * (1 + d))) by nra. assert (x * ((1 - d) * ((1 + d) * (1 + d))) <= a * ((1 + d) * (1 + d))) by (rewrite <- Rmult_assoc; apply Rmult_le_compat_r; nra). nra.
  - assert (a <= x * (1 + d)) by nra. nra.
Qed.
Lemma small_count k : (k <= 100)%nat -> INR (2 * k) <= bpow radix2 52.
Proof.
  intros L. apply Rle_trans with (bpow radix2 8); [|apply bpow_le; lia]. replace (bpow radix2 8) with (INR 256) by (rewrite INR_IZR_INZ; cbn; lra). apply le_INR. lia.
Qed.
Lemma gk_2 k : (k <= 100)%nat -> g ^ k <= 2.
Proof.
  intros L. pose proof (gk_le k (small_count k L)) as G. pose proof e52.
  assert (INR (2 * k) * bpow radix2 (-52) <= 1); [|lra]. replace 1 with (bpow radix2 52 * bpow radix2 (-52)) by (rewrite <- bpow_plus; reflexivity). apply Rmult_le_compat_r; [lra|]. now apply small_count.
Qed.
(** one more operation *)
Lemma near_rnd k a x : (k <= 100)%nat -> near k a x -> bpow radix2 (-1000) <= x <= bpow radix2 1000 -> near (S k) (rnd a) x /\ Rabs (rnd a) < big /\ Rabs a <= bpow radix2 1001.
Proof.
  intros L N [X1 X2]. pose proof (near_pos _ _ _ N) as P. destruct N as (A&B&C). pose proof (gk_2 k L) as G2. pose proof (gk_ge k) as G1.
  assert (T : bpow radix2 1001 = 2 * bpow radix2 1000) by (change 1001%Z with (1 + 1000)%Z; rewrite bpow_plus; reflexivity).
  assert (T' : bpow radix2 (-1000) = 2 * bpow radix2 (-1001)) by (change (-1000)%Z with (1 + -1001)%Z; rewrite bpow_plus; reflexivity).
  assert (U : a <= bpow radix2 1001) by nra. assert (V : bpow radix2 (-1001) <= a) by nra.
  pose proof (any_err a) as E. rewrite (Rabs_pos_eq a) in E by lra.
  assert (W : bpow radix2 (-1075) <= bpow radix2 (-74) * a) by (replace (bpow radix2 (-1075)) with (bpow radix2 (-74) * bpow radix2 (-1001)) by (rewrite <- bpow_plus; reflexivity); apply Rmult_le_compat_l; [apply bpow_ge_0|exact V]).
  assert (D : bpow radix2 (-74) <= u * / 4).
  { replace (/ 4) with (bpow radix2 (-2)) by (cbn; lra). rewrite <- bpow_plus. apply bpow_le. lia. }
  pose proof u_pos. pose proof u_small. pose proof two_u as T2.
  assert (E' : - (5 / 4 * u * a) <= rnd a - a <= 5 / 4 * u * a) by (assert (bpow radix2 (-74) * a <= u * / 4 * a) by (apply Rmult_le_compat_r; lra); revert E; unfold Rabs; destruct (Rcase_abs (rnd a - a)); lra).
  split; [|split].
  - split; auto. cbn [pow]. unfold g at 1 3. rewrite T2. split.
    + eapply Rle_trans; [exact B|]. rewrite <- Rmult_assoc. apply Rmult_le_compat_r; [lra|]. assert (a * (1 - 5 / 4 * u) <= rnd a) by nra.
      assert (1 <= (1 - 5 / 4 * u) * (1 + 2 * u)) by nra. assert (a * ((1 - 5 / 4 * u) * (1 + 2 * u)) <= rnd a * (1 + 2 * u)) by (rewrite <- Rmult_assoc; apply Rmult_le_compat_r; lra). nra.
    + apply Rle_trans with (a * (1 + 2 * u)); [nra|]. replace (x * ((1 + 2 * u) * g ^ k)) with (x * g ^ k * (1 + 2 * u)) by ring. apply Rmult_le_compat_r; lra.
  - eapply Rle_lt_trans; [apply (rnd_bound a (bpow radix2 1001))|apply bpow_lt; lia]; [apply bpow_format; lia|]. rewrite Rabs_pos_eq; lra.
  - rewrite Rabs_pos_eq; lra.
Qed.

(** ** the operations of the draws *)
Lemma one_val : fr fone = 1.
Proof. unfold fone, B2R, F2R. cbn. lra. Qed.
Definition between (a b : Z) (x : R) : Prop := bpow radix2 a <= x <= bpow radix2 b.
Lemma between_pos a b x : between a b x -> 0 < x.
Proof. intros [H _]. pose proof (bpow_gt_0 radix2 a). lra. Qed.
Lemma between_mul a b c d x y : between a b x -> between c d y -> between (a + c) (b + d) (x * y).
Proof.
  intros X Y. pose proof (between_pos _ _ _ X). pose proof (between_pos _ _ _ Y). destruct X, Y. unfold between. rewrite !bpow_plus.
  pose proof (bpow_gt_0 radix2 a). pose proof (bpow_gt_0 radix2 c). split; apply Rmult_le_compat; lra.
Qed.
Lemma between_inv a b x : between a b x -> between (- b) (- a) (/ x).
Proof.
  intros X. pose proof (between_pos _ _ _ X). destruct X. unfold between. rewrite !bpow_opp. split; apply Rinv_le; auto. apply bpow_gt_0.
Qed.
Lemma between_div a b c d x y : between a b x -> between c d y -> between (a - d) (b - c) (x / y).
Proof. intros X Y. apply (between_mul a b (- d) (- c)); auto using between_inv. Qed.
Lemma between_weaken a b c d x : (c <= a)%Z -> (b <= d)%Z -> between a b x -> between c d x.
Proof. intros H K [X Y]. split; [eapply Rle_trans; [apply bpow_le, H|exact X]|eapply Rle_trans; [exact Y|apply bpow_le, K]]. Qed.
Lemma between_add a b x y : between a b x -> between a b y -> between a (1 + b) (x + y).
Proof. intros X Y. pose proof (between_pos _ _ _ Y). destruct X, Y. unfold between. rewrite bpow_plus. change (bpow radix2 1) with 2. lra. Qed.

Lemma near_fdiv j k x X y Y : near j (fr x) X -> near k (fr y) Y -> fin x = true -> (j + k <= 100)%nat -> between (-1000) 1000 (X / Y) ->
  near (S (j + k)) (fr (fdiv x y)) (X / Y) /\ fin (fdiv x y) = true.
Proof.
  intros N M F L B. pose proof (near_div _ _ _ _ _ _ N M) as D. destruct (near_rnd _ _ _ L D B) as (R & O & _).
  destruct (fdiv_ok x y F) as (E & G); auto; [pose proof (near_pos _ _ _ M); lra|]. rewrite E. auto.
Qed.
Lemma near_fadd k x X y Y : near k (fr x) X -> near k (fr y) Y -> fin x = true -> fin y = true -> (k <= 100)%nat -> between (-1000) 1000 (X + Y) ->
  near (S k) (fr (fadd x y)) (X + Y) /\ fin (fadd x y) = true.
Proof.
  intros N M F G L B. pose proof (near_add _ _ _ _ _ N M) as D. destruct (near_rnd _ _ _ L D B) as (R & O & _).
  destruct (fadd_ok x y F G O) as (E & H). rewrite E. auto.
Qed.
Lemma near_one : near 0 (fr fone) 1.
Proof. rewrite one_val. apply near_refl. lra. Qed.
Lemma near_square x r a : squares x r -> fin x = true -> fr x = a -> between (-200) 200 a -> near 2 (fr r) (a * a) /\ fin r = true.
Proof.
  intros S F E B. pose proof (between_mul _ _ _ _ _ _ B B) as Q. cbn in Q. pose proof (between_pos _ _ _ Q) as P.
  assert (N : ~ a * a < bpow radix2 (-1022)) by (destruct Q as [Q _]; apply Rle_not_lt; eapply Rle_trans; [apply bpow_le|exact Q]; lia).
  assert (N' : ~ bpow radix2 1023 < a * a) by (destruct Q as [_ Q]; apply Rle_not_lt; eapply Rle_trans; [exact Q|apply bpow_le]; lia).
  destruct x; try discriminate; cbn [squares] in S; cbv zeta in S; rewrite E in S; destruct S as [[[_ S]|(S & _ & _ & D)] _]; try contradiction;
    destruct (Rlt_dec (a * a) (bpow radix2 (-1022))); try contradiction; rewrite Rplus_0_r in D; split; auto using near_of_abs.
Qed.
Lemma near_root k x r X : roots x r -> near (2 * k) (fr x) X -> fin x = true -> near (k + 2) (fr r) (sqrt X) /\ fin r = true.
Proof.
  intros S N F. pose proof (near_pos _ _ _ N) as P. pose proof (near_sqrt _ _ _ N) as Q.
  destruct x as [s|[]| |[] m e b]; try discriminate.
  - cbn in P. lra.
  - exfalso. revert P. unfold B2R, F2R. cbn. pose proof (bpow_gt_0 radix2 e). assert (IZR (Z.neg m) < 0) by (now apply IZR_lt). nra.
  - cbn [roots] in S. destruct S as (G & H). split; auto. set (y := fr (B754_finite false m e b)) in *.
    assert (R : near 2 (fr r) (sqrt y)) by (apply near_of_abs; auto; now apply sqrt_lt_R0).
    destruct R as (_ & R1 & R2), Q as (Q0 & Q1 & Q2). split; auto. rewrite pow_add. pose proof (gk_pos k). pose proof (gk_pos 2). split.
    + eapply Rle_trans; [exact Q1|]. rewrite (Rmult_comm (g ^ k)), <- Rmult_assoc. apply Rmult_le_compat_r; lra.
    + eapply Rle_trans; [exact R2|]. rewrite <- Rmult_assoc. apply Rmult_le_compat_r; lra.
Qed.
