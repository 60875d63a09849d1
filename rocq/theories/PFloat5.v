(** The point prediction in double precision. *)
From Coq Require Import ZArith Reals List Lra Lia Psatz Permutation.
From Flocq Require Import Core.Core IEEE754.BinarySingleNaN.
From Verif Require Import Base MFloat MFloat2 SpecDouble PFloat PFloat2 PFloat3.
Import ListNotations.
Local Open Scope R_scope.

Lemma eps_add a b : 1 + eps (a + b) = (1 + eps a) * (1 + eps b).
Proof. unfold eps. rewrite pow_add. ring. Qed.

(** one rounding step: from an approximation of [a] with error [e] *)
Lemma rnd_step x a e h : Rabs (x - a) <= e -> Rabs (rnd x - x) <= u * Rabs x + h ->
  Rabs (rnd x - a) <= u * Rabs a + (1 + u) * e + h.
Proof.
  intros E H. replace (rnd x - a) with ((rnd x - x) + (x - a)) by ring.
  eapply Rle_trans; [apply Rabs_triang|].
  assert (X : Rabs x <= Rabs a + e).
  { replace x with (a + (x - a)) by ring. eapply Rle_trans; [apply Rabs_triang|]. lra. }
  pose proof u_pos. assert (u * Rabs x <= u * (Rabs a + e)) by (apply Rmult_le_compat_l; lra). lra.
Qed.
Lemma rnd_fits x a e b : Rabs (x - a) <= e -> Rabs a + e <= bpow radix2 b -> (b < 1024)%Z -> (-1074 <= b)%Z ->
  Rabs (rnd x) < big.
Proof.
  intros E H L1 L2. eapply Rle_lt_trans; [apply (rnd_bound x (bpow radix2 b))|apply bpow_lt, L1].
  - apply bpow_format, L2.
  - replace x with (a + (x - a)) by ring. eapply Rle_trans; [apply Rabs_triang|]. lra.
Qed.

Section Predict.
  Variables (lo hi c r : b64) (leaves : list (list b64)) (T : nat) (B : R).
  Hypothesis Flo : finite lo.
  Hypothesis Fhi : finite hi.
  Hypothesis Bp : 0 <= B.
  Hypothesis Hlv : Forall (fun l => length l = T /\ within B l) leaves.
  Hypothesis Hne : leaves <> [].
  Hypothesis Fc : finite c.
  Hypothesis Hc : val c = INR (length leaves).
  Hypothesis Hle : val lo <= val hi.
  Hypothesis Blo : Rabs (val lo) <= bpow radix2 1000.
  Hypothesis Bhi : Rabs (val hi) <= bpow radix2 1000.
  Let N := INR T * B.
  Let Sn := length leaves.
  Let Rg := val hi - val lo.
  Let Q := N + /2.
  Hypothesis B1 : INR Sn * N <= bpow radix2 999.
  Hypothesis B2 : Q * Rg <= bpow radix2 1000.
  Hypothesis Hk : INR (T + Sn + 4) <= bpow radix2 52.
  Let h := bpow radix2 (-1075).

  Lemma N_pos : 0 <= N.
  Proof. apply Rmult_le_pos; [apply pos_INR|exact Bp]. Qed.
  Lemma S_pos : 1 <= INR Sn.
  Proof. unfold Sn. destruct leaves; [congruence|]. cbn [length]. rewrite S_INR. pose proof (pos_INR (length l0)). lra. Qed.
  Lemma N_small : N <= bpow radix2 999.
  Proof. pose proof S_pos. pose proof N_pos. nra. Qed.
  Lemma le52 k : (k <= T + Sn + 4)%nat -> INR k <= bpow radix2 52.
  Proof. intros H. eapply Rle_trans; [apply le_INR, H|exact Hk]. Qed.

  (** the samples *)
  Lemma sample_sum l p : length l = T /\ within B l -> sums l p ->
    finite p /\ Rabs (val p - total l) <= N * eps T /\ Rabs (val p) <= N * (1 + eps T) /\ Rabs (total l) <= N.
  Proof.
    intros (L & W) S. pose proof (within_size B l W) as Z. rewrite L in Z. fold N in Z.
    pose proof N_small. assert (bpow radix2 999 <= bpow radix2 1000) by (apply bpow_le; lia).
    destruct (sums_err l p S (within_finite B l W)) as (F & E).
    - lra.
    - rewrite L. apply le52. lia.
    - rewrite L in E. pose proof (total_size l). pose proof (size_pos l). pose proof (eps_pos (T - 1)).
      assert (E' : Rabs (val p - total l) <= N * eps T).
      { eapply Rle_trans; [exact E|]. apply Rmult_le_compat; try assumption. apply eps_mono. lia. }
      split; [exact F|]. split; [exact E'|]. split; [|lra].
      replace (val p) with (total l + (val p - total l)) by ring.
      eapply Rle_trans; [apply Rabs_triang|]. lra.
  Qed.
  Definition grand (ls : list (list b64)) : R := fold_right Rplus 0 (map total ls).
  Lemma samples_sum ls ps : Forall (fun l => length l = T /\ within B l) ls -> Forall2 sums ls ps ->
    length ps = length ls /\ Forall finite ps /\
    Rabs (total ps - grand ls) <= INR (length ls) * (N * eps T) /\ size ps <= INR (length ls) * (N * (1 + eps T)) /\
    Rabs (grand ls) <= INR (length ls) * N.
  Proof.
    intros H S. induction S as [|l p ls ps S1 _ IH].
    - unfold total, grand, size. cbn. rewrite Rminus_0_r, Rabs_R0. repeat split; try constructor; lra.
    - inversion H as [|? ? H1 H2]; subst. destruct (IH H2) as (L & F & E & Z & G).
      destruct (sample_sum l p H1 S1) as (F1 & E1 & Z1 & G1).
      cbn [length]. split; [congruence|]. split; [constructor; assumption|].
      rewrite S_INR, total_cons. unfold grand in *. cbn [map fold_right].
      split; [|split].
      + replace (val p + total ps - (total l + fold_right Rplus 0 (map total ls)))
          with ((val p - total l) + (total ps - fold_right Rplus 0 (map total ls))) by ring.
        eapply Rle_trans; [apply Rabs_triang|]. lra.
      + unfold size in *. cbn [map fold_right]. lra.
      + eapply Rle_trans; [apply Rabs_triang|]. lra.
  Qed.

  Let M := grand leaves / INR Sn.
  Lemma M_small : Rabs M <= N.
  Proof.
    pose proof S_pos as Sp. unfold M, Rdiv. rewrite Rabs_mult, (Rabs_pos_eq (/ INR Sn)) by (apply Rlt_le, Rinv_0_lt_compat; lra).
    apply (Rmult_le_reg_r (INR Sn)); [lra|]. rewrite Rmult_assoc, Rinv_l, Rmult_1_r by lra.
    rewrite Rmult_comm.
    assert (G : forall ls, Forall (fun l => length l = T /\ within B l) ls -> Rabs (grand ls) <= INR (length ls) * N).
    { intros ls H. induction H as [|l ls (L & W) _ IH]; [unfold grand; cbn; rewrite Rabs_R0; lra|].
      unfold grand in *. cbn [map fold_right length]. rewrite S_INR. eapply Rle_trans; [apply Rabs_triang|].
      pose proof (total_size l). pose proof (within_size B l W) as Z. rewrite L in Z. fold N in Z. lra. }
    apply G, Hlv.
  Qed.

  Lemma mean_err ps m : Forall2 sums leaves ps -> means ps c m ->
    finite m /\ Rabs (val m - M) <= N * eps (T + Sn) + h.
  Proof.
    intros S (s & Ss & ->). destruct (samples_sum leaves ps Hlv S) as (L & F & E & Z & G).
    fold Sn in L, E, Z, G. pose proof S_pos as Sp. pose proof N_pos as Np. pose proof (eps_pos T) as ET.
    assert (ET1 : eps T <= 1) by (apply eps_1, le52; lia).
    destruct (sums_err ps s Ss F) as (Fs & E').
    { replace (bpow radix2 1000) with (2 * bpow radix2 999) by apply twice.
      assert (INR Sn * N * eps T <= INR Sn * N * 1) by (apply Rmult_le_compat_l; [nra|lra]). lra. }
    { rewrite L. apply le52. lia. }
    rewrite L in E'.
    set (SN := INR Sn * N) in *. assert (SNp : 0 <= SN) by (unfold SN; nra).
    replace (INR Sn * (N * eps T)) with (SN * eps T) in E by (unfold SN; ring).
    replace (INR Sn * (N * (1 + eps T))) with (SN * (1 + eps T)) in Z by (unfold SN; ring).
    assert (K1 : Rabs (val s - grand leaves) <= SN * eps (T + (Sn - 1))).
    { replace (val s - grand leaves) with ((val s - total ps) + (total ps - grand leaves)) by ring.
      eapply Rle_trans; [apply Rabs_triang|].
      assert (size ps * eps (Sn - 1) <= SN * (1 + eps T) * eps (Sn - 1)) by (apply Rmult_le_compat_r; [apply eps_pos|exact Z]).
      pose proof (eps_add T (Sn - 1)) as A. replace (eps (T + (Sn - 1))) with ((1 + eps T) * (1 + eps (Sn - 1)) - 1) by lra.
      lra. }
    set (e1 := eps (T + (Sn - 1))) in *.
    assert (e1p : 0 <= e1) by apply eps_pos.
    assert (e11 : e1 <= 1) by (apply eps_1, le52; lia).
    assert (K2 : Rabs (val s / val c - M) <= N * e1).
    { unfold M. rewrite Hc. fold Sn. replace (val s / INR Sn - grand leaves / INR Sn) with ((val s - grand leaves) / INR Sn) by (field; lra).
      unfold Rdiv. rewrite Rabs_mult, (Rabs_pos_eq (/ INR Sn)) by (apply Rlt_le, Rinv_0_lt_compat; lra).
      apply (Rmult_le_reg_r (INR Sn)); [lra|]. rewrite Rmult_assoc, Rinv_l, Rmult_1_r by lra.
      eapply Rle_trans; [exact K1|]. unfold SN. lra. }
    pose proof M_small as Ms. pose proof N_small as Ns.
    destruct (fdiv_ok s c Fs) as (V & Fm).
    { change (fr c) with (val c). rewrite Hc. fold Sn. lra. }
    { apply (rnd_fits (val s / val c) M (N * e1) 1000 K2); try lia.
      replace (bpow radix2 1000) with (2 * bpow radix2 999) by apply twice. nra. }
    split; [exact Fm|]. unfold val at 1. rewrite V. change (fr s / fr c) with (val s / val c).
    pose proof (rnd_step (val s / val c) M (N * e1) h K2 (any_err _)) as R.
    eapply Rle_trans; [exact R|].
    assert (Sn1 : (1 <= Sn)%nat) by (apply INR_le; cbn; lra).
    replace (T + Sn)%nat with (Datatypes.S (T + (Sn - 1))) by lia. rewrite eps_S. fold e1.
    pose proof u_pos. assert (u * Rabs M <= u * N) by (apply Rmult_le_compat_l; lra). lra.
  Qed.

  Lemma h_tiny : 0 < h /\ h <= /1024.
  Proof.
    split; [apply bpow_gt_0|]. replace (/1024) with (bpow radix2 (-10)) by (cbn; lra). apply bpow_le. lia.
  Qed.

  Lemma predict_err : predicts_f lo hi c leaves r ->
    finite r /\
    Rabs (val r - exact_prediction (val lo) (val hi) leaves)
      <= INR (T + Sn + 4) * bpow radix2 (-52) * (Q * Rg) + u * Rabs (exact_prediction (val lo) (val hi) leaves)
         + bpow radix2 (-1072) * (Rg + 1).
  Proof.
    intros (ps & m & S & Me & E). destruct (mean_err ps m S Me) as (Fm & Em).
    unfold unnormalize_f in E. cbn [map] in E. injection E as <-.
    unfold exact_prediction. fold (grand leaves). fold Sn. fold M. fold Rg.
    set (a := M + /2). set (e := val lo + a * Rg).
    pose proof u_pos as Up. pose proof u_small as Us. pose proof N_pos as Np. pose proof N_small as Ns.
    pose proof M_small as Ms. destruct h_tiny as (hp & h1).
    assert (Rp : 0 <= Rg) by (unfold Rg; lra).
    assert (Qp : / 2 <= Q) by (unfold Q; lra).
    assert (aQ : Rabs a <= Q).
    { unfold a, Q. eapply Rle_trans; [apply Rabs_triang|]. rewrite (Rabs_pos_eq (/2)) by lra. lra. }
    set (k := (T + Sn)%nat) in *.
    assert (k1 : forall j, (j <= 4)%nat -> 0 <= eps (k + j) <= 1) by (intros j Hj; split; [apply eps_pos|apply eps_1, le52; unfold k; lia]).
    pose proof (k1 0%nat ltac:(lia)) as k10. rewrite Nat.add_0_r in k10.
    (* w1 *)
    assert (A0 : Rabs (val m - - /2 - a) <= Q * eps k + h).
    { replace (val m - - /2 - a) with (val m - M) by (unfold a; ring). eapply Rle_trans; [exact Em|].
      apply Rplus_le_compat_r, Rmult_le_compat_r; [lra|unfold Q; lra]. }
    destruct (fsub_ok m neg_half Fm neg_half_fin) as (V1 & F1).
    { rewrite neg_half_val. apply (rnd_fits (val m - - /2) a (Q * eps k + h) 1001 A0); try lia.
      replace (bpow radix2 1001) with (2 * (2 * bpow radix2 999)) by (rewrite (twice 999); apply twice).
      assert (4 <= bpow radix2 999) by (change 4 with (bpow radix2 2); apply bpow_le; lia).
      assert (Q * eps k <= Q * 1) by (apply Rmult_le_compat_l; lra). unfold Q in *. lra. }
    rewrite neg_half_val in V1. change (fr m) with (val m) in V1.
    pose proof (rnd_step (val m - - /2) a (Q * eps k + h) 0 A0) as R1.
    rewrite <- V1 in R1. set (w1 := fsub m neg_half) in *. change (fr w1) with (val w1) in *.
    assert (A1 : Rabs (val w1 - a) <= Q * eps (k + 1) + 2 * h).
    { eapply Rle_trans; [apply R1|].
      - rewrite V1. pose proof (sub_err (val m) (- /2) (fr_format _) (generic_format_opp _ _ _ half_format)). lra.
      - rewrite Nat.add_1_r, eps_S. assert (u * Rabs a <= u * Q) by (apply Rmult_le_compat_l; lra). nra. }
    clear R1 V1 A0.
    (* the range *)
    assert (Dn : Rabs (rnd (val hi - val lo)) <= bpow radix2 1001).
    { apply rnd_bound; [apply bpow_format; lia|].
      replace (bpow radix2 1001) with (2 * bpow radix2 1000) by apply twice.
      unfold Rminus. eapply Rle_trans; [apply Rabs_triang|]. rewrite Rabs_Ropp. lra. }
    destruct (fsub_ok hi lo Fhi Flo) as (VD & FD).
    { eapply Rle_lt_trans; [exact Dn|]. apply bpow_lt. lia. }
    change (fr hi) with (val hi) in VD. change (fr lo) with (val lo) in VD. fold Rg in VD.
    pose proof (sub_err (val hi) (val lo) (fr_format _) (fr_format _)) as ED. fold Rg in ED.
    rewrite (Rabs_pos_eq Rg) in ED by exact Rp. rewrite <- VD in ED.
    assert (Dp : 0 <= fr (fsub hi lo)) by (rewrite VD, <- rnd_0; apply rnd_le, Rp).
    set (D := fsub hi lo) in *. change (fr D) with (val D) in *.
    assert (D1 : val D <= (1 + u) * Rg) by (apply Rabs_le_inv in ED; lra).
    assert (D2 : val D <= 2 * Rg) by nra.
    set (QR := Q * Rg) in *. assert (QRp : 0 <= QR) by (unfold QR; nra).
    (* w1 * D *)
    assert (A2 : Rabs (val w1 * val D - a * Rg) <= QR * eps (k + 2) + 3 * h * Rg).
    { replace (val w1 * val D - a * Rg) with ((val w1 - a) * val D + a * (val D - Rg)) by ring.
      eapply Rle_trans; [apply Rabs_triang|]. rewrite !Rabs_mult, (Rabs_pos_eq (val D)) by exact Dp.
      pose proof (k1 1%nat ltac:(lia)) as k11.
      assert (Rabs (val w1 - a) * val D <= (Q * eps (k + 1) + 2 * h) * ((1 + u) * Rg)).
      { apply Rmult_le_compat; try assumption; apply Rabs_pos. }
      assert (Rabs a * Rabs (val D - Rg) <= Q * (u * Rg)) by (apply Rmult_le_compat; try assumption; apply Rabs_pos).
      replace (k + 2)%nat with (Datatypes.S (k + 1)) by lia. rewrite eps_S. unfold QR.
      assert (0 <= h * Rg) by nra. assert (2 * h * ((1 + u) * Rg) <= 3 * h * Rg) by nra. lra. }
    assert (aR : Rabs (a * Rg) <= QR).
    { unfold QR. rewrite Rabs_mult, (Rabs_pos_eq Rg) by exact Rp. apply Rmult_le_compat_r; assumption. }
    assert (Rg1 : Rg <= bpow radix2 1001).
    { replace (bpow radix2 1001) with (2 * bpow radix2 1000) by apply twice. unfold Rg.
      pose proof (Rle_abs (val hi)). pose proof (Rle_abs (- val lo)) as X. rewrite Rabs_Ropp in X. lra. }
    assert (hR : 8 * h * Rg <= bpow radix2 1000).
    { replace (bpow radix2 1000) with (/2 * bpow radix2 1001) by (change (/2) with (bpow radix2 (-1)); rewrite <- bpow_plus; reflexivity). nra. }
    assert (P1000 : 1024 <= bpow radix2 1000) by (change 1024 with (bpow radix2 10); apply bpow_le; lia).
    pose proof (k1 2%nat ltac:(lia)) as k12.
    destruct (fmul_ok w1 D F1 FD) as (V2 & F2).
    { change (fr w1 * fr D) with (val w1 * val D). apply (rnd_fits _ (a * Rg) _ 1002 A2); try lia.
      replace (bpow radix2 1002) with (2 * (2 * bpow radix2 1000)) by (rewrite (twice 1000); apply twice).
      assert (QR * eps (k + 2) <= QR * 1) by (apply Rmult_le_compat_l; lra). lra. }
    change (fr w1 * fr D) with (val w1 * val D) in V2.
    pose proof (rnd_step (val w1 * val D) (a * Rg) _ h A2 (any_err _)) as R2. rewrite <- V2 in R2.
    set (w2 := fmul w1 D) in *. change (fr w2) with (val w2) in *.
    assert (A3 : Rabs (val w2 - a * Rg) <= QR * eps (k + 3) + 4 * h * Rg + h).
    { eapply Rle_trans; [exact R2|]. replace (k + 3)%nat with (Datatypes.S (k + 2)) by lia. rewrite eps_S.
      assert (u * Rabs (a * Rg) <= u * QR) by (apply Rmult_le_compat_l; lra).
      assert (0 <= h * Rg) by nra. assert (3 * u * (h * Rg) <= h * Rg) by nra. nra. }
    pose proof (k1 3%nat ltac:(lia)) as k13. pose proof (k1 4%nat ltac:(lia)) as k14.
    (* lo + w2 *)
    set (e3 := QR * eps (k + 3) + 4 * h * Rg + h) in *.
    assert (A4 : Rabs (val lo + val w2 - e) <= e3) by (unfold e; replace (val lo + val w2 - (val lo + a * Rg)) with (val w2 - a * Rg) by ring; exact A3).
    assert (e3b : e3 <= 2 * bpow radix2 1000 + 1).
    { unfold e3. assert (QR * eps (k + 3) <= QR * 1) by (apply Rmult_le_compat_l; lra). lra. }
    assert (eb : Rabs e <= 2 * bpow radix2 1000) by (unfold e; eapply Rle_trans; [apply Rabs_triang|]; lra).
    destruct (fadd_ok lo w2 Flo F2) as (V3 & F3).
    { change (fr lo + fr w2) with (val lo + val w2). apply (rnd_fits _ e _ 1003 A4); try lia.
      replace (bpow radix2 1003) with (8 * bpow radix2 1000) by (change 8 with (bpow radix2 3); rewrite <- bpow_plus; reflexivity). lra. }
    split; [exact F3|]. unfold val at 1. rewrite V3. change (fr lo + fr w2) with (val lo + val w2).
    pose proof (rnd_step (val lo + val w2) e e3 0 A4) as R3.
    eapply Rle_trans; [apply R3; pose proof (add_err (val lo) (val w2) (fr_format _) (fr_format _)); lra|].
    replace (bpow radix2 (-1072)) with (8 * h) by (change 8 with (bpow radix2 3); unfold h; rewrite <- bpow_plus; reflexivity).
    assert (X : (1 + u) * e3 <= QR * eps (k + 4) + 5 * (h * Rg) + 2 * h).
    { unfold e3. replace (k + 4)%nat with (Datatypes.S (k + 3)) by lia. rewrite eps_S.
      assert (0 <= h * Rg) by nra. assert (4 * u * (h * Rg) <= h * Rg) by nra. nra. }
    assert (Y : QR * eps (k + 4) <= INR (k + 4) * bpow radix2 (-52) * QR).
    { rewrite Rmult_comm. apply Rmult_le_compat_r; [exact QRp|]. apply eps_le, le52. unfold k. lia. }
    assert (0 <= h * Rg) by nra. lra.
  Qed.
End Predict.
