(** The scale of the gamma draw behind sigma. *)
From Coq Require Import ZArith Reals List Lra Lia Psatz Permutation.
From Flocq Require Import Core.Core IEEE754.BinarySingleNaN.
From Verif Require Import Base MFloat MFloat2 MFloat3 SpecDouble SpecDouble3 PFloat PFloat2 PFloat3 PFloat5 PFloat6 PFloat7.
Import ListNotations.
Local Open Scope R_scope.

Lemma half_val : fr half_f = / 2.
Proof. unfold half_f, B2R, F2R. cbn. lra. Qed.
Definition sq (e : list b64) : list b64 := map (fun x => fmul x x) e.
Definition exact_sq (e : list b64) : R := fold_right Rplus 0 (map (fun x => val x * val x) e).
Lemma exact_sq_pos e : 0 <= exact_sq e.
Proof. unfold exact_sq. induction e as [|x e IH]; cbn; [lra|]. assert (0 <= val x * val x) by (pose proof (Rle_0_sqr (val x)); auto). lra. Qed.

Lemma squares_sum e : within (bpow radix2 400) e ->
  Forall finite (sq e) /\ Forall (fun x => 0 <= val x) (sq e) /\ Rabs (total (sq e) - exact_sq e) <= u * exact_sq e + INR (length e) * tiny /\
  exact_sq e <= INR (length e) * bpow radix2 800.
Proof.
  pose proof tiny_pos as T. pose proof u_pos as U.
  induction 1 as [|x e [Fx Bx] H (A & P & B & C)]; [cbn; repeat split; auto; unfold total, exact_sq, sq; cbn; rewrite ?Rminus_0_r, ?Rabs_R0; lra|].
  unfold sq, exact_sq, total in *. cbn [map fold_right length] in *. rewrite S_INR. unfold val, finite in *.
  set (q := fr x * fr x). assert (Q0 : 0 <= q) by apply Rle_0_sqr.
  assert (Q1 : q <= bpow radix2 800).
  { change 800%Z with (400 + 400)%Z. rewrite bpow_plus. unfold q. replace (fr x * fr x) with (Rabs (fr x) * Rabs (fr x)) by (unfold Rabs; destruct (Rcase_abs (fr x)); ring). pose proof (Rabs_pos (fr x)). apply Rmult_le_compat; auto. }
  assert (O : Rabs (rnd q) < big). { eapply Rle_lt_trans; [apply (rnd_bound q (bpow radix2 800))|apply bpow_lt; lia]; [apply bpow_format; lia|rewrite Rabs_pos_eq; lra]. }
  destruct (fmul_ok x x Fx Fx O) as (E & F). split; [constructor; auto|]. split; [|split].
  - constructor; auto. rewrite E. rewrite <- rnd_0. apply rnd_le. exact Q0.
  - rewrite E. fold q. pose proof (any_err q) as Er. fold tiny in Er. rewrite (Rabs_pos_eq q) in Er by lra.
    match goal with |- Rabs (rnd q + ?a - (q + ?b)) <= _ => replace (rnd q + a - (q + b)) with ((rnd q - q) + (a - b)) by ring end.
    eapply Rle_trans; [apply Rabs_triang|]. lra.
  - lra.
Qed.
Lemma size_total l : Forall (fun x => 0 <= val x) l -> size l = total l.
Proof. unfold size, total. induction 1 as [|x l H _ IH]; cbn; [reflexivity|]. rewrite Rabs_pos_eq, IH by auto. reflexivity. Qed.

(** a chain of relative errors *)
Lemma rel_rnd x a m h : 0 <= a -> Rabs (x - a) <= eps m * a + h -> 0 <= h -> Rabs (rnd x - a) <= eps (S m) * a + 2 * h + tiny.
Proof.
  intros A H Hh. pose proof (rnd_step x a _ tiny H (any_err x)) as R. rewrite (Rabs_pos_eq a) in R by lra. eapply Rle_trans; [exact R|]. rewrite eps_S. pose proof u_pos. pose proof u_small. nra.
Qed.

Lemma scale_accuracy b e r : finite b -> bpow radix2 (-500) <= val b <= bpow radix2 500 -> within (bpow radix2 400) e -> INR (length e) <= bpow radix2 48 ->
  gamma_scale_f b e r ->
  finite r /\ 0 < val r /\ Rabs (val r - exact_scale (val b) e) <= INR (length e + 6) * bpow radix2 (-51) * exact_scale (val b) e.
Proof.
  intros Fb Bb W Ln (q & Sq & ->). destruct (squares_sum e W) as (Fq & Pq & Eq & Bq). unfold exact_scale. fold (exact_sq e). set (S := exact_sq e) in *. fold (sq e) in Sq.
  pose proof tiny_pos as T. pose proof u_pos as U. pose proof u_small as US. assert (S0 : 0 <= S) by apply exact_sq_pos. set (N := length e) in *.
  assert (N0 : 0 <= INR N) by apply pos_INR.
  assert (LN : length (sq e) = N) by (unfold sq; apply map_length).
  assert (I52 : INR N <= bpow radix2 52) by (eapply Rle_trans; [exact Ln|]; apply bpow_le; lia).
  (* how small the underflow terms are *)
  assert (H1 : INR N * tiny <= bpow radix2 (-1027)).
  { unfold tiny. replace (bpow radix2 (-1027)) with (bpow radix2 48 * bpow radix2 (-1075)) by (rewrite <- bpow_plus; reflexivity). apply Rmult_le_compat_r; [apply bpow_ge_0|exact Ln]. }
  assert (H2 : tiny <= bpow radix2 (-1027)) by (apply bpow_le; lia).
  assert (SB : S <= bpow radix2 848). { eapply Rle_trans; [exact Bq|]. change 848%Z with (48 + 800)%Z. rewrite bpow_plus. apply Rmult_le_compat_r; [apply bpow_ge_0|exact Ln]. }
  set (h := bpow radix2 (-1027)) in *. assert (h0 : 0 < h) by apply bpow_gt_0.
  assert (TB : Rabs (total (sq e)) <= 2 * S + h). { replace (total (sq e)) with (S + (total (sq e) - S)) by ring. eapply Rle_trans; [apply Rabs_triang|]. rewrite (Rabs_pos_eq S) by lra. nra. }
  assert (SZ : size (sq e) <= bpow radix2 1000).
  { rewrite size_total by exact Pq. eapply Rle_trans; [apply Rle_abs|]. eapply Rle_trans; [exact TB|].
    assert (h <= 1) by (change 1 with (bpow radix2 0); apply bpow_le; lia). assert (1 <= bpow radix2 848) by (change 1 with (bpow radix2 0); apply bpow_le; lia).
    apply Rle_trans with (4 * bpow radix2 848); [lra|]. change 4 with (bpow radix2 2). rewrite <- bpow_plus. apply bpow_le. lia. }
  destruct (sums_err _ _ Sq Fq SZ) as (Fqq & Eqq); [rewrite LN; exact I52|]. rewrite LN in Eqq. rewrite size_total in Eqq by exact Pq. unfold finite, val in *.
  assert (E1 : eps (N - 1) <= eps N) by (apply eps_mono; lia). pose proof (eps_pos (N - 1)) as E0.
  assert (EN1 : eps N <= 1) by (now apply eps_1).
  assert (D1 : Rabs (fr q - S) <= eps (N + 1) * S + 2 * h).
  { replace (fr q - S) with ((fr q - total (sq e)) + (total (sq e) - S)) by ring. eapply Rle_trans; [apply Rabs_triang|].
    assert (TT : total (sq e) <= S + u * S + h). { assert (X := Eq). unfold Rabs in X. destruct (Rcase_abs (total (sq e) - S)); lra. }
    assert (TP : 0 <= total (sq e)) by (rewrite <- size_total by exact Pq; apply size_pos).
    rewrite Nat.add_1_r, eps_S.
    assert (X : total (sq e) * eps (N - 1) <= (S + u * S + h) * eps N) by (apply Rmult_le_compat; lra).
    assert (Y : h * eps N <= h * 1) by (apply Rmult_le_compat_l; lra). lra. }
  (* halving *)
  assert (D2 : Rabs (fr half_f * fr q - S / 2) <= eps (N + 1) * (S / 2) + h).
  { rewrite half_val. replace (/ 2 * fr q - S / 2) with (/ 2 * (fr q - S)) by lra. rewrite Rabs_mult, (Rabs_pos_eq (/ 2)) by lra. lra. }
  pose proof (rel_rnd _ (S / 2) (N + 1) h ltac:(lra) D2 ltac:(lra)) as D3.
  assert (EE : forall m, (m <= 6)%nat -> eps (N + m) <= INR (N + 6) * bpow radix2 (-52) /\ eps (N + m) <= / 4).
  { intros m Lm. assert (I : INR (N + 6) <= bpow radix2 50). { rewrite plus_INR. replace (bpow radix2 50) with (4 * bpow radix2 48) by (change 50%Z with (2 + 48)%Z; rewrite bpow_plus; reflexivity).
      assert (1024 <= bpow radix2 48) by (change 1024 with (bpow radix2 10); apply bpow_le; lia). cbn [INR]. lra. }
    assert (J : eps (N + 6) <= INR (N + 6) * bpow radix2 (-52)) by (apply eps_le; eapply Rle_trans; [exact I|]; apply bpow_le; lia).
    assert (K : eps (N + m) <= eps (N + 6)) by (apply eps_mono; lia). split; [lra|].
    apply Rle_trans with (bpow radix2 50 * bpow radix2 (-52)); [|rewrite <- bpow_plus; cbn; lra]. eapply Rle_trans; [exact K|]. eapply Rle_trans; [exact J|]. apply Rmult_le_compat_r; [apply bpow_ge_0|exact I]. }
  assert (BH : Rabs (S / 2) <= bpow radix2 848) by (rewrite Rabs_pos_eq; lra).
  assert (BIG : 1 <= bpow radix2 848) by (change 1 with (bpow radix2 0); apply bpow_le; lia). assert (h1 : h <= 1) by (change 1 with (bpow radix2 0); apply bpow_le; lia).
  assert (B0 : bpow radix2 852 = 16 * bpow radix2 848) by (change 852%Z with (4 + 848)%Z; rewrite bpow_plus; reflexivity).
  assert (O1 : Rabs (rnd (fr half_f * fr q)) < big).
  { apply (rnd_fits _ (S / 2) (eps (N + 1) * (S / 2) + h) 852); auto; try lia. destruct (EE 1%nat) as (_ & X); [lia|]. assert (eps (N + 1) * (S / 2) <= / 4 * (S / 2)) by (apply Rmult_le_compat_r; lra). rewrite B0. lra. }
  destruct (fmul_ok half_f q eq_refl Fqq O1) as (Ehq & Fhq). rewrite <- Ehq in D3. replace (Datatypes.S (N + 1)) with (N + 2)%nat in D3 by lia.
  set (hq := fmul half_f q) in *. clearbody hq.
  (* adding the prior *)
  set (B := fr b + / 2 * S). assert (Pb : 0 < fr b) by (pose proof (bpow_gt_0 radix2 (-500)); lra). assert (PB : fr b <= B) by (unfold B; lra).
  assert (hb : 4 * h <= u * B).
  { apply Rle_trans with (u * bpow radix2 (-500)); [|apply Rmult_le_compat_l; lra]. rewrite <- bpow_plus. change 4 with (bpow radix2 2). unfold h. rewrite <- bpow_plus. apply bpow_le. lia. }
  assert (D4 : Rabs (fr b + fr hq - B) <= eps (N + 3) * B + 0).
  { replace (fr b + fr hq - B) with (fr hq - S / 2) by (unfold B; lra). eapply Rle_trans; [exact D3|]. rewrite Rplus_0_r. replace (N + 3)%nat with (Datatypes.S (N + 2)) by lia. rewrite eps_S.
    pose proof (eps_pos (N + 2)). assert (eps (N + 2) * (S / 2) <= eps (N + 2) * B) by (apply Rmult_le_compat_l; unfold B; lra). assert (0 <= u * eps (N + 2) * B) by (apply Rmult_le_pos; [apply Rmult_le_pos|]; lra). lra. }
  assert (D5 : Rabs (rnd (fr b + fr hq) - B) <= eps (N + 4) * B).
  { pose proof (rnd_step _ B _ 0 D4 ltac:(rewrite Rplus_0_r; apply add_err; apply fr_format)) as X. rewrite (Rabs_pos_eq B) in X by lra. eapply Rle_trans; [exact X|].
    replace (N + 4)%nat with (Datatypes.S (N + 3)) by lia. rewrite eps_S. lra. }
  assert (BB : B <= bpow radix2 850).
  { replace (bpow radix2 850) with (4 * bpow radix2 848) by (change 850%Z with (2 + 848)%Z; rewrite bpow_plus; reflexivity). assert (bpow radix2 500 <= bpow radix2 848) by (apply bpow_le; lia). unfold B. lra. }
  assert (O2 : Rabs (rnd (fr b + fr hq)) < big).
  { destruct (EE 4%nat) as (_ & X); [lia|]. apply Rle_lt_trans with (bpow radix2 852); [|apply bpow_lt; lia]. replace (rnd (fr b + fr hq)) with (B + (rnd (fr b + fr hq) - B)) by ring. eapply Rle_trans; [apply Rabs_triang|]. rewrite (Rabs_pos_eq B) by lra.
    replace (bpow radix2 852) with (4 * bpow radix2 850) by (change 852%Z with (2 + 850)%Z; rewrite bpow_plus; reflexivity). assert (eps (N + 4) * B <= / 4 * B) by (apply Rmult_le_compat_r; lra). lra. }
  destruct (fadd_ok b hq Fb Fhq O2) as (Es & Fs). rewrite <- Es in D5. set (t := fadd b hq) in *. clearbody t.
  (* the reciprocal *)
  destruct (EE 4%nat) as (X4 & X4'); [lia|]. pose proof (eps_pos (N + 4)) as X40. set (d := eps (N + 4)) in *.
  assert (Pt : (1 - d) * B <= fr t <= (1 + d) * B) by (apply abs_interval in D5; lra).
  assert (Pt' : 0 < fr t) by nra. assert (Ptb : bpow radix2 (-502) <= fr t).
  { apply Rle_trans with (/ 4 * B); [|nra]. replace (bpow radix2 (-502)) with (/ 4 * bpow radix2 (-500)); [|replace (/4) with (bpow radix2 (-2)) by (cbn; lra); rewrite <- bpow_plus; reflexivity]. lra. }
  assert (D6 : Rabs (1 / fr t - / B) <= 3 / 2 * d * / B).
  { replace (1 / fr t - / B) with ((B - fr t) * / fr t * / B) by (field; lra). rewrite !Rabs_mult, (Rabs_pos_eq (/ B)) by (left; apply Rinv_0_lt_compat; lra). apply Rmult_le_compat_r; [left; apply Rinv_0_lt_compat; lra|].
    rewrite (Rabs_pos_eq (/ fr t)) by (left; now apply Rinv_0_lt_compat). rewrite Rabs_minus_sym. apply (Rmult_le_reg_r (fr t)); auto. rewrite Rmult_assoc, Rinv_l, Rmult_1_r by lra.
    eapply Rle_trans; [exact D5|]. assert (d * (3 / 2 * fr t - B) >= 0); [|lra]. apply Rle_ge, Rmult_le_pos; [lra|]. assert (/ 4 * B >= d * B) by (apply Rle_ge, Rmult_le_compat_r; lra). lra. }
  assert (IB : 0 < / B) by (apply Rinv_0_lt_compat; lra).
  assert (IBl : bpow radix2 (-850) <= / B) by (replace (bpow radix2 (-850)) with (/ bpow radix2 850) by (rewrite <- bpow_opp; reflexivity); apply Rinv_le; lra).
  pose proof (rnd_step _ _ _ tiny D6 (any_err _)) as D7. rewrite (Rabs_pos_eq (/ B)) in D7 by lra.
  assert (O3 : Rabs (rnd (1 / fr t)) < big).
  { eapply Rle_lt_trans; [apply (rnd_bound _ (bpow radix2 502))|apply bpow_lt; lia]; [apply bpow_format; lia|]. unfold Rdiv. rewrite Rmult_1_l, Rabs_pos_eq by (left; now apply Rinv_0_lt_compat).
    replace (bpow radix2 502) with (/ bpow radix2 (-502)) by (rewrite <- bpow_opp; reflexivity). apply Rinv_le; [apply bpow_gt_0|exact Ptb]. }
  destruct (fdiv_ok fone t eq_refl) as (Er & Fr); [lra|rewrite one_val; exact O3|]. rewrite one_val in Er. rewrite <- Er in D7. split; [exact Fr|].
  assert (hT : tiny <= u * / B).
  { apply Rle_trans with (u * bpow radix2 (-850)); [|apply Rmult_le_compat_l; lra]. rewrite <- bpow_plus. apply bpow_le. lia. }
  set (v := fr (fdiv fone t)) in *. fold B.
  assert (D8 : Rabs (v - / B) <= (2 * u + (1 + u) * (3 / 2 * d)) * / B) by lra.
  split.
  - apply abs_interval in D8. assert ((2 * u + (1 + u) * (3 / 2 * d)) <= / 2) by nra. nra.
  - eapply Rle_trans; [exact D8|]. apply Rmult_le_compat_r; [lra|].
    assert (E51 : bpow radix2 (-51) = 4 * u) by (change (-51)%Z with (2 + -53)%Z; rewrite bpow_plus; reflexivity). pose proof two_u as E52. rewrite E52 in X4. rewrite E51.
    assert (u * d <= u * / 4) by (apply Rmult_le_compat_l; lra). assert (6 <= INR (N + 6)) by (rewrite plus_INR; cbn [INR]; lra). nra.
Qed.
