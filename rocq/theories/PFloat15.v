(** The error measures in double precision. *)
From Coq Require Import ZArith Reals List Lra Lia Psatz Permutation.
From Flocq Require Import Core.Core IEEE754.BinarySingleNaN.
From Verif Require Import Base MFloat MFloat2 MFloat3 MFloat4 MFloat8 SpecDouble SpecDouble3 SpecDouble8 PFloat PFloat2 PFloat3 PFloat5 PFloat6 PFloat7 PFloat9.
Import ListNotations.
Local Open Scope R_scope.

Definition exact_squares (y p : list b64) : R := fold_right Rplus 0 (map (fun e => e * e) (exact_errors y p)).
Lemma exact_squares_pos y p : 0 <= exact_squares y p.
Proof. unfold exact_squares. induction (exact_errors y p) as [|x e IH]; cbn; [lra|]. pose proof (Rle_0_sqr x) as H. unfold Rsqr in H. lra. Qed.

(** one residual *)
Lemma residual_ok y p : fin y = true -> fin p = true -> Rabs (fr y) <= bpow radix2 398 -> Rabs (fr p) <= bpow radix2 398 ->
  fin (fsub y p) = true /\ Rabs (fr (fsub y p) - (fr y - fr p)) <= u * Rabs (fr y - fr p) /\ Rabs (fr (fsub y p)) <= bpow radix2 400.
Proof.
  intros Fy Fp By Bp. pose proof u_small as U. pose proof u_pos as U0. assert (D : Rabs (fr y - fr p) <= 2 * bpow radix2 398) by (eapply Rle_trans; [apply Rabs_triang|rewrite Rabs_Ropp; lra]).
  assert (B4 : bpow radix2 400 = 4 * bpow radix2 398) by (change 400%Z with (2 + 398)%Z; rewrite bpow_plus; reflexivity). pose proof (bpow_gt_0 radix2 398) as P.
  assert (O : Rabs (rnd (fr y - fr p)) < big).
  { apply (rnd_fits _ (fr y - fr p) 0 400); try lia; [replace (_ - _) with 0 by ring; rewrite Rabs_R0; lra|lra]. }
  destruct (fsub_ok y p Fy Fp O) as (E & F). split; [exact F|]. rewrite E.
  assert (X : Rabs (rnd (fr y - fr p) - (fr y - fr p)) <= u * Rabs (fr y - fr p)).
  { replace (fr y - fr p) with (fr y + - fr p) by ring. apply add_err; [apply fr_format|]. apply generic_format_opp, fr_format. }
  split; [exact X|]. replace (rnd (fr y - fr p)) with ((rnd (fr y - fr p) - (fr y - fr p)) + (fr y - fr p)) by ring. eapply Rle_trans; [apply Rabs_triang|].
  assert (u * Rabs (fr y - fr p) <= / 16 * (2 * bpow radix2 398)) by (apply Rmult_le_compat; try lra; apply Rabs_pos). lra.
Qed.
Lemma square_rel r e : Rabs (r - e) <= u * Rabs e -> Rabs (r * r - e * e) <= eps 2 * (e * e).
Proof.
  intros H. assert (Ab : Rabs e * Rabs e = e * e) by (rewrite <- Rabs_mult; apply Rabs_pos_eq; apply Rle_0_sqr).
  replace (r * r - e * e) with ((r - e) * ((r - e) + 2 * e)) by ring. rewrite Rabs_mult. rewrite <- Ab. pose proof (Rabs_pos e) as P. pose proof u_pos as U.
  assert (K : Rabs (r - e + 2 * e) <= (2 + u) * Rabs e). { eapply Rle_trans; [apply Rabs_triang|]. rewrite Rabs_mult, (Rabs_pos_eq 2) by lra. lra. }
  rewrite (eps_S 1), (eps_S 0), eps_0. replace (((1 + u) * ((1 + u) * 0 + u) + u) * (Rabs e * Rabs e)) with ((u * Rabs e) * ((2 + u) * Rabs e)) by ring.
  apply Rmult_le_compat; auto using Rabs_pos.
Qed.
Lemma residuals_ok y : forall p, length p = length y -> within (bpow radix2 398) y -> within (bpow radix2 398) p ->
  within (bpow radix2 400) (residuals_f y p) /\ length (residuals_f y p) = length y /\ Rabs (exact_sq (residuals_f y p) - exact_squares y p) <= eps 2 * exact_squares y p.
Proof.
  unfold residuals_f, exact_sq, exact_squares, exact_errors. induction y as [|a y IH]; intros [|b p] L Wy Wp; try discriminate.
  - cbn. split; [constructor|]. split; auto. rewrite Rminus_0_r, Rabs_R0. lra.
  - injection L as L. inversion Wy as [|? ? (Fa & Ba) Wy']; subst. inversion Wp as [|? ? (Fb & Bb) Wp']; subst. destruct (IH p L Wy' Wp') as (A & B & C).
    unfold finite, val in *. destruct (residual_ok a b Fa Fb Ba Bb) as (F & E & G). cbn [map2 map fold_right length combine fst snd]. split; [constructor; auto|]. split; [lia|].
    pose proof (square_rel _ _ E) as Q.
    match goal with |- Rabs (?r + ?s - (?x + ?t)) <= _ => replace (r + s - (x + t)) with ((r - x) + (s - t)) by ring end. eapply Rle_trans; [apply Rabs_triang|]. lra.
Qed.

(** the sum of the squares *)
Lemma sum_squares_ok e q : within (bpow radix2 400) e -> INR (length e) <= bpow radix2 48 -> sums (sq e) q ->
  fin q = true /\ 0 <= fr q /\ Rabs (fr q - exact_sq e) <= eps (length e + 1) * exact_sq e + 2 * bpow radix2 (-1027).
Proof.
  intros W Ln Sq. destruct (squares_sum e W) as (Fq & Pq & Eq & Bq). set (S := exact_sq e) in *.
  pose proof tiny_pos as T. pose proof u_pos as U. pose proof u_small as US. assert (S0 : 0 <= S) by apply exact_sq_pos. set (N := length e) in *.
  assert (N0 : 0 <= INR N) by apply pos_INR.
  assert (LN : length (sq e) = N) by (unfold sq; apply map_length).
  assert (I52 : INR N <= bpow radix2 52) by (eapply Rle_trans; [exact Ln|]; apply bpow_le; lia).
  assert (H1 : INR N * tiny <= bpow radix2 (-1027)).
  { unfold tiny. replace (bpow radix2 (-1027)) with (bpow radix2 48 * bpow radix2 (-1075)) by (rewrite <- bpow_plus; reflexivity). apply Rmult_le_compat_r; [apply bpow_ge_0|exact Ln]. }
  assert (SB : S <= bpow radix2 848). { eapply Rle_trans; [exact Bq|]. change 848%Z with (48 + 800)%Z. rewrite bpow_plus. apply Rmult_le_compat_r; [apply bpow_ge_0|exact Ln]. }
  set (h := bpow radix2 (-1027)) in *. assert (h0 : 0 < h) by apply bpow_gt_0.
  assert (TB : Rabs (total (sq e)) <= 2 * S + h). { replace (total (sq e)) with (S + (total (sq e) - S)) by ring. eapply Rle_trans; [apply Rabs_triang|]. rewrite (Rabs_pos_eq S) by lra. nra. }
  assert (SZ : size (sq e) <= bpow radix2 1000).
  { rewrite size_total by exact Pq. eapply Rle_trans; [apply Rle_abs|]. eapply Rle_trans; [exact TB|].
    assert (h <= 1) by (change 1 with (bpow radix2 0); apply bpow_le; lia). assert (1 <= bpow radix2 848) by (change 1 with (bpow radix2 0); apply bpow_le; lia).
    apply Rle_trans with (4 * bpow radix2 848); [lra|]. change 4 with (bpow radix2 2). rewrite <- bpow_plus. apply bpow_le. lia. }
  destruct (sums_err _ _ Sq Fq SZ) as (Fqq & Eqq); [rewrite LN; exact I52|]. rewrite LN in Eqq. rewrite size_total in Eqq by exact Pq. unfold finite, val in *.
  assert (E1 : eps (N - 1) <= eps N) by (apply eps_mono; lia). pose proof (eps_pos (N - 1)) as E0.
  assert (EN1 : eps N <= 1) by (now apply eps_1).
  assert (TP : 0 <= total (sq e)) by (rewrite <- size_total by exact Pq; apply size_pos).
  split; [exact Fqq|]. split.
  - assert (X : total (sq e) * eps (N - 1) <= total (sq e) * 1) by (apply Rmult_le_compat_l; lra). apply Rabs_le_inv in Eqq. lra.
  - replace (fr q - S) with ((fr q - total (sq e)) + (total (sq e) - S)) by ring. eapply Rle_trans; [apply Rabs_triang|].
    assert (TT : total (sq e) <= S + u * S + h). { assert (X := Eq). unfold Rabs in X. destruct (Rcase_abs (total (sq e) - S)); lra. }
    rewrite Nat.add_1_r, eps_S.
    assert (X : total (sq e) * eps (N - 1) <= (S + u * S + h) * eps N) by (apply Rmult_le_compat; lra).
    assert (Y : h * eps N <= h * 1) by (apply Rmult_le_compat_l; lra). lra.
Qed.

(** the root of a perturbed number *)
Lemma sqrt_close q S d h : 0 <= q -> 0 <= S -> 0 <= d -> 0 <= h -> Rabs (q - S) <= d * S + h * h -> Rabs (sqrt q - sqrt S) <= d * sqrt S + h.
Proof.
  intros Q P D H E. pose proof (sqrt_pos q) as A. pose proof (sqrt_pos S) as B. pose proof (sqrt_sqrt q Q) as SA. pose proof (sqrt_sqrt S P) as SB. set (a := sqrt q) in *. set (b := sqrt S) in *. clearbody a b.
  destruct (Rle_dec (Rabs (a - b)) (d * b + h)) as [|N]; [assumption|exfalso]. apply Rnot_le_lt in N.
  assert (F : Rabs (q - S) = Rabs (a - b) * (a + b)). { rewrite <- SA, <- SB. replace (a * a - b * b) with ((a - b) * (a + b)) by ring. rewrite Rabs_mult, (Rabs_pos_eq (a + b)) by lra. reflexivity. }
  assert (G : Rabs (a - b) <= a + b) by (apply Rabs_le; lra). assert (0 <= d * b) by (apply Rmult_le_pos; lra).
  rewrite F, <- SB in E. set (t := Rabs (a - b)) in *. assert (T1 : h < t) by lra.
  assert (b <= a + b) by lra.
  assert (X : (d * b) * (a + b) >= d * b * b) by (apply Rle_ge, Rmult_le_compat_l; lra).
  assert (Y : h * (a + b) >= h * h) by (apply Rle_ge, Rmult_le_compat_l; lra).
  assert (Z : (d * b + h) * (a + b) < t * (a + b)) by (apply Rmult_lt_compat_r; lra). lra.
Qed.
Lemma fsqrt_ok q : fin q = true -> 0 <= fr q -> fin (fsqrt q) = true /\ fr (fsqrt q) = rnd (sqrt (fr q)).
Proof.
  intros F P. destruct (Bsqrt_correct 53 1024 prec64 emax64 mode_NE q) as (A & C & _). change (round radix2 (SpecFloat.fexp 53 1024) (round_mode mode_NE)) with rnd in A.
  unfold fsqrt. split; [|exact A]. rewrite C. destruct q as [s|s| |s m e b]; try discriminate; [reflexivity|]. destruct s; [|reflexivity].
  exfalso. unfold B2R, F2R in P. cbn in P. assert (0 < IZR (Z.pos m) * bpow radix2 e) by (apply Rmult_lt_0_compat; [apply IZR_lt; lia|apply bpow_gt_0]).
  change (IZR (Z.neg m)) with (IZR (- Z.pos m)) in P. rewrite opp_IZR in P. lra.
Qed.
Lemma rmse_accuracy y p r : length p = length y -> within (bpow radix2 398) y -> within (bpow radix2 398) p -> INR (length y) <= bpow radix2 48 -> rmse_f y p r ->
  finite r /\ 0 <= val r /\ Rabs (val r - exact_rmse y p) <= INR (length y + 4) * bpow radix2 (-52) * exact_rmse y p + bpow radix2 (-512).
Proof.
  intros L Wy Wp Ln (q & Sq & ->). destruct (residuals_ok y p L Wy Wp) as (W & LR & ER). rewrite <- LR in Ln.
  destruct (sum_squares_ok _ q W Ln Sq) as (Fq & Pq & Eq). rewrite LR in *. destruct (fsqrt_ok q Fq Pq) as (Fr & Er). unfold finite, val. rewrite Er.
  split; [exact Fr|]. pose proof (sqrt_pos (fr q)) as Sp. split; [rewrite <- rnd_0; now apply rnd_le|].
  set (N := length y) in *. pose proof (exact_squares_pos y p) as PS. unfold exact_rmse. fold (exact_squares y p). set (S := exact_squares y p) in *.
  set (R := exact_sq (residuals_f y p)) in *. pose proof u_pos as U. pose proof u_small as US.
  set (h := bpow radix2 (-513)). assert (h0 : 0 < h) by apply bpow_gt_0. assert (hh : 2 * bpow radix2 (-1027) = h * h) by (unfold h; rewrite <- bpow_plus; change 2 with (bpow radix2 1); rewrite <- bpow_plus; reflexivity).
  rewrite hh in Eq.
  assert (D : Rabs (fr q - S) <= eps (N + 3) * S + h * h).
  { replace (fr q - S) with ((fr q - R) + (R - S)) by ring. eapply Rle_trans; [apply Rabs_triang|].
    assert (RB : R <= (1 + eps 2) * S) by (apply Rabs_le_inv in ER; lra). pose proof (eps_pos (N + 1)).
    assert (X : eps (N + 1) * R <= eps (N + 1) * ((1 + eps 2) * S)) by (apply Rmult_le_compat_l; auto).
    pose proof (eps_add (N + 1) 2) as EA. replace (N + 1 + 2)%nat with (N + 3)%nat in EA by lia.
    replace (eps (N + 3)) with ((1 + eps (N + 1)) * (1 + eps 2) - 1) by lra. lra. }
  pose proof (sqrt_close _ _ _ _ Pq PS (eps_pos _) (Rlt_le _ _ h0) D) as E.
  pose proof (rnd_step _ _ _ _ E (any_err _)) as K. rewrite (Rabs_pos_eq (sqrt S)) in K by apply sqrt_pos. pose proof (sqrt_pos S) as SS.
  assert (I52 : INR (N + 4) <= bpow radix2 52).
  { rewrite plus_INR. replace (bpow radix2 52) with (16 * bpow radix2 48) by (change 52%Z with (4 + 48)%Z; rewrite bpow_plus; reflexivity).
    assert (1024 <= bpow radix2 48) by (change 1024 with (bpow radix2 10); apply bpow_le; lia). cbn [INR]. lra. }
  pose proof (eps_le _ I52) as EL. assert (ES : eps (N + 4) = (1 + u) * eps (N + 3) + u) by (replace (N + 4)%nat with (Datatypes.S (N + 3)) by lia; apply eps_S).
  assert (H2 : bpow radix2 (-512) = 2 * h) by (unfold h; change 2 with (bpow radix2 1); rewrite <- bpow_plus; reflexivity).
  assert (T2 : bpow radix2 (-1075) <= / 16 * h) by (unfold h; replace (/ 16) with (bpow radix2 (-4)) by (cbn; lra); rewrite <- bpow_plus; apply bpow_le; lia).
  assert (UH : u * h <= / 16 * h) by (apply Rmult_le_compat_r; lra).
  assert (Z : eps (N + 4) * sqrt S <= INR (N + 4) * bpow radix2 (-52) * sqrt S) by (apply Rmult_le_compat_r; lra).
  rewrite ES in Z. eapply Rle_trans; [exact K|]. rewrite H2. lra.
Qed.
