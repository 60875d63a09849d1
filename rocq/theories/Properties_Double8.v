(** C115: the error measures in double precision. *)
From Coq Require Import ZArith Reals List Lra Lia Psatz Permutation.
From Flocq Require Import Core.Core IEEE754.BinarySingleNaN.
From Verif Require Import Base Fl Ext MData MSplit MTree MModel MSampler MSklearn Spec MFloat MFloat2 MFloat3 MFloat4 MFloat8 SpecDouble SpecDouble3 SpecDouble8
  PFloat PFloat2 PFloat3 PFloat5 PFloat6 PFloat7 PFloat8 PFloat9 PFloat15 Properties_Double Properties_Drift Properties_Double2 Properties_Double3.
Import ListNotations.
Local Open Scope R_scope.

(** rmse is close to the root of the sum of the squared errors. *)
Theorem C115_accurate : forall y p r, length p = length y -> within (bpow radix2 398) y -> within (bpow radix2 398) p -> INR (length y) <= bpow radix2 48 ->
  rmse_f y p r ->
  finite r /\ 0 <= val r /\ Rabs (val r - exact_rmse y p) <= INR (length y + 4) * bpow radix2 (-52) * exact_rmse y p + bpow radix2 (-512).
Proof. exact rmse_accuracy. Qed.

(** The rows of l2_error and residuals one by one. *)
Theorem C115_rows : forall y p i a b, within (bpow radix2 398) y -> within (bpow radix2 398) p -> nth_error y i = Some a -> nth_error p i = Some b ->
  exists e s, nth_error (residuals_f y p) i = Some e /\ nth_error (l2_error_f y p) i = Some s /\ finite e /\ finite s /\
    Rabs (val e - (val a - val b)) <= bpow radix2 (-53) * Rabs (val a - val b) /\
    Rabs (val s - (val a - val b) ^ 2) <= bpow radix2 (-51) * (val a - val b) ^ 2 + bpow radix2 (-1075).
Proof.
  unfold within. intros y p i a b Wy Wp Ha Hb. rewrite Forall_forall in Wy, Wp. destruct (Wy a (nth_error_In _ _ Ha)) as (Fa & Ba). destruct (Wp b (nth_error_In _ _ Hb)) as (Fb & Bb).
  unfold finite, val in *. destruct (residual_ok a b Fa Fb Ba Bb) as (F & E & B). exists (fsub a b), (fmul (fsub a b) (fsub a b)).
  assert (N : nth_error (residuals_f y p) i = Some (fsub a b)).
  { clear -Ha Hb. unfold residuals_f. revert p i Ha Hb. induction y as [|c y IH]; intros [|d p] [|i] Ha Hb; try discriminate; cbn in *; [congruence|auto]. }
  split; [exact N|]. split; [unfold l2_error_f; now rewrite nth_error_map, N|]. split; [exact F|].
  set (e := fsub a b) in *. set (t := fr a - fr b) in *. pose proof (square_rel _ _ E) as Q. pose proof u_pos as U. pose proof u_small as US.
  assert (T0 : 0 <= t * t) by apply Rle_0_sqr. assert (Q0 : 0 <= fr e * fr e) by apply Rle_0_sqr.
  assert (Q1 : fr e * fr e <= bpow radix2 800).
  { change 800%Z with (400 + 400)%Z. rewrite bpow_plus. replace (fr e * fr e) with (Rabs (fr e) * Rabs (fr e)) by (rewrite <- Rabs_mult; now apply Rabs_pos_eq). pose proof (Rabs_pos (fr e)). apply Rmult_le_compat; auto. }
  assert (O : Rabs (rnd (fr e * fr e)) < big). { eapply Rle_lt_trans; [apply (rnd_bound _ (bpow radix2 800))|apply bpow_lt; lia]; [apply bpow_format; lia|rewrite Rabs_pos_eq; lra]. }
  destruct (fmul_ok e e F F O) as (Es & Fs). split; [exact Fs|]. split; [exact E|]. rewrite Es.
  pose proof (rnd_step _ _ _ _ Q (any_err _)) as K. rewrite (Rabs_pos_eq (t * t)) in K by exact T0. replace (t ^ 2) with (t * t) by ring.
  assert (E2 : eps 2 <= 3 * u) by (rewrite (eps_S 1), (eps_S 0), eps_0; nra). assert (U4 : bpow radix2 (-51) = 4 * u) by (change (-51)%Z with (2 + -53)%Z; rewrite bpow_plus; reflexivity).
  assert (E3 : (1 + u) * eps 2 + u <= 4 * u). { rewrite (eps_S 1), (eps_S 0), eps_0. assert (u * u <= / 16 * u) by (apply Rmult_le_compat_r; lra). assert (u * u * u <= / 16 * (u * u)) by (rewrite Rmult_assoc; apply Rmult_le_compat_r; [apply Rmult_le_pos; lra|lra]). lra. }
  rewrite U4. assert (X : ((1 + u) * eps 2 + u) * (t * t) <= 4 * u * (t * t)) by (apply Rmult_le_compat_r; lra). lra.
Qed.

(** The exact value is what rmse returns in exact arithmetic. *)
Theorem C115_exact_model : forall s X y p, length p = length y -> sk_predict s (Some X) = Ok (map val p) ->
  sk_rmse s X (map val y) = Ok (exact_rmse y p).
Proof.
  intros s X y p L H. unfold sk_rmse, rmse_with, l2_with, residuals_with. rewrite H. cbn [rbind].
  assert (V : vop Rminus (map val y) (map val p) = Ok (exact_errors y p)).
  { unfold vop. rewrite !map_length, L, Nat.eqb_refl. f_equal. unfold exact_errors. clear H. revert p L. induction y as [|a y IH]; intros [|b p] L; try discriminate; [reflexivity|]. injection L as L. cbn. now rewrite <- IH. }
  rewrite V. reflexivity.
Qed.

(** A NaN among the targets or the predictions makes rmse NaN. *)
Lemma residual_in y p x : forall i a b, nth_error y i = Some a -> nth_error p i = Some b -> x = fsub a b -> In x (residuals_f y p).
Proof.
  intros i a b Ha Hb ->. apply (nth_error_In _ i). unfold residuals_f. revert p i Ha Hb. induction y as [|c y IH]; intros [|d p] [|i] Ha Hb; try discriminate; cbn in *; [congruence|auto].
Qed.
Theorem C115_missing : forall y p r i a b, nth_error y i = Some a -> nth_error p i = Some b -> nan a \/ nan b -> rmse_f y p r -> nan r.
Proof.
  intros y p r i a b Ha Hb H (q & S & ->). assert (N : fsub a b = B754_nan).
  { destruct H as [H|H]; [destruct a; try discriminate; destruct b; reflexivity|destruct b; try discriminate; destruct a; reflexivity]. }
  rewrite (sums_nan _ _ S); [reflexivity|]. unfold l2_error_f. apply in_map_iff. exists (fsub a b). split; [now rewrite N|exact (residual_in y p _ i a b Ha Hb eq_refl)].
Qed.
Lemma residual_not_nan a b : finite a -> finite b -> ~ nan (fsub a b).
Proof.
  unfold finite, nan. intros Fa Fb. pose proof (Bminus_correct 53 1024 prec64 emax64 mode_NE a b Fa Fb) as C. fold (fsub a b) in C.
  destruct (Rlt_bool _ _); [destruct C as (_ & F & _); destruct (fsub a b); try discriminate|destruct C as (C & _); destruct (fsub a b); try discriminate; cbn in C; discriminate].
Qed.
Lemma residuals_not_nan y : forall p, Forall finite y -> Forall finite p -> Forall (fun e => ~ nan e) (residuals_f y p).
Proof.
  unfold residuals_f. induction y as [|a y IH]; intros [|b p] Fy Fp; cbn; auto. inversion Fy; subst. inversion Fp; subst. constructor; auto. now apply residual_not_nan.
Qed.
(** An error of 2^512 or more makes it +inf, although the root of the sum of the squares would be a double. *)
Theorem C115_overflow : forall y p r i a b, Forall finite y -> Forall finite p -> nth_error y i = Some a -> nth_error p i = Some b ->
  bpow radix2 512 <= Rabs (val a - val b) -> rmse_f y p r -> r = B754_infinity false.
Proof.
  intros y p r i a b Fy Fp Ha Hb H (q & S & ->). pose proof (residuals_not_nan y p Fy Fp) as N. pose proof (residual_in y p _ i a b Ha Hb eq_refl) as I.
  assert (U : Forall up (l2_error_f y p)).
  { apply Forall_forall. intros x Hx. apply in_map_iff in Hx as (v & <- & Hv). apply up_mul. rewrite Forall_forall in N. now apply N. }
  destruct (up_sums _ _ S U) as (_ & Hq). rewrite Hq; [reflexivity|]. apply in_map_iff. exists (fsub a b). split; [|exact I].
  rewrite Forall_forall in N, Fy, Fp. apply (square_large (fsub a b) _ (square_exists _) (N _ I)). intros F. unfold finite, val in *.
  pose proof (Fy _ (nth_error_In _ _ Ha)) as Fa. pose proof (Fp _ (nth_error_In _ _ Hb)) as Fb.
  pose proof (Bminus_correct 53 1024 prec64 emax64 mode_NE a b Fa Fb) as C. fold (fsub a b) in C. change (round radix2 (SpecFloat.fexp 53 1024) (round_mode mode_NE)) with rnd in C.
  destruct (Rlt_bool_spec (Rabs (rnd (fr a - fr b))) (bpow radix2 1024)) as [L|L].
  - destruct C as (C & _). rewrite C. apply abs_round_ge_generic; auto; try typeclasses eauto. apply bpow_format; lia.
  - destruct C as (C & _). destruct (fsub a b); try discriminate; cbn in C; discriminate.
Qed.
(** Errors of at most 2^-539 make it 0. *)
Lemma zero_sums l s : sums l s -> Forall (fun x => x = B754_zero false) l -> s = B754_zero false.
Proof.
  induction 1 as [|x|l1 l2 l s1 s2 N1 N2 S1 IH1 S2 IH2 P]; intros F; [reflexivity|now inversion F|].
  apply (Permutation_Forall (Permutation_sym P)) in F. apply Forall_app in F as [F1 F2]. now rewrite (IH1 F1), (IH2 F2).
Qed.
Theorem C115_vanishing : forall y p r, Forall finite y -> Forall finite p -> Forall (fun e => Rabs e <= bpow radix2 (-539)) (exact_errors y p) -> rmse_f y p r -> r = B754_zero false.
Proof.
  intros y p r Fy Fp H (q & S & ->). enough (Z : Forall (fun x => x = B754_zero false) (l2_error_f y p)) by (now rewrite (zero_sums _ _ S Z)).
  clear S q. unfold l2_error_f, residuals_f, exact_errors in *. revert p Fp H. induction y as [|a y IH]; intros [|b p] Fp H; cbn in *; auto.
  inversion Fy as [|? ? Fa Fy']; subst. inversion Fp as [|? ? Fb Fp']; subst. inversion H as [|? ? D H']; subst. constructor; [|apply IH; auto]. unfold finite, val in *.
  assert (B : Rabs (rnd (fr a - fr b)) <= bpow radix2 (-539)) by (apply rnd_bound; [apply bpow_format; lia|exact D]).
  assert (O : Rabs (rnd (fr a - fr b)) < big) by (eapply Rle_lt_trans; [exact B|apply bpow_lt; lia]).
  destruct (fsub_ok a b Fa Fb O) as (E & F). apply (square_small (fsub a b) _ (square_exists _) F). unfold val. rewrite E. eapply Rle_lt_trans; [exact B|apply bpow_lt; lia].
Qed.
(** No error is much larger than rmse: a finite rmse bounds every row. *)
Lemma up_sums_le l s : sums l s -> Forall up l -> finite s -> Forall (fun x => finite x /\ val x <= val s) l.
Proof.
  unfold finite, val. induction 1 as [|x|l1 l2 l s1 s2 N1 N2 S1 IH1 S2 IH2 P]; intros F Fs; [constructor|constructor; auto; split; auto; lra|].
  apply (Permutation_Forall (Permutation_sym P)) in F. apply Forall_app in F as [F1 F2]. destruct (up_sums _ _ S1 F1) as (U1 & _). destruct (up_sums _ _ S2 F2) as (U2 & _).
  destruct (proj2 (up_add _ _ U1 U2) Fs) as (G1 & G2 & L1 & L2). apply (Permutation_Forall P). apply Forall_app.
  split; [generalize (IH1 F1 G1)|generalize (IH2 F2 G2)]; apply Forall_impl; intros x (A & B); split; auto; lra.
Qed.
Theorem C115_each_row : forall y p r i a b, within (bpow radix2 398) y -> within (bpow radix2 398) p -> nth_error y i = Some a -> nth_error p i = Some b ->
  rmse_f y p r -> finite r ->
  Rabs (val a - val b) <= (1 + bpow radix2 (-50)) * val r + bpow radix2 (-536).
Proof.
  intros y p r i a b Wy Wp Ha Hb (q & S & ->) Fr. destruct (C115_rows y p i a b Wy Wp Ha Hb) as (e & s & He & Hs & Fe & Fs & _ & Es).
  assert (FF : forall l, within (bpow radix2 398) l -> Forall finite l) by (intros l; apply Forall_impl; tauto).
  assert (U : Forall up (l2_error_f y p)).
  { apply Forall_forall. intros x Hx. apply in_map_iff in Hx as (v & <- & Hv). apply up_mul. pose proof (residuals_not_nan y p (FF _ Wy) (FF _ Wp)) as N. rewrite Forall_forall in N. now apply N. }
  destruct (up_sums _ _ S U) as (Uq & _). assert (Fq : fin q = true). { destruct Uq as [->|(G & _)]; [discriminate Fr|exact G]. }
  pose proof (up_sums_le _ _ S U Fq) as L. rewrite Forall_forall in L. destruct (L s (nth_error_In _ _ Hs)) as (_ & Ls). unfold finite, val in *.
  pose proof (up_pos _ Uq) as Pq. destruct (fsqrt_ok q Fq Pq) as (_ & Er). set (t := fr a - fr b) in *. rewrite Er.
  set (x := sqrt (fr q)). assert (Px : 0 <= x) by apply sqrt_pos. assert (Ex : x * x = fr q) by (now apply sqrt_sqrt).
  pose proof u_pos as U0. pose proof u_small as US. pose proof (any_err x) as A. rewrite (Rabs_pos_eq x) in A by exact Px.
  assert (U4 : bpow radix2 (-51) = 4 * u) by (change (-51)%Z with (2 + -53)%Z; rewrite bpow_plus; reflexivity). assert (U8 : bpow radix2 (-50) = 8 * u) by (change (-50)%Z with (3 + -53)%Z; rewrite bpow_plus; reflexivity).
  rewrite U4 in Es. rewrite U8. set (h := bpow radix2 (-537)). assert (h0 : 0 < h) by apply bpow_gt_0. assert (hh : bpow radix2 (-1075) <= h * h) by (unfold h; rewrite <- bpow_plus; apply bpow_le; lia).
  assert (H2 : bpow radix2 (-536) = 2 * h) by (unfold h; change 2 with (bpow radix2 1); rewrite <- bpow_plus; reflexivity). rewrite H2.
  assert (T : Rabs t * Rabs t = t ^ 2) by (rewrite <- Rabs_mult; replace (t ^ 2) with (t * t) by ring; apply Rabs_pos_eq, Rle_0_sqr). pose proof (Rabs_pos t) as Pt.
  assert (K : (1 - 4 * u) * (Rabs t * Rabs t) <= x * x + h * h). { rewrite T. apply Rabs_le_inv in Es. lra. }
  assert (TX : Rabs t <= (1 + 4 * u) * x + (1 + 4 * u) * h).
  { destruct (Rle_dec (Rabs t) ((1 + 4 * u) * x + (1 + 4 * u) * h)) as [|N]; [assumption|exfalso]. apply Rnot_le_lt in N.
    set (m := (1 + 4 * u) * (x + h)) in *. assert (M0 : 0 < m) by (unfold m; apply Rmult_lt_0_compat; lra). assert (N' : m < Rabs t) by (unfold m; lra).
    assert (M2 : m * m < Rabs t * Rabs t) by (apply Rmult_le_0_lt_compat; lra).
    assert (C : (1 - 4 * u) * (m * m) >= (x + h) * (x + h)).
    { replace ((1 - 4 * u) * (m * m)) with ((1 - 4 * u) * ((1 + 4 * u) * (1 + 4 * u)) * ((x + h) * (x + h))) by (unfold m; ring).
      assert (1 <= (1 - 4 * u) * ((1 + 4 * u) * (1 + 4 * u))).
      { replace ((1 - 4 * u) * ((1 + 4 * u) * (1 + 4 * u))) with (1 + 4 * u * (1 - 4 * u * (1 + 4 * u))) by ring. assert (0 <= 4 * u * (1 - 4 * u * (1 + 4 * u))); [|lra]. apply Rmult_le_pos; [lra|]. assert (4 * u * (1 + 4 * u) <= 4 * / 16 * 2) by (apply Rmult_le_compat; lra). lra. }
      apply Rle_ge. rewrite <- (Rmult_1_l ((x + h) * (x + h))) at 1. apply Rmult_le_compat_r; [apply Rle_0_sqr|assumption]. }
    assert (D : (1 - 4 * u) * (m * m) < (1 - 4 * u) * (Rabs t * Rabs t)) by (apply Rmult_lt_compat_l; lra). assert (0 <= x * h) by (apply Rmult_le_pos; lra). lra. }
  apply Rabs_le_inv in A. assert (T2 : bpow radix2 (-1075) <= / 16 * h) by (unfold h; replace (/ 16) with (bpow radix2 (-4)) by (cbn; lra); rewrite <- bpow_plus; apply bpow_le; lia).
  assert (RX : x <= rnd x + u * x + bpow radix2 (-1075)) by lra.
  assert (RX0 : 0 <= rnd x) by (rewrite <- rnd_0; now apply rnd_le).
  assert (UU : u * u <= / 16 * u) by (apply Rmult_le_compat_r; lra).
  (* (1+4u) x <= (1+8u) rnd x + small *)
  assert (F1 : (1 - u) * x <= rnd x + / 16 * h) by lra.
  assert (F2 : (1 + 4 * u) * x <= (1 + 8 * u) * ((1 - u) * x)). { replace ((1 + 8 * u) * ((1 - u) * x)) with ((1 + 4 * u) * x + (3 * u - 8 * (u * u)) * x) by ring. assert (0 <= (3 * u - 8 * (u * u)) * x) by (apply Rmult_le_pos; lra). lra. }
  assert (F3 : (1 + 8 * u) * ((1 - u) * x) <= (1 + 8 * u) * (rnd x + / 16 * h)) by (apply Rmult_le_compat_l; lra).
  assert (F4 : u * h <= / 16 * h) by (apply Rmult_le_compat_r; lra). lra.
Qed.

(** Predictions that are within [d] of the numbers [P] change the result by at most [d] times the root of the number of rows. *)
Definition norm2 (l : list R) : R := sqrt (fold_right Rplus 0 (map (fun e => e * e) l)).
Lemma norm2_cons a l : norm2 (a :: l) = sqrt (a * a + norm2 l * norm2 l).
Proof.
  unfold norm2 at 1. cbn [map fold_right]. f_equal. f_equal. unfold norm2. rewrite sqrt_sqrt; [reflexivity|]. induction l as [|x l IH]; cbn; [lra|]. pose proof (Rle_0_sqr x) as H. unfold Rsqr in H. lra.
Qed.
Lemma plane_triangle a b c d : 0 <= c -> 0 <= d -> sqrt ((a + b) * (a + b) + (c + d) * (c + d)) <= sqrt (a * a + c * c) + sqrt (b * b + d * d).
Proof.
  intros C D. assert (A : 0 <= a * a + c * c) by (pose proof (Rle_0_sqr a); pose proof (Rle_0_sqr c); unfold Rsqr in *; lra). assert (B : 0 <= b * b + d * d) by (pose proof (Rle_0_sqr b); pose proof (Rle_0_sqr d); unfold Rsqr in *; lra).
  pose proof (sqrt_pos (a * a + c * c)) as P. pose proof (sqrt_pos (b * b + d * d)) as Q. pose proof (sqrt_sqrt _ A) as SA. pose proof (sqrt_sqrt _ B) as SB.
  set (x := sqrt (a * a + c * c)) in *. set (z := sqrt (b * b + d * d)) in *. clearbody x z.
  assert (H : a * b + c * d <= x * z).
  { apply Rsqr_incr_0_var; [|now apply Rmult_le_pos]. unfold Rsqr. replace (x * z * (x * z)) with ((x * x) * (z * z)) by ring. rewrite SA, SB. pose proof (Rle_0_sqr (a * d - c * b)) as K. unfold Rsqr in K. lra. }
  rewrite <- (sqrt_Rsqr (x + z)) by lra. apply sqrt_le_1_alt. unfold Rsqr. lra.
Qed.
Lemma norm2_pos l : 0 <= norm2 l. Proof. apply sqrt_pos. Qed.
Lemma norm2_triangle l : forall m, length m = length l -> norm2 (map2 Rplus l m) <= norm2 l + norm2 m.
Proof.
  induction l as [|a l IH]; intros [|b m] L; try discriminate; cbn [map2]; [pose proof (norm2_pos []); lra|]. injection L as L. rewrite !norm2_cons.
  eapply Rle_trans; [|apply plane_triangle; apply norm2_pos]. apply sqrt_le_1_alt. apply Rplus_le_compat_l. apply Rmult_le_compat; auto using norm2_pos.
Qed.
Lemma norm2_bound l d : 0 <= d -> Forall (fun x => Rabs x <= d) l -> norm2 l <= d * sqrt (INR (length l)).
Proof.
  intros D H. rewrite <- (sqrt_Rsqr d D). rewrite <- sqrt_mult by (try apply Rle_0_sqr; apply pos_INR). apply sqrt_le_1_alt. unfold Rsqr.
  induction H as [|x l B H IH]; cbn [map fold_right length]; [cbn; lra|]. rewrite S_INR.
  assert (x * x <= d * d). { replace (x * x) with (Rabs x * Rabs x) by (rewrite <- Rabs_mult; apply Rabs_pos_eq, Rle_0_sqr). pose proof (Rabs_pos x). apply Rmult_le_compat; lra. } lra.
Qed.
Lemma norm2_close l m d : length m = length l -> 0 <= d -> Forall2 (fun a b => Rabs (a - b) <= d) l m -> Rabs (norm2 l - norm2 m) <= d * sqrt (INR (length l)).
Proof.
  intros L D H. assert (K : forall l m, length m = length l -> Forall2 (fun a b => Rabs (a - b) <= d) l m -> norm2 l - norm2 m <= d * sqrt (INR (length l))).
  { clear l m L H. intros l m L H. assert (E : l = map2 Rplus m (map2 Rminus l m)). { clear H. revert m L. induction l as [|a l IH]; intros [|b m] L; try discriminate; cbn; auto. injection L as L. rewrite <- IH by auto. f_equal. ring. }
    assert (Lm : length (map2 Rminus l m) = length l). { clear -L. revert m L. induction l as [|a l IH]; intros [|b m] L; try discriminate; cbn; auto. }
    pose proof (norm2_triangle m (map2 Rminus l m)) as T. rewrite <- E in T. specialize (T ltac:(lia)).
    assert (B : norm2 (map2 Rminus l m) <= d * sqrt (INR (length l))). { rewrite <- Lm. apply norm2_bound; auto. clear -H. induction H; cbn; constructor; auto. } lra. }
  pose proof (K l m L H) as K1. assert (H' : Forall2 (fun a b => Rabs (a - b) <= d) m l) by (clear -H; induction H; constructor; auto; now rewrite Rabs_minus_sym).
  pose proof (K m l ltac:(lia) H') as K2. rewrite L in K2. apply Rabs_le. lra.
Qed.
Theorem C115_predictions : forall y p r P d, length p = length y -> within (bpow radix2 398) y -> within (bpow radix2 398) p -> INR (length y) <= bpow radix2 48 ->
  0 <= d -> Forall2 (fun q x => Rabs (val q - x) <= d) p P -> rmse_f y p r ->
  let E := sqrt (fold_right Rplus 0 (map (fun yx => (val (fst yx) - snd yx) * (val (fst yx) - snd yx)) (combine y P))) in
  finite r /\ Rabs (val r - E) <= INR (length y + 4) * bpow radix2 (-52) * E + 3 * (d * sqrt (INR (length y))) + bpow radix2 (-512).
Proof.
  intros y p r P d L Wy Wp Ln D H R E. destruct (C115_accurate y p r L Wy Wp Ln R) as (F & _ & A). split; [exact F|].
  assert (LP : length P = length p) by (clear -H; induction H; cbn; auto).
  set (m := map (fun yx => val (fst yx) - snd yx) (combine y P)). assert (Em : E = norm2 m) by (unfold E, norm2, m; now rewrite map_map).
  assert (Lm : length m = length y) by (unfold m; rewrite map_length, combine_length, LP, L; apply Nat.min_id).
  assert (Le : length (exact_errors y p) = length y) by (unfold exact_errors; rewrite map_length, combine_length, L; apply Nat.min_id).
  assert (C : Rabs (norm2 (exact_errors y p) - norm2 m) <= d * sqrt (INR (length y))).
  { rewrite <- Le. apply norm2_close; [congruence|exact D|]. unfold exact_errors, m. clear -H L. revert y L. induction H as [|q x p P B H IH]; intros [|a y] L; try discriminate; cbn; constructor; auto.
    replace (val a - val q - (val a - x)) with (- (val q - x)) by ring. now rewrite Rabs_Ropp. }
  change (exact_rmse y p) with (norm2 (exact_errors y p)) in A. rewrite Em. set (G := d * sqrt (INR (length y))) in *. set (c := INR (length y + 4) * bpow radix2 (-52)) in *.
  assert (c1 : 0 <= c <= 1).
  { split; [apply Rmult_le_pos; [apply pos_INR|apply bpow_ge_0]|]. unfold c. rewrite plus_INR. assert (1024 <= bpow radix2 48) by (change 1024 with (bpow radix2 10); apply bpow_le; lia).
    apply Rle_trans with (bpow radix2 52 * bpow radix2 (-52)); [|rewrite <- bpow_plus; cbn; lra]. apply Rmult_le_compat_r; [apply bpow_ge_0|].
    replace (bpow radix2 52) with (16 * bpow radix2 48) by (change 52%Z with (4 + 48)%Z; rewrite bpow_plus; reflexivity). cbn [INR]. lra. }
  assert (G0 : 0 <= G) by (eapply Rle_trans; [apply Rabs_pos|exact C]).
  set (a := norm2 (exact_errors y p)) in *. set (b := norm2 m) in *. apply Rabs_le_inv in C.
  replace (val r - b) with ((val r - a) + (a - b)) by ring. eapply Rle_trans; [apply Rabs_triang|]. assert (X : Rabs (a - b) <= G) by (apply Rabs_le; lra).
  assert (Y : c * a <= c * (b + G)) by (apply Rmult_le_compat_l; lra). assert (Z : c * G <= 1 * G) by (apply Rmult_le_compat_r; lra). lra.
Qed.

(** *** there are such numbers *)
Theorem C115_value_exists : forall y p, exists r, rmse_f y p r.
Proof.
  intros y p. destruct (l2_error_f y p) as [|x l] eqn:E.
  - exists (fsqrt (B754_zero false)), (B754_zero false). rewrite E. split; [constructor|reflexivity].
  - destruct (any_sum (x :: l) ltac:(discriminate)) as (q & S). exists (fsqrt q), q. rewrite E. auto.
Qed.
(** errors 0, -4 and 2 *)
Example C115_case : exists r, rmse_f [d1; dm1; d3] [d1; d3; d1] r /\ within (bpow radix2 398) [d1; dm1; d3] /\ within (bpow radix2 398) [d1; d3; d1] /\ exact_rmse [d1; dm1; d3] [d1; d3; d1] = sqrt 20.
Proof.
  destruct (C115_value_exists [d1; dm1; d3] [d1; d3; d1]) as (r & R). exists r. split; [exact R|].
  assert (V1 : val d1 = 1) by exact val_d1. assert (Vm : val dm1 = -1) by (unfold val, dm1, d_of, B2R, F2R; cbn; lra).
  assert (4 <= bpow radix2 398) by (change 4 with (bpow radix2 2); apply bpow_le; lia).
  split; [|split]; [repeat constructor; rewrite ?V1, ?Vm, ?val_d3'; unfold Rabs; destruct (Rcase_abs _); lra..|].
  unfold exact_rmse, exact_errors. cbn [combine map fst snd fold_right]. rewrite V1, Vm, val_d3'. f_equal. lra.
Qed.
(** a prediction that is off by 2^600, and one that is off by 2^-600 *)
Example C115_extremes : (exists r, rmse_f [d1; d_p600] [d1; d0] r) /\ (forall r, rmse_f [d1; d_p600] [d1; d0] r -> r = B754_infinity false) /\
  (exists r, rmse_f [d_m600] [d0] r) /\ (forall r, rmse_f [d_m600] [d0] r -> r = B754_zero false) /\ 0 < exact_rmse [d_m600] [d0].
Proof.
  assert (V0 : val d0 = 0) by reflexivity. assert (Vp : val d_p600 = bpow radix2 600) by (unfold d_p600; rewrite val_pow, p52, <- bpow_plus; reflexivity). assert (Vn : val d_m600 = bpow radix2 (-600)) by (unfold d_m600; rewrite val_pow, p52, <- bpow_plus; reflexivity).
  split; [apply C115_value_exists|]. split.
  - intros r R. apply (C115_overflow [d1; d_p600] [d1; d0] r 1 d_p600 d0); [repeat constructor|repeat constructor|reflexivity|reflexivity| |exact R]. rewrite Vp, V0, Rminus_0_r, Rabs_pos_eq by apply bpow_ge_0. apply bpow_le. lia.
  - split; [apply C115_value_exists|]. split.
    + intros r R. apply (C115_vanishing [d_m600] [d0] r); [repeat constructor|repeat constructor| |exact R]. unfold exact_errors. cbn [combine map fst snd]. constructor; [|constructor]. rewrite Vn, V0, Rminus_0_r. rewrite Rabs_pos_eq by apply bpow_ge_0. apply bpow_le. lia.
    + unfold exact_rmse, exact_errors. cbn [combine map fst snd fold_right]. rewrite Vn, V0. apply sqrt_lt_R0. pose proof (bpow_gt_0 radix2 (-600)) as P. pose proof (Rmult_lt_0_compat _ _ P P). lra.
Qed.

Print Assumptions C115_accurate.
Print Assumptions C115_rows.
Print Assumptions C115_exact_model.
Print Assumptions C115_missing.
Print Assumptions C115_overflow.
Print Assumptions C115_vanishing.
Print Assumptions C115_each_row.
Print Assumptions C115_predictions.
Print Assumptions C115_value_exists.
