(** The likelihood ratio in double precision: its accuracy, and what happens outside the range. *)
From Coq Require Import ZArith Reals List Lra Lia Psatz.
From Flocq Require Import Core.Core IEEE754.BinarySingleNaN.
From Verif Require Import Base MFloat MFloat2 MFloat3 MFloat4 SpecDouble SpecDouble3 SpecDouble4 SpecDouble9 PFloat PFloat2 PFloat3 PFloat5 PFloat6 PFloat7 PFloat8 PFloat10.
Import ListNotations.
Local Open Scope R_scope.

Notation h0 := (bpow radix2 (-870)).
Lemma add_step x a e c X : fin x = true -> fin a = true -> Rabs (fr x + fr a - e) <= c -> Rabs e <= X -> X + c <= bpow radix2 1000 ->
  fin (fadd x a) = true /\ Rabs (fr (fadd x a) - e) <= u * X + (1 + u) * c.
Proof.
  intros Fx Fa H B O. pose proof u_pos. assert (Rb : Rabs (rnd (fr x + fr a)) < big) by (apply (rnd_fits _ e c 1000); auto; try lia; lra).
  destruct (fadd_ok x a Fx Fa Rb) as (E & F). split; auto. rewrite E.
  pose proof (rnd_step (fr x + fr a) e c 0 H ltac:(rewrite Rplus_0_r; apply add_err; apply fr_format)) as R.
  assert (u * Rabs e <= u * X) by (apply Rmult_le_compat_l; lra). lra.
Qed.
Lemma sub_as_add x a : fin x = true -> fin a = true -> Rabs (rnd (fr x - fr a)) < big -> fr (fsub x a) = rnd (fr x + - fr a) /\ fin (fsub x a) = true.
Proof. exact (fsub_ok x a). Qed.

Lemma ratio_accuracy sigma t n nl nr s sl sr r k kl kr :
  moderate sigma -> moderate t -> counts0 n k -> counts0 nl kl -> counts0 nr kr ->
  finite s -> finite sl -> finite sr -> Rabs (val s) <= bpow radix2 100 -> Rabs (val sl) <= bpow radix2 100 -> Rabs (val sr) <= bpow radix2 100 ->
  likelihood_f sigma t n nl nr s sl sr r ->
  finite r /\
  Rabs (val r - exact_ratio (val sigma) (val t) (INR k) (INR kl) (INR kr) (val s) (val sl) (val sr)) <=
    bpow radix2 (-47) * ratio_size (val sigma) (val t) (INR k) (INR kl) (INR kr) (val s) (val sl) (val sr) /\
  ratio_size (val sigma) (val t) (INR k) (INR kl) (INR kr) (val s) (val sl) (val sr) <= bpow radix2 802 /\
  Rabs (exact_ratio (val sigma) (val t) (INR k) (INR kl) (INR kr) (val s) (val sl) (val sr)) <= ratio_size (val sigma) (val t) (INR k) (INR kl) (INR kr) (val s) (val sl) (val sr).
Proof.
  intros Ms Mt Cn Cl Cr Fs Fl Fr Bs Bl Br (v & vm & lf & Sv & Sm & L & ->).
  destruct (log_ok _ _ _ _ _ _ _ _ _ _ Ms Mt Cn Cl Cr Sv Sm _ L) as (Flf & Elf & Blf).
  destruct (factor_ok _ _ _ _ Ms Mt Sv Sm) as (Ef & Ff & Bf).
  destruct (resp_ok _ _ _ Ms Mt Sv _ _ _ Cl Fl Bl) as (F1 & E1 & B1).
  destruct (resp_ok _ _ _ Ms Mt Sv _ _ _ Cr Fr Br) as (F2 & E2 & B2).
  destruct (resp_ok _ _ _ Ms Mt Sv _ _ _ Cn Fs Bs) as (F3 & E3 & B3).
  unfold exact_ratio, ratio_size, counts_part, sums_part, weight, resps_f. change val with fr.
  unfold val in *. set (Lg := ln (sqrt _)) in *. set (F := fr t * fr t / (2 * (fr sigma * fr sigma))) in *.
  set (A1 := fr sl * fr sl / _) in *. set (A2 := fr sr * fr sr / _) in *. set (A3 := fr s * fr s / _) in *.
  set (x1 := resp_f v t nl sl) in *. set (x2 := resp_f v t nr sr) in *. set (x3 := resp_f v t n s) in *. set (f := fdiv vm (fmul ftwo v)) in *.
  clearbody Lg F A1 A2 A3 x1 x2 x3 f. clear L Sv Sm Cn Cl Cr Ms Mt.
  pose proof u_pos as U. pose proof u_small as US. pose proof tiny_pos as TP. pose proof (between_pos _ _ _ Bf) as PF.
  assert (Hh : 0 < h0) by apply bpow_gt_0. assert (Hh1 : h0 <= / 1024) by (replace (/1024) with (bpow radix2 (-10)) by (cbn; lra); apply bpow_le; lia).
  assert (U4 : 1 <= bpow radix2 400) by (change 1 with (bpow radix2 0); apply bpow_le; lia).
  assert (B1000 : 8 * bpow radix2 400 <= bpow radix2 500) by (change 8 with (bpow radix2 3); rewrite <- bpow_plus; apply bpow_le; lia).
  assert (B1000' : bpow radix2 500 <= bpow radix2 1000) by (apply bpow_le; lia).
  assert (S12 : 16 * u * (A1 + A2) <= A1 + A2) by (rewrite <- (Rmult_1_l (A1 + A2)) at 2; apply Rmult_le_compat_r; lra).
  (* the first sum *)
  destruct (add_step x1 x2 (A1 + A2) (16 * u * (A1 + A2) + 2 * h0) (A1 + A2) F1 F2) as (F12 & E12).
  { replace (fr x1 + fr x2 - (A1 + A2)) with ((fr x1 - A1) + (fr x2 - A2)) by ring. eapply Rle_trans; [apply Rabs_triang|]. lra. }
  { rewrite Rabs_pos_eq; lra. }
  { lra. }
  assert (E12' : Rabs (fr (fadd x1 x2) - (A1 + A2)) <= 18 * u * (A1 + A2) + 4 * h0).
  { eapply Rle_trans; [exact E12|]. pose proof (grow 16 (A1 + A2) (2 * h0) 0). lra. }
  set (x12 := fadd x1 x2) in *. clearbody x12.
  set (S := A1 + A2 + A3). assert (S0 : 0 <= S) by (unfold S; lra). assert (S1 : S <= 3 * bpow radix2 400) by (unfold S; lra).
  assert (SS : 18 * u * S <= S) by (rewrite <- (Rmult_1_l S) at 2; apply Rmult_le_compat_r; lra).
  set (a := A1 + A2 - A3).
  assert (Aa : Rabs a <= S) by (apply Rabs_le; unfold a, S; lra).
  assert (H13 : Rabs (fr x12 - fr x3 - a) <= 18 * u * S + 5 * h0).
  { replace (fr x12 - fr x3 - a) with ((fr x12 - (A1 + A2)) - (fr x3 - A3)) by (unfold a; ring). unfold Rminus at 1. eapply Rle_trans; [apply Rabs_triang|]. rewrite Rabs_Ropp.
    assert (0 <= u * A3) by (apply Rmult_le_pos; lra). unfold S. lra. }
  assert (O13 : Rabs (rnd (fr x12 - fr x3)) < big) by (apply (rnd_fits _ a (18 * u * S + 5 * h0) 1000); auto; try lia; lra).
  destruct (fsub_ok x12 x3 F12 F3 O13) as (E13 & F13).
  pose proof (rnd_step (fr x12 - fr x3) a _ 0 H13 ltac:(rewrite Rplus_0_r; apply (add_err (fr x12) (- fr x3)); [apply fr_format|apply generic_format_opp, fr_format])) as R13.
  rewrite <- E13 in R13.
  assert (E13' : Rabs (fr (fsub x12 x3) - a) <= 20 * u * S + 10 * h0).
  { eapply Rle_trans; [exact R13|]. pose proof (grow 18 S (5 * h0) 0). assert (u * Rabs a <= u * S) by (apply Rmult_le_compat_l; lra). lra. }
  set (x13 := fsub x12 x3) in *. clearbody x13.
  (* times the factor *)
  set (M := F * S). assert (M0 : 0 <= M) by (apply Rmult_le_pos; lra).
  assert (F0 : F <= bpow radix2 399) by apply Bf.
  assert (M1 : M <= bpow radix2 801).
  { unfold M. apply Rle_trans with (bpow radix2 399 * bpow radix2 402); [|rewrite <- bpow_plus; apply bpow_le; lia]. apply Rmult_le_compat; try lra.
    replace (bpow radix2 402) with (4 * bpow radix2 400) by (change 4 with (bpow radix2 2); rewrite <- bpow_plus; reflexivity). lra. }
  assert (Aw : Rabs (a * F) <= M) by (rewrite Rabs_mult, (Rabs_pos_eq F) by lra; unfold M; rewrite (Rmult_comm F); apply Rmult_le_compat_r; lra).
  assert (HF : h0 * F <= / 1024 * u).
  { apply Rle_trans with (h0 * bpow radix2 399); [apply Rmult_le_compat_l; lra|]. replace (/1024) with (bpow radix2 (-10)) by (cbn; lra). rewrite <- !bpow_plus. apply bpow_le. lia. }
  pose proof (product_err (fr x13) a 0 (20 * u * S + 10 * h0) (fr f) F (24 * u) ltac:(lra) ltac:(rewrite (Rabs_pos_eq F) by lra; exact Ef) ltac:(lra) ltac:(lra)) as P.
  assert (US0 : 0 <= u * S) by (apply Rmult_le_pos; lra). specialize (P ltac:(lra)).
  assert (P' : Rabs (fr x13 * fr f - a * F) <= 45 * u * M + 11 * h0 * F).
  { eapply Rle_trans; [exact P|]. rewrite (Rabs_pos_eq F) by lra.
    assert ((0 + 24 * u + 0 * (24 * u)) * Rabs (a * F) <= 24 * u * M) by (replace (0 + 24 * u + 0 * (24 * u)) with (24 * u) by ring; apply Rmult_le_compat_l; lra).
    assert ((20 * u * S + 10 * h0) * (1 + 24 * u) * F <= 21 * u * M + 11 * h0 * F); [|lra].
    replace (21 * u * M + 11 * h0 * F) with ((21 * u * S + 11 * h0) * F) by (unfold M; ring). apply Rmult_le_compat_r; [lra|].
    assert (480 * u <= 1) by lra. assert (u * S * (480 * u) <= u * S * 1) by (apply Rmult_le_compat_l; lra). assert (h0 * (240 * u) <= h0 * 1) by (apply Rmult_le_compat_l; lra). lra. }
  assert (UM : 45 * u * M <= M) by (rewrite <- (Rmult_1_l M) at 2; apply Rmult_le_compat_r; lra).
  assert (B801 : 8 * bpow radix2 801 <= bpow radix2 900) by (change 8 with (bpow radix2 3); rewrite <- bpow_plus; apply bpow_le; lia).
  assert (B801' : 2000 <= bpow radix2 801) by (apply Rle_trans with (bpow radix2 11); [cbn; lra|apply bpow_le; lia]).
  assert (B900 : bpow radix2 900 <= bpow radix2 1000) by (apply bpow_le; lia).
  assert (Pc : fr x13 * fr f = fr f * fr x13) by ring. rewrite Pc in P'.
  assert (Ow : Rabs (rnd (fr f * fr x13)) < big) by (apply (rnd_fits _ (a * F) (45 * u * M + 11 * h0 * F) 900); auto; try lia; lra).
  destruct (fmul_ok f x13 Ff F13 Ow) as (Ew & Fw).
  pose proof (rnd_step (fr f * fr x13) (a * F) _ tiny P' (any_err _)) as Rw. rewrite <- Ew in Rw.
  assert (T1 : tiny <= / 1024 * u) by (replace (/1024) with (bpow radix2 (-10)) by (cbn; lra); rewrite <- bpow_plus; apply bpow_le; lia).
  assert (HF0 : 0 <= h0 * F) by (apply Rmult_le_pos; lra).
  assert (Ew' : Rabs (fr (fmul f x13) - a * F) <= 47 * u * M + u).
  { eapply Rle_trans; [exact Rw|]. pose proof (grow 45 M (11 * h0 * F) tiny ltac:(lra) ltac:(lra) ltac:(lra)). assert (u * Rabs (a * F) <= u * M) by (apply Rmult_le_compat_l; lra). lra. }
  set (w := fmul f x13) in *. clearbody w.
  (* the sum of the two parts *)
  set (X := 1 + Rabs Lg + M). pose proof (Rabs_pos Lg) as Lg0.
  assert (X0 : 0 <= u * M) by (apply Rmult_le_pos; lra). assert (X1 : 0 <= u * Rabs Lg) by (apply Rmult_le_pos; lra).
  destruct (add_step lf w (Lg + a * F) (47 * u * X) X Flf Fw) as (Fr' & Er).
  { replace (fr lf + fr w - (Lg + a * F)) with ((fr lf - Lg) + (fr w - a * F)) by ring. eapply Rle_trans; [apply Rabs_triang|]. unfold X. lra. }
  { eapply Rle_trans; [apply Rabs_triang|]. unfold X. lra. }
  { assert (X <= 2 * bpow radix2 801) by (unfold X; lra). assert (47 * u * X <= 1 * X) by (apply Rmult_le_compat_r; unfold X in *; lra). lra. }
  replace (Lg + (F * A1 + F * A2 - F * A3)) with (Lg + a * F) by (unfold a; ring).
  replace (1 + Rabs Lg + (F * A1 + F * A2 + F * A3)) with X by (unfold X, M, S; ring).
  split; [exact Fr'|]. split; [|split].
  - eapply Rle_trans; [exact Er|]. pose proof (grow 47 X 0 0 ltac:(unfold X; lra) ltac:(lra) ltac:(lra)).
    assert (P47 : bpow radix2 (-47) = 64 * u) by (change (-47)%Z with (6 + -53)%Z; rewrite bpow_plus; reflexivity). rewrite P47.
    assert (0 <= u * X) by (apply Rmult_le_pos; unfold X; lra). lra.
  - change 802%Z with (1 + 801)%Z. rewrite bpow_plus. change (bpow radix2 1) with 2. unfold X. lra.
  - eapply Rle_trans; [apply Rabs_triang|]. unfold X. lra.
Qed.

(** ** the comparison *)
Lemma fless_finite w x : fin w = true -> fin x = true -> (fless w x = true <-> fr w < fr x).
Proof.
  intros F G. unfold fless. rewrite (Bcompare_correct 53 1024 w x F G). destruct (Rcompare_spec (fr w) (fr x)); split; intros; try discriminate; try lra; auto.
Qed.
Lemma fneg_val x : fr (fneg x) = - fr x /\ fin (fneg x) = fin x.
Proof. split; [apply B2R_Bopp|apply is_finite_Bopp]. Qed.


Lemma total_ok a c gr sigma t n nl nr s sl sr r k kl kr :
  moderate sigma -> moderate t -> counts0 n k -> counts0 nl kl -> counts0 nr kr ->
  finite s -> finite sl -> finite sr -> Rabs (val s) <= bpow radix2 100 -> Rabs (val sl) <= bpow radix2 100 -> Rabs (val sr) <= bpow radix2 100 ->
  finite a -> finite c -> Rabs (val a) <= bpow radix2 800 -> Rabs (val c) <= bpow radix2 800 ->
  likelihood_f sigma t n nl nr s sl sr r ->
  let x := exact_ratio (val sigma) (val t) (INR k) (INR kl) (INR kr) (val s) (val sl) (val sr) in
  let T := val a + (if gr : bool then x else - x) + val c in
  fin (ratio_f gr a r c) = true /\
  Rabs (fr (ratio_f gr a r c) - T) <= 68 * u * (ratio_size (val sigma) (val t) (INR k) (INR kl) (INR kr) (val s) (val sl) (val sr) + Rabs (val a) + Rabs (val c)).
Proof.
  intros Ms Mt Cn Cl Cr Fs Fl Fr Bs Bl Br Fa Fc Ba Bc L x T.
  destruct (ratio_accuracy _ _ _ _ _ _ _ _ _ _ _ _ Ms Mt Cn Cl Cr Fs Fl Fr Bs Bl Br L) as (Fi & Er & Bz & SZ). clear Ms Mt Cn Cl Cr Bs Bl Br L.
  fold x in Er, SZ. set (Z := ratio_size _ _ _ _ _ _ _ _) in *. clearbody x Z.
  unfold finite in *. unfold ratio_f. set (r' := if gr then r else fneg r). set (x' := if gr then x else - x) in T.
  assert (Q : fin r' = true /\ Rabs (fr r' - x') <= bpow radix2 (-47) * Z /\ Rabs x' <= Z).
  { unfold r', x'. destruct gr; [auto|]. destruct (fneg_val r) as (E1 & E2). rewrite E1, E2, Rabs_Ropp. repeat split; auto. replace (- fr r - - x) with (- (fr r - x)) by ring. now rewrite Rabs_Ropp. }
  destruct Q as (Fr' & Er' & Sx). clearbody r' x'. unfold val in *.
  pose proof u_pos as U. pose proof u_small as US. pose proof (Rabs_pos x') as X0. pose proof (Rabs_pos (fr a)) as A0. pose proof (Rabs_pos (fr c)) as C0.
  assert (P47 : bpow radix2 (-47) = 64 * u) by (change (-47)%Z with (6 + -53)%Z; rewrite bpow_plus; reflexivity).
  rewrite P47 in Er'.
  assert (B0 : bpow radix2 800 <= bpow radix2 802) by (apply bpow_le; lia).
  assert (B1 : 16 * bpow radix2 802 <= bpow radix2 1000) by (change 16 with (bpow radix2 4); rewrite <- bpow_plus; apply bpow_le; lia).
  assert (B2 : 0 < bpow radix2 802) by apply bpow_gt_0.
  set (X := Rabs (fr a) + Z). assert (HX : 64 * u * X <= X) by (rewrite <- (Rmult_1_l X) at 2; apply Rmult_le_compat_r; unfold X; lra).
  assert (UA : 0 <= u * Rabs (fr a)) by (apply Rmult_le_pos; lra). assert (UC : 0 <= u * Rabs (fr c)) by (apply Rmult_le_pos; lra). assert (UZ : 0 <= u * Z) by (apply Rmult_le_pos; lra).
  destruct (add_step a r' (fr a + x') (64 * u * X) X Fa Fr') as (F1 & E1).
  { replace (fr a + fr r' - (fr a + x')) with (fr r' - x') by ring. unfold X. lra. }
  { eapply Rle_trans; [apply Rabs_triang|]. unfold X. lra. }
  { unfold X in *. lra. }
  assert (E1' : Rabs (fr (fadd a r') - (fr a + x')) <= 66 * u * X).
  { eapply Rle_trans; [exact E1|]. pose proof (grow 64 X 0 0 ltac:(unfold X; lra) ltac:(lra) ltac:(lra)). lra. }
  set (ar := fadd a r') in *. clearbody ar.
  set (Y := X + Rabs (fr c)). assert (HY : 66 * u * Y <= Y) by (rewrite <- (Rmult_1_l Y) at 2; apply Rmult_le_compat_r; unfold Y, X; lra).
  destruct (add_step ar c T (66 * u * Y) Y F1 Fc) as (F2 & E2).
  { replace (fr ar + fr c - T) with (fr ar - (fr a + x')) by (unfold T; ring). unfold Y. lra. }
  { unfold T. eapply Rle_trans; [apply Rabs_triang|]. unfold Y, X. pose proof (Rabs_triang (fr a) x'). lra. }
  { unfold Y, X in *. lra. }
  assert (E2' : Rabs (fr (fadd ar c) - T) <= 68 * u * Y).
  { eapply Rle_trans; [exact E2|]. pose proof (grow 66 Y 0 0 ltac:(unfold Y, X; lra) ltac:(lra) ltac:(lra)). lra. }
  split; [exact F2|]. replace (Z + Rabs (fr a) + Rabs (fr c)) with Y by (unfold Y, X; ring). exact E2'.
Qed.
Lemma decision a c w gr sigma t n nl nr s sl sr r k kl kr :
  moderate sigma -> moderate t -> counts0 n k -> counts0 nl kl -> counts0 nr kr ->
  finite s -> finite sl -> finite sr -> Rabs (val s) <= bpow radix2 100 -> Rabs (val sl) <= bpow radix2 100 -> Rabs (val sr) <= bpow radix2 100 ->
  finite a -> finite c -> finite w -> Rabs (val a) <= bpow radix2 800 -> Rabs (val c) <= bpow radix2 800 ->
  likelihood_f sigma t n nl nr s sl sr r ->
  let x := exact_ratio (val sigma) (val t) (INR k) (INR kl) (INR kr) (val s) (val sl) (val sr) in
  let T := val a + (if gr : bool then x else - x) + val c in
  let E := bpow radix2 (-46) * (ratio_size (val sigma) (val t) (INR k) (INR kl) (INR kr) (val s) (val sl) (val sr) + Rabs (val a) + Rabs (val c)) in
  (val w < T - E -> accepted_f w gr a r c = true) /\ (T + E < val w -> accepted_f w gr a r c = false).
Proof.
  intros Ms Mt Cn Cl Cr Fs Fl Fr Bs Bl Br Fa Fc Fw Ba Bc L x T E.
  destruct (total_ok a c gr _ _ _ _ _ _ _ _ _ _ _ _ Ms Mt Cn Cl Cr Fs Fl Fr Bs Bl Br Fa Fc Ba Bc L) as (F2 & E2). fold x T in E2.
  destruct (ratio_accuracy _ _ _ _ _ _ _ _ _ _ _ _ Ms Mt Cn Cl Cr Fs Fl Fr Bs Bl Br L) as (_ & _ & _ & SZ).
  unfold E, accepted_f. clear E. set (Z := ratio_size _ _ _ _ _ _ _ _) in *. pose proof (Rabs_pos x). fold x in SZ. clearbody x T Z. unfold finite, val in *.
  assert (P46 : bpow radix2 (-46) = 128 * u) by (change (-46)%Z with (7 + -53)%Z; rewrite bpow_plus; reflexivity). rewrite P46.
  pose proof u_pos as U. pose proof (Rabs_pos (fr a)). pose proof (Rabs_pos (fr c)).
  set (Y := Z + Rabs (fr a) + Rabs (fr c)) in *. assert (UY : 0 <= u * Y) by (apply Rmult_le_pos; unfold Y; lra).
  apply abs_interval in E2. split; intros K.
  - apply fless_finite; auto. lra.
  - apply Bool.not_true_iff_false. intros K'. apply fless_finite in K'; auto. lra.
Qed.

(** ** outside the range *)
Lemma fless_nan w : fless w B754_nan = false.
Proof. destruct w; reflexivity. Qed.
Lemma nan_add_l x : fadd B754_nan x = B754_nan.
Proof. reflexivity. Qed.
Lemma nan_add_r x : fadd x B754_nan = B754_nan.
Proof. destruct x; reflexivity. Qed.
Lemma nan_mul_r x : fmul x B754_nan = B754_nan.
Proof. destruct x; reflexivity. Qed.
Lemma nan_div_r x : fdiv x B754_nan = B754_nan.
Proof. destruct x; reflexivity. Qed.
Lemma nan_sub_r x : fsub x B754_nan = B754_nan.
Proof. destruct x; reflexivity. Qed.
Lemma is_nan_eq (x : b64) : nan x -> x = B754_nan.
Proof. unfold nan. destruct x; try discriminate; reflexivity. Qed.
Lemma ratio_nan sigma t n nl nr s sl sr r : nan s \/ nan sl \/ nan sr \/ nan sigma \/ nan t -> likelihood_f sigma t n nl nr s sl sr r -> r = B754_nan.
Proof.
  intros H (v & vm & lf & Sv & Sm & L & ->).
  assert (E : fmul (fdiv vm (fmul ftwo v)) (resps_f v t n nl nr s sl sr) = B754_nan).
  { destruct H as [H|[H|[H|[H|H]]]]; apply is_nan_eq in H; subst.
    - unfold resps_f, resp_f. replace (fmul B754_nan B754_nan) with (@B754_nan 53 1024) by reflexivity. replace (fdiv B754_nan (fadd v (fmul n t))) with (@B754_nan 53 1024) by reflexivity. now rewrite nan_sub_r, nan_mul_r.
    - unfold resps_f, resp_f. replace (fmul B754_nan B754_nan) with (@B754_nan 53 1024) by reflexivity. replace (fdiv B754_nan (fadd v (fmul nl t))) with (@B754_nan 53 1024) by reflexivity. rewrite nan_add_l. now rewrite nan_mul_r.
    - unfold resps_f, resp_f. replace (fmul B754_nan B754_nan) with (@B754_nan 53 1024) by reflexivity. replace (fdiv B754_nan (fadd v (fmul nr t))) with (@B754_nan 53 1024) by reflexivity. rewrite nan_add_r. now rewrite nan_mul_r.
    - cbn [squares] in Sv. subst v. rewrite nan_mul_r, nan_div_r. reflexivity.
    - cbn [squares] in Sm. subst vm. reflexivity. }
  now rewrite E, nan_add_r.
Qed.
Lemma rejected_nan w gr a c : accepted_f w gr a B754_nan c = false.
Proof. unfold accepted_f, ratio_f. destruct gr; cbn [fneg Bopp]; rewrite nan_add_r, nan_add_l; apply fless_nan. Qed.

(** sigma squared overflows *)
Lemma square_inf x r : squares x r -> ~ nan x -> (finite x -> bpow radix2 512 <= Rabs (val x)) -> r = inf.
Proof.
  intros S N H. unfold finite, val in H. destruct x as [b|b| |b m e p].
  - exfalso. specialize (H eq_refl). cbn [B2R] in H. rewrite Rabs_R0 in H. pose proof (bpow_gt_0 radix2 512). lra.
  - exact S.
  - exfalso. apply N. reflexivity.
  - specialize (H eq_refl). cbn [squares] in S. cbv zeta in S. destruct S as [[[S _]|(_ & _ & S & _)] _]; auto. exfalso. set (y := fr (B754_finite b m e p)) in *. clearbody y.
    assert (K : bpow radix2 512 * bpow radix2 512 <= Rabs y * Rabs y) by (pose proof (bpow_ge_0 radix2 512); apply Rmult_le_compat; lra). assert (K' : bpow radix2 512 * bpow radix2 512 = bpow radix2 1024) by (rewrite <- bpow_plus; reflexivity). rewrite K', <- Rabs_mult, (Rabs_pos_eq (y * y)) in K by apply Rle_0_sqr. exact (Rlt_irrefl _ (Rle_lt_trans _ _ _ K S)).
Qed.
Lemma inf_add x : up x -> fadd inf x = inf.
Proof. intros [->|(F & S)]; [reflexivity|]. destruct x; try discriminate; reflexivity. Qed.
Lemma up_mul x y : up x -> up y -> fin x = true -> fin y = true -> up (fmul x y).
Proof.
  intros [->|(_ & S)] [->|(_ & T)] F G; try discriminate.
  pose proof (Bmult_correct 53 1024 prec64 emax64 mode_NE x y) as C. change (round radix2 (SpecFloat.fexp 53 1024) (round_mode mode_NE)) with rnd in C. fold (fmul x y) in C. rewrite F, G, S, T in C.
  destruct (Rlt_bool (Rabs (rnd (fr x * fr y))) big).
  - destruct C as (A & B & D). right. split; auto. apply D. destruct (fmul x y); try discriminate; reflexivity.
  - left. apply sf_inf. exact C.
Qed.
Lemma up_mul_inf x : up x -> 0 < fr x -> fmul x inf = inf.
Proof. intros [->|(F & S)] P; [reflexivity|]. destruct x as [b|b| |b m e p]; try discriminate; cbn in S; subst b; [cbn in P; lra|reflexivity]. Qed.
Lemma up_mul_any x y : up x -> up y -> 0 < fr x -> up (fmul x y).
Proof.
  intros U [->|V] P; [rewrite up_mul_inf by auto; now left|]. destruct U as [->|U]; [cbn in P; lra|]. apply up_mul; [now right|now right|apply U|apply V].
Qed.
Lemma ratio_exploding sigma t n nl nr s sl sr r k kl kr :
  counts n k -> counts nl kl -> counts nr kr -> ~ nan sigma -> (finite sigma -> bpow radix2 512 <= Rabs (val sigma)) ->
  finite t -> 0 < val t -> likelihood_f sigma t n nl nr s sl sr r -> r = B754_nan.
Proof.
  intros Cn Cl Cr N H Ft Pt (v & vm & lf & Sv & Sm & L & ->).
  assert (v = inf) by (eapply square_inf; eauto). subst v.
  assert (Ut : up t) by now apply up_of. assert (Um : up vm) by (apply (up_square _ _ Sm); intros K; apply is_nan_eq in K; subst; discriminate).
  destruct (counts_up _ _ Cn) as (Un & Fn & Pn). destruct (counts_up _ _ Cl) as (Ul & Fl & Pl). destruct (counts_up _ _ Cr) as (Ur & Fr & Pr).
  assert (E : first_f inf vm t n nl nr = B754_nan).
  { unfold first_f. rewrite !inf_add by now apply up_mul_any. reflexivity. }
  rewrite E in L. cbn [logs] in L. subst lf. apply nan_add_l.
Qed.

(** sigma squared vanishes *)
Notation zero := (@B754_zero 53 1024 false).
Lemma zero_add k x X : near k (fr x) X -> fin x = true -> fadd zero x = x.
Proof. intros N F. destruct (near_form _ _ _ N F) as (m & e & b & ->). reflexivity. Qed.
Lemma zero_mul k x X : near k (fr x) X -> fin x = true -> fmul zero x = zero.
Proof. intros N F. destruct (near_form _ _ _ N F) as (m & e & b & ->). reflexivity. Qed.
Lemma zero_div k x X : near k (fr x) X -> fin x = true -> fdiv zero x = zero.
Proof. intros N F. destruct (near_form _ _ _ N F) as (m & e & b & ->). reflexivity. Qed.
Lemma inf_mul x : fmul inf x = B754_nan \/ (fmul inf x = inf /\ fless x zero = false) \/ (fmul inf x = B754_infinity true /\ fless x zero = true).
Proof. destruct x as [[]|[]| |[] m e b]; cbn; auto. Qed.
Lemma vanishing_parts t n nl nr k kl kr v vm : counts n k -> counts nl kl -> counts nr kr -> moderate t -> squares t vm -> v = zero ->
  first_f v vm t n nl nr = zero /\ fdiv vm (fmul ftwo v) = inf.
Proof.
  intros Cn Cl Cr Mt Sm ->. destruct (vm_ok _ _ Mt Sm) as (Nm & Fm & Bm). destruct (t_ok _ Mt) as (Nt & Ft & Bt).
  destruct (n_ok _ _ Cn) as (N1 & F1 & B1). destruct (n_ok _ _ Cl) as (N2 & F2 & B2). destruct (n_ok _ _ Cr) as (N3 & F3 & B3).
  pose proof (between_mul _ _ _ _ _ _ B1 Bt) as P1. pose proof (between_mul _ _ _ _ _ _ B2 Bm) as P2. pose proof (between_mul _ _ _ _ _ _ B3 Bm) as P3. pose proof (between_mul _ _ _ _ _ _ P2 P3) as P4. cbn in P1, P2, P3, P4.
  destruct (near_fmul _ _ _ _ _ _ N1 Nt F1 Ft ltac:(lia)) as (M1 & G1); [bw P1|].
  destruct (near_fmul _ _ _ _ _ _ N2 Nm F2 Fm ltac:(lia)) as (M2 & G2); [bw P2|].
  destruct (near_fmul _ _ _ _ _ _ N3 Nm F3 Fm ltac:(lia)) as (M3 & G3); [bw P3|].
  destruct (near_fmul _ _ _ _ _ _ M2 M3 G2 G3 ltac:(lia)) as (M4 & G4); [bw P4|].
  split.
  - unfold first_f. rewrite (zero_add _ _ _ M1 G1), (zero_add _ _ _ M2 G2), (zero_add _ _ _ M3 G3), (zero_mul _ _ _ M1 G1), (zero_div _ _ _ M4 G4). reflexivity.
  - destruct (near_form _ _ _ Nm Fm) as (m & e & b & ->). reflexivity.
Qed.
Lemma ratio_vanishing sigma t n nl nr s sl sr r k kl kr :
  counts n k -> counts nl kl -> counts nr kr -> finite sigma -> Rabs (val sigma) < bpow radix2 (-538) -> moderate t ->
  likelihood_f sigma t n nl nr s sl sr r ->
  (r = B754_nan \/ r = B754_infinity true) /\ (r = B754_infinity true <-> fless (resps_f zero t n nl nr s sl sr) zero = true).
Proof.
  intros Cn Cl Cr Fs Bs Mt (v & vm & lf & Sv & Sm & L & ->).
  assert (v = zero) by (eapply square_small; eauto). destruct (vanishing_parts _ _ _ _ _ _ _ v vm Cn Cl Cr Mt Sm) as (E1 & E2); auto.
  rewrite E1 in L. cbn [logs] in L. subst lf v. rewrite E2. set (x := resps_f _ _ _ _ _ _ _ _). clearbody x.
  destruct (inf_mul x) as [E|[(E & K)|(E & K)]].
  - assert (K : fless x zero = false) by (destruct x as [[]|[]| |[] m e b]; try reflexivity; discriminate). rewrite E, K. cbn. split; [auto|]. split; discriminate.
  - rewrite E, K. cbn. split; [auto|]. split; discriminate.
  - rewrite E, K. cbn. split; [auto|]. split; reflexivity.
Qed.
Lemma grow_rejected w a r c : r = B754_nan \/ r = B754_infinity true -> accepted_f w true a r c = false.
Proof.
  intros [->| ->]; [apply rejected_nan|]. unfold accepted_f, ratio_f. destruct a as [[]|[]| |[] m e b], c as [[]|[]| |[] m' e' b'], w as [[]|[]| |[] m'' e'' b'']; reflexivity.
Qed.
Lemma prune_accepted w a c : finite w -> finite a -> finite c -> accepted_f w false a (B754_infinity true) c = true.
Proof.
  unfold finite. intros Fw Fa Fc. unfold accepted_f, ratio_f. destruct a as [[]|[]| |[] m e b]; try discriminate; destruct c as [[]|[]| |[] m' e' b']; try discriminate; destruct w as [[]|[]| |[] m'' e'' b'']; try discriminate; reflexivity.
Qed.

(** ** there is always a value *)
Lemma dbl_exists y : Rabs (rnd y) < big -> exists r : b64, fin r = true /\ fr r = rnd y.
Proof.
  intros H. assert (G : F64 (rnd y)) by (apply generic_format_round; auto with typeclass_instances; apply FLT_exp_valid; reflexivity).
  set (x := rnd y) in *. clearbody x. pose proof G as G0. red in G. set (m := Ztrunc (scaled_mantissa radix2 fx x)) in G. set (e := cexp radix2 fx x) in G.
  pose proof (binary_normalize_correct 53 1024 prec64 emax64 mode_NE m e false) as C. cbv zeta in C.
  change (round radix2 (SpecFloat.fexp 53 1024) (round_mode mode_NE)) with rnd in C. rewrite <- G in C. rewrite (rnd_id x G0) in C. rewrite Rlt_bool_true in C by exact H.
  destruct C as (A & B & _). eauto.
Qed.
Lemma log_exists x : exists r, logs x r.
Proof.
  destruct x as [s|[]| |[] m e b] eqn:Ex; cbn [logs]; eauto. rewrite <- Ex.
  assert (P : bpow radix2 (-1074) <= fr x) by (rewrite Ex; exact (bounded_ge_emin 53 1024 m e b)).
  assert (Q : fr x <= bpow radix2 1074) by (pose proof (fr_lt x) as K; pose proof (Rle_abs (fr x)); assert (big <= bpow radix2 1074) by (apply bpow_le; lia); lra).
  assert (A : Rabs (ln (fr x)) <= 1074) by (apply ln_between; [lia|split; assumption]).
  assert (O : Rabs (rnd (ln (fr x))) < big).
  { apply (rnd_fits _ (ln (fr x)) 0 11); try lia; [replace (ln (fr x) - ln (fr x)) with 0 by ring; rewrite Rabs_R0; lra|]. cbn; lra. }
  destruct (dbl_exists _ O) as (r & F & E). exists r. split; auto. rewrite E. eapply Rle_trans; [apply any_err|].
  apply Rplus_le_compat; [apply Rmult_le_compat_r; [apply Rabs_pos|apply bpow_le; lia]|apply bpow_le; lia].
Qed.
