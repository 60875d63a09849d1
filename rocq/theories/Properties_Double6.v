(** C113: the draw of sigma in double precision. *)
From Coq Require Import ZArith Reals List Lra Lia Psatz.
From Flocq Require Import Core.Core IEEE754.BinarySingleNaN.
From Verif Require Import Base Fl Ext MData MSplit MTree MSampler MModel Spec MFloat MFloat2 MFloat3 MFloat4 MFloat6 SpecDouble SpecDouble3 SpecDouble4 SpecDouble6
  PFloat PFloat2 PFloat3 PFloat5 PFloat6 PFloat7 PFloat8 PFloat9 PFloat10 PFloat11 PFloat13 Properties_Double Properties_Drift Properties_Double2 Properties_Double3 Properties_Double4.
Import ListNotations.
Local Open Scope R_scope.

(** [b] is the prior's scale, [e] the residuals, [w] the standard gamma draw: sigma is a positive number, accurate to about one
    unit in the last place for each row, whatever the order of the sum. *)
Theorem C113_accurate : forall b e w r,
  finite b -> bpow radix2 (-500) <= val b <= bpow radix2 500 -> within (bpow radix2 400) e -> INR (length e) <= bpow radix2 48 ->
  finite w -> bpow radix2 (-100) <= val w <= bpow radix2 100 -> sigma_draw_f b e w r ->
  finite r /\ 0 < val r /\ Rabs (val r - exact_sigma (val b) e (val w)) <= INR (length e + 10) * bpow radix2 (-51) * exact_sigma (val b) e (val w).
Proof. exact sigma_accuracy. Qed.

(** In ordinary circumstances sigma stays in the range in which the next acceptance ratios are accurate (C111, C112). *)
Theorem C113_moderate : forall b e w r,
  finite b -> bpow radix2 (-100) <= val b <= bpow radix2 100 -> within (bpow radix2 40) e -> INR (length e) <= bpow radix2 48 ->
  finite w -> bpow radix2 (-50) <= val w <= bpow radix2 60 -> sigma_draw_f b e w r -> moderate r.
Proof. exact sigma_moderate. Qed.

(** The exact value is what the exact model stores, when its gamma draw is the same standard draw times the scale. *)
Theorem C113_exact_model : forall m rg m' rg' gam gs e y m1 w,
  rg_gamma rg = gam :: gs -> (forall shape scale, gam shape scale = scale * w) -> 0 < w -> 0 < pa_sigb (m_par m) ->
  residuals m = Ok (y, m1) -> y = map val e -> sigma_step m rg = Ok (m', rg') ->
  m_sigma m' = exact_sigma (pa_sigb (m_par m)) e w /\ rg_gamma rg' = gs.
Proof.
  intros m rg m' rg' gam gs e y m1 w G Hg Pw Pb Hy E H. unfold sigma_step in H. rewrite Hy in H. cbn [rbind] in H. rewrite G, Hg in H.
  assert (S : rsum (map (fun x => x * x) y) = fold_right Rplus 0 (map (fun x => val x * val x) e)).
  { subst y. unfold rsum. rewrite map_map. reflexivity. }
  rewrite S in H. set (SS := fold_right Rplus 0 (map (fun x => val x * val x) e)) in *.
  assert (P0 : 0 <= SS). { unfold SS. clear. induction e as [|x l IH]; cbn; [lra|]. pose proof (Rle_0_sqr (val x)) as Z. unfold Rsqr in Z. lra. }
  unfold exact_sigma. fold SS. set (B := pa_sigb (m_par m) + / 2 * SS) in *. assert (PB : 0 < B) by (unfold B; lra).
  destruct (Req_EM_T B 0); [discriminate|]. destruct (Rlt_dec _ 0); [discriminate|]. destruct (Rlt_dec (/ B) 0); [discriminate|].
  assert (PX : 0 < / B * w) by (apply Rmult_lt_0_compat; [apply Rinv_0_lt_compat|]; lra).
  unfold sigma_value, rsign in H. destruct (Rlt_dec (/ B * w) 0); [lra|]. destruct (Rlt_dec 0 (/ B * w)); [|lra].
  injection H as <- <-. cbn. split; [|reflexivity]. f_equal. f_equal. unfold Rdiv. ring.
Qed.

(** The shape handed to the gamma draw. *)
Theorem C113_shape : forall a n k, finite a -> bpow radix2 (-100) <= val a <= bpow radix2 100 -> counts n k ->
  finite (gamma_shape_f a n) /\ Rabs (val (gamma_shape_f a n) - (val a + INR k / 2)) <= bpow radix2 (-50) * (val a + INR k / 2).
Proof.
  intros a n k Fa Ha (Fn & En & K1 & K2). unfold finite, val in *. unfold gamma_shape_f. change (@B754_finite 53 1024 false 4503599627370496 (-51) eq_refl) with ftwo.
  assert (J : 1 <= INR k) by (change 1 with (INR 1); now apply le_INR).
  assert (Nn : near 0 (fr n) (INR k)) by (rewrite En; apply near_refl; lra).
  assert (Bk : between 0 52 (INR k)) by (split; cbn [bpow]; auto; lra).
  assert (Bq : between (-1) 51 (INR k / 2)).
  { destruct Bk as (A & B). split; [change (bpow radix2 (-1)) with (/ 2); lra|]. change 52%Z with (1 + 51)%Z in B. rewrite bpow_plus in B. change (bpow radix2 1) with 2 in B. lra. }
  destruct (near_fdiv 0 0 n (INR k) ftwo 2 Nn near_two Fn ltac:(lia)) as (Nq & Fq); [bw Bq|].
  pose proof (bpow_gt_0 radix2 (-100)). assert (Na : near 1 (fr a) (fr a)) by (apply (near_weaken 0); [lia|apply near_refl; lra]).
  assert (Bs : between (-1000) 1000 (fr a + INR k / 2)).
  { destruct Bq as (A & B). pose proof (bpow_gt_0 radix2 (-1)). split.
    - assert (bpow radix2 (-1000) <= bpow radix2 (-100)) by (apply bpow_le; lia). lra.
    - assert (bpow radix2 51 <= bpow radix2 100) by (apply bpow_le; lia). apply Rle_trans with (bpow radix2 (1 + 100)); [rewrite bpow_plus; change (bpow radix2 1) with 2; lra|apply bpow_le; lia]. }
  destruct (near_fadd 1 a _ _ _ Na Nq Fa Fq ltac:(lia) Bs) as (Ns & Fs). split; [exact Fs|].
  assert (Big : INR (2 * 2) <= bpow radix2 52) by (change (INR (2 * 2)) with (1+1+1+1); assert (1024 <= bpow radix2 52) by (change 1024 with (bpow radix2 10); apply bpow_le; lia); lra).
  pose proof (near_abs 2 _ _ Big Ns) as E. replace (INR (2 * 2) * bpow radix2 (-52)) with (bpow radix2 (-50)) in E; [exact E|].
  change (INR (2 * 2)) with (1+1+1+1). change (-50)%Z with (2 + -52)%Z. rewrite bpow_plus. change (bpow radix2 2) with 4. lra.
Qed.

(** The reported sigma, back on the scale of the targets. *)
Theorem C113_reported : forall sigma sf, moderate sigma -> moderate sf ->
  finite (reported_sigma_f sigma sf) /\ Rabs (val (reported_sigma_f sigma sf) - val sigma * val sf) <= bpow radix2 (-51) * (val sigma * val sf).
Proof.
  intros s t (Fs & Hs) (Ft & Ht). unfold finite, val in *. pose proof (bpow_gt_0 radix2 (-100)).
  assert (Bp : between (-200) 200 (fr s * fr t)).
  { split; [change (-200)%Z with (-100 + -100)%Z|change 200%Z with (100 + 100)%Z]; rewrite bpow_plus; apply Rmult_le_compat; lra. }
  destruct (near_fmul 0 0 s (fr s) t (fr t) (near_refl (fr s) ltac:(lra)) (near_refl (fr t) ltac:(lra)) Fs Ft ltac:(lia)) as (N & F); [bw Bp|]. split; [exact F|].
  assert (Big : INR (2 * 1) <= bpow radix2 52) by (change (INR (2 * 1)) with (1+1); assert (1024 <= bpow radix2 52) by (change 1024 with (bpow radix2 10); apply bpow_le; lia); lra).
  pose proof (near_abs 1 _ _ Big N) as E. replace (INR (2 * 1) * bpow radix2 (-52)) with (bpow radix2 (-51)) in E; [exact E|].
  change (INR (2 * 1)) with (1+1). change (-51)%Z with (1 + -52)%Z. rewrite bpow_plus. change (bpow radix2 1) with 2. lra.
Qed.

(** A residual whose square overflows makes sigma infinite, whatever the draw. *)
Theorem C113_overflow : forall b e w r x,
  finite b -> Forall (fun v => ~ nan v) e -> In x e -> (finite x -> bpow radix2 512 <= Rabs (val x)) -> finite w -> sigma_draw_f b e w r ->
  r = B754_infinity false.
Proof.
  intros b e w r x Fb N I H Fw (sc & Hs & Hr). destruct (C109_overflow _ _ _ _ Fb N I H Hs) as (Fs & Z). unfold finite, val in *.
  assert (Ex : exists s, sc = B754_zero s).
  { destruct sc as [s|s| |s m e' bd]; try discriminate; [eauto|]. exfalso. cbn [B2R] in Z. apply (eq_0_F2R radix2) in Z. destruct s; discriminate. }
  destruct Ex as (s & ->). destruct w as [t|t| |t m e' bd]; try discriminate; exact Hr.
Qed.
(** So does a gamma draw of 0. *)
Theorem C113_zero_draw : forall b e w r,
  finite b -> bpow radix2 (-500) <= val b <= bpow radix2 500 -> within (bpow radix2 400) e -> INR (length e) <= bpow radix2 48 ->
  finite w -> val w = 0 -> sigma_draw_f b e w r -> r = B754_infinity false.
Proof.
  intros b e w r Fb Hb We Hn Fw Z (sc & Hs & Hr). destruct (scale_accuracy _ _ _ Fb Hb We Hn Hs) as (Fs & _ & _). unfold finite, val in *.
  assert (Ex : exists s, w = B754_zero s).
  { destruct w as [s|s| |s m e' bd]; try discriminate; [eauto|]. exfalso. cbn [B2R] in Z. apply (eq_0_F2R radix2) in Z. destruct s; discriminate. }
  destruct Ex as (s & ->). destruct sc as [t|t| |t m e' bd]; try discriminate; exact Hr.
Qed.
(** A NaN residual makes it NaN. *)
Theorem C113_missing : forall b e w r x, In x e -> nan x -> sigma_draw_f b e w r -> nan r.
Proof.
  intros b e w r x I N (sc & Hs & Hr). rewrite (is_nan_eq _ (C109_missing _ _ _ _ I N Hs)) in Hr. destruct w; cbn in Hr; subst r; reflexivity.
Qed.

(** Once the sum of the trees is NaN in one row, no later update of any tree repairs it: the targets handed to every tree are NaN
    in that row, so is every sigma drawn, every leaf value drawn in any tree, and no proposal is ever accepted again. *)
Theorem C113_for_ever : forall y p vs ops, nan p ->
  let st := refreshes_f (p, vs) ops in
  nan (fst st) /\ (forall j, nan (handed_f y st j)) /\
  forall b e w sigma, In (fsub y (fst st)) e -> sigma_draw_f b e w sigma ->
    nan sigma /\
    (forall n nt s sm z r, leaf_draw_f n nt s sigma sm z r -> nan r) /\
    (forall (grow : bool) a c v tau n nl nr s sl sr r, likelihood_f sigma tau n nl nr s sl sr r -> accepted_f v grow a r c = false).
Proof.
  intros y p vs ops N st.
  assert (P : nan (fst st)).
  { subst st. unfold refreshes_f. revert p vs N. induction ops as [|[j x] ops IH]; intros p vs N; [exact N|]. cbn [fold_left refresh_f]. apply IH.
    rewrite (is_nan_eq _ N). destruct (nth j vs (B754_zero false)), x; reflexivity. }
  clearbody st. split; [exact P|]. split.
  - intros j. unfold handed_f. rewrite (is_nan_eq _ P). destruct (nth j (snd st) (B754_zero false)), y; reflexivity.
  - intros b e w sigma I D. assert (Q : nan sigma). { eapply C113_missing; [exact I| |exact D]. rewrite (is_nan_eq _ P). destruct y; reflexivity. }
    split; [exact Q|]. split.
    + intros n nt s sm z r L. exact (C108_missing _ _ _ _ _ _ _ (or_intror (or_introl Q)) L).
    + intros gr a c v tau n nl nr s sl sr r L. apply (C111_missing gr a c v sigma tau n nl nr s sl sr r); auto.
Qed.

(** *** every draw has a value *)
Lemma inverse_root_exists x : exists r, inverse_roots x r.
Proof.
  destruct x as [s|s| |[] m e b] eqn:Ex; cbn [inverse_roots]; eauto. rewrite <- Ex.
  assert (P : bpow radix2 (-1074) <= fr x). { rewrite Ex. exact (bounded_ge_emin 53 1024 m e b). }
  assert (U : fr x <= bpow radix2 1024). { apply Rlt_le. apply Rle_lt_trans with (Rabs (fr x)); [apply Rle_abs|]. apply abs_B2R_lt_emax. }
  pose proof (bpow_gt_0 radix2 (-1074)). destruct (between_sqrt (-537) 512 (fr x) (conj P U)) as (A & B).
  set (s := sqrt (fr x)) in *. pose proof (bpow_gt_0 radix2 (-537)).
  assert (L : bpow radix2 (-512) <= / s) by (change (-512)%Z with (- (512))%Z; rewrite bpow_opp; apply Rinv_le; lra).
  assert (V : / s <= bpow radix2 537) by (change 537%Z with (- (-537))%Z; rewrite bpow_opp; apply Rinv_le; lra).
  pose proof (bpow_gt_0 radix2 (-512)).
  assert (O : Rabs (rnd (/ s)) < big).
  { apply (rnd_fits (/ s) (/ s) 0 537); try lia; [replace (/ s - / s) with 0 by ring; rewrite Rabs_R0; lra|]. rewrite Rabs_pos_eq; lra. }
  destruct (dbl_exists _ O) as (r & F & E). exists r. split; [exact F|]. rewrite E. eapply Rle_trans; [apply any_err|]. rewrite Rabs_pos_eq, two_u by lra.
  assert (bpow radix2 (-1075) <= u * / s); [|pose proof u_pos; nra]. apply Rle_trans with (u * bpow radix2 (-512)); [rewrite <- bpow_plus; apply bpow_le; lia|]. apply Rmult_le_compat_l; [apply bpow_ge_0|exact L].
Qed.
Theorem C113_draw_exists : forall b e w, e <> [] -> exists r, sigma_draw_f b e w r.
Proof.
  intros b e w H. destruct (any_sum (map (fun x => fmul x x) e)) as (q & S); [destruct e; [congruence|discriminate]|].
  destruct (inverse_root_exists (fmul (fdiv fone (fadd b (fmul half_f q))) w)) as (r & R). exists r, (fdiv fone (fadd b (fmul half_f q))). split; [exists q; auto|exact R].
Qed.
(** prior scale 1, residuals 1, -1, 3, draw 1: the hypotheses of the accuracy theorems hold, and the exact sigma is sqrt 6.5 *)
Example C113_case : finite d1 /\ bpow radix2 (-100) <= val d1 <= bpow radix2 100 /\ within (bpow radix2 40) [d1; dm1; d3] /\ bpow radix2 (-50) <= val d1 <= bpow radix2 60 /\
  (exists r, sigma_draw_f d1 [d1; dm1; d3] d1 r) /\ exact_sigma (val d1) [d1; dm1; d3] (val d1) = / sqrt (2 / 13).
Proof.
  assert (V1 : val d1 = 1) by exact val_d1. assert (Vm : val dm1 = -1) by (unfold val, dm1, d_of, B2R, F2R; cbn; lra).
  assert (X1 : 1 <= bpow radix2 60) by (change 1 with (bpow radix2 0); apply bpow_le; lia). assert (bpow radix2 (-100) <= 1) by (change 1 with (bpow radix2 0); apply bpow_le; lia).
  assert (1 <= bpow radix2 100) by (change 1 with (bpow radix2 0); apply bpow_le; lia). assert (bpow radix2 (-50) <= 1) by (change 1 with (bpow radix2 0); apply bpow_le; lia).
  assert (4 <= bpow radix2 40) by (change 4 with (bpow radix2 2); apply bpow_le; lia).
  split; [reflexivity|]. split; [lra|]. split; [|split; [lra|split; [apply C113_draw_exists; discriminate|]]].
  - repeat constructor; rewrite ?V1, ?Vm, ?val_d3'; unfold Rabs; destruct (Rcase_abs _); lra.
  - unfold exact_sigma. cbn [map fold_right]. rewrite V1, Vm, val_d3'. f_equal. f_equal. lra.
Qed.

Print Assumptions C113_accurate.
Print Assumptions C113_moderate.
Print Assumptions C113_exact_model.
Print Assumptions C113_shape.
Print Assumptions C113_reported.
Print Assumptions C113_overflow.
Print Assumptions C113_zero_draw.
Print Assumptions C113_missing.
Print Assumptions C113_for_ever.
Print Assumptions C113_draw_exists.
