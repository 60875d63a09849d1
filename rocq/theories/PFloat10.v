(** The likelihood ratio in double precision. *)
From Coq Require Import ZArith Reals List Lra Lia Psatz.
From Flocq Require Import Core.Core IEEE754.BinarySingleNaN.
From Verif Require Import Base MFloat MFloat2 MFloat3 MFloat4 SpecDouble SpecDouble3 SpecDouble4 SpecDouble9 PFloat PFloat2 PFloat3 PFloat5 PFloat6 PFloat7 PFloat8.
Import ListNotations.
Local Open Scope R_scope.

Ltac bw H := eapply between_weaken; [| |exact H]; lia.
Lemma near_fmul j k x X y Y : near j (fr x) X -> near k (fr y) Y -> fin x = true -> fin y = true -> (j + k <= 100)%nat -> between (-1000) 1000 (X * Y) ->
  near (S (j + k)) (fr (fmul x y)) (X * Y) /\ fin (fmul x y) = true.
Proof.
  intros N M F G L B. pose proof (near_mul _ _ _ _ _ _ N M) as D. destruct (near_rnd _ _ _ L D B) as (R & O & _).
  destruct (fmul_ok x y F G O) as (E & H). rewrite E. auto.
Qed.
Lemma near_form k x X : near k (fr x) X -> fin x = true -> exists m e b, x = @B754_finite 53 1024 false m e b.
Proof.
  intros N F. pose proof (near_pos _ _ _ N) as P. destruct (up_of _ F P) as [->|(_ & S)]; [discriminate|].
  destruct x as [s|s| |s m e b]; try discriminate; [cbn in P; lra|]. cbn in S. subst s. eauto.
Qed.
Lemma near_fsqrt k x X : near (2 * k) (fr x) X -> fin x = true -> (k <= 100)%nat -> between (-1000) 1000 (sqrt X) ->
  near (S k) (fr (fsqrt x)) (sqrt X) /\ fin (fsqrt x) = true.
Proof.
  intros N F L B. destruct (near_form _ _ _ N F) as (m & e & b & E).
  pose proof (near_sqrt _ _ _ N) as D. destruct (near_rnd _ _ _ L D B) as (R & _ & _).
  destruct (Bsqrt_correct 53 1024 prec64 emax64 mode_NE x) as (A & C & _).
  change (round radix2 (SpecFloat.fexp 53 1024) (round_mode mode_NE)) with rnd in A. unfold fsqrt. rewrite A, C. split; auto. now rewrite E.
Qed.
Lemma between_sqrt a b x : between (2 * a) (2 * b) x -> between a b (sqrt x).
Proof.
  intros [H K]. assert (D : forall z, bpow radix2 (2 * z) = bpow radix2 z * bpow radix2 z) by (intros; rewrite <- bpow_plus; f_equal; lia).
  rewrite D in H, K. unfold between. rewrite <- (sqrt_square (bpow radix2 a)), <- (sqrt_square (bpow radix2 b)) by apply bpow_ge_0. split; now apply sqrt_le_1_alt.
Qed.
Lemma two_val : fr ftwo = 2.
Proof. unfold ftwo, B2R, F2R. cbn. lra. Qed.
Lemma near_two : near 0 (fr ftwo) 2.
Proof. rewrite two_val. apply near_refl. lra. Qed.
Lemma ln_1p x : 0 <= x -> ln (1 + x) <= x.
Proof.
  intros H. destruct (Req_dec x 0) as [->|N]; [rewrite Rplus_0_r, ln_1; lra|]. pose proof (exp_ineq1 x N) as E.
  rewrite <- (ln_exp x) at 2. left. apply ln_increasing; lra.
Qed.
Lemma ln_pow_g k : ln (g ^ k) <= INR k * bpow radix2 (-52).
Proof.
  pose proof g_ge. induction k as [|k IH]; [cbn; rewrite ln_1; lra|]. cbn [pow]. rewrite ln_mult by (pose proof (gk_pos k); lra). rewrite S_INR.
  assert (ln g <= bpow radix2 (-52)) by (apply ln_1p; left; apply bpow_gt_0). lra.
Qed.
Lemma near_ln k a x : near k a x -> Rabs (ln a - ln x) <= INR k * bpow radix2 (-52).
Proof.
  intros N. pose proof (near_pos _ _ _ N) as P. destruct N as (A & B & C). pose proof (gk_pos k) as G. pose proof (ln_pow_g k) as L.
  assert (ln x <= ln a + ln (g ^ k)) by (rewrite <- ln_mult by lra; destruct B as [B| ->]; [left; apply ln_increasing; lra|lra]).
  assert (ln a <= ln x + ln (g ^ k)) by (rewrite <- ln_mult by lra; destruct C as [C| ->]; [left; apply ln_increasing; lra|lra]).
  apply Rabs_le. lra.
Qed.
Lemma ln_between b x : (0 <= b)%Z -> between (- b) b x -> Rabs (ln x) <= IZR b.
Proof.
  intros Hb B. pose proof (between_pos _ _ _ B) as P. destruct B as [B1 B2].
  assert (E : forall z, ln (bpow radix2 z) = IZR z * ln 2).
  { intros z. rewrite bpow_exp, ln_exp. reflexivity. }
  assert (L2 : 0 < ln 2 <= 1).
  { split; [rewrite <- ln_1; apply ln_increasing; lra|]. pose proof (ln_1p 1). replace 2 with (1 + 1) by ring. lra. }
  assert (A1 : ln (bpow radix2 (- b)) <= ln x) by (destruct B1 as [B1|B1]; [left; apply ln_increasing; auto; apply bpow_gt_0|rewrite B1; lra]).
  assert (A2 : ln x <= ln (bpow radix2 b)) by (destruct B2 as [B2|B2]; [left; apply ln_increasing; auto|rewrite B2; lra]).
  rewrite E in A1, A2. rewrite opp_IZR in A1. assert (0 <= IZR b) by (now apply IZR_le). apply Rabs_le. nra.
Qed.

Lemma counts_any x k : counts x k -> counts0 x k.
Proof. intros (A & B & _ & D). split; [exact A|auto]. Qed.
Lemma counts0_cases x k : counts0 x k -> counts x k \/ ((exists b, x = B754_zero b) /\ k = 0%nat).
Proof.
  intros (F & E & B). unfold finite, val in *. destruct k as [|k]; [right|left; split; [exact F|split; [exact E|split; [lia|exact B]]]]. split; auto.
  destruct x as [b|b| |b m e bd]; try discriminate; [eauto|]. exfalso. cbn [B2R] in E. apply (eq_0_F2R radix2) in E. destruct b; discriminate.
Qed.
Lemma add_nothing v b t : fin v = true -> 0 < fr v -> fin t = true -> fadd v (fmul (B754_zero b) t) = v.
Proof. intros F P G. destruct t; try discriminate; destruct v; try discriminate; try reflexivity; cbn in P; lra. Qed.

(** ** the parts *)
Section Parts.
  Variables (sigma t v vm n nl nr s sl sr : b64) (k kl kr : nat).
  Hypothesis Ms : moderate sigma.
  Hypothesis Mt : moderate t.
  Hypothesis Cn : counts0 n k.
  Hypothesis Cl : counts0 nl kl.
  Hypothesis Cr : counts0 nr kr.
  Hypothesis Sv : squares sigma v.
  Hypothesis Sm : squares t vm.
  Notation S2 := (fr sigma * fr sigma).
  Notation T := (fr t).
  Notation T2 := (fr t * fr t).

  Lemma v_ok : near 2 (fr v) S2 /\ fin v = true /\ between (-200) 200 S2.
  Proof.
    destruct Ms as [F B]. assert (B' : between (-100) 100 (fr sigma)) by exact B. destruct (near_square _ _ _ Sv F eq_refl) as (N & G).
    - bw B'.
    - split; [exact N|split; [exact G|apply (between_mul _ _ _ _ _ _ B' B')]].
  Qed.
  Lemma vm_ok : near 2 (fr vm) T2 /\ fin vm = true /\ between (-200) 200 T2.
  Proof.
    destruct Mt as [F B]. assert (B' : between (-100) 100 T) by exact B. destruct (near_square _ _ _ Sm F eq_refl) as (N & G).
    - bw B'.
    - split; [exact N|split; [exact G|apply (between_mul _ _ _ _ _ _ B' B')]].
  Qed.
  Lemma t_ok : near 0 (fr t) T /\ fin t = true /\ between (-100) 100 T.
  Proof. destruct Mt as [F B]. assert (B' : between (-100) 100 T) by exact B. split; [|auto]. apply near_refl. now apply between_pos in B'. Qed.
  Lemma n_ok m j : counts m j -> near 0 (fr m) (INR j) /\ fin m = true /\ between 0 52 (INR j).
  Proof. intros C. destruct (counts_between _ _ C) as (F & E & B). rewrite E. split; [|auto]. apply near_refl. now apply between_pos in B. Qed.

  (** var + n * sigma_mu *)
  Lemma D_ok m j : counts0 m j -> near 3 (fr (fadd v (fmul m t))) (S2 + INR j * T) /\ fin (fadd v (fmul m t)) = true /\ between (-200) 201 (S2 + INR j * T).
  Proof.
    intros C0. destruct v_ok as (Nv & Fv & Bv). destruct t_ok as (Nt & Ft & Bt). destruct (counts0_cases _ _ C0) as [C|((b & ->) & ->)].
    2: { rewrite (add_nothing v b t) by (auto; eapply near_pos; eauto). change (INR 0) with 0. rewrite Rmult_0_l, Rplus_0_r. split; [apply (near_weaken 2); [lia|exact Nv]|]. split; [exact Fv|bw Bv]. }
    destruct (n_ok _ _ C) as (Nm & Fm & Bm).
    pose proof (between_mul _ _ _ _ _ _ Bm Bt) as Bp. cbn in Bp.
    destruct (near_fmul _ _ _ _ _ _ Nm Nt Fm Ft ltac:(lia)) as (Np & Fp); [bw Bp|].
    assert (Bs : between (-200) 201 (S2 + INR j * T)) by (apply (between_add (-200) 200); [auto|bw Bp]).
    destruct (near_fadd 2 v S2 (fmul m t) (INR j * T) Nv ltac:(apply (near_weaken 1); [lia|exact Np]) Fv Fp ltac:(lia)) as (Na & Fa); [bw Bs|].
    auto.
  Qed.
  (** var + n * var_mu *)
  Lemma E_ok m j : counts0 m j -> near 4 (fr (fadd v (fmul m vm))) (S2 + INR j * T2) /\ fin (fadd v (fmul m vm)) = true /\ between (-200) 253 (S2 + INR j * T2).
  Proof.
    intros C0. destruct v_ok as (Nv & Fv & Bv). destruct vm_ok as (Nt & Ft & Bt). destruct (counts0_cases _ _ C0) as [C|((b & ->) & ->)].
    2: { rewrite (add_nothing v b vm) by (auto; eapply near_pos; eauto). change (INR 0) with 0. rewrite Rmult_0_l, Rplus_0_r. split; [apply (near_weaken 2); [lia|exact Nv]|]. split; [exact Fv|bw Bv]. }
    destruct (n_ok _ _ C) as (Nm & Fm & Bm).
    pose proof (between_mul _ _ _ _ _ _ Bm Bt) as Bp. cbn in Bp.
    destruct (near_fmul _ _ _ _ _ _ Nm Nt Fm Ft ltac:(lia)) as (Np & Fp); [bw Bp|].
    assert (Bs : between (-200) 253 (S2 + INR j * T2)) by (apply (between_add (-200) 252); [bw Bv|bw Bp]).
    destruct (near_fadd 3 v S2 (fmul m vm) (INR j * T2) ltac:(apply (near_weaken 2); [lia|exact Nv]) Np Fv Fp ltac:(lia)) as (Na & Fa); [bw Bs|].
    auto.
  Qed.
  Notation FT := (S2 * (S2 + INR k * T) / ((S2 + INR kl * T2) * (S2 + INR kr * T2))).
  Lemma first_ok : near 9 (fr (first_f v vm t n nl nr)) (sqrt FT) /\ fin (first_f v vm t n nl nr) = true /\ between (-453) 453 (sqrt FT).
  Proof.
    unfold first_f. destruct v_ok as (Nv & Fv & Bv). destruct (D_ok _ _ Cn) as (ND & FD & BD). destruct (E_ok _ _ Cl) as (NL & FL & BL). destruct (E_ok _ _ Cr) as (NR & FR & BR).
    pose proof (between_mul _ _ _ _ _ _ Bv BD) as B1. pose proof (between_mul _ _ _ _ _ _ BL BR) as B2. pose proof (between_div _ _ _ _ _ _ B1 B2) as B3. cbn in B1, B2, B3.
    destruct (near_fmul _ _ _ _ _ _ Nv ND Fv FD ltac:(lia)) as (N1 & F1); [bw B1|].
    destruct (near_fmul _ _ _ _ _ _ NL NR FL FR ltac:(lia)) as (N2 & F2); [bw B2|].
    destruct (near_fdiv _ _ _ _ _ _ N1 N2 F1 ltac:(lia)) as (N3 & F3); [bw B3|].
    assert (B4 : between (-453) 453 (sqrt FT)) by (apply between_sqrt; bw B3).
    destruct (near_fsqrt 8 _ _ N3 F3 ltac:(lia)) as (N4 & F4); [bw B4|].
    auto.
  Qed.
  Lemma log_ok lf : logs (first_f v vm t n nl nr) lf ->
    fin lf = true /\ Rabs (fr lf - ln (sqrt FT)) <= 8 * u * Rabs (ln (sqrt FT)) + 20 * u /\ Rabs (ln (sqrt FT)) <= 453.
  Proof.
    intros L. destruct first_ok as (N & F & B). destruct (near_form _ _ _ N F) as (m & e & b & E). pose proof (near_ln _ _ _ N) as D. rewrite E in L, D. cbn [logs] in L.
    destruct L as (Fl & L). split; auto. assert (B0 : Rabs (ln (sqrt FT)) <= 453) by (apply ln_between; [lia|exact B]). split; auto.
    set (x := fr (B754_finite false m e b)) in *. clearbody x. set (X := sqrt FT) in *. clearbody X.
    pose proof u_pos as U. pose proof u_small as US. rewrite two_u in D. replace (INR 9) with 9 in D by (cbn; lra).
    assert (P50 : bpow radix2 (-50) = 8 * u) by (change (-50)%Z with (3 + -53)%Z; rewrite bpow_plus; reflexivity). rewrite P50 in L.
    assert (P74 : bpow radix2 (-1074) <= u * / 4) by (replace (/4) with (bpow radix2 (-2)) by (cbn; lra); rewrite <- bpow_plus; apply bpow_le; lia).
    assert (A : Rabs (ln x) <= Rabs (ln X) + 18 * u). { replace (ln x) with (ln X + (ln x - ln X)) by ring. eapply Rle_trans; [apply Rabs_triang|]. lra. }
    replace (fr lf - ln X) with ((fr lf - ln x) + (ln x - ln X)) by ring. eapply Rle_trans; [apply Rabs_triang|].
    assert (8 * u * Rabs (ln x) <= 8 * u * (Rabs (ln X) + 18 * u)) by (apply Rmult_le_compat_l; lra).
    assert (8 * u * (18 * u) <= u) by nra. lra.
  Qed.
  (** sigma_mu^2 / (2 * var) *)
  Lemma factor_ok : Rabs (fr (fdiv vm (fmul ftwo v)) - T2 / (2 * S2)) <= 24 * u * (T2 / (2 * S2)) /\ fin (fdiv vm (fmul ftwo v)) = true /\ between (-401) 399 (T2 / (2 * S2)).
  Proof.
    destruct v_ok as (Nv & Fv & Bv). destruct vm_ok as (Nm & Fm & Bm).
    assert (B1 : between (-199) 201 (2 * S2)) by (apply (between_mul 1 1 (-200) 200); auto; split; cbn; lra).
    destruct (near_fmul _ _ _ _ _ _ near_two Nv eq_refl Fv ltac:(lia)) as (N1 & F1); [bw B1|].
    pose proof (between_div _ _ _ _ _ _ Bm B1) as B2. cbn in B2.
    destruct (near_fdiv _ _ _ _ _ _ Nm N1 Fm ltac:(lia)) as (N2 & F2); [bw B2|].
    split; [|auto]. pose proof (near_abs 6 _ _ ltac:(apply small_count; lia) N2) as A. rewrite two_u in A. replace (INR (2 * 6)) with 12 in A by (cbn; lra). lra.
  Qed.
  (** sum^2 / (var + n * sigma_mu) *)
  Notation h := (bpow radix2 (-870)).
  Lemma resp_ok m j q : counts0 m j -> fin q = true -> Rabs (fr q) <= bpow radix2 100 ->
    let A := fr q * fr q / (S2 + INR j * T) in
    fin (resp_f v t m q) = true /\ Rabs (fr (resp_f v t m q) - A) <= 16 * u * A + h /\ 0 <= A <= bpow radix2 400.
  Proof.
    intros C Fq Bq A. unfold resp_f. destruct (D_ok _ _ C) as (ND & FD & BD). set (D := S2 + INR j * T) in *. set (d := fadd v (fmul m t)) in *. clearbody d.
    pose proof u_pos as U. pose proof u_small as US. pose proof tiny_pos as TP. pose proof (between_pos _ _ _ BD) as PD. pose proof (near_pos _ _ _ ND) as Pd.
    set (Q := fr q * fr q) in *. assert (Q0 : 0 <= Q) by apply Rle_0_sqr.
    assert (Q1 : Q <= bpow radix2 200).
    { unfold Q. rewrite <- (Rabs_pos_eq (fr q * fr q)) by exact Q0. rewrite Rabs_mult. change 200%Z with (100 + 100)%Z. rewrite bpow_plus. apply Rmult_le_compat; auto using Rabs_pos. }
    assert (I : 0 < / D <= bpow radix2 200).
    { split; [now apply Rinv_0_lt_compat|]. apply between_inv in BD. apply BD. }
    assert (A0 : 0 <= A <= bpow radix2 400).
    { unfold A, Rdiv. split; [apply Rmult_le_pos; lra|]. change 400%Z with (200 + 200)%Z. rewrite bpow_plus. apply Rmult_le_compat; lra. }
    assert (Oq : Rabs (rnd Q) < big) by (apply (rnd_fits Q Q 0 201); [replace (Q - Q) with 0 by ring; rewrite Rabs_R0; lra|rewrite Rabs_pos_eq, Rplus_0_r by lra; eapply Rle_trans; [exact Q1|apply bpow_le; lia]|lia|lia]).
    destruct (fmul_ok q q Fq Fq Oq) as (Em & Fm). set (qq := fmul q q) in *. clearbody qq.
    assert (Xq : Rabs (fr qq - Q) <= u * Rabs Q + tiny) by (rewrite Em; apply any_err).
    assert (Yi : Rabs (/ fr d - / D) <= 12 * u * Rabs (/ D)).
    { rewrite (Rabs_pos_eq (/ D)) by lra. pose proof (near_abs 3 _ _ ltac:(apply small_count; lia) (near_inv _ _ _ ND)) as E. rewrite two_u in E. replace (INR (2 * 3)) with 6 in E by (cbn; lra). lra. }
    pose proof (product_err (fr qq) Q u tiny (/ fr d) (/ D) (12 * u) Xq Yi ltac:(lra) ltac:(lra) ltac:(lra)) as P.
    change (Q * / D) with A in P. change (fr qq * / fr d) with (fr qq / fr d) in P. rewrite (Rabs_pos_eq A), (Rabs_pos_eq (/ D)) in P by lra.
    assert (H873 : tiny * / D <= bpow radix2 (-875)) by (unfold tiny; change (-875)%Z with (-1075 + 200)%Z; rewrite bpow_plus; apply Rmult_le_compat_l; [apply bpow_ge_0|lra]).
    assert (H870 : h = 32 * bpow radix2 (-875)) by (change (-870)%Z with (5 + -875)%Z; rewrite bpow_plus; reflexivity).
    assert (H75 : tiny <= bpow radix2 (-875)) by (apply bpow_le; lia). pose proof (bpow_gt_0 radix2 (-875)) as P875.
    assert (P' : Rabs (fr qq / fr d - A) <= 14 * u * A + 2 * bpow radix2 (-875)).
    { eapply Rle_trans; [exact P|]. apply Rplus_le_compat.
      - apply Rmult_le_compat_r; [lra|]. assert (u * (12 * u) <= u) by nra. lra.
      - rewrite Rmult_assoc, (Rmult_comm (1 + 12 * u)), <- Rmult_assoc. apply Rle_trans with (bpow radix2 (-875) * 2); [|lra]. apply Rmult_le_compat; try lra. apply Rmult_le_pos; lra. }
    pose proof (rnd_step (fr qq / fr d) A _ tiny P' (any_err _)) as R. rewrite (Rabs_pos_eq A) in R by lra.
    assert (O : Rabs (rnd (fr qq / fr d)) < big).
    { apply (rnd_fits _ A _ 402 P'); try lia. rewrite Rabs_pos_eq by lra. change 402%Z with (2 + 400)%Z. rewrite bpow_plus. change (bpow radix2 2) with 4.
      assert (14 * u * A <= 1 * A) by (apply Rmult_le_compat_r; lra). assert (bpow radix2 (-875) <= / 1024) by (replace (/1024) with (bpow radix2 (-10)) by (cbn; lra); apply bpow_le; lia). assert (1 <= bpow radix2 400) by (change 1 with (bpow radix2 0); apply bpow_le; lia). lra. }
    destruct (fdiv_ok qq d Fm ltac:(lra) O) as (E & G). rewrite E. split; [auto|split; [|auto]].
    eapply Rle_trans; [exact R|]. eapply Rle_trans; [apply grow; lra|]. lra.
  Qed.
End Parts.
