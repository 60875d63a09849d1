(** Normalisation in single precision. *)
From Coq Require Import ZArith Reals List Lra Lia Psatz.
From Flocq Require Import Core.Core IEEE754.BinarySingleNaN.
From Verif Require Import Base MSingle PSingle SpecSingle.
Import ListNotations.
Local Open Scope R_scope.

Lemma u_small : u <= /1024.
Proof.
  replace (/1024) with (bpow radix2 (-10)) by (cbn; lra). apply bpow_le. lia.
Qed.
Lemma big_gt1 : 1 < big.
Proof. change 1 with (bpow radix2 0). apply bpow_lt. lia. Qed.

Lemma rnd_bound x b : F32 b -> Rabs x <= b -> Rabs (rnd x) <= b.
Proof.
  intros Fb H. apply Rabs_le. assert (H' := Rabs_def2 x (b + 1)).
  assert (- b <= x <= b) as [A B] by (split; revert H; unfold Rabs; destruct (Rcase_abs x); lra).
  split.
  - rewrite <- (rnd_id (- b)) by (apply generic_format_opp, Fb). apply rnd_le, A.
  - rewrite <- (rnd_id b) by exact Fb. apply rnd_le, B.
Qed.
Lemma rnd_unit x : 0 <= x <= 1 -> 0 <= rnd x <= 1.
Proof.
  intros [A B]. split.
  - rewrite <- rnd_0. apply rnd_le, A.
  - rewrite <- (rnd_id 1) by apply one_format. apply rnd_le, B.
Qed.
Lemma sub_pos x y : F32 x -> F32 y -> y < x -> 0 < rnd (x - y).
Proof.
  intros Fx Fy L. pose proof (sub_err x y Fx Fy) as E. pose proof u_small.
  rewrite (Rabs_pos_eq (x - y)) in E by lra. pose proof (Rabs_def2 (rnd (x - y) - (x - y)) (u * (x - y) + (x-y)/2)) as D.
  assert (u * (x - y) <= (x - y) /1024) by nra.
  destruct D; lra.
Qed.

Section Entry.
  Variables lo hi v : b32.
  Hypothesis Flo : fin lo = true.
  Hypothesis Fhi : fin hi = true.
  Hypothesis Fv : fin v = true.
  Hypothesis Hlt : fr lo < fr hi.
  Hypothesis Hlo : fr lo <= fr v.
  Hypothesis Hhi : fr v <= fr hi.
  Hypothesis Fs : fin (fsub hi lo) = true.

  Let D := rnd (fr hi - fr lo).
  Let d := rnd (fr v - fr lo).
  Let q := rnd (d / D).

  Lemma D_val : fr (fsub hi lo) = D.
  Proof. apply fsub_ok; try assumption. apply fsub_fin; assumption. Qed.
  Lemma D_pos : 0 < D.
  Proof. apply sub_pos; [apply fr_format|apply fr_format|exact Hlt]. Qed.
  Lemma D_big : D < big.
  Proof. pose proof (fsub_fin hi lo Fhi Flo Fs) as H. unfold D. eapply Rle_lt_trans; [apply Rle_abs|exact H]. Qed.
  Lemma d_range : 0 <= d <= D.
  Proof.
    split.
    - rewrite <- rnd_0. apply rnd_le. lra.
    - apply rnd_le. lra.
  Qed.
  Lemma d_val : fr (fsub v lo) = d /\ fin (fsub v lo) = true.
  Proof.
    apply fsub_ok; try assumption. fold d. pose proof d_range. pose proof D_big.
    rewrite Rabs_pos_eq; lra.
  Qed.
  Lemma q_arg : 0 <= d / D <= 1.
  Proof.
    pose proof d_range. pose proof D_pos. split.
    - apply Rmult_le_pos; [lra|]. apply Rlt_le, Rinv_0_lt_compat. lra.
    - apply (Rmult_le_reg_r D); [lra|]. unfold Rdiv. rewrite Rmult_assoc, Rinv_l; lra.
  Qed.
  Lemma q_range : 0 <= q <= 1.
  Proof. apply rnd_unit, q_arg. Qed.
  Lemma q_val : fr (fdiv (fsub v lo) (fsub hi lo)) = q /\ fin (fdiv (fsub v lo) (fsub hi lo)) = true.
  Proof.
    destruct d_val as (E1 & E2). pose proof D_pos.
    destruct (fdiv_ok (fsub v lo) (fsub hi lo) E2) as (A & B).
    - rewrite D_val. lra.
    - rewrite E1, D_val. fold q. pose proof q_range. pose proof big_gt1. rewrite Rabs_pos_eq; lra.
    - rewrite E1, D_val in A. split; assumption.
  Qed.
  Definition entry := fadd neg_half (fdiv (fsub v lo) (fsub hi lo)).
  Lemma entry_val : fr entry = rnd (- /2 + q) /\ fin entry = true.
  Proof.
    destruct q_val as (E1 & E2). unfold entry.
    destruct (fadd_ok neg_half (fdiv (fsub v lo) (fsub hi lo)) neg_half_fin E2) as (A & B).
    - rewrite E1, neg_half_val. apply (Rle_lt_trans _ (/2)).
      + apply rnd_bound; [apply half_format|]. pose proof q_range. apply Rabs_le. lra.
      + pose proof big_gt1. lra.
    - rewrite E1, neg_half_val in A. split; assumption.
  Qed.
  Lemma entry_range : - /2 <= fr entry <= /2.
  Proof.
    destruct entry_val as (E & _). rewrite E.
    assert (H : Rabs (rnd (- /2 + q)) <= /2).
    { apply rnd_bound; [apply half_format|]. pose proof q_range. apply Rabs_le. lra. }
    revert H. unfold Rabs. destruct (Rcase_abs _); lra.
  Qed.
  Lemma entry_lo : fr v = fr lo -> fr entry = - /2.
  Proof.
    intros E. destruct entry_val as (A & _). rewrite A. unfold q, d.
    replace (fr v - fr lo) with 0 by lra. rewrite rnd_0. unfold Rdiv. rewrite Rmult_0_l, rnd_0, Rplus_0_r.
    apply rnd_id. apply generic_format_opp, half_format.
  Qed.
  Lemma entry_hi : fr v = fr hi -> fr entry = /2.
  Proof.
    intros E. destruct entry_val as (A & _). rewrite A. unfold q, d. rewrite E. fold D.
    pose proof D_pos. unfold Rdiv. rewrite Rinv_r by lra. rewrite (rnd_id 1) by apply one_format.
    replace (- /2 + 1) with (/2) by lra. apply rnd_id, half_format.
  Qed.
  Lemma entry_close : Rabs (fr entry - position (fr lo) (fr hi) (fr v)) <= bpow radix2 (-22).
  Proof.
    destruct entry_val as (A & _). rewrite A. unfold position.
    set (z := fr v - fr lo). set (Z := fr hi - fr lo).
    assert (Zp : 0 < Z) by (unfold Z; lra).
    assert (zp : 0 <= z <= Z) by (unfold z, Z; lra).
    pose proof (sub_err (fr v) (fr lo) (fr_format _) (fr_format _)) as E1. fold d in E1; fold z in E1.
    pose proof (sub_err (fr hi) (fr lo) (fr_format _) (fr_format _)) as E2. fold D in E2; fold Z in E2.
    assert (F32 q) by (apply generic_format_round; auto with typeclass_instances).
    pose proof (add_err (- /2) q (generic_format_opp _ _ _ half_format) H) as E4.
    pose proof (any_err (d / D)) as E3. fold q in E3.
    pose proof q_arg as Q. pose proof q_range as Q'. pose proof D_pos as Dp.
    rewrite (Rabs_pos_eq z) in E1 by lra. rewrite (Rabs_pos_eq Z) in E2 by lra.
    rewrite (Rabs_pos_eq (d / D)) in E3 by lra.
    assert (Rabs (- /2 + q) <= /2) by (apply Rabs_le; lra).
    pose proof u_pos. pose proof u_small as Us.
    assert (T : bpow radix2 (-150) <= u * /1024).
    { replace (/1024) with (bpow radix2 (-10)) by (cbn; lra). rewrite <- bpow_plus. apply bpow_le. lia. }
    assert (E0 : Rabs (d / D - z / Z) <= 2 * u * (1 + / 512)).
    { replace (d / D - z / Z) with (((d - z) * Z - z * (D - Z)) * / (D * Z)) by (field; lra).
      rewrite Rabs_mult, (Rabs_pos_eq (/ (D * Z))) by (apply Rlt_le, Rinv_0_lt_compat; nra).
      apply (Rmult_le_reg_r (D * Z)); [nra|]. rewrite Rmult_assoc, Rinv_l, Rmult_1_r by nra.
      assert (DZ : Z * (1 - u) <= D).
      { assert (- (u * Z) <= D - Z) by (apply Rabs_le_inv in E2; lra). lra. }
      apply (Rle_trans _ (2 * u * (Z * Z))).
      - unfold Rminus at 1. eapply Rle_trans; [apply Rabs_triang|]. rewrite Rabs_Ropp, !Rabs_mult, (Rabs_pos_eq Z), (Rabs_pos_eq z) by lra.
        assert (Rabs (d - z) * Z <= u * z * Z) by (apply Rmult_le_compat_r; lra).
        assert (z * Rabs (D - Z) <= z * (u * Z)) by (apply Rmult_le_compat_l; lra).
        assert (u * z * Z <= u * Z * Z) by (apply Rmult_le_compat_r; [lra|]; apply Rmult_le_compat_l; lra).
        lra.
      - replace (2 * u * (Z * Z)) with (2 * u * (Z * Z)) by ring.
        assert (Z * Z <= (1 + /512) * (D * Z)).
        { apply (Rle_trans _ ((1 + /512) * (Z * (1 - u) * Z))).
          - assert (1 <= (1 + /512) * (1 - u)) by nra. nra.
          - apply Rmult_le_compat_l; [lra|]. apply Rmult_le_compat_r; lra. }
        nra. }
    replace (bpow radix2 (-22)) with (4 * u) by (change 4 with (bpow radix2 2); rewrite <- bpow_plus; reflexivity).
    replace (rnd (- /2 + q) - (- /2 + z / Z))
      with ((rnd (- /2 + q) - (- /2 + q)) + ((q - d / D) + (d / D - z / Z))) by lra.
    eapply Rle_trans; [apply Rabs_triang|]. 
    pose proof (Rabs_triang (q - d / D) (d / D - z / Z)).
    assert (u * Rabs (- /2 + q) <= u * /2) by (apply Rmult_le_compat_l; lra).
    assert (u * (d / D) <= u * 1) by (apply Rmult_le_compat_l; lra).
    lra.
  Qed.
End Entry.

Lemma entry_mono lo hi v w : fin lo = true -> fin hi = true -> fin v = true -> fin w = true ->
  fr lo < fr hi -> fr lo <= fr v -> fr v <= fr w -> fr w <= fr hi -> fin (fsub hi lo) = true ->
  fr (entry lo hi v) <= fr (entry lo hi w).
Proof.
  intros Fl Fh Fv Fw L A B C S.
  destruct (entry_val lo hi v) as (E & _); try assumption; [lra|].
  destruct (entry_val lo hi w) as (E' & _); try assumption; [lra|].
  rewrite E, E'. apply rnd_le. apply Rplus_le_compat_l, rnd_le.
  pose proof (D_pos lo hi L). unfold Rdiv. apply Rmult_le_compat_r; [apply Rlt_le, Rinv_0_lt_compat; lra|].
  apply rnd_le. lra.
Qed.

(** overflow of the range *)
Lemma entry_overflow lo hi v : fin lo = true -> fin hi = true -> fin v = true ->
  fr lo <= fr v -> fr v <= fr hi -> fin (fsub hi lo) = false ->
  (fin (fsub v lo) = true -> fr (entry lo hi v) = - /2 /\ fin (entry lo hi v) = true) /\
  (fin (fsub v lo) = false -> entry lo hi v = B754_nan).
Proof.
  intros Fl Fh Fv A B S. assert (Sc : fsub hi lo = B754_infinity false) by (apply fsub_inf; try assumption; lra).
  split; intros H.
  - assert (Q : fr (fdiv (fsub v lo) (fsub hi lo)) = 0 /\ fin (fdiv (fsub v lo) (fsub hi lo)) = true).
    { rewrite Sc. destruct (fsub v lo); try discriminate; cbn; split; reflexivity. }
    destruct Q as (Q1 & Q2).
    destruct (fadd_ok neg_half (fdiv (fsub v lo) (fsub hi lo)) neg_half_fin Q2) as (X & Y).
    + rewrite Q1, neg_half_val, Rplus_0_r. rewrite rnd_id by (apply generic_format_opp, half_format).
      pose proof big_gt1. rewrite Rabs_Ropp, Rabs_pos_eq; lra.
    + rewrite Q1, neg_half_val, Rplus_0_r, rnd_id in X by (apply generic_format_opp, half_format).
      split; assumption.
  - unfold entry. rewrite (fsub_inf v lo) by assumption. rewrite Sc. reflexivity.
Qed.

(** minimum and maximum *)
Lemma fmin_fin x y : fin x = true -> fin y = true ->
  (fmin x y = x \/ fmin x y = y) /\ fr (fmin x y) <= fr x /\ fr (fmin x y) <= fr y.
Proof.
  intros Fx Fy. unfold fmin. rewrite Bcompare_correct by assumption.
  destruct (Rcompare_spec (fr x) (fr y)); split; auto; lra.
Qed.
Lemma fmax_fin x y : fin x = true -> fin y = true ->
  (fmax x y = x \/ fmax x y = y) /\ fr x <= fr (fmax x y) /\ fr y <= fr (fmax x y).
Proof.
  intros Fx Fy. unfold fmax. rewrite Bcompare_correct by assumption.
  destruct (Rcompare_spec (fr x) (fr y)); split; auto; lra.
Qed.
Lemma fmin_fold l : forall a, fin a = true -> Forall (fun v => fin v = true) l ->
  In (fold_left fmin l a) (a :: l) /\ Forall (fun v => fr (fold_left fmin l a) <= fr v) (a :: l).
Proof.
  induction l as [|b l IH]; intros a Fa Fl.
  - cbn. split; [left; reflexivity|]. constructor; [lra|constructor].
  - inversion Fl as [|? ? Fb Fl']; subst. cbn [fold_left].
    destruct (fmin_fin a b Fa Fb) as (S & L1 & L2).
    assert (Fm : fin (fmin a b) = true) by (destruct S as [-> | ->]; assumption).
    destruct (IH (fmin a b) Fm Fl') as (I & All). inversion All as [|? ? H1 H2]; subst.
    split.
    + destruct I as [I|I].
      * rewrite <- I. destruct S as [-> | ->]; [left|right; left]; reflexivity.
      * right; right; exact I.
    + constructor; [lra|]. constructor; [lra|exact H2].
Qed.
Lemma fmax_fold l : forall a, fin a = true -> Forall (fun v => fin v = true) l ->
  In (fold_left fmax l a) (a :: l) /\ Forall (fun v => fr v <= fr (fold_left fmax l a)) (a :: l).
Proof.
  induction l as [|b l IH]; intros a Fa Fl.
  - cbn. split; [left; reflexivity|]. constructor; [lra|constructor].
  - inversion Fl as [|? ? Fb Fl']; subst. cbn [fold_left].
    destruct (fmax_fin a b Fa Fb) as (S & L1 & L2).
    assert (Fm : fin (fmax a b) = true) by (destruct S as [-> | ->]; assumption).
    destruct (IH (fmax a b) Fm Fl') as (I & All). inversion All as [|? ? H1 H2]; subst.
    split.
    + destruct I as [I|I].
      * rewrite <- I. destruct S as [-> | ->]; [left|right; left]; reflexivity.
      * right; right; exact I.
    + constructor; [lra|]. constructor; [lra|exact H2].
Qed.
Lemma normalize_f_spec y : y <> [] -> Forall finite y ->
  exists lo hi, smallest lo y /\ largest hi y /\ fmin_list y = Ok lo /\ fmax_list y = Ok hi /\
                normalize_f y = Ok (map (entry lo hi) y).
Proof.
  intros N Fy. destruct y as [|a l]; [congruence|].
  inversion Fy as [|? ? Fa Fl]; subst.
  exists (fold_left fmin l a), (fold_left fmax l a).
  split; [exact (fmin_fold l a Fa Fl)|]. split; [exact (fmax_fold l a Fa Fl)|].
  split; [reflexivity|]. split; [reflexivity|]. reflexivity.
Qed.

(** the way back *)
Section Back.
  Variables lo hi v : b32.
  Hypothesis Flo : fin lo = true.
  Hypothesis Fhi : fin hi = true.
  Hypothesis Fv : fin v = true.
  Hypothesis Hlt : fr lo < fr hi.
  Hypothesis Hlo : fr lo <= fr v.
  Hypothesis Hhi : fr v <= fr hi.
  Hypothesis Blo : Rabs (fr lo) <= bpow radix2 125.
  Hypothesis Bhi : Rabs (fr hi) <= bpow radix2 125.

  Lemma twice e : 2 * bpow radix2 e = bpow radix2 (e + 1).
  Proof. change 2 with (bpow radix2 1) at 1. rewrite <- bpow_plus. f_equal. lia. Qed.
  Lemma range_rnd : Rabs (rnd (fr hi - fr lo)) <= bpow radix2 126.
  Proof.
    apply rnd_bound; [apply bpow_format; lia|]. change 126%Z with (125 + 1)%Z. rewrite <- twice.
    unfold Rminus. eapply Rle_trans; [apply Rabs_triang|]. rewrite Rabs_Ropp. lra.
  Qed.
  Lemma range_fin : fin (fsub hi lo) = true.
  Proof.
    apply fsub_ok; try assumption. eapply Rle_lt_trans; [apply range_rnd|]. apply bpow_lt. lia.
  Qed.
  Definition back (w : b32) := fadd lo (fmul (fsub w neg_half) (fsub hi lo)).

  Let D := rnd (fr hi - fr lo).
  Let n := fr (entry lo hi v).
  Let w1 := rnd (n - - /2).
  Let w2 := rnd (w1 * D).

  Lemma w1_range : 0 <= w1 <= 1.
  Proof.
    pose proof (entry_range lo hi v Flo Fhi Fv Hlt Hlo Hhi range_fin). apply rnd_unit. fold n in H. lra.
  Qed.
  Lemma w1_val : fr (fsub (entry lo hi v) neg_half) = w1 /\ fin (fsub (entry lo hi v) neg_half) = true.
  Proof.
    destruct (entry_val lo hi v Flo Fhi Fv Hlt Hlo Hhi range_fin) as (_ & Fe).
    destruct (fsub_ok (entry lo hi v) neg_half Fe neg_half_fin) as (A & B).
    - rewrite neg_half_val. fold n w1. pose proof w1_range. pose proof big_gt1. rewrite Rabs_pos_eq; lra.
    - rewrite neg_half_val in A. split; assumption.
  Qed.
  Lemma DD : 0 < D /\ D <= bpow radix2 126 /\ F32 D.
  Proof.
    split; [apply D_pos; assumption|]. split; [eapply Rle_trans; [apply Rle_abs|apply range_rnd]|].
    apply generic_format_round; auto with typeclass_instances.
  Qed.
  Lemma w2_range : 0 <= w2 <= D.
  Proof.
    pose proof w1_range. destruct DD as (A & B & C). split.
    - rewrite <- rnd_0. apply rnd_le. nra.
    - rewrite <- (rnd_id D) by exact C. apply rnd_le. nra.
  Qed.
  Lemma w2_val : fr (fmul (fsub (entry lo hi v) neg_half) (fsub hi lo)) = w2 /\
                 fin (fmul (fsub (entry lo hi v) neg_half) (fsub hi lo)) = true.
  Proof.
    destruct w1_val as (A & B). pose proof (D_val lo hi Flo Fhi range_fin) as E. fold D in E.
    destruct (fmul_ok _ (fsub hi lo) B range_fin) as (X & Y).
    - rewrite A, E. fold w2. pose proof w2_range. destruct DD as (P & Q & _).
      rewrite Rabs_pos_eq by lra. apply (Rle_lt_trans _ (bpow radix2 126)); [lra|]. apply bpow_lt. lia.
    - rewrite A, E in X. split; assumption.
  Qed.
  Lemma back_val : fr (back (entry lo hi v)) = rnd (fr lo + w2) /\ fin (back (entry lo hi v)) = true.
  Proof.
    destruct w2_val as (A & B). unfold back.
    destruct (fadd_ok lo _ Flo B) as (X & Y).
    - rewrite A. apply (Rle_lt_trans _ (bpow radix2 127)); [|apply bpow_lt; lia].
      apply rnd_bound; [apply bpow_format; lia|].
      eapply Rle_trans; [apply Rabs_triang|]. pose proof w2_range. destruct DD as (P & Q & _).
      rewrite (Rabs_pos_eq w2) by lra.
      pose proof (twice 126) as T. change (126 + 1)%Z with 127%Z in T. pose proof (twice 125) as T'.
      change (125 + 1)%Z with 126%Z in T'. pose proof (bpow_gt_0 radix2 125). lra.
    - rewrite A in X. split; assumption.
  Qed.
  Lemma back_close : Rabs (fr (back (entry lo hi v)) - fr v)
    <= bpow radix2 (-20) * (fr hi - fr lo) + bpow radix2 (-24) * Rabs (fr v) + bpow radix2 (-149).
  Proof.
    destruct back_val as (A & _). rewrite A.
    pose proof (entry_close lo hi v Flo Fhi Fv Hlt Hlo Hhi range_fin) as E0. fold n in E0.
    pose proof (entry_range lo hi v Flo Fhi Fv Hlt Hlo Hhi range_fin) as N. fold n in N.
    unfold position in E0.
    pose proof (sub_err n (- /2) (fr_format _) (generic_format_opp _ _ _ half_format)) as E1. fold w1 in E1.
    pose proof (any_err (w1 * D)) as E2. fold w2 in E2.
    assert (F32 w2) by (apply generic_format_round; auto with typeclass_instances).
    pose proof (add_err (fr lo) w2 (fr_format _) H) as E3.
    pose proof (sub_err (fr hi) (fr lo) (fr_format _) (fr_format _)) as E4. fold D in E4.
    pose proof w1_range as W1. pose proof w2_range as W2. destruct DD as (Dp & _ & _).
    set (R := fr hi - fr lo) in *. assert (Rp : 0 < R) by (unfold R; lra).
    set (t := (fr v - fr lo) / R) in *.
    assert (tR : t * R = fr v - fr lo) by (unfold t; field; lra).
    assert (t01 : 0 <= t <= 1).
    { split; apply (Rmult_le_reg_r R); try lra; rewrite tR; unfold R; lra. }
    pose proof u_pos as Up. pose proof u_small as Us.
    replace (bpow radix2 (-22)) with (4 * u) in E0 by (change 4 with (bpow radix2 2); rewrite <- bpow_plus; reflexivity).
    replace (bpow radix2 (-20)) with (16 * u) by (change 16 with (bpow radix2 4); rewrite <- bpow_plus; reflexivity).
    replace (bpow radix2 (-149)) with (2 * bpow radix2 (-150)) by apply twice.
    pose proof (bpow_gt_0 radix2 (-150)) as Hp. set (h := bpow radix2 (-150)) in *.
    rewrite (Rabs_pos_eq R) in E4 by lra.
    rewrite (Rabs_pos_eq (n - - /2)) in E1 by lra. rewrite (Rabs_pos_eq (w1 * D)) in E2 by nra.
    assert (X1 : Rabs (w1 - t) <= 5 * u).
    { replace (w1 - t) with ((w1 - (n - - /2)) + (n - (- /2 + t))) by lra.
      eapply Rle_trans; [apply Rabs_triang|]. assert (u * (n - - /2) <= u * 1) by (apply Rmult_le_compat_l; lra). lra. }
    assert (D1 : D <= R * (1 + u)) by (apply Rabs_le_inv in E4; lra).
    assert (D2 : D <= 2 * R) by nra.
    assert (X2 : Rabs (w2 - t * R) <= 8 * u * R + h).
    { replace (w2 - t * R) with ((w2 - w1 * D) + ((w1 - t) * D + t * (D - R))) by ring.
      eapply Rle_trans; [apply Rabs_triang|]. 
      pose proof (Rabs_triang ((w1 - t) * D) (t * (D - R))) as T. rewrite !Rabs_mult in T.
      rewrite (Rabs_pos_eq D), (Rabs_pos_eq t) in T by lra.
      assert (Rabs (w1 - t) * D <= 5 * u * D) by (apply Rmult_le_compat_r; lra).
      assert (t * Rabs (D - R) <= 1 * (u * R)) by (apply Rmult_le_compat; try lra; apply Rabs_pos).
      assert (u * (w1 * D) <= u * (1 * D)) by (apply Rmult_le_compat_l; [lra|]; apply Rmult_le_compat_r; lra).
      assert (u * D <= u * (R * (1 + u))) by (apply Rmult_le_compat_l; lra).
      assert (6 * (u * u * R) <= u * R) by (assert (u * u * R <= /1024 * u * R) by (apply Rmult_le_compat_r; [lra|]; apply Rmult_le_compat_r; lra); assert (0 <= u * R) by nra; lra).
      lra. }
    replace (rnd (fr lo + w2) - fr v) with ((rnd (fr lo + w2) - (fr lo + w2)) + (w2 - t * R)) by lra.
    eapply Rle_trans; [apply Rabs_triang|].
    assert (X3 : Rabs (fr lo + w2) <= Rabs (fr v) + (8 * u * R + h)).
    { replace (fr lo + w2) with (fr v + (w2 - t * R)) by lra. eapply Rle_trans; [apply Rabs_triang|]. lra. }
    assert (u * Rabs (fr lo + w2) <= u * (Rabs (fr v) + (8 * u * R + h))) by (apply Rmult_le_compat_l; lra).
    assert (0 <= u * R) by nra.
    assert (u * (8 * u * R) <= u * R).
    { replace (u * (8 * u * R)) with (8 * u * (u * R)) by ring. nra. }
    assert (u * h <= h) by nra. lra.
  Qed.
  Lemma back_lo : fr v = fr lo -> fr (back (entry lo hi v)) = fr lo.
  Proof.
    intros E. destruct back_val as (A & _). rewrite A.
    assert (N : n = - /2) by (apply entry_lo; try assumption; apply range_fin).
    unfold w2, w1. rewrite N. replace (- /2 - - /2) with 0 by ring. rewrite rnd_0, Rmult_0_l, rnd_0, Rplus_0_r.
    apply rnd_id, fr_format.
  Qed.
End Back.

(** missing values *)
Lemma fmin_nan_fold l : fold_left fmin l B754_nan = B754_nan.
Proof. induction l as [|b l IH]; [reflexivity|]. cbn [fold_left]. exact IH. Qed.
Lemma fmin_nan_r x : fmin x B754_nan = B754_nan.
Proof. unfold fmin. destruct x as [[]|[]| |[]]; reflexivity. Qed.
Lemma fmin_has_nan l : forall a, In B754_nan (a :: l) -> fold_left fmin l a = B754_nan.
Proof.
  induction l as [|b l IH]; intros a H.
  - destruct H as [->|[]]. reflexivity.
  - cbn [fold_left]. destruct H as [->|[->|H]].
    + apply fmin_nan_fold.
    + rewrite fmin_nan_r. apply fmin_nan_fold.
    + apply IH. right. exact H.
Qed.
Lemma fsub_nan_r x : fsub x B754_nan = B754_nan.
Proof. destruct x; reflexivity. Qed.
Lemma fdiv_nan_r x : fdiv x B754_nan = B754_nan.
Proof. destruct x; reflexivity. Qed.
Lemma entry_nan hi v : entry B754_nan hi v = B754_nan.
Proof. unfold entry. rewrite !fsub_nan_r. reflexivity. Qed.
Lemma normalize_f_nan y : In B754_nan y -> normalize_f y = Ok (map (fun _ => B754_nan) y).
Proof.
  intros H. destruct y as [|a l]; [destruct H|]. unfold normalize_f, fmin_list, fmax_list. cbn [rbind].
  rewrite (fmin_has_nan l a H). f_equal. apply map_ext. intros v. apply (entry_nan _ v).
Qed.

(** no spread *)
Lemma entry_constant lo hi v : fin lo = true -> fin hi = true -> fin v = true ->
  fr hi = fr lo -> fr v = fr lo -> entry lo hi v = B754_nan.
Proof.
  intros Fl Fh Fv E1 E2.
  assert (Z : forall a b : b32, fin a = true -> fin b = true -> fr a = fr b -> exists s, fsub a b = B754_zero s).
  { intros a b Fa Fb E. destruct (fsub_ok a b Fa Fb) as (A & B).
    - rewrite E. replace (fr b - fr b) with 0 by ring. rewrite rnd_0, Rabs_R0. apply bpow_gt_0.
    - rewrite E in A. replace (fr b - fr b) with 0 in A by ring. rewrite rnd_0 in A.
      destruct (fsub a b) as [s|s| |s m e Hm]; try discriminate; [exists s; reflexivity|].
      exfalso. cbn [B2R] in A. destruct s.
      + assert (F2R (Float radix2 (cond_Zopp true (Z.pos m)) e) < 0) by (apply F2R_lt_0; reflexivity). lra.
      + assert (0 < F2R (Float radix2 (cond_Zopp false (Z.pos m)) e)) by (apply F2R_gt_0; reflexivity). lra. }
  destruct (Z v lo Fv Fl E2) as (s & Es). destruct (Z hi lo Fh Fl E1) as (s' & Es').
  unfold entry. rewrite Es, Es'. reflexivity.
Qed.
