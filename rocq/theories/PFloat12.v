(** The transition ratio and the tree ratio in double precision. *)
From Coq Require Import ZArith Reals List Lra Lia Psatz.
From Flocq Require Import Core.Core IEEE754.BinarySingleNaN.
From Verif Require Import Base MFloat MFloat2 MFloat3 MFloat4 MFloat5 SpecDouble SpecDouble3 SpecDouble4 SpecDouble5 SpecDouble9 SpecSampler
  PFloat PFloat2 PFloat3 PFloat5 PFloat6 PFloat7 PFloat8 PFloat10 PFloat11.
Import ListNotations.
Local Open Scope R_scope.

(** [x] is within [c] units of 2^-53 of [a], and [a] is at most [m] *)
Definition ap (c m : R) (x : b64) (a : R) : Prop := fin x = true /\ Rabs (fr x - a) <= c * u /\ Rabs a <= m.
Lemma ap_weaken c m c' m' x a : ap c m x a -> c <= c' -> m <= m' -> ap c' m' x a.
Proof. intros (F & E & B) H K. pose proof u_pos. split; [exact F|]. split; [|lra]. assert (c * u <= c' * u) by (apply Rmult_le_compat_r; lra). lra. Qed.
Lemma ap_opp c m x a : ap c m x a -> ap c m (fneg x) (- a).
Proof.
  intros (F & E & B). destruct (fneg_val x) as (V & G). split; [now rewrite G|]. rewrite V, Rabs_Ropp. split; auto. replace (- fr x - - a) with (- (fr x - a)) by ring. now rewrite Rabs_Ropp.
Qed.
Lemma fsub_neg x y : fin x = true -> fin y = true -> Rabs (rnd (fr x - fr y)) < big -> fr (fsub x y) = rnd (fr x - fr y) /\ fin (fsub x y) = true.
Proof. apply fsub_ok. Qed.
Lemma ap_room a b c m d n : Rabs a <= m -> Rabs b <= n -> c + d <= bpow radix2 50 -> m + n <= bpow radix2 50 -> 0 <= c -> 0 <= d ->
  m + n + (c + d) * u <= bpow radix2 1000 /\ (c + d) * u <= 1.
Proof.
  intros A B C M C0 D0. pose proof u_pos as U. assert (K : (c + d) * u <= 1).
  { apply Rle_trans with (bpow radix2 50 * u); [apply Rmult_le_compat_r; lra|]. rewrite <- bpow_plus. change 1 with (bpow radix2 0). apply bpow_le. lia. }
  assert (bpow radix2 50 + 1 <= bpow radix2 1000); [|lra]. apply Rle_trans with (bpow radix2 51); [|apply bpow_le; lia].
  replace (bpow radix2 51) with (2 * bpow radix2 50) by (change 51%Z with (1 + 50)%Z; rewrite bpow_plus; reflexivity). assert (1 <= bpow radix2 50) by (change 1 with (bpow radix2 0); apply bpow_le; lia). lra.
Qed.
Lemma ap_add c m x a d n y b : ap c m x a -> ap d n y b -> c + d <= bpow radix2 50 -> m + n <= bpow radix2 50 -> 0 <= c -> 0 <= d ->
  ap (c + d + (m + n) + 1) (m + n) (fadd x y) (a + b).
Proof.
  intros (F & E & A) (G & D & B) C M C0 D0. destruct (ap_room a b c m d n A B C M C0 D0) as (R1 & R2). pose proof u_pos as U. pose proof (Rabs_triang a b) as T.
  assert (H : Rabs (fr x + fr y - (a + b)) <= (c + d) * u).
  { replace (fr x + fr y - (a + b)) with ((fr x - a) + (fr y - b)) by ring. eapply Rle_trans; [apply Rabs_triang|]. lra. }
  destruct (add_step x y (a + b) ((c + d) * u) (m + n) F G H ltac:(lra) R1) as (K1 & K2). split; [exact K1|]. split; [|lra].
  eapply Rle_trans; [exact K2|]. assert (u * ((c + d) * u) <= u * 1) by (apply Rmult_le_compat_l; lra). lra.
Qed.
Lemma ap_sub c m x a d n y b : ap c m x a -> ap d n y b -> c + d <= bpow radix2 50 -> m + n <= bpow radix2 50 -> 0 <= c -> 0 <= d ->
  ap (c + d + (m + n) + 1) (m + n) (fsub x y) (a - b).
Proof.
  intros (F & E & A) (G & D & B) C M C0 D0. destruct (ap_room a b c m d n A B C M C0 D0) as (R1 & R2). pose proof u_pos as U.
  assert (T : Rabs (a - b) <= Rabs a + Rabs b) by (unfold Rminus; eapply Rle_trans; [apply Rabs_triang|]; rewrite Rabs_Ropp; lra).
  assert (H : Rabs (fr x - fr y - (a - b)) <= (c + d) * u).
  { replace (fr x - fr y - (a - b)) with ((fr x - a) + - (fr y - b)) by ring. eapply Rle_trans; [apply Rabs_triang|]. rewrite Rabs_Ropp. lra. }
  assert (O : Rabs (rnd (fr x - fr y)) < big) by (apply (rnd_fits _ (a - b) ((c + d) * u) 1000); auto; try lia; lra).
  destruct (fsub_ok x y F G O) as (V & K1). split; [exact K1|]. split; [|lra]. rewrite V.
  pose proof (rnd_step (fr x - fr y) (a - b) _ 0 H ltac:(rewrite Rplus_0_r; apply (add_err (fr x) (- fr y)); [apply fr_format|apply generic_format_opp, fr_format])) as K2.
  eapply Rle_trans; [exact K2|]. assert (u * ((c + d) * u) <= u * 1) by (apply Rmult_le_compat_l; lra). assert (u * Rabs (a - b) <= u * (m + n)) by (apply Rmult_le_compat_l; lra). lra.
Qed.
(** the logarithm of an approximate number *)
Lemma ap_log e m x X r : logs x r -> fin x = true -> 0 < fr x -> Rabs (ln (fr x) - ln X) <= e * u -> 0 <= e <= bpow radix2 50 -> Rabs (ln X) <= m -> ap (8 * m + 2 * e + 1) m r (ln X).
Proof.
  intros L F P D E B. destruct (up_of _ F P) as [->|(_ & S)]; [discriminate|]. destruct x as [b|b| |b mm ee bb] eqn:Ex; try discriminate; [cbn in P; lra|]. cbn in S. subst b. cbn [logs] in L. rewrite <- Ex in *.
  destruct L as (G & L). split; [exact G|]. split; [|exact B]. pose proof u_pos as U. pose proof u_small as US.
  assert (P50 : bpow radix2 (-50) = 8 * u) by (change (-50)%Z with (3 + -53)%Z; rewrite bpow_plus; reflexivity). rewrite P50 in L.
  assert (P74 : bpow radix2 (-1074) <= u * / 4) by (replace (/4) with (bpow radix2 (-2)) by (cbn; lra); rewrite <- bpow_plus; apply bpow_le; lia).
  assert (A : Rabs (ln (fr x)) <= m + e * u). { replace (ln (fr x)) with (ln X + (ln (fr x) - ln X)) by ring. eapply Rle_trans; [apply Rabs_triang|]. lra. }
  replace (fr r - ln X) with ((fr r - ln (fr x)) + (ln (fr x) - ln X)) by ring. eapply Rle_trans; [apply Rabs_triang|].
  assert (8 * u * Rabs (ln (fr x)) <= 8 * u * (m + e * u)) by (apply Rmult_le_compat_l; lra).
  assert (0 <= e * u) by (apply Rmult_le_pos; lra). assert (8 * u * (e * u) <= 1 * (e * u)) by (apply Rmult_le_compat_r; lra). lra.
Qed.
Lemma ap_log_near k m x X r : logs x r -> fin x = true -> near k (fr x) X -> (k <= 100)%nat -> Rabs (ln X) <= m -> ap (8 * m + 4 * INR k + 1) m r (ln X).
Proof.
  intros L F N K B. pose proof (near_ln _ _ _ N) as D. rewrite two_u in D. assert (IK : 0 <= INR k <= 100) by (split; [apply pos_INR|replace 100 with (INR 100) by (cbn; lra); now apply le_INR]).
  assert (A : ap (8 * m + 2 * (2 * INR k) + 1) m r (ln X)).
  { apply (ap_log _ _ x); auto; [exact (near_pos _ _ _ N)|lra|]. split; [lra|]. apply Rle_trans with (bpow radix2 10); [cbn; lra|apply bpow_le; lia]. }
  eapply ap_weaken; [exact A| |]; lra.
Qed.
Lemma log_count x k r : counts x k -> logs x r -> ap 417 52 r (ln (INR k)).
Proof.
  intros C L. destruct (n_ok _ _ C) as (N & F & B). assert (A : Rabs (ln (INR k)) <= 52) by (apply ln_between; [lia|]; bw B).
  eapply ap_weaken; [apply (ap_log_near 0 52 x); auto; lia| |]; cbn; lra.
Qed.
Lemma log_quotient c n kc kn r : counts c kc -> counts n kn -> logs (fdiv c n) r -> ap 421 52 r (ln (INR kc / INR kn)).
Proof.
  intros C D L. destruct (n_ok _ _ C) as (N & F & B). destruct (n_ok _ _ D) as (N' & F' & B'). pose proof (between_div _ _ _ _ _ _ B B') as Q. cbn in Q.
  destruct (near_fdiv _ _ _ _ _ _ N N' F ltac:(lia)) as (M & G); [bw Q|]. assert (A : Rabs (ln (INR kc / INR kn)) <= 52) by (apply ln_between; [lia|exact Q]).
  eapply ap_weaken; [apply (ap_log_near 1 52 (fdiv c n)); auto; lia| |]; cbn; lra.
Qed.
Lemma log_odds p q r : fin p = true -> between (-25) 0 (fr p) -> fin q = true -> between (-25) 0 (fr q) -> logs (fdiv p q) r -> ap 205 25 r (ln (fr p / fr q)).
Proof.
  intros F B F' B' L. pose proof (between_div _ _ _ _ _ _ B B') as Q. cbn in Q.
  destruct (near_fdiv 0 0 p (fr p) q (fr q)) as (M & G); auto; [apply near_refl; now apply between_pos in B|apply near_refl; now apply between_pos in B'|lia|bw Q|].
  assert (A : Rabs (ln (fr p / fr q)) <= 25) by (apply ln_between; [lia|exact Q]).
  eapply ap_weaken; [apply (ap_log_near 1 25 (fdiv p q)); auto; lia| |]; cbn; lra.
Qed.
Lemma b50 : 1000000 * bpow radix2 20 <= bpow radix2 50.
Proof. apply Rle_trans with (bpow radix2 20 * bpow radix2 20); [apply Rmult_le_compat_r; [apply bpow_ge_0|cbn; lra]|]. rewrite <- bpow_plus. apply bpow_le. lia. Qed.
Lemma c50 : 1000000 <= bpow radix2 50.
Proof. pose proof b50. assert (1 <= bpow radix2 20) by (change 1 with (bpow radix2 0); apply bpow_le; lia). lra. Qed.

Lemma within_node_ok nv cnt n kv kc kn r : counts nv kv -> counts cnt kc -> counts n kn -> within_node_f nv cnt n r ->
  ap 943 104 r (- ln (INR kv) + ln (INR kc / INR kn)).
Proof.
  intros Cv Cc Cn (lv & lq & Lv & Lq & ->). pose proof c50.
  eapply ap_weaken; [apply (ap_add 417 52 _ _ 421 52); [apply ap_opp, (log_count nv)|apply (log_quotient cnt n)|..]; auto; lra|lra|lra].
Qed.
Lemma within_tree_ok ns nv cnt n ks kv kc kn r : counts ns ks -> counts nv kv -> counts cnt kc -> counts n kn -> within_tree_f ns nv cnt n r ->
  ap 1517 156 r (- ln (INR ks) + (- ln (INR kv) + ln (INR kc / INR kn))).
Proof.
  intros Cs Cv Cc Cn (l & q & Ls & Lq & ->). pose proof c50.
  eapply ap_weaken; [apply (ap_add 417 52 _ _ 943 104); [apply ap_opp, (log_count ns)|eapply within_node_ok|..]; eauto; lra|lra|lra].
Qed.

Section Settings.
  Variables (alpha beta pgrow pprune : b64).
  Hypothesis U : usual_settings alpha beta pgrow pprune.
  Lemma prob_ok : fin pgrow = true /\ between (-25) 0 (fr pgrow) /\ fin pprune = true /\ between (-25) 0 (fr pprune).
  Proof. destruct U as (_ & _ & _ & _ & A & B & C & D). repeat split; auto; try apply B; try apply D. Qed.

  Lemma grow_transition_ok np1 ns nv cnt n k1 ks kv kc kn r :
    counts np1 k1 -> counts ns ks -> counts nv kv -> counts cnt kc -> counts n kn -> grow_transition_f pgrow pprune np1 ns nv cnt n r ->
    ap 2583 233 r (ln (fr pprune / fr pgrow) + (- ln (INR k1) - (- ln (INR ks) + (- ln (INR kv) + ln (INR kc / INR kn))))).
  Proof.
    intros C1 Cs Cv Cc Cn (lp & g & lr & L1 & Lg & Lr & ->). pose proof c50. destruct prob_ok as (F0 & B0 & F1 & B1).
    assert (A : ap 2143 208 (fsub (fneg lp) g) (- ln (INR k1) - (- ln (INR ks) + (- ln (INR kv) + ln (INR kc / INR kn))))).
    { eapply ap_weaken; [apply (ap_sub 417 52 _ _ 1517 156); [apply ap_opp, (log_count np1)|eapply within_tree_ok|..]; eauto; lra|lra|lra]. }
    eapply ap_weaken; [apply (ap_add 205 25 _ _ 2143 208); [apply (log_odds pprune pgrow)|exact A|..]; auto; lra|lra|lra].
  Qed.
  Lemma prune_transition_ok ns1 np nv cnt n ks kp kv kc kn r :
    counts ns1 ks -> counts np kp -> counts nv kv -> counts cnt kc -> counts n kn -> prune_transition_f pgrow pprune (Some ns1) np nv cnt n r ->
    ap 2583 233 r (ln (fr pgrow / fr pprune) + ((- ln (INR ks) + (- ln (INR kv) + ln (INR kc / INR kn))) - - ln (INR kp))).
  Proof.
    intros C1 Cp Cv Cc Cn (gn & sp & lp & lr & (l & Ll & ->) & Ls & Lp & Lr & ->). pose proof c50. destruct prob_ok as (F0 & B0 & F1 & B1).
    assert (A0 : ap 1517 156 (fadd (fneg l) sp) (- ln (INR ks) + (- ln (INR kv) + ln (INR kc / INR kn)))).
    { eapply ap_weaken; [apply (ap_add 417 52 _ _ 943 104); [apply ap_opp, (log_count ns1)|eapply within_node_ok|..]; eauto; lra|lra|lra]. }
    assert (A : ap 2143 208 (fsub (fadd (fneg l) sp) (fneg lp)) ((- ln (INR ks) + (- ln (INR kv) + ln (INR kc / INR kn))) - - ln (INR kp))).
    { eapply ap_weaken; [apply (ap_sub 1517 156 _ _ 417 52); [exact A0|apply ap_opp, (log_count np)|..]; eauto; lra|lra|lra]. }
    eapply ap_weaken; [apply (ap_add 205 25 _ _ 2143 208); [apply (log_odds pgrow pprune)|exact A|..]; auto; lra|lra|lra].
  Qed.

  Notation d := (/ (1 - fr alpha)).
  Lemma delta_ok : 0 < d <= bpow radix2 40 /\ 1 <= d.
  Proof.
    destruct U as (_ & B & _). change val with fr in B. unfold val in B. pose proof (bpow_gt_0 radix2 (-40)). pose proof (bpow_gt_0 radix2 (-50)). split; [split|].
    - apply Rinv_0_lt_compat. lra.
    - change 40%Z with (- (-40))%Z. rewrite bpow_opp. apply Rinv_le; lra.
    - rewrite <- Rinv_1. apply Rinv_le; lra.
  Qed.
  Lemma power_ok x j p : counts x j -> (j <= 1024)%nat -> powers x (fneg beta) p ->
    near 2 (fr p) (Rpower (INR j) (- fr beta)) /\ fin p = true /\ between (-400) 0 (Rpower (INR j) (- fr beta)).
  Proof.
    intros C J P. destruct (counts_between _ _ C) as (F & E & B). destruct U as (_ & _ & Fb & Bb & _). unfold val in Bb.
    unfold powers in P. cbv zeta in P. rewrite E, (proj1 (fneg_val beta)) in P. set (q := Rpower (INR j) (- fr beta)) in *.
    assert (J0 : 1 <= INR j) by apply B. assert (J1 : INR j <= bpow radix2 10) by (replace (bpow radix2 10) with (INR 1024) by (rewrite INR_IZR_INZ; reflexivity); now apply le_INR).
    assert (Q : between (-400) 0 q).
    { unfold q. split.
      - rewrite Rpower_Ropp. change (-400)%Z with (- (400))%Z. rewrite bpow_opp. apply Rinv_le; [apply exp_pos|].
        apply Rle_trans with (Rpower (bpow radix2 10) 40).
        + apply Rle_trans with (Rpower (bpow radix2 10) (fr beta)); [apply Rle_Rpower_l; lra|]. apply Rle_Rpower; [lra|lra].
        + replace 40 with (INR 40) by (cbn; lra). rewrite Rpower_pow by apply bpow_gt_0. right. rewrite bpow_powerRZ, bpow_powerRZ. rewrite <- (pow_powerRZ _ 10), <- (pow_powerRZ _ 400), <- pow_mult by lia || idtac. reflexivity.
      - change (bpow radix2 0) with 1. rewrite <- (Rpower_O (INR j)) by lra. apply Rle_Rpower; lra. }
    destruct P as (G & D); [split; [apply Rle_trans with (bpow radix2 (-400)); [apply bpow_le; lia|apply Q]|apply Rle_trans with (bpow radix2 0); [apply Q|apply bpow_le; lia]]|].
    split; [|auto]. apply near_of_abs; auto. now apply between_pos in Q.
  Qed.

  Lemma alpha_ok : fin alpha = true /\ between (-50) 0 (fr alpha) /\ fr alpha < 1.
  Proof.
    destruct U as (F & B & _). unfold val in B. pose proof (bpow_gt_0 radix2 (-40)). split; [exact F|]. split; [|lra]. split; [apply B|]. change (bpow radix2 0) with 1. lra.
  Qed.
  Lemma product_ok x j p : counts x j -> (j <= 1024)%nat -> powers x (fneg beta) p ->
    near 3 (fr (fmul alpha p)) (fr alpha * Rpower (INR j) (- fr beta)) /\ fin (fmul alpha p) = true /\ between (-450) 0 (fr alpha * Rpower (INR j) (- fr beta)) /\
    fr alpha * Rpower (INR j) (- fr beta) <= fr alpha.
  Proof.
    intros C J P. destruct (power_ok _ _ _ C J P) as (N & F & B). destruct alpha_ok as (Fa & Ba & A1). pose proof (between_mul _ _ _ _ _ _ Ba B) as Q. cbn in Q.
    destruct (near_fmul 0 2 alpha (fr alpha) p (Rpower (INR j) (- fr beta))) as (M & G); auto; [apply near_refl; now apply between_pos in Ba|lia|bw Q|].
    split; [exact M|]. split; [exact G|]. split; [exact Q|]. apply between_pos in Ba. destruct B as [_ B]. change (bpow radix2 0) with 1 in B. rewrite <- (Rmult_1_r (fr alpha)) at 2. apply Rmult_le_compat_l; lra.
  Qed.
  Lemma split_ok x j r : counts x j -> (j <= 1024)%nat -> node_split_f alpha beta x r -> ap 3613 450 r (ln (fr alpha * Rpower (INR j) (- fr beta))).
  Proof.
    intros C J (p & P & L). destruct (product_ok _ _ _ C J P) as (M & G & Q & _). assert (A : Rabs (ln (fr alpha * Rpower (INR j) (- fr beta))) <= 450) by (apply ln_between; [lia|bw Q]).
    eapply ap_weaken; [apply (ap_log_near 3 450 (fmul alpha p)); auto; lia| |]; cbn; lra.
  Qed.
  Lemma ln_quot a b : 0 < a -> 0 < b -> ln (a / b) = ln a - ln b.
  Proof. intros A B. unfold Rdiv. rewrite ln_mult, ln_Rinv; auto using Rinv_0_lt_compat. Qed.
  Lemma ln_close y Y e : 0 < Y -> Rabs (y - Y) <= e * Y -> 0 <= e <= / 2 -> 0 < y /\ Rabs (ln y - ln Y) <= 2 * e.
  Proof.
    intros P D E. apply abs_interval in D. assert (K : Y * / 2 <= y) by nra. assert (Py : 0 < y) by lra. split; auto.
    assert (A1 : ln y - ln Y <= e).
    { rewrite <- ln_quot by lra. assert (y / Y <= 1 + e) by (apply (Rmult_le_reg_r Y); auto; unfold Rdiv; rewrite Rmult_assoc, Rinv_l by lra; lra).
      assert (0 < y / Y) by (apply Rdiv_lt_0_compat; lra). apply Rle_trans with (ln (1 + e)); [|apply ln_1p; lra]. destruct H as [H|H]; [left; apply ln_increasing; lra|rewrite H; lra]. }
    assert (A2 : ln Y - ln y <= 2 * e).
    { rewrite <- ln_quot by lra. assert (Y / y <= 1 + 2 * e).
      { apply (Rmult_le_reg_r y); auto. unfold Rdiv. rewrite Rmult_assoc, Rinv_l by lra. nra. }
      assert (0 < Y / y) by (apply Rdiv_lt_0_compat; lra). apply Rle_trans with (ln (1 + 2 * e)); [|apply ln_1p; lra]. destruct H as [H|H]; [left; apply ln_increasing; lra|rewrite H; lra]. }
    apply Rabs_le. lra.
  Qed.
  Lemma not_split_ok x j r : counts x j -> (j <= 1024)%nat -> node_not_split_f alpha beta x r -> ap (321 + 56 * d) 40 r (ln (1 - fr alpha * Rpower (INR j) (- fr beta))).
  Proof.
    intros C J (p & P & L). destruct (product_ok _ _ _ C J P) as (M & G & Q & Qa). set (q := fr alpha * Rpower (INR j) (- fr beta)) in *. set (f := fmul alpha p) in *. clearbody f.
    destruct alpha_ok as (Fa & Ba & A1). destruct delta_ok as ((D0 & D1) & D2). pose proof u_pos as Up. pose proof u_small as US. pose proof (between_pos _ _ _ Q) as Pq.
    assert (Ef : Rabs (fr f - q) <= 12 * u).
    { pose proof (near_abs 3 _ _ ltac:(apply small_count; lia) M) as E. rewrite two_u in E. replace (INR (2 * 3)) with 6 in E by (cbn; lra). eapply Rle_trans; [exact E|]. assert (q <= 1) by lra. assert (u * q <= u * 1) by (apply Rmult_le_compat_l; lra). lra. }
    assert (H : Rabs (fr fone - fr f - (1 - q)) <= 12 * u) by (rewrite one_val; replace (1 - fr f - (1 - q)) with (- (fr f - q)) by ring; now rewrite Rabs_Ropp).
    assert (B1 : Rabs (1 - q) <= 1) by (apply Rabs_le; lra).
    assert (O : Rabs (rnd (fr fone - fr f)) < big) by (apply (rnd_fits _ (1 - q) (12 * u) 1); auto; try lia; change (bpow radix2 1) with 2; lra).
    destruct (fsub_ok fone f eq_refl G O) as (V & Fy).
    pose proof (rnd_step (fr fone - fr f) (1 - q) _ 0 H ltac:(rewrite Rplus_0_r; apply (add_err (fr fone) (- fr f)); [apply fr_format|apply generic_format_opp, fr_format])) as R. rewrite <- V in R.
    set (y := fsub fone f) in *. clearbody y.
    assert (R' : Rabs (fr y - (1 - q)) <= 14 * u). { eapply Rle_trans; [exact R|]. assert (u * Rabs (1 - q) <= u * 1) by (apply Rmult_le_compat_l; lra). assert (u * (12 * u) <= u * 1) by (apply Rmult_le_compat_l; lra). lra. }
    assert (Y0 : 1 - fr alpha <= 1 - q) by lra. assert (Yd : 1 <= d * (1 - q)). { apply Rle_trans with (d * (1 - fr alpha)); [rewrite Rinv_l by lra; lra|]. apply Rmult_le_compat_l; lra. }
    assert (UD : u * d <= bpow radix2 (-13)) by (change (-13)%Z with (-53 + 40)%Z; rewrite bpow_plus; apply Rmult_le_compat_l; lra).
    assert (S13 : bpow radix2 (-13) = / 8192) by (cbn; lra). rewrite S13 in UD. assert (UD0 : 0 <= u * d) by (apply Rmult_le_pos; lra).
    destruct (ln_close (fr y) (1 - q) (14 * (u * d))) as (Py & Dy); [lra| |lra|].
    { eapply Rle_trans; [exact R'|]. replace (14 * (u * d) * (1 - q)) with (14 * u * (d * (1 - q))) by ring. rewrite <- (Rmult_1_r (14 * u)) at 1. apply Rmult_le_compat_l; lra. }
    assert (A : Rabs (ln (1 - q)) <= 40).
    { apply ln_between; [lia|]. split; [|apply Rle_trans with (bpow radix2 0); [change (bpow radix2 0) with 1; lra|apply bpow_le; lia]].
      destruct U as (_ & B & _). unfold val in B. change (- (40))%Z with (-40)%Z. lra. }
    assert (AP : ap (8 * 40 + 2 * (28 * d) + 1) 40 r (ln (1 - q))).
    { apply (ap_log _ _ y); auto; [replace (28 * d * u) with (2 * (14 * (u * d))) by ring; exact Dy|]. split; [lra|].
      apply Rle_trans with (bpow radix2 5 * bpow radix2 40); [apply Rmult_le_compat; try lra; cbn; lra|]. rewrite <- bpow_plus. apply bpow_le. lia. }
    eapply ap_weaken; [exact AP| |]; lra.
  Qed.
  Lemma big_d : 1000 * d + 100000 <= bpow radix2 50 /\ 0 < d.
  Proof.
    destruct delta_ok as ((D0 & D1) & D2). split; auto. assert (1010 * bpow radix2 40 <= bpow radix2 50).
    { apply Rle_trans with (bpow radix2 10 * bpow radix2 40); [apply Rmult_le_compat_r; [apply bpow_ge_0|cbn; lra]|rewrite <- bpow_plus; apply bpow_le; lia]. }
    assert (10 * bpow radix2 30 <= bpow radix2 40) by (apply Rle_trans with (bpow radix2 10 * bpow radix2 30); [apply Rmult_le_compat_r; [apply bpow_ge_0|cbn; lra]|rewrite <- bpow_plus; apply bpow_le; lia]).
    assert (100000 <= bpow radix2 30) by (apply Rle_trans with (bpow radix2 17); [cbn; lra|apply bpow_le; lia]). lra.
  Qed.
  Notation q1 j := (fr alpha * Rpower (INR j) (- fr beta)).
  Lemma numerator_ok x xx j l rt up : counts x j -> counts xx (S j) -> (S j <= 1024)%nat ->
    node_not_split_f alpha beta xx l -> node_not_split_f alpha beta xx rt -> node_split_f alpha beta x up ->
    ap (4868 + 112 * d) 530 (fadd (fadd l rt) up) (ln (1 - q1 (S j)) + ln (1 - q1 (S j)) + ln (q1 j)).
  Proof.
    intros Cx Cy J L1 L2 L3. destruct big_d as (Bd & Pd). pose proof c50.
    assert (A : ap (723 + 112 * d) 80 (fadd l rt) (ln (1 - q1 (S j)) + ln (1 - q1 (S j)))).
    { eapply ap_weaken; [apply (ap_add (321 + 56 * d) 40 _ _ (321 + 56 * d) 40); [eapply not_split_ok; eauto|eapply not_split_ok; eauto|..]; lra|lra|lra]. }
    eapply ap_weaken; [apply (ap_add (723 + 112 * d) 80 _ _ 3613 450); [exact A|eapply split_ok; eauto; lia|..]; lra|lra|lra].
  Qed.
  Lemma grow_tree_ok x xx ns nv cnt n j ks kv kc kn r : counts x j -> counts xx (S j) -> (S j <= 1024)%nat ->
    counts ns ks -> counts nv kv -> counts cnt kc -> counts n kn -> grow_tree_f alpha beta x xx ns nv cnt n r ->
    ap (8121 + 168 * d) 726 r (ln (1 - q1 (S j)) + ln (1 - q1 (S j)) + ln (q1 j) + (- ln (INR ks) + (- ln (INR kv) + ln (INR kc / INR kn))) - ln (1 - q1 j)).
  Proof.
    intros Cx Cy J Cs Cv Cc Cn (den & l & rt & up & ch & L0 & L1 & L2 & L3 & Lc & ->). destruct big_d as (Bd & Pd). pose proof c50.
    pose proof (numerator_ok _ _ _ _ _ _ Cx Cy J L1 L2 L3) as A.
    eapply ap_weaken; [apply (ap_sub (4868 + 112 * d + 1517 + (530 + 156) + 1) 686 _ _ (321 + 56 * d) 40)| |]; [|eapply not_split_ok; eauto; lia|..]; try lra.
    eapply ap_weaken; [apply (ap_add (4868 + 112 * d) 530 _ _ 1517 156); [exact A|eapply within_tree_ok; eauto|..]; lra|lra|lra].
  Qed.
  Lemma prune_tree_ok x xx nv cnt n j kv kc kn r : counts x j -> counts xx (S j) -> (S j <= 1024)%nat ->
    counts nv kv -> counts cnt kc -> counts n kn -> prune_tree_f alpha beta x xx nv cnt n r ->
    ap (8121 + 168 * d) 726 r (ln (1 - q1 j) - (ln (1 - q1 (S j)) + ln (1 - q1 (S j)) + ln (q1 j) + (- ln (INR kv) + ln (INR kc / INR kn)))).
  Proof.
    intros Cx Cy J Cv Cc Cn (num & l & rt & up & ch & L0 & L1 & L2 & L3 & Lc & ->). destruct big_d as (Bd & Pd). pose proof c50.
    pose proof (numerator_ok _ _ _ _ _ _ Cx Cy J L1 L2 L3) as A.
    eapply ap_weaken; [apply (ap_sub (321 + 56 * d) 40 _ _ (4868 + 112 * d + 943 + (530 + 104) + 1) 634)| |]; [eapply not_split_ok; eauto; lia|..]; try lra.
    eapply ap_weaken; [apply (ap_add (4868 + 112 * d) 530 _ _ 943 104); [exact A|eapply within_node_ok; eauto|..]; lra|lra|lra].
  Qed.

  (** ** the whole ratio *)
  Lemma whole0_ok gr a c A C sigma t n nl nr s sl sr r k kl kr :
    moderate sigma -> moderate t -> counts0 n k -> counts0 nl kl -> counts0 nr kr -> finite s -> finite sl -> finite sr ->
    Rabs (val s) <= bpow radix2 100 -> Rabs (val sl) <= bpow radix2 100 -> Rabs (val sr) <= bpow radix2 100 -> ap 2583 233 a A -> ap (8121 + 168 * d) 726 c C -> likelihood_f sigma t n nl nr s sl sr r ->
    let x := exact_ratio (val sigma) (val t) (INR k) (INR kl) (INR kr) (val s) (val sl) (val sr) in
    fin (ratio_f gr a r c) = true /\
    Rabs (fr (ratio_f gr a r c) - (A + (if gr : bool then x else - x) + C)) <= ratio_error (val alpha) (val sigma) (val t) (INR k) (INR kl) (INR kr) (val s) (val sl) (val sr).
  Proof.
    intros H1 H2 H3 H4 H5 H6 H7 H8 H9 HA HB (Fa & Ea & Ba) (Fc & Ec & Bc) L x. destruct delta_ok as ((D0 & D1) & D2). pose proof u_pos as Up. pose proof u_small as US.
    assert (UD : u * d <= bpow radix2 (-13)) by (change (-13)%Z with (-53 + 40)%Z; rewrite bpow_plus; apply Rmult_le_compat_l; lra).
    assert (S13 : bpow radix2 (-13) = / 8192) by (cbn; lra). rewrite S13 in UD. assert (UD0 : 0 <= u * d) by (apply Rmult_le_pos; lra).
    assert (U14 : 20000 * u <= 1) by (apply Rle_trans with (bpow radix2 15 * u); [apply Rmult_le_compat_r; [lra|cbn; lra]|rewrite <- bpow_plus; change 1 with (bpow radix2 0); apply bpow_le; lia]).
    assert (Xa : Rabs (fr a) <= 234). { replace (fr a) with (A + (fr a - A)) by ring. eapply Rle_trans; [apply Rabs_triang|]. lra. }
    assert (Xc : Rabs (fr c) <= 728). { replace (fr c) with (C + (fr c - C)) by ring. eapply Rle_trans; [apply Rabs_triang|]. lra. }
    assert (B800 : 1000 <= bpow radix2 800) by (apply Rle_trans with (bpow radix2 10); [cbn; lra|apply bpow_le; lia]).
    destruct (total_ok a c gr _ _ _ _ _ _ _ _ _ _ _ _ H1 H2 H3 H4 H5 H6 H7 H8 H9 HA HB Fa Fc ltac:(unfold val; lra) ltac:(unfold val; lra) L) as (F & E). fold x in E.
    destruct (ratio_accuracy _ _ _ _ _ _ _ _ _ _ _ _ H1 H2 H3 H4 H5 H6 H7 H8 H9 HA HB L) as (_ & _ & _ & SZ). fold x in SZ. pose proof (Rabs_pos x) as X0.
    split; [exact F|]. unfold ratio_error. set (Z := ratio_size _ _ _ _ _ _ _ _) in *. set (x' := if gr then x else - x) in *. clearbody x' Z. unfold val in *. set (tot := ratio_f gr a r c) in *. clearbody tot.
    replace (fr tot - (A + x' + C)) with ((fr tot - (fr a + x' + fr c)) + ((fr a - A) + (fr c - C))) by ring. eapply Rle_trans; [apply Rabs_triang|].
    assert (T : Rabs ((fr a - A) + (fr c - C)) <= 2583 * u + (8121 + 168 * d) * u) by (eapply Rle_trans; [apply Rabs_triang|]; lra).
    assert (P46 : bpow radix2 (-46) = 128 * u) by (change (-46)%Z with (7 + -53)%Z; rewrite bpow_plus; reflexivity).
    assert (P36 : bpow radix2 (-36) = 131072 * u) by (change (-36)%Z with (17 + -53)%Z; rewrite bpow_plus; reflexivity). assert (P45 : bpow radix2 (-45) = 256 * u) by (change (-45)%Z with (8 + -53)%Z; rewrite bpow_plus; reflexivity). rewrite P46, P36, P45. unfold Rdiv.
    assert (68 * u * (Z + Rabs (fr a) + Rabs (fr c)) <= 68 * u * (Z + 962)) by (apply Rmult_le_compat_l; lra).
    assert (0 <= u * Z) by (apply Rmult_le_pos; lra). lra.
  Qed.
  Lemma whole_ok gr a c A C sigma t n nl nr s sl sr r k kl kr :
    usual_split sigma t n nl nr s sl sr k kl kr -> ap 2583 233 a A -> ap (8121 + 168 * d) 726 c C -> likelihood_f sigma t n nl nr s sl sr r ->
    let x := exact_ratio (val sigma) (val t) (INR k) (INR kl) (INR kr) (val s) (val sl) (val sr) in
    fin (ratio_f gr a r c) = true /\
    Rabs (fr (ratio_f gr a r c) - (A + (if gr : bool then x else - x) + C)) <= ratio_error (val alpha) (val sigma) (val t) (INR k) (INR kl) (INR kr) (val s) (val sl) (val sr).
  Proof. intros (H1 & H2 & H3 & H4 & H5 & H6 & H7 & H8 & H9 & HA & HB). apply whole0_ok; auto using counts_any. Qed.
End Settings.
