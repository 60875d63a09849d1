(** The acceptance ratio of the oblivious sampler in double precision. *)
From Coq Require Import ZArith Reals List Lra Lia Psatz.
From Flocq Require Import Core.Core IEEE754.BinarySingleNaN.
From Verif Require Import Base MFloat MFloat2 MFloat3 MFloat4 MFloat5 MFloat9 SpecDouble SpecDouble3 SpecDouble4 SpecDouble5 SpecDouble9 SpecSampler
  PFloat PFloat2 PFloat3 PFloat5 PFloat6 PFloat7 PFloat8 PFloat10 PFloat11 PFloat12.
Import ListNotations.
Local Open Scope R_scope.

Lemma ap_zero b : ap 0 0 (B754_zero b) 0.
Proof. split; [reflexivity|]. cbn [B2R]. rewrite Rminus_0_r, Rabs_R0. split; lra. Qed.
Section Settings.
  Variables (alpha beta pgrow pprune : b64).
  Hypothesis U : usual_settings alpha beta pgrow pprune.
  Notation d := (/ (1 - fr alpha)).
  Notation q1 j := (fr alpha * Rpower (INR j) (- fr beta)).
  Section Cut.
    Variables (q : fcut) (kc kn : nat).
    Hypothesis Cc : counts (fc_cnt q) kc.
    Hypothesis Cn : counts (fc_n q) kn.
    Notation l := (ln (INR kc / INR kn)).
    Lemma ob_split_ok r : ob_split_f q r -> ap 421 52 r l.
    Proof. intros H. now apply (log_quotient (fc_cnt q) (fc_n q)). Qed.
    Lemma ob_grow_transition_ok r : ob_grow_transition_f pgrow pprune q r -> ap 2583 233 r (ln (fr pprune / fr pgrow) - l).
    Proof.
      intros (g & lr & Lg & Lr & ->). pose proof c50. destruct (prob_ok _ _ _ _ U) as (F0 & B0 & F1 & B1).
      assert (A : ap 474 52 (fsub (B754_zero true) g) (0 - l)).
      { eapply ap_weaken; [apply (ap_sub 0 0 _ _ 421 52); [apply ap_zero|now apply ob_split_ok|..]; lra|lra|lra]. }
      replace (ln (fr pprune / fr pgrow) - l) with (ln (fr pprune / fr pgrow) + (0 - l)) by ring.
      eapply ap_weaken; [apply (ap_add 205 25 _ _ 474 52); [apply (log_odds pprune pgrow)|exact A|..]; auto; lra|lra|lra].
    Qed.
    Lemma ob_prune_transition_ok r : ob_prune_transition_f pgrow pprune q r -> ap 2583 233 r (ln (fr pgrow / fr pprune) + l).
    Proof.
      intros (g & lr & Lg & Lr & ->). pose proof c50. destruct (prob_ok _ _ _ _ U) as (F0 & B0 & F1 & B1).
      eapply ap_weaken; [apply (ap_add 205 25 _ _ 421 52); [apply (log_odds pgrow pprune)|now apply ob_split_ok|..]; auto; lra|lra|lra].
    Qed.
    Lemma ob_grow_tree_ok x xx j r : counts x j -> counts xx (S j) -> (S j <= 1024)%nat -> ob_grow_tree_f alpha beta x xx q r ->
      ap (8121 + 168 * d) 726 r (ln (1 - q1 (S j)) + ln (1 - q1 (S j)) + ln (q1 j) + l - ln (1 - q1 j)).
    Proof.
      intros Cx Cy J (den & l1 & rt & up & ch & L0 & L1 & L2 & L3 & Lc & ->). destruct (big_d _ _ _ _ U) as (Bd & Pd). pose proof c50.
      pose proof (numerator_ok _ _ _ _ U _ _ _ _ _ _ Cx Cy J L1 L2 L3) as A.
      eapply ap_weaken; [apply (ap_sub (4868 + 112 * d + 421 + (530 + 52) + 1) 582 _ _ (321 + 56 * d) 40)| |]; [|eapply not_split_ok; eauto; lia|..]; try lra.
      eapply ap_weaken; [apply (ap_add (4868 + 112 * d) 530 _ _ 421 52); [exact A|now apply ob_split_ok|..]; lra|lra|lra].
    Qed.
    Lemma ob_prune_tree_ok x xx j r : counts x j -> counts xx (S j) -> (S j <= 1024)%nat -> ob_prune_tree_f alpha beta x xx q r ->
      ap (8121 + 168 * d) 726 r (ln (1 - q1 j) - (ln (1 - q1 (S j)) + ln (1 - q1 (S j)) + ln (q1 j) + l)).
    Proof.
      intros Cx Cy J (num & l1 & rt & up & ch & L0 & L1 & L2 & L3 & Lc & ->). destruct (big_d _ _ _ _ U) as (Bd & Pd). pose proof c50.
      pose proof (numerator_ok _ _ _ _ U _ _ _ _ _ _ Cx Cy J L1 L2 L3) as A.
      eapply ap_weaken; [apply (ap_sub (321 + 56 * d) 40 _ _ (4868 + 112 * d + 421 + (530 + 52) + 1) 582)| |]; [eapply not_split_ok; eauto; lia|..]; try lra.
      eapply ap_weaken; [apply (ap_add (4868 + 112 * d) 530 _ _ 421 52); [exact A|now apply ob_split_ok|..]; lra|lra|lra].
    Qed.
  End Cut.
  Lemma odds_form alpha' beta' k : log_structure_odds alpha' beta' k =
    ln (1 - alpha' * Rpower (INR (S (S k))) (- beta')) + ln (1 - alpha' * Rpower (INR (S (S k))) (- beta')) + ln (alpha' * Rpower (INR (S k)) (- beta')) - ln (1 - alpha' * Rpower (INR (S k)) (- beta')).
  Proof. unfold log_structure_odds, split_probability. cbv zeta. rewrite !(Rplus_comm 1), <- !S_INR. reflexivity. Qed.

  Variables (sigma tau x xx : b64) (depth : nat).
  Hypothesis D1 : counts x (S depth).
  Hypothesis D2 : counts xx (S (S depth)).
  Hypothesis Dp : (depth <= 1022)%nat.
  Notation exact gr q := (exact_level gr (fr pgrow) (fr pprune) (fr alpha) (fr beta) depth (exact_cut sigma tau q)).
  Lemma cut_ok gr q r : usual_cut sigma tau q -> ob_ratio_f gr alpha beta pgrow pprune sigma tau x xx q r ->
    fin r = true /\ Rabs (fr r - exact gr q) <= cut_error alpha sigma tau q.
  Proof.
    intros (H1 & H2 & (k & Cn) & (kl & Cl) & (kr & Cr) & (kc & Cc) & H6 & H7 & H8 & H9 & HA & HB) (a & y & c & La & Ly & Lc & ->).
    assert (J : (S (S depth) <= 1024)%nat) by lia. unfold exact_cut, cut_error.
    replace (val (fc_n q)) with (INR k) by (symmetry; apply Cn). replace (val (fc_nl q)) with (INR kl) by (symmetry; apply Cl). replace (val (fc_nr q)) with (INR kr) by (symmetry; apply Cr).
    destruct gr; unfold exact_level; rewrite odds_form.
    - pose proof (ob_grow_transition_ok _ _ _ Cc Cn _ La) as A. pose proof (ob_grow_tree_ok _ _ _ Cc Cn _ _ _ _ D1 D2 J Lc) as C.
      destruct (whole0_ok _ _ _ _ U true _ _ _ _ _ _ _ _ _ _ _ _ _ _ _ _ H1 H2 (counts_any _ _ Cn) Cl Cr H6 H7 H8 H9 HA HB A C Ly) as (F & E). split; [exact F|].
      match type of E with Rabs (_ - ?y) <= _ => match goal with |- Rabs (_ - ?z) <= _ => replace z with y; [exact E|] end end. unfold val. ring.
    - pose proof (ob_prune_transition_ok _ _ _ Cc Cn _ La) as A. pose proof (ob_prune_tree_ok _ _ _ Cc Cn _ _ _ _ D1 D2 J Lc) as C.
      destruct (whole0_ok _ _ _ _ U false _ _ _ _ _ _ _ _ _ _ _ _ _ _ _ _ H1 H2 (counts_any _ _ Cn) Cl Cr H6 H7 H8 H9 HA HB A C Ly) as (F & E). split; [exact F|].
      match type of E with Rabs (_ - ?y) <= _ => match goal with |- Rabs (_ - ?z) <= _ => replace z with y; [exact E|] end end. unfold val. ring.
  Qed.
  Definition cut_size gr q : R := Rabs (exact gr q) + cut_error alpha sigma tau q.
  Lemma cuts_ok gr qs : Forall (usual_cut sigma tau) qs -> forall rs, Forall2 (ob_ratio_f gr alpha beta pgrow pprune sigma tau x xx) qs rs ->
    Forall finite rs /\ length rs = length qs /\ Rabs (total rs - rtotal (map (fun q => exact gr q) qs)) <= rtotal (map (cut_error alpha sigma tau) qs) /\
    size rs <= rtotal (map (cut_size gr) qs).
  Proof.
    induction 1 as [|q qs Hq _ IH]; intros rs H; inversion H; subst; unfold total, size, rtotal in *; cbn [map fold_right length].
    - rewrite Rminus_0_r, Rabs_R0. repeat split; try lra. constructor.
    - destruct (IH _ H4) as (F & L & E & S). destruct (cut_ok _ _ _ Hq H2) as (Fr & Er). split; [constructor; auto|]. split; [now rewrite L|].
      unfold cut_size at 1. unfold val at 1 3. split.
      + match goal with |- Rabs (?a + ?b - (?c + ?e)) <= _ => replace (a + b - (c + e)) with ((a - c) + (b - e)) by ring end. eapply Rle_trans; [apply Rabs_triang|]. lra.
      + assert (Rabs (fr y) <= Rabs (exact gr q) + cut_error alpha sigma tau q).
        { replace (fr y) with (exact gr q + (fr y - exact gr q)) by ring. eapply Rle_trans; [apply Rabs_triang|]. lra. }
        lra.
  Qed.
  Lemma cut_big gr q r : usual_cut sigma tau q -> ob_ratio_f gr alpha beta pgrow pprune sigma tau x xx q r -> cut_size gr q <= bpow radix2 805.
  Proof.
    intros (H1 & H2 & (k & Cn) & (kl & Cl) & (kr & Cr) & (kc & Cc) & H6 & H7 & H8 & H9 & HA & HB) (a & y & c & La & Ly & Lc & ->).
    assert (J : (S (S depth) <= 1024)%nat) by lia. unfold cut_size, exact_cut, cut_error, ratio_error.
    replace (val (fc_n q)) with (INR k) by (symmetry; apply Cn). replace (val (fc_nl q)) with (INR kl) by (symmetry; apply Cl). replace (val (fc_nr q)) with (INR kr) by (symmetry; apply Cr).
    destruct (ratio_accuracy _ _ _ _ _ _ _ _ _ _ _ _ H1 H2 (counts_any _ _ Cn) Cl Cr H6 H7 H8 H9 HA HB Ly) as (_ & _ & Z & XZ).
    set (Zs := ratio_size _ _ _ _ _ _ _ _) in *. set (X := exact_ratio _ _ _ _ _ _ _ _) in *.
    assert (E : Rabs (exact_level gr (fr pgrow) (fr pprune) (fr alpha) (fr beta) depth X) <= 1000 + Rabs X).
    { destruct gr; unfold exact_level; rewrite odds_form.
      - destruct (ob_grow_transition_ok _ _ _ Cc Cn _ La) as (_ & _ & A). destruct (ob_grow_tree_ok _ _ _ Cc Cn _ _ _ _ D1 D2 J Lc) as (_ & _ & C).
        match type of A with Rabs ?u <= _ => match type of C with Rabs ?v <= _ => match goal with |- Rabs ?z <= _ => replace z with (u + v + X) by ring end; set (u0 := u) in *; set (v0 := v) in * end end.
        pose proof (Rabs_triang (u0 + v0) X). pose proof (Rabs_triang u0 v0). lra.
      - destruct (ob_prune_transition_ok _ _ _ Cc Cn _ La) as (_ & _ & A). destruct (ob_prune_tree_ok _ _ _ Cc Cn _ _ _ _ D1 D2 J Lc) as (_ & _ & C).
        match type of A with Rabs ?u <= _ => match type of C with Rabs ?v <= _ => match goal with |- Rabs ?z <= _ => replace z with (u + v + - X) by ring end; set (u0 := u) in *; set (v0 := v) in * end end.
        pose proof (Rabs_triang (u0 + v0) (- X)) as T. rewrite Rabs_Ropp in T. pose proof (Rabs_triang u0 v0). lra. }
    destruct (delta_ok _ _ _ _ U) as ((P0 & P1) & P2). unfold val at 1. pose proof (Rabs_pos X) as X0.
    assert (E1 : bpow radix2 (-46) * Zs <= 1 * Zs) by (apply Rmult_le_compat_r; [lra|change 1 with (bpow radix2 0); apply bpow_le; lia]).
    assert (E2 : bpow radix2 (-45) / (1 - fr alpha) <= 1).
    { unfold Rdiv. apply Rle_trans with (bpow radix2 (-45) * bpow radix2 40); [apply Rmult_le_compat_l; [apply bpow_ge_0|lra]|]. rewrite <- bpow_plus. change 1 with (bpow radix2 0). apply bpow_le. lia. }
    assert (E3 : bpow radix2 (-36) <= 1) by (change 1 with (bpow radix2 0); apply bpow_le; lia).
    assert (E4 : 1024 <= bpow radix2 802) by (change 1024 with (bpow radix2 10); apply bpow_le; lia).
    assert (E5 : bpow radix2 805 = 8 * bpow radix2 802) by (change 805%Z with (3 + 802)%Z; rewrite bpow_plus; reflexivity). lra.
  Qed.
  Lemma cuts_big gr qs : Forall (usual_cut sigma tau) qs -> forall rs, Forall2 (ob_ratio_f gr alpha beta pgrow pprune sigma tau x xx) qs rs ->
    rtotal (map (cut_size gr) qs) <= INR (length qs) * bpow radix2 805.
  Proof.
    induction 1 as [|q qs Hq _ IH]; intros rs H; inversion H; subst; unfold rtotal in *; [cbn; lra|]. cbn [map fold_right length]. rewrite S_INR.
    pose proof (IH _ H4). pose proof (cut_big _ _ _ Hq H2). lra.
  Qed.
  Lemma level_accuracy gr qs r : Forall (usual_cut sigma tau) qs -> INR (length qs) <= bpow radix2 52 ->
    ob_total_f gr alpha beta pgrow pprune sigma tau x xx qs r ->
    fin r = true /\ Rabs (fr r - rtotal (map (fun q => exact gr q) qs)) <= rtotal (map (cut_error alpha sigma tau) qs) + INR (length qs) * bpow radix2 (-52) * rtotal (map (cut_size gr) qs).
  Proof.
    intros Hq Hl (rs & Hr & S). destruct (cuts_ok gr qs Hq rs Hr) as (F & L & E & Sz). pose proof (cuts_big gr qs Hq rs Hr) as B.
    destruct (sums_err rs r S F) as (Fs & Es).
    - eapply Rle_trans; [exact Sz|]. eapply Rle_trans; [exact B|]. apply Rle_trans with (bpow radix2 52 * bpow radix2 805); [apply Rmult_le_compat_r; [apply bpow_ge_0|exact Hl]|]. rewrite <- bpow_plus. apply bpow_le. lia.
    - now rewrite L.
    - split; [exact Fs|]. rewrite L in Es. change (fr r) with (val r).
      replace (val r - rtotal (map (fun q => exact gr q) qs)) with ((total rs - rtotal (map (fun q => exact gr q) qs)) + (val r - total rs)) by ring.
      eapply Rle_trans; [apply Rabs_triang|]. apply Rplus_le_compat; [exact E|]. eapply Rle_trans; [exact Es|]. rewrite (Rmult_comm (size rs)).
      apply Rmult_le_compat; [apply eps_pos|apply size_pos| |exact Sz]. eapply Rle_trans; [apply (eps_mono _ (length qs)); lia|]. now apply eps_le.
  Qed.
End Settings.
