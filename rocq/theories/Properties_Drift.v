(** C102: the running prediction in double precision. *)
From Coq Require Import ZArith Reals List Lra Lia Permutation.
From Flocq Require Import Core.Core IEEE754.BinarySingleNaN.
From Verif Require Import Base MFloat MFloat2 SpecDouble PFloat PFloat2 PFloat3 PFloat4 Properties_Double.
Import ListNotations.
Local Open Scope R_scope.

(** C102 (a): start from the sum of the trees' predictions for a row, added in any order, and replace trees one
    after the other, any number of times.  With leaf values up to B, n trees and k replacements the running
    prediction stays finite and is within (n + 2k) * 2^-52 * n * B of the exact sum of the current trees. *)
Theorem C102_drift : forall B vs p ops p' vs',
  0 <= B -> within B vs -> sums vs p ->
  Forall (fun op => (fst op < length vs)%nat /\ finite (snd op) /\ Rabs (val (snd op)) <= B) ops ->
  INR (length vs) * B <= bpow radix2 1000 -> INR (length vs + 2 * length ops) <= bpow radix2 52 ->
  refreshes_f (p, vs) ops = (p', vs') ->
  length vs' = length vs /\ finite p' /\
  Rabs (val p' - total vs') <= INR (length vs + 2 * length ops) * bpow radix2 (-52) * (INR (length vs) * B).
Proof.
  intros B vs p ops p' vs' Bp W S O Sz K E.
  assert (K' : INR (length vs) <= bpow radix2 52) by (eapply Rle_trans; [|exact K]; apply le_INR; lia).
  pose proof (drift_start B vs p Bp W Sz K' S) as I.
  pose proof (drift_run B (length vs) Bp Sz ops (length vs) (p, vs) I O K) as J. rewrite E in J.
  destruct J as (F & L & _ & X). split; [exact L|]. split; [exact F|].
  eapply Rle_trans; [exact X|]. rewrite Rmult_comm. apply Rmult_le_compat_r.
  - apply Rmult_le_pos; [apply pos_INR|exact Bp].
  - apply eps_le, K.
Qed.

(** C102 (b): the target handed to the next tree for that row is within the same kind of bound of the target
    minus the exact sum of all other trees. *)
Theorem C102_handed : forall B vs p ops st j y,
  0 <= B -> within B vs -> sums vs p ->
  Forall (fun op => (fst op < length vs)%nat /\ finite (snd op) /\ Rabs (val (snd op)) <= B) ops ->
  INR (length vs) * B <= bpow radix2 1000 -> INR (length vs + 2 * length ops + 2) <= bpow radix2 52 ->
  refreshes_f (p, vs) ops = st -> (j < length vs)%nat -> finite y -> Rabs (val y) <= bpow radix2 1000 ->
  finite (handed_f y st j) /\
  Rabs (val (handed_f y st j) - (val y - all_but j (snd st)))
    <= INR (length vs + 2 * length ops + 2) * bpow radix2 (-52) * (INR (length vs) * B) + bpow radix2 (-53) * Rabs (val y).
Proof.
  intros B vs p ops st j y Bp W S O Sz K E Hj Fy By.
  assert (K1 : INR (length vs + 2 * length ops) <= bpow radix2 52) by (eapply Rle_trans; [|exact K]; apply le_INR; lia).
  assert (K' : INR (length vs) <= bpow radix2 52) by (eapply Rle_trans; [|exact K]; apply le_INR; lia).
  pose proof (drift_start B vs p Bp W Sz K' S) as I.
  pose proof (drift_run B (length vs) Bp Sz ops (length vs) (p, vs) I O K1) as J. rewrite E in J.
  destruct st as (p', vs').
  replace (length vs + 2 * length ops + 2)%nat with (Datatypes.S (Datatypes.S (length vs + 2 * length ops))) in * by lia.
  destruct (handed_err B (length vs) Bp Sz _ y p' vs' j J Hj Fy By K) as (F & X).
  split; [exact F|]. cbn [snd]. eapply Rle_trans; [exact X|]. apply Rplus_le_compat_r.
  rewrite Rmult_comm. apply Rmult_le_compat_r.
  - apply Rmult_le_pos; [apply pos_INR|exact Bp].
  - apply eps_le, K.
Qed.

(** C102 (c) (defect): a discrepancy is never repaired.  While all values are multiples of some 2^g and small
    enough to be added exactly, the difference between the running prediction and the sum of the trees does
    not change, however many trees are replaced. *)
Theorem C102_never_repaired : forall g B p vs ops p' vs',
  (-1074 <= g <= 971)%Z -> 0 <= B -> finite p -> multiple g p -> within B vs -> Forall (multiple g) vs ->
  Forall (fun op => (fst op < length vs)%nat /\ finite (snd op) /\ Rabs (val (snd op)) <= B /\ multiple g (snd op)) ops ->
  INR (length vs) * B + Rabs (val p - total vs) < bpow radix2 (g + 53) ->
  refreshes_f (p, vs) ops = (p', vs') ->
  val p' - total vs' = val p - total vs.
Proof.
  intros g B p vs ops p' vs' (G1 & G2) Bp Fp Gp W G O Sz E.
  assert (I : grid_inv g B (val p - total vs) (length vs) (p, vs)).
  { split; [exact Fp|]. split; [exact Gp|]. split; [reflexivity|]. split; [exact W|]. split; [exact G|reflexivity]. }
  pose proof (grid_run g B _ (length vs) G1 G2 Bp Sz ops (p, vs) I O) as J. rewrite E in J.
  destruct J as (_ & _ & _ & _ & _ & X). exact X.
Qed.

(** concrete doubles: 2^60, and small integers *)
Definition d60 : b64 := d_of false 4503599627370496 8 eq_refl.
Lemma val_d0 : val d0 = 0.
Proof. reflexivity. Qed.
Lemma val_d1 : val d1 = 1.
Proof.
  unfold val, d1, d_of, B2R, F2R. cbn [Fnum Fexp cond_Zopp].
  replace (IZR 4503599627370496) with (bpow radix2 52) by (rewrite <- IZR_Zpower by lia; reflexivity).
  rewrite <- bpow_plus. reflexivity.
Qed.
Lemma val_d60 : val d60 = bpow radix2 60.
Proof.
  unfold val, d60, d_of, B2R, F2R. cbn [Fnum Fexp cond_Zopp].
  replace (IZR 4503599627370496) with (bpow radix2 52) by (rewrite <- IZR_Zpower by lia; reflexivity).
  rewrite <- bpow_plus. reflexivity.
Qed.

(** C102 (d) (defect): two trees that predict 0; one draws a huge leaf value, the other draws 1, then the first
    returns to 0.  The running prediction is 0 although the trees predict 1 in total. *)
Definition drift_ops : list (nat * b64) := [(0%nat, d60); (1%nat, d1); (0%nat, d0)].
Lemma drift_end : refreshes_f (d0, [d0; d0]) drift_ops = (d0, [d0; d1]).
Proof.
  assert (E : fadd (fsub (fadd (fsub (fadd (fsub d0 d0) d60) d0) d1) d60) d0 = d0)
    by (apply same_double; vm_compute; reflexivity).
  unfold refreshes_f, drift_ops, refresh_f, set_at. cbn [fold_left nth firstn skipn app]. 
  change (B754_zero false) with d0. rewrite E. reflexivity.
Qed.
Lemma sums_zero : sums [d0; d0] d0.
Proof.
  replace d0 with (fadd d0 d0) at 3 by (apply same_double; vm_compute; reflexivity).
  apply (sums_add [d0] [d0]); try discriminate; [constructor|constructor|apply Permutation_refl].
Qed.
Theorem C102_exact_refuted : exists B vs p ops p' vs',
  0 <= B /\ within B vs /\ sums vs p /\
  Forall (fun op => (fst op < length vs)%nat /\ finite (snd op) /\ Rabs (val (snd op)) <= B) ops /\
  refreshes_f (p, vs) ops = (p', vs') /\ val p' <> total vs'.
Proof.
  exists (bpow radix2 60), [d0; d0], d0, drift_ops, d0, [d0; d1].
  pose proof (bpow_gt_0 radix2 60) as P. assert (O : 1 <= bpow radix2 60) by (change 1 with (bpow radix2 0); apply bpow_le; lia).
  assert (Z : Rabs (val d0) <= bpow radix2 60) by (rewrite val_d0, Rabs_R0; lra).
  split; [lra|]. split; [repeat apply Forall_cons; try apply Forall_nil; split; try reflexivity; exact Z|].
  split; [exact sums_zero|]. split.
  { unfold drift_ops. repeat apply Forall_cons; try apply Forall_nil; cbn [fst snd length];
      (split; [lia|]); (split; [reflexivity|]).
    - rewrite val_d60, Rabs_pos_eq; lra.
    - rewrite val_d1, Rabs_pos_eq; lra.
    - exact Z. }
  split; [exact drift_end|].
  unfold total. cbn [map fold_right]. rewrite val_d0, val_d1. lra.
Qed.

(** ... and the running prediction stays off by exactly 1 for ever, whatever whole numbers up to 2^50 are drawn
    from then on. *)
Theorem C102_repaired_refuted : exists vs p ops,
  sums vs p /\
  forall more p' vs',
    Forall (fun op => (fst op < length vs)%nat /\ finite (snd op) /\ Rabs (val (snd op)) <= bpow radix2 50 /\ multiple 0 (snd op)) more ->
    refreshes_f (p, vs) (ops ++ more) = (p', vs') ->
    val p' = total vs' - 1.
Proof.
  exists [d0; d0], d0, drift_ops. split; [exact sums_zero|].
  intros more p' vs' H E. unfold refreshes_f in E. rewrite fold_left_app in E.
  fold (refreshes_f (d0, [d0; d0]) drift_ops) in E. rewrite drift_end in E. fold (refreshes_f (d0, [d0; d1]) more) in E.
  assert (O : 1 <= bpow radix2 50) by (change 1 with (bpow radix2 0); apply bpow_le; lia).
  assert (T : total [d0; d1] = 1) by (unfold total; cbn [map fold_right]; rewrite val_d0, val_d1; lra).
  assert (G0 : multiple 0 d0) by (exists 0%Z; rewrite val_d0; ring).
  assert (G1 : multiple 0 d1) by (exists 1%Z; rewrite val_d1; cbn; ring).
  pose proof (C102_never_repaired 0 (bpow radix2 50) d0 [d0; d1] more p' vs') as R.
  rewrite T, val_d0 in R. enough (val p' - total vs' = 0 - 1) by lra. apply R; clear R; try assumption.
  - lia.
  - lra.
  - reflexivity.
  - repeat apply Forall_cons; try apply Forall_nil; (split; [reflexivity|]).
    + rewrite val_d0, Rabs_R0. lra.
    + rewrite val_d1, Rabs_pos_eq; lra.
  - repeat apply Forall_cons; try apply Forall_nil; assumption.
  - cbn [length INR]. rewrite Rminus_0_l, Rabs_Ropp, Rabs_R1.
    replace (bpow radix2 (0 + 53)) with (8 * bpow radix2 50) by (change 8 with (bpow radix2 3); rewrite <- bpow_plus; reflexivity).
    lra.
Qed.

(** the hypotheses are met: one replacement in a model of two trees *)
Example C102_case : exists B vs p ops st y,
  0 <= B /\ within B vs /\ sums vs p /\
  Forall (fun op => (fst op < length vs)%nat /\ finite (snd op) /\ Rabs (val (snd op)) <= B) ops /\
  INR (length vs) * B <= bpow radix2 1000 /\ INR (length vs + 2 * length ops + 2) <= bpow radix2 52 /\
  refreshes_f (p, vs) ops = st /\ finite y /\ Rabs (val y) <= bpow radix2 1000 /\ length ops = 1%nat.
Proof.
  exists 1, [d0; d0], d0, [(1%nat, d1)], (refreshes_f (d0, [d0; d0]) [(1%nat, d1)]), d1.
  assert (O : 8 <= bpow radix2 52) by (change 8 with (bpow radix2 3); apply bpow_le; lia).
  assert (O' : bpow radix2 52 <= bpow radix2 1000) by (apply bpow_le; lia).
  split; [lra|]. split; [repeat apply Forall_cons; try apply Forall_nil; (split; [reflexivity|]); rewrite val_d0, Rabs_R0; lra|].
  split; [exact sums_zero|]. split; [repeat apply Forall_cons; try apply Forall_nil; cbn [fst snd length]; (split; [lia|]); (split; [reflexivity|]); rewrite val_d1, Rabs_pos_eq; lra|].
  split; [cbn; lra|]. split; [cbn; lra|]. split; [reflexivity|]. split; [reflexivity|].
  split; [rewrite val_d1, Rabs_pos_eq; lra|reflexivity].
Qed.
Example C102_repaired_case : exists more : list (nat * b64),
  length more = 2%nat /\
  Forall (fun op => (fst op < 2)%nat /\ finite (snd op) /\ Rabs (val (snd op)) <= bpow radix2 50 /\ multiple 0 (snd op)) more.
Proof.
  exists [(0%nat, d1); (1%nat, d1)]. split; [reflexivity|].
  assert (O : 1 <= bpow radix2 50) by (change 1 with (bpow radix2 0); apply bpow_le; lia).
  assert (G1 : multiple 0 d1) by (exists 1%Z; rewrite val_d1; cbn; ring).
  repeat apply Forall_cons; try apply Forall_nil; cbn [fst snd]; (split; [lia|]); (split; [reflexivity|]);
    (split; [rewrite val_d1, Rabs_pos_eq; lra|exact G1]).
Qed.

Print Assumptions C102_drift.
Print Assumptions C102_handed.
Print Assumptions C102_never_repaired.
Print Assumptions C102_exact_refuted.
Print Assumptions C102_repaired_refuted.
