(** C103: sums over the rows of a node and point predictions in double precision. *)
From Coq Require Import ZArith Reals List Lra Lia Permutation.
From Flocq Require Import Core.Core IEEE754.BinarySingleNaN.
From Verif Require Import Base MFloat MFloat2 SpecDouble PFloat PFloat2 PFloat3 PFloat4 PFloat5 Properties_Double Properties_Drift.
Import ListNotations.
Local Open Scope R_scope.

Lemma val_fone : val fone = 1.
Proof. exact val_d1. Qed.
Lemma mul_one v : finite v -> finite (fmul v fone) /\ val (fmul v fone) = val v.
Proof.
  intros F. destruct (fmul_ok v fone F eq_refl) as (V & Ff).
  - change (fr fone) with (val fone). rewrite val_fone, Rmult_1_r, rnd_id by apply fr_format.
    apply (abs_B2R_lt_emax 53 1024 v).
  - change (fr fone) with (val fone) in V. rewrite val_fone, Rmult_1_r, rnd_id in V by apply fr_format.
    split; assumption.
Qed.
Lemma mul_zero v : finite v -> finite (fmul v (B754_zero false)) /\ val (fmul v (B754_zero false)) = 0.
Proof. intros F. destruct v; try discriminate; split; reflexivity. Qed.

Lemma masked_facts y mask : Forall finite y -> length mask = length y ->
  Forall finite (masked_f y mask) /\ length (masked_f y mask) = length y /\
  total (masked_f y mask) = total (kept y mask) /\ size (masked_f y mask) = size (kept y mask).
Proof.
  intros F. revert mask. induction F as [|v y Fv _ IH]; intros mask L.
  - destruct mask; [|discriminate]. repeat split. constructor.
  - destruct mask as [|b mask]; [discriminate|]. cbn in L. injection L as L.
    destruct (IH mask L) as (A & B & C & D). unfold masked_f, kept in *. cbn [combine map filter fst snd].
    destruct b; cbn [negb].
    + destruct (mul_zero v Fv) as (X & Y). split; [constructor; assumption|].
      split; [cbn [length]; congruence|].
      unfold total, size in *. cbn [map fold_right]. rewrite Y, Rabs_R0, C, D. split; lra.
    + destruct (mul_one v Fv) as (X & Y). split; [constructor; assumption|].
      split; [cbn [length]; congruence|].
      unfold total, size in *. cbn [map fold_right fst]. rewrite Y, C, D. split; reflexivity.
Qed.

(** C103 (a): the sum of the targets of a node, whatever the order of the additions, is within
    n * 2^-52 times the sum of the absolute values of the exact sum over the node's rows (n rows in the data). *)
Theorem C103_node_sum : forall y mask s,
  Forall finite y -> length mask = length y -> size (kept y mask) <= bpow radix2 1000 ->
  INR (length y) <= bpow radix2 52 -> summed_f y mask s ->
  finite s /\
  Rabs (val s - total (kept y mask)) <= INR (length y) * bpow radix2 (-52) * size (kept y mask).
Proof.
  intros y mask s F L Sz Ln S. destruct (masked_facts y mask F L) as (A & B & C & D).
  destruct (sums_err _ s S A) as (Fs & E).
  - rewrite D. exact Sz.
  - rewrite B. exact Ln.
  - split; [exact Fs|]. rewrite B, C, D in E. eapply Rle_trans; [exact E|].
    rewrite Rmult_comm. apply Rmult_le_compat_r; [apply size_pos|].
    eapply Rle_trans; [apply (eps_mono _ (length y)); lia|]. apply eps_le, Ln.
Qed.

Lemma fadd_nan_l x : fadd B754_nan x = B754_nan.
Proof. reflexivity. Qed.
Lemma fadd_nan_r x : fadd x B754_nan = B754_nan.
Proof. destruct x; reflexivity. Qed.
Lemma sums_nan l s : sums l s -> In B754_nan l -> s = B754_nan.
Proof.
  induction 1 as [|x|l1 l2 l s1 s2 N1 N2 S1 IH1 S2 IH2 P]; intros H.
  - destruct H.
  - destruct H as [H|[]]. exact H.
  - apply (Permutation_in _ (Permutation_sym P)) in H. apply in_app_iff in H as [H|H].
    + rewrite (IH1 H). apply fadd_nan_l.
    + rewrite (IH2 H). apply fadd_nan_r.
Qed.

(** C103 (b) (defect): a target that is NaN makes the sum of every node NaN, and so does an infinite one for
    every node that does not contain its row: masked rows are multiplied by 0, not left out. *)
Theorem C103_spoilt : forall y mask s i v b,
  length mask = length y -> nth_error y i = Some v -> nth_error mask i = Some b -> summed_f y mask s ->
  nan v \/ (b = true /\ ~ finite v) -> nan s.
Proof.
  intros y mask s i v b L Hv Hb S H.
  enough (I : In B754_nan (masked_f y mask)) by (rewrite (sums_nan _ _ S I); reflexivity).
  assert (C : In (v, b) (combine y mask)).
  { clear -L Hv Hb. revert y mask L Hv Hb. induction i as [|i IH]; intros [|w y] [|c mask] L Hv Hb; try discriminate.
    - cbn in Hv, Hb. injection Hv as ->. injection Hb as ->. left. reflexivity.
    - right. cbn in L. injection L as L. exact (IH y mask L Hv Hb). }
  apply in_map_iff. exists (v, b). split; [|exact C]. cbn [fst snd].
  destruct H as [H|(-> & H)].
  - destruct v; try discriminate. destruct b; reflexivity.
  - destruct v as [s0|s0| |s0 m e Hm]; try (exfalso; apply H; reflexivity); reflexivity.
Qed.

(** C103 (c): point predictions.  With S samples of T trees each, leaf values up to B, and training targets
    between lo and hi, the prediction returned for a row is finite and close to the exact average mapped back,
    whatever the order of the additions. *)
Theorem C103_prediction : forall lo hi c r leaves T B,
  finite lo -> finite hi -> val lo <= val hi -> Rabs (val lo) <= bpow radix2 1000 -> Rabs (val hi) <= bpow radix2 1000 ->
  0 <= B -> leaves <> [] -> Forall (fun l => length l = T /\ within B l) leaves ->
  finite c -> val c = INR (length leaves) ->
  INR (length leaves) * (INR T * B) <= bpow radix2 999 -> (INR T * B + /2) * (val hi - val lo) <= bpow radix2 1000 ->
  INR (T + length leaves + 4) <= bpow radix2 52 ->
  predicts_f lo hi c leaves r ->
  finite r /\
  Rabs (val r - exact_prediction (val lo) (val hi) leaves)
    <= INR (T + length leaves + 4) * bpow radix2 (-52) * ((INR T * B + /2) * (val hi - val lo))
       + bpow radix2 (-53) * Rabs (exact_prediction (val lo) (val hi) leaves)
       + bpow radix2 (-1072) * (val hi - val lo + 1).
Proof.
  intros lo hi c r leaves T B F1 F2 L B1 B2 Bp Ne H Fc Hc S1 S2 K P.
  exact (predict_err lo hi c r leaves T B F1 F2 Bp H Ne Hc L B1 B2 S1 S2 K P).
Qed.

(** C103 (d): the order of the additions can matter: 2^60, 1, -2^60 add up to 0 or to 1 *)
Definition dm60 : b64 := d_of true 4503599627370496 8 eq_refl.
Theorem C103_order_refuted : exists l s s', Forall finite l /\ sums l s /\ sums l s' /\ val s <> val s'.
Proof.
  exists [d60; d1; dm60], (fadd (fadd d60 d1) dm60), (fadd (fadd d60 dm60) d1).
  split; [repeat constructor|]. split; [|split].
  - apply (sums_add [d60; d1] [dm60]); try discriminate; [|constructor|apply Permutation_refl].
    apply (sums_add [d60] [d1]); try discriminate; [constructor|constructor|apply Permutation_refl].
  - apply (sums_add [d60; dm60] [d1]); try discriminate; [|constructor|cbn; apply perm_skip, perm_swap].
    apply (sums_add [d60] [dm60]); try discriminate; [constructor|constructor|apply Permutation_refl].
  - assert (E1 : fadd (fadd d60 d1) dm60 = d0) by (apply same_double; vm_compute; reflexivity).
    assert (E2 : fadd (fadd d60 dm60) d1 = d1) by (apply same_double; vm_compute; reflexivity).
    rewrite E1, E2, val_d0, val_d1. lra.
Qed.

(** the hypotheses are met *)
Lemma any_sum l : l <> [] -> exists s, sums l s.
Proof.
  induction l as [|x l IH]; intros H; [congruence|]. destruct l as [|z l]; [exists x; constructor|].
  destruct IH as (s & S); [discriminate|]. exists (fadd x s).
  apply (sums_add [x] (z :: l)); try discriminate; [constructor|exact S|apply Permutation_refl].
Qed.
Example C103_case : exists lo hi c r leaves T B,
  finite lo /\ finite hi /\ val lo <= val hi /\ Rabs (val lo) <= bpow radix2 1000 /\ Rabs (val hi) <= bpow radix2 1000 /\
  0 <= B /\ leaves <> [] /\ Forall (fun l => length l = T /\ within B l) leaves /\
  finite c /\ val c = INR (length leaves) /\
  INR (length leaves) * (INR T * B) <= bpow radix2 999 /\ (INR T * B + /2) * (val hi - val lo) <= bpow radix2 1000 /\
  INR (T + length leaves + 4) <= bpow radix2 52 /\ predicts_f lo hi c leaves r /\ T = 2%nat.
Proof.
  destruct (any_sum [d1; d0] ltac:(discriminate)) as (p & P).
  exists d0, d1, d1, (fadd d0 (fmul (fsub (fdiv p d1) neg_half) (fsub d1 d0))), [[d1; d0]], 2%nat, 1.
  assert (O : 16 <= bpow radix2 52) by (change 16 with (bpow radix2 4); apply bpow_le; lia).
  assert (O' : bpow radix2 52 <= bpow radix2 999) by (apply bpow_le; lia).
  assert (O2 : bpow radix2 999 <= bpow radix2 1000) by (apply bpow_le; lia).
  assert (R0 : Rabs (val d0) <= 1) by (rewrite val_d0, Rabs_R0; lra).
  assert (R1 : Rabs (val d1) <= 1) by (rewrite val_d1, Rabs_R1; lra).
  split; [reflexivity|]. split; [reflexivity|]. split; [rewrite val_d0, val_d1; lra|].
  split; [lra|]. split; [lra|]. split; [lra|]. split; [discriminate|].
  split; [apply Forall_cons; [|apply Forall_nil]; split; [reflexivity|]; repeat apply Forall_cons; try apply Forall_nil; split; try reflexivity; assumption|].
  split; [reflexivity|]. split; [rewrite val_d1; reflexivity|].
  split; [cbn; lra|]. split; [rewrite val_d0, val_d1; cbn; lra|]. split; [cbn; lra|]. split; [|reflexivity].
  exists [p], (fdiv p d1). split; [constructor; [exact P|constructor]|].
  split; [exists p; split; [constructor|reflexivity]|reflexivity].
Qed.
Example C103_sum_case : exists y mask s,
  Forall finite y /\ length mask = length y /\ size (kept y mask) <= bpow radix2 1000 /\
  INR (length y) <= bpow radix2 52 /\ summed_f y mask s /\ length (kept y mask) = 2%nat /\ length y = 3%nat.
Proof.
  destruct (any_sum (masked_f [d1; d60; d1] [false; true; false]) ltac:(discriminate)) as (s & S).
  exists [d1; d60; d1], [false; true; false], s.
  assert (O : 16 <= bpow radix2 52) by (change 16 with (bpow radix2 4); apply bpow_le; lia).
  assert (O' : bpow radix2 52 <= bpow radix2 1000) by (apply bpow_le; lia).
  split; [repeat constructor|]. split; [reflexivity|].
  split; [unfold size, kept; cbn [combine filter negb snd fst map fold_right]; rewrite val_d1, Rabs_R1; lra|].
  split; [cbn; lra|]. split; [exact S|]. split; reflexivity.
Qed.
Example C103_spoilt_case : exists y mask s,
  length mask = length y /\ summed_f y mask s /\
  nth_error y 1 = Some B754_nan /\ nth_error mask 1 = Some true /\ kept y mask = [d1].
Proof.
  destruct (any_sum (masked_f [d1; B754_nan] [false; true]) ltac:(discriminate)) as (s & S).
  exists [d1; B754_nan], [false; true], s. repeat split. exact S.
Qed.

Print Assumptions C103_node_sum.
Print Assumptions C103_spoilt.
Print Assumptions C103_prediction.
Print Assumptions C103_order_refuted.
