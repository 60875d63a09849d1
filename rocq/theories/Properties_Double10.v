(** C120: a tree's turn with the oblivious sampler in double precision, from the rows of the data to the decision. *)
From Coq Require Import ZArith Reals List Lra Lia Permutation.
From Flocq Require Import Core.Core IEEE754.BinarySingleNaN.
From Verif Require Import Base Fl Ext MData MSplit MTree MSampler Spec SpecSampler MFloat MFloat2 MFloat3 MFloat4 MFloat5 MFloat7 MFloat9 MFloat10
  SpecDouble SpecDouble3 SpecDouble4 SpecDouble5 SpecDouble7 SpecDouble9 SpecDouble10 PFloat PFloat2 PFloat10 PFloat14 PFloat17
  Properties_Double Properties_Drift Properties_Double2 Properties_Double3 Properties_Double4 Properties_Double5 Properties_Double7 Properties_Double9.
Import ListNotations.
Local Open Scope R_scope.

(** The log acceptance ratio of a level is close to that of exact arithmetic on the rows.  [cs]: the mutations of the level, some
    of whose nodes may have an empty side or may be copied because it cannot be split. *)
Theorem C120_ratio : forall (grow : bool) M j rows sum alpha beta pgrow pprune sigma tau d dd depth cs r,
  usual_rows M j rows -> usual_settings alpha beta pgrow pprune -> moderate sigma -> moderate tau -> counts d (S depth) -> counts dd (S (S depth)) -> (depth <= 1022)%nat ->
  Forall (usual_mutation rows) cs -> INR (length cs) <= bpow radix2 52 -> (forall mask, mask <> nil -> node_sum_f rows j mask (sum mask)) ->
  ob_total_f grow alpha beta pgrow pprune sigma tau d dd (map (cut_sums_f grow sum) cs) r ->
  let exact c := exact_level grow (val pgrow) (val pprune) (val alpha) (val beta) depth (of_rows rows j c (exact_ratio (val sigma) (val tau))) in
  finite r /\
  Rabs (val r - rtotal (map exact cs)) <=
    rtotal (map (mutation_error rows j M alpha sigma tau) cs) +
    INR (length cs) * bpow radix2 (-52) * rtotal (map (fun c => Rabs (exact c) + mutation_error rows j M alpha sigma tau c) cs).
Proof.
  intros gr M j rows sum alpha beta pg pp sigma tau d dd depth cs r U Us Hs Ht D1 D2 Dp Q L Sm T exact.
  exact (turn_accuracy M j rows gr sum alpha beta pg pp sigma tau d dd depth cs r U Us Hs Ht D1 D2 Dp Q L Sm T).
Qed.
(** The level is added, or removed, exactly if exact arithmetic on the rows would do so, unless the draw [w] is within the error of
    the exact ratio. *)
Theorem C120_decision : forall (grow : bool) M j rows alpha beta pgrow pprune sigma tau d dd depth cs w acc,
  usual_rows M j rows -> usual_settings alpha beta pgrow pprune -> moderate sigma -> moderate tau -> counts d (S depth) -> counts dd (S (S depth)) -> (depth <= 1022)%nat ->
  Forall (usual_mutation rows) cs -> INR (length cs) <= bpow radix2 52 -> finite w ->
  ob_turn_f grow rows j alpha beta pgrow pprune sigma tau d dd cs w acc ->
  let exact c := exact_level grow (val pgrow) (val pprune) (val alpha) (val beta) depth (of_rows rows j c (exact_ratio (val sigma) (val tau))) in
  rtotal (map (mutation_error rows j M alpha sigma tau) cs) +
    INR (length cs) * bpow radix2 (-52) * rtotal (map (fun c => Rabs (exact c) + mutation_error rows j M alpha sigma tau c) cs) < Rabs (val w - rtotal (map exact cs)) ->
  acc = accepts (val w) (XFin (rtotal (map exact cs))).
Proof.
  intros gr M j rows alpha beta pg pp sigma tau d dd depth cs w acc U Us Hs Ht D1 D2 Dp Q L Fw (sum & r & Sm & T & ->) exact G.
  destruct (C120_ratio gr M j rows sum alpha beta pg pp sigma tau d dd depth cs r U Us Hs Ht D1 D2 Dp Q L Sm T) as (F & E).
  exact (C117_decision w r _ _ Fw F E G).
Qed.
(** A side of a new split that gets no row gets the sum 0 exactly, although it is carried over as a difference of two sums. *)
Theorem C120_empty_side : forall M j rows sum c, usual_rows M j rows -> usual_mutation rows c -> (forall mask, mask <> nil -> node_sum_f rows j mask (sum mask)) ->
  forall grow, (members (rc_right c) = 0%nat -> val (fc_sr (cut_sums_f grow sum c)) = 0) /\ (members (rc_left c) = 0%nat -> val (fc_sl (cut_sums_f grow sum c)) = 0).
Proof.
  intros M j rows sum c U Uc Sm gr. destruct (mutation_close M j rows gr sum c U Uc Sm) as (E & El & Er & _ & (_ & A1 & A2 & A3) & (_ & B1 & B2 & B3) & _).
  assert (Z : forall x y e, Rabs (x - y) <= e -> Rabs y <= 3 * 0 * M -> e <= 0 * M -> x = 0).
  { intros x y e H1 H2 H3. pose proof (Rabs_pos (x - y)). pose proof (Rabs_pos y). assert (y = 0) by (destruct (Req_dec y 0) as [|N]; auto; pose proof (Rabs_pos_lt y N); lra).
    assert (x - y = 0) by (destruct (Req_dec (x - y) 0) as [|N]; auto; pose proof (Rabs_pos_lt _ N); lra). lra. }
  split; intros K; rewrite K in *; cbn [INR] in *; eauto.
Qed.
(** The value drawn for a leaf without rows is NaN, whatever sigma, the scale and the draw are; from then on so is the prediction of
    every row that reaches it. *)
Lemma zero_of x : finite x -> val x = 0 -> exists b, x = B754_zero b.
Proof.
  intros F V. unfold finite, val in *. destruct x as [b|b| |b m e He]; try discriminate; [eauto|]. exfalso. cbn [B2R] in V. revert V. unfold F2R. cbn [Fnum Fexp].
  assert (P := bpow_gt_0 radix2 e). destruct b; cbn [SpecFloat.cond_Zopp].
  - change (Z.opp (Z.pos m)) with (Z.neg m). pose proof (IZR_lt (Z.neg m) 0 (Pos2Z.neg_is_neg m)). intros V. apply Rmult_integral in V as [V|V]; lra.
  - pose proof (IZR_lt 0 (Z.pos m) (Pos2Z.is_pos m)). intros V. apply Rmult_integral in V as [V|V]; lra.
Qed.
Theorem C120_empty_leaf : forall M j rows mask n nt sigma sm z v, usual_rows M j rows -> length mask = length rows -> members mask = 0%nat -> counts0 n 0 ->
  turn_leaf_f rows j mask n nt sigma sm z v -> nan v.
Proof.
  intros M j rows mask n nt sigma sm z v U L K (Fn & Vn & _) (s & Ns & (pv & s2 & rt & _ & _ & _ & ->)). destruct (close0 M j rows mask s U L Ns) as (Fs & A & B & C). rewrite K in *. cbn [INR] in *.
  assert (Vs : val s = 0).
  { pose proof (Rabs_pos (val s - exact_node_sum j rows mask)). pose proof (Rabs_pos (exact_node_sum j rows mask)).
    assert (Y : exact_node_sum j rows mask = 0) by (exact (empty_sum M j rows mask U L K)). rewrite Y, Rminus_0_r in *. destruct (Req_dec (val s) 0) as [|N]; auto. pose proof (Rabs_pos_lt _ N). lra. }
  destruct (zero_of s Fs Vs) as (b1 & ->). destruct (zero_of n Fn Vn) as (b2 & ->). unfold leaf_mean_f. change (fdiv (B754_zero b1) (B754_zero b2)) with (@B754_nan 53 1024). reflexivity.
Qed.

(** *** there are such turns *)
Fixpoint one_sum (l : list b64) : b64 := match l with [] => B754_zero false | x :: l' => match l' with [] => x | _ => fadd x (one_sum l') end end.
Lemma one_sum_sums l : sums l (one_sum l).
Proof.
  induction l as [|x l IH]; [constructor|]. destruct l as [|z l]; [constructor|]. apply (sums_add [x] (z :: l)); try discriminate; [constructor|exact IH|apply Permutation_refl].
Qed.
Theorem C120_turn_exists : forall (grow : bool) rows j alpha beta pgrow pprune sigma tau d dd cs w, exists acc, ob_turn_f grow rows j alpha beta pgrow pprune sigma tau d dd cs w acc.
Proof.
  intros gr rows j alpha beta pg pp sigma tau d dd cs w. set (sum := fun mask => one_sum (masked_f (turn_targets_f rows j) mask)).
  destruct (C117_value_exists gr alpha beta pg pp sigma tau d dd (map (cut_sums_f gr sum) cs)) as (r & T). exists (ob_accepted_f w r), sum, r. split; [|auto]. intros mask _. apply one_sum_sums.
Qed.
(** the rows of [C114_case]: a split of all rows, one with an empty side, and a node with two rows that cannot be split *)
Definition m_none : list bool := [true; true; true].
Definition some_mutations : list rcut := [RCut false m_all m_left m_right d3 d1 d2 d1; RCut false m_left m_left m_none d1 d1 d0 d1; RCut true m_right m_right m_right d2 d2 d2 d1].
Example C120_case : usual_rows 3 0 some_rows /\ usual_settings half_f d2 half_f half_f /\ moderate d1 /\ counts d2 2 /\ counts d3 3 /\ Forall (usual_mutation some_rows) some_mutations /\
  INR (length some_mutations) <= bpow radix2 52 /\ (forall grow w, exists acc, ob_turn_f grow some_rows 0 half_f d2 half_f half_f d1 d1 d2 d3 some_mutations w acc) /\
  members m_none = 0%nat /\ counts0 d0 0 /\ exists v, turn_leaf_f some_rows 0 m_none d0 d2 d1 d1 d1 v.
Proof.
  destruct C112_case as (Us & _). assert (Z : counts0 d0 0) by (split; [reflexivity|split; [reflexivity|cbn; lra]]).
  split; [exact some_rows_usual|]. split; [exact Us|]. split; [exact moderate_1|]. split; [exact counts_2|]. split; [exact counts_3|]. split; [|split; [|split; [|split; [reflexivity|split; [exact Z|]]]]].
  - constructor; [|constructor; [|constructor; [|constructor]]]; unfold usual_mutation; cbn [rc_copy rc_mask rc_left rc_right rc_n rc_nl rc_nr rc_cnt]; (split; [reflexivity|]).
    + split; [exact some_masks|]. split; [exact counts_3|]. split; [exact (counts_any _ _ counts_1)|]. split; [exact (counts_any _ _ counts_2)|]. exists 1%nat. exact counts_1.
    + split; [|split; [exact counts_1|split; [exact (counts_any _ _ counts_1)|split; [exact Z|exists 1%nat; exact counts_1]]]].
      split; [reflexivity|]. split; [reflexivity|]. intros i. unfold in_node, m_left, m_none. destruct i as [|[|[|i]]]; cbn; intuition (try discriminate). all: destruct i; discriminate.
    + split; [split; reflexivity|]. split; [exact counts_2|]. split; [exact (counts_any _ _ counts_2)|]. split; [exact (counts_any _ _ counts_2)|]. exists 1%nat. exact counts_1.
  - apply Rle_trans with (bpow radix2 2); [cbn; lra|apply bpow_le; lia].
  - intros gr w. apply C120_turn_exists.
  - destruct (node_sum_exists some_rows 0 m_none ltac:(discriminate) ltac:(discriminate)) as (s & Hs). destruct (C108_draw_exists d0 d2 s d1 d1 d1) as (v & V). exists v, s. auto.
Qed.

Print Assumptions C120_ratio.
Print Assumptions C120_decision.
Print Assumptions C120_empty_side.
Print Assumptions C120_empty_leaf.
Print Assumptions C120_turn_exists.
