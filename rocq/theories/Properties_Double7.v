(** C114: a tree's turn in double precision, from the rows of the data to the decision and the leaf values. *)
From Coq Require Import ZArith Reals List Lra Lia Psatz.
From Flocq Require Import Core.Core IEEE754.BinarySingleNaN.
From Verif Require Import Base Fl Ext MData MSplit MTree MSampler Spec SpecSampler MFloat MFloat2 MFloat3 MFloat4 MFloat5 MFloat7 SpecDouble SpecDouble3 SpecDouble4 SpecDouble5 SpecDouble7
  PFloat PFloat2 PFloat3 PFloat5 PFloat6 PFloat7 PFloat8 PFloat9 PFloat10 PFloat11 PFloat12 PFloat14
  Properties_Double Properties_Drift Properties_Double2 Properties_Double3 Properties_Double4 Properties_Double5.
Import ListNotations.
Local Open Scope R_scope.

(** The sum of a node's targets: [N] rows in the data, [k] of them in the node, all numbers at most [M]. *)
Theorem C114_sum : forall M j rows mask s, usual_rows M j rows -> length mask = length rows -> node_sum_f rows j mask s ->
  finite s /\ Rabs (val s - exact_node_sum j rows mask) <= INR (length rows + 1) * INR (members mask) * M * bpow radix2 (-50).
Proof. intros M j rows mask s U L H. destruct (node_sum_ok M j rows mask s U L H) as (F & E & _). auto. Qed.
(** The sum of the right node of a new split, carried over as a difference, has about four times the error of the node's sum,
    however few rows it has. *)
Theorem C114_right_sum : forall M j rows mask maskl maskr sr, usual_rows M j rows -> length mask = length rows -> shared_out mask maskl maskr -> (1 <= members maskr)%nat ->
  right_sum_f rows j mask maskl sr ->
  finite sr /\ Rabs (val sr - exact_node_sum j rows maskr) <= INR (length rows + 2) * (2 * INR (members mask)) * M * bpow radix2 (-50).
Proof. intros M j rows mask maskl maskr sr U L S K (s & sl & A & B & ->). destruct (right_close M j rows mask maskl maskr s sl U L S K A B) as (F & E & _). auto. Qed.
(** The exact sum is that of the exact model (data.py:268-274). *)
Theorem C114_exact_sum : forall j rows mask, length mask = length rows -> masked_sum (map (exact_handed j) rows) mask = exact_node_sum j rows mask.
Proof.
  intros j rows. unfold masked_sum, exact_node_sum. induction rows as [|r rows IH]; intros [|b mask] L; try discriminate; [reflexivity|].
  injection L as L. specialize (IH mask L). unfold rsum in *. destruct b; cbn [map map2 combine filter negb snd fst fold_right] in *; rewrite IH; ring.
Qed.

(** The value drawn for a leaf. *)
Theorem C114_leaf : forall M j rows mask n nt kt sigma sm z v, usual_rows M j rows -> length mask = length rows ->
  counts n (members mask) -> counts nt kt -> moderate sigma -> moderate sm -> finite z -> Rabs (val z) <= bpow radix2 100 ->
  turn_leaf_f rows j mask n nt sigma sm z v ->
  finite v /\ Rabs (val v - exact_leaf (INR (members mask)) (INR kt) (exact_node_sum j rows mask) (val sigma) (val sm) (val z)) <=
    INR (length rows + 33) * bpow radix2 (-50) * M + bpow radix2 (-47) * (Rabs (val z) * exact_spread (INR (members mask)) (INR kt) (val sigma) (val sm)) + bpow radix2 (-1071).
Proof.
  intros M j rows mask n nt kt sigma sm z v U L Cn Ct Hs Hm Fz Hz (s & Ns & D). pose proof Cn as (_ & _ & K1 & _).
  pose proof (fresh_close M j rows mask s U L K1 Ns) as C. destruct (node_sum_ok M j rows mask s U L Ns) as (_ & _ & _ & _ & KB). pose proof U as (HM & _ & _).
  destruct (leaf_ok _ M n nt _ kt sigma sm s _ z v HM C KB Cn Ct Hs Hm Fz Hz D) as (F & E). split; [exact F|]. eapply Rle_trans; [exact E|].
  assert (PK : 1 <= INR (members mask)) by (change 1 with (INR 1); now apply le_INR).
  assert (X : sum_error (length rows) (members mask) M / INR (members mask) = INR (length rows + 1) * bpow radix2 (-50) * M) by (unfold sum_error; field; lra). rewrite X.
  assert (Y : bpow radix2 (-45) = 32 * bpow radix2 (-50)) by (change (-45)%Z with (5 + -50)%Z; rewrite bpow_plus; reflexivity). rewrite Y.
  rewrite !plus_INR. change (INR 1) with 1. replace (INR 33) with 33 by (cbn [INR]; lra). lra.
Qed.
(** The value drawn for the right leaf of a split made at this turn: the error of the carried sum is divided by the number of rows
    of that leaf only. *)
Theorem C114_right_leaf : forall M j rows mask maskl maskr n nt kt sigma sm z v, usual_rows M j rows -> length mask = length rows -> shared_out mask maskl maskr ->
  counts n (members maskr) -> counts nt kt -> moderate sigma -> moderate sm -> finite z -> Rabs (val z) <= bpow radix2 100 ->
  turn_right_leaf_f rows j mask maskl n nt sigma sm z v ->
  finite v /\ Rabs (val v - exact_leaf (INR (members maskr)) (INR kt) (exact_node_sum j rows maskr) (val sigma) (val sm) (val z)) <=
    (INR (length rows + 2) * (2 * INR (members mask)) / INR (members maskr) + 32) * bpow radix2 (-50) * M +
    bpow radix2 (-47) * (Rabs (val z) * exact_spread (INR (members maskr)) (INR kt) (val sigma) (val sm)) + bpow radix2 (-1071).
Proof.
  intros M j rows mask maskl maskr n nt kt sigma sm z v U L Sh Cn Ct Hs Hm Fz Hz (sr & (s & sl & Ns & Nl & ->) & D). pose proof Cn as (_ & _ & K1 & _).
  pose proof (right_close M j rows mask maskl maskr s sl U L Sh K1 Ns Nl) as C. pose proof U as (HM & _ & LN).
  assert (KB : INR (members maskr) <= bpow radix2 24).
  { eapply Rle_trans; [|exact LN]. apply le_INR. destruct Sh as (_ & Lr & _). pose proof (members_le maskr). lia. }
  destruct (leaf_ok _ M n nt _ kt sigma sm _ _ z v HM C KB Cn Ct Hs Hm Fz Hz D) as (F & E). split; [exact F|]. eapply Rle_trans; [exact E|].
  assert (Y : bpow radix2 (-45) = 32 * bpow radix2 (-50)) by (change (-45)%Z with (5 + -50)%Z; rewrite bpow_plus; reflexivity). rewrite Y. right. unfold Rdiv. ring.
Qed.

(** The maintained sum after the turn: it follows the new leaf value up to rounding. *)
Theorem C114_row : forall M j r v L e, 0 <= M <= bpow radix2 40 -> settled M j r -> finite v -> Rabs (val v) <= M -> Rabs (val v - L) <= e ->
  let p := fst (refresh_f (snd r) (j, v)) in
  finite p /\ Rabs (val p - (val (row_sum r) - val (row_own j r) + L)) <= e + bpow radix2 (-50) * M.
Proof.
  intros M j r v L e HM S Fv Bv E p. unfold settled in S. inversion S as [|? ? _ S1]; subst. inversion S1 as [|? ? (F2 & B2) S2]; subst. inversion S2 as [|? ? (F3 & B3) _]; subst.
  subst p. destruct r as (y & q & vs). unfold row_sum, row_own in *. cbn [fst snd refresh_f] in *. unfold finite, val in *.
  pose proof u_small as U. pose proof u_pos as U0. assert (UM : 0 <= u * M <= / 16 * M) by (split; [apply Rmult_le_pos|apply Rmult_le_compat_r]; lra).
  assert (B40 : 16 * bpow radix2 40 <= bpow radix2 44) by (change 44%Z with (4 + 40)%Z; rewrite bpow_plus; change (bpow radix2 4) with 16; lra).
  set (o := nth j vs (B754_zero false)) in *. destruct (sub_bound q o M M 44 F2 F3 B2 B3) as (G & X & A); [lra|lia|]. set (d := fsub q o) in *.
  assert (SA : Rabs (fr d + fr v) <= (1 + u) * (M + M) + M) by (eapply Rle_trans; [apply Rabs_triang|]; lra).
  assert (O : Rabs (rnd (fr d + fr v)) < big).
  { apply (rnd_fits _ (fr d + fr v) 0 44); try lia; [replace (_ - _) with 0 by ring; rewrite Rabs_R0; lra|lra]. }
  destruct (fadd_ok d v G Fv O) as (Ep & Fp). split; [exact Fp|]. rewrite Ep. pose proof (add_err _ _ (fr_format d) (fr_format v)) as Y.
  assert (u * Rabs (fr d + fr v) <= u * ((1 + u) * (M + M) + M)) by (apply Rmult_le_compat_l; lra).
  assert (UUM : u * (u * M) <= / 16 * (u * M)) by (apply Rmult_le_compat_r; lra).
  replace (rnd (fr d + fr v) - (fr q - fr o + L)) with ((rnd (fr d + fr v) - (fr d + fr v)) + (fr d - (fr q - fr o)) + (fr v - L)) by ring.
  eapply Rle_trans; [apply Rabs_triang|]. eapply Rle_trans; [apply Rplus_le_compat_r, Rabs_triang|].
  assert (Eu : 8 * u = bpow radix2 (-50)). { change 8 with (bpow radix2 3). rewrite <- bpow_plus. reflexivity. } rewrite <- Eu. lra.
Qed.

Lemma close_bound E k M s S : 0 <= M <= bpow radix2 40 -> 0 <= k <= bpow radix2 24 -> close_sum E k M s S -> Rabs (val s) <= bpow radix2 100.
Proof.
  intros HM HK (F & D & B & EK). replace (val s) with ((val s - S) + S) by ring. eapply Rle_trans; [apply Rabs_triang|].
  assert (KMB : k * M <= bpow radix2 64). { change 64%Z with (24 + 40)%Z. rewrite bpow_plus. apply Rmult_le_compat; lra. }
  assert (Big : 4 * bpow radix2 64 <= bpow radix2 100) by (change 4 with (bpow radix2 2); rewrite <- bpow_plus; apply bpow_le; lia). lra.
Qed.
Lemma error_shift alpha sigma tau k kl kr s sl sr S Sl Sr D : 0 <= D ->
  ratio_size sigma tau k kl kr s sl sr <= ratio_size sigma tau k kl kr S Sl Sr + / 2 * D ->
  ratio_error alpha sigma tau k kl kr s sl sr + / 2 * D <= ratio_error alpha sigma tau k kl kr S Sl Sr + D.
Proof.
  intros PD H. unfold ratio_error. assert (Q : bpow radix2 (-46) <= 1) by (change 1 with (bpow radix2 0); apply bpow_le; lia). pose proof (bpow_gt_0 radix2 (-46)) as P.
  assert (X : bpow radix2 (-46) * ratio_size sigma tau k kl kr s sl sr <= bpow radix2 (-46) * (ratio_size sigma tau k kl kr S Sl Sr + / 2 * D)) by (apply Rmult_le_compat_l; lra).
  assert (Y : bpow radix2 (-46) * (/ 2 * D) <= 1 * (/ 2 * D)) by (apply Rmult_le_compat_r; lra). lra.
Qed.
Lemma sums_error_pos sigma tau M N k : 0 < sigma -> 0 < tau -> 0 <= M -> 0 <= sums_error sigma tau M N k.
Proof.
  intros Ps Pt PM. unfold sums_error. apply Rmult_le_pos; [|apply Rmult_le_pos; [lra|apply Rlt_le, Rinv_0_lt_compat, Rmult_lt_0_compat; lra]].
  apply Rmult_le_pos; [|apply Rmult_le_pos; lra]. apply Rmult_le_pos; [|apply pos_INR]. apply Rmult_le_pos; [apply bpow_ge_0|apply pos_INR].
Qed.
Lemma moderate_pos x : moderate x -> 0 < val x.
Proof. intros (_ & H & _). pose proof (bpow_gt_0 radix2 (-100)). lra. Qed.
Lemma sum_error_le N k k' M : 0 <= M -> (k' <= k)%nat -> sum_error N k' M <= INR (N + 2) * INR k * M * bpow radix2 (-50).
Proof.
  intros PM H. unfold sum_error. apply Rmult_le_compat_r; [apply bpow_ge_0|]. apply Rmult_le_compat_r; [lra|].
  apply Rmult_le_compat; try apply pos_INR; apply le_INR; lia.
Qed.
Section Turn.
  Context (M : R) (j : nat) (rows : list frow) (mask maskl maskr : list bool) (alpha beta pgrow pprune sigma tau n nl nr : b64).
  Hypothesis U : usual_rows M j rows.
  Hypothesis L : length mask = length rows.
  Hypothesis Sh : shared_out mask maskl maskr.
  Hypothesis Us : usual_settings alpha beta pgrow pprune.
  Hypothesis Hs : moderate sigma.
  Hypothesis Ht : moderate tau.
  Hypothesis Cn : counts n (members mask).
  Hypothesis Cl : counts nl (members maskl).
  Hypothesis Cr : counts nr (members maskr).
  Let ratio_S := exact_ratio (val sigma) (val tau) (INR (members mask)) (INR (members maskl)) (INR (members maskr)) (exact_node_sum j rows mask) (exact_node_sum j rows maskl) (exact_node_sum j rows maskr).
  Let err := ratio_error (val alpha) (val sigma) (val tau) (INR (members mask)) (INR (members maskl)) (INR (members maskr)) (exact_node_sum j rows mask) (exact_node_sum j rows maskl) (exact_node_sum j rows maskr) +
    sums_error (val sigma) (val tau) M (length rows) (members mask).
  Lemma members_bound m : length m = length rows -> 0 <= INR (members m) <= bpow radix2 24.
  Proof using U. intros H. split; [apply pos_INR|]. destruct U as (_ & _ & LN). eapply Rle_trans; [|exact LN]. apply le_INR. rewrite <- H. apply members_le. Qed.
  (** from sums that are close to the exact ones to the decision *)
  Lemma close_decision (gr : bool) E El Er s sl sr a r c w f : close_sum E (INR (members mask)) M s (exact_node_sum j rows mask) -> close_sum El (INR (members maskl)) M sl (exact_node_sum j rows maskl) ->
    close_sum Er (INR (members maskr)) M sr (exact_node_sum j rows maskr) -> E + El + Er <= 4 * (INR (length rows + 2) * INR (members mask) * M * bpow radix2 (-50)) ->
    (forall x y, Rabs (f x - f y) = Rabs (x - y)) ->
    (usual_split sigma tau n nl nr s sl sr (members mask) (members maskl) (members maskr) ->
      finite (ratio_f gr a r c) /\
      Rabs (val (ratio_f gr a r c) - f (exact_ratio (val sigma) (val tau) (INR (members mask)) (INR (members maskl)) (INR (members maskr)) (val s) (val sl) (val sr))) <=
      ratio_error (val alpha) (val sigma) (val tau) (INR (members mask)) (INR (members maskl)) (INR (members maskr)) (val s) (val sl) (val sr)) ->
    finite w -> err < Rabs (val w - f ratio_S) -> accepted_f w gr a r c = accepts (val w) (XFin (f ratio_S)).
  Proof using U L Sh Hs Ht Cn Cl Cr.
    intros A Al Ar EE Hf H Fw G. pose proof U as (HM & _ & _). pose proof Sh as (Ll & Lr & _). pose proof Cn as (_ & _ & K1 & _). pose proof Cl as (_ & _ & K2 & _). pose proof Cr as (_ & _ & K3 & _).
    destruct H as (F & X).
    { unfold usual_split. pose proof (proj1 A). pose proof (proj1 Al). pose proof (proj1 Ar).
      pose proof (close_bound _ _ _ _ _ HM (members_bound mask L) A). pose proof (close_bound _ _ _ _ _ HM (members_bound maskl ltac:(lia)) Al). pose proof (close_bound _ _ _ _ _ HM (members_bound maskr ltac:(lia)) Ar). auto 20. }
    pose proof (moderate_pos _ Hs) as Ps. pose proof (moderate_pos _ Ht) as Pt.
    destruct (ratio_shift M (length rows) (val sigma) (val tau) _ _ _ s sl sr _ _ _ E El Er (proj1 HM) Ps Pt K1 K2 K3 A Al Ar EE) as (D1 & D2).
    pose proof (error_shift (val alpha) _ _ _ _ _ _ _ _ _ _ _ _ (sums_error_pos (val sigma) (val tau) M (length rows) (members mask) Ps Pt (proj1 HM)) D2) as ES.
    apply (C112_decision gr w a r c (f ratio_S) err Fw F); [|exact G]. unfold err.
    match type of X with Rabs (?x - ?y) <= _ => replace (x - f ratio_S) with ((x - y) + (y - f ratio_S)) by ring end.
    eapply Rle_trans; [apply Rabs_triang|]. rewrite Hf. unfold ratio_S. lra.
  Qed.

  (** A grow is accepted exactly if exact arithmetic on the rows would accept it, unless the draw [w] is within the error of the
      exact ratio. *)
  Lemma grow_turn : forall np1 ns nv cnt d1 d2 knp ks kv kc depth w acc,
    counts np1 (S knp) -> counts ns ks -> counts nv kv -> counts cnt kc -> counts d1 (S depth) -> counts d2 (S (S depth)) -> (depth <= 1022)%nat -> finite w ->
    turn_grow_f rows j mask maskl alpha beta pgrow pprune sigma tau n nl nr np1 ns nv cnt d1 d2 w acc ->
    let exact := exact_grow (val pgrow) (val pprune) (val alpha) (val beta) knp depth ratio_S in
    err < Rabs (val w - exact) -> acc = accepts (val w) (XFin exact).
  Proof using U L Sh Us Hs Ht Cn Cl Cr.
    intros np1 ns nv cnt d1 d2 knp ks kv kc depth w acc C1 C2 C3 C4 D1 D2 Dp Fw (s & sl & a & r & c & Ns & Nl & Ta & Li & Tc & ->) exact G.
    pose proof Sh as (Ll & Lr & _). pose proof Cn as (_ & _ & K1 & _). pose proof Cl as (_ & _ & K2 & _). pose proof Cr as (_ & _ & K3 & _). pose proof U as (HM & _ & _).
    destruct (share_sums j rows mask maskl maskr L Sh) as (_ & EK).
    apply (close_decision true _ _ _ s sl (fsub s sl) a r c w (exact_grow (val pgrow) (val pprune) (val alpha) (val beta) knp depth)
      (fresh_close M j rows mask s U L K1 Ns) (fresh_close M j rows maskl sl U ltac:(lia) K2 Nl) (right_close M j rows mask maskl maskr s sl U L Sh K3 Ns Nl)); auto.
    - pose proof (sum_error_le (length rows) (members mask) (members mask) M (proj1 HM) ltac:(lia)). pose proof (sum_error_le (length rows) (members mask) (members maskl) M (proj1 HM) ltac:(lia)). lra.
    - intros x y. unfold exact_grow. f_equal. ring.
    - intros Up. exact (C112_grow _ _ _ _ _ _ _ _ _ _ _ _ _ _ _ _ _ _ _ _ _ _ _ _ _ _ _ _ _ Us Up C1 C2 C3 C4 D1 D2 Dp Ta Li Tc).
  Qed.
  (** The same for a prune, with more than one splittable leaf. *)
  Lemma prune_turn : forall ns1 np nv cnt d1 d2 kns knp kv kc depth w acc,
    counts ns1 kns -> counts np knp -> counts nv kv -> counts cnt kc -> counts d1 (S depth) -> counts d2 (S (S depth)) -> (depth <= 1022)%nat -> finite w ->
    turn_prune_f rows j mask maskl maskr alpha beta pgrow pprune sigma tau n nl nr (Some ns1) np nv cnt d1 d2 w acc ->
    let exact := exact_prune (val pgrow) (val pprune) (val alpha) (val beta) kns knp depth ratio_S in
    err < Rabs (val w - exact) -> acc = accepts (val w) (XFin exact).
  Proof using U L Sh Us Hs Ht Cn Cl Cr.
    intros ns1 np nv cnt d1 d2 kns knp kv kc depth w acc C1 C2 C3 C4 D1 D2 Dp Fw (s & sl & sr & a & r & c & Ns & Nl & Nr & Ta & Li & Tc & ->) exact G.
    pose proof Sh as (Ll & Lr & _). pose proof Cn as (_ & _ & K1 & _). pose proof Cl as (_ & _ & K2 & _). pose proof Cr as (_ & _ & K3 & _). pose proof U as (HM & _ & _).
    destruct (share_sums j rows mask maskl maskr L Sh) as (_ & EK).
    apply (close_decision false _ _ _ s sl sr a r c w (exact_prune (val pgrow) (val pprune) (val alpha) (val beta) kns knp depth)
      (fresh_close M j rows mask s U L K1 Ns) (fresh_close M j rows maskl sl U ltac:(lia) K2 Nl) (fresh_close M j rows maskr sr U ltac:(lia) K3 Nr)); auto.
    - pose proof (sum_error_le (length rows) (members mask) (members mask) M (proj1 HM) ltac:(lia)). pose proof (sum_error_le (length rows) (members mask) (members maskl) M (proj1 HM) ltac:(lia)).
      pose proof (sum_error_le (length rows) (members mask) (members maskr) M (proj1 HM) ltac:(lia)). assert (0 <= INR (length rows + 2) * INR (members mask) * M * bpow radix2 (-50)).
      { apply Rmult_le_pos; [|apply bpow_ge_0]. apply Rmult_le_pos; [|lra]. apply Rmult_le_pos; apply pos_INR. } lra.
    - intros x y. unfold exact_prune. rewrite <- Rabs_Ropp. f_equal. ring.
    - intros Up. exact (C112_prune _ _ _ _ _ _ _ _ _ _ _ _ _ _ _ _ _ _ _ _ _ _ _ _ _ _ _ _ _ Us Up C1 C2 C3 C4 D1 D2 Dp Ta Li Tc).
  Qed.
End Turn.
(** A grow is accepted exactly if exact arithmetic on the rows would accept it, unless the draw [w] is within the error of the
    exact ratio.  [mask], [maskl], [maskr]: the node and the two nodes below it. *)
Theorem C114_grow : forall M j rows mask maskl maskr alpha beta pgrow pprune sigma tau n nl nr np1 ns nv cnt d1 d2 knp ks kv kc depth w acc,
  usual_rows M j rows -> length mask = length rows -> shared_out mask maskl maskr ->
  usual_settings alpha beta pgrow pprune -> moderate sigma -> moderate tau ->
  counts n (members mask) -> counts nl (members maskl) -> counts nr (members maskr) ->
  counts np1 (S knp) -> counts ns ks -> counts nv kv -> counts cnt kc -> counts d1 (S depth) -> counts d2 (S (S depth)) -> (depth <= 1022)%nat -> finite w ->
  turn_grow_f rows j mask maskl alpha beta pgrow pprune sigma tau n nl nr np1 ns nv cnt d1 d2 w acc ->
  let of_rows (f : R -> R -> R -> R -> R -> R -> R) :=
    f (INR (members mask)) (INR (members maskl)) (INR (members maskr)) (exact_node_sum j rows mask) (exact_node_sum j rows maskl) (exact_node_sum j rows maskr) in
  let exact := exact_grow (val pgrow) (val pprune) (val alpha) (val beta) knp depth (of_rows (exact_ratio (val sigma) (val tau))) in
  of_rows (ratio_error (val alpha) (val sigma) (val tau)) + sums_error (val sigma) (val tau) M (length rows) (members mask) < Rabs (val w - exact) ->
  acc = accepts (val w) (XFin exact).
Proof.
  intros M j rows mask maskl maskr alpha beta pgrow pprune sigma tau n nl nr np1 ns nv cnt d1 d2 knp ks kv kc depth w acc U L Sh Us Hs Ht Cn Cl Cr C1 C2 C3 C4 D1 D2 Dp Fw T of_rows exact G.
  exact (grow_turn M j rows mask maskl maskr alpha beta pgrow pprune sigma tau n nl nr U L Sh Us Hs Ht Cn Cl Cr np1 ns nv cnt d1 d2 knp ks kv kc depth w acc C1 C2 C3 C4 D1 D2 Dp Fw T G).
Qed.
(** The same for a prune, when the node to be pruned is not the only splittable one. *)
Theorem C114_prune : forall M j rows mask maskl maskr alpha beta pgrow pprune sigma tau n nl nr ns1 np nv cnt d1 d2 kns knp kv kc depth w acc,
  usual_rows M j rows -> length mask = length rows -> shared_out mask maskl maskr ->
  usual_settings alpha beta pgrow pprune -> moderate sigma -> moderate tau ->
  counts n (members mask) -> counts nl (members maskl) -> counts nr (members maskr) ->
  counts ns1 kns -> counts np knp -> counts nv kv -> counts cnt kc -> counts d1 (S depth) -> counts d2 (S (S depth)) -> (depth <= 1022)%nat -> finite w ->
  turn_prune_f rows j mask maskl maskr alpha beta pgrow pprune sigma tau n nl nr (Some ns1) np nv cnt d1 d2 w acc ->
  let of_rows (f : R -> R -> R -> R -> R -> R -> R) :=
    f (INR (members mask)) (INR (members maskl)) (INR (members maskr)) (exact_node_sum j rows mask) (exact_node_sum j rows maskl) (exact_node_sum j rows maskr) in
  let exact := exact_prune (val pgrow) (val pprune) (val alpha) (val beta) kns knp depth (of_rows (exact_ratio (val sigma) (val tau))) in
  of_rows (ratio_error (val alpha) (val sigma) (val tau)) + sums_error (val sigma) (val tau) M (length rows) (members mask) < Rabs (val w - exact) ->
  acc = accepts (val w) (XFin exact).
Proof.
  intros M j rows mask maskl maskr alpha beta pgrow pprune sigma tau n nl nr ns1 np nv cnt d1 d2 kns knp kv kc depth w acc U L Sh Us Hs Ht Cn Cl Cr C1 C2 C3 C4 D1 D2 Dp Fw T of_rows exact G.
  exact (prune_turn M j rows mask maskl maskr alpha beta pgrow pprune sigma tau n nl nr U L Sh Us Hs Ht Cn Cl Cr ns1 np nv cnt d1 d2 kns knp kv kc depth w acc C1 C2 C3 C4 D1 D2 Dp Fw T G).
Qed.

(** *** there are such turns *)
Lemma node_sum_exists rows j mask : rows <> [] -> mask <> [] -> exists s, node_sum_f rows j mask s.
Proof. intros A B. apply any_sum. destruct rows as [|r rows]; [congruence|]. destruct mask as [|b mask]; [congruence|]. discriminate. Qed.
(** Whatever the rows are, the turn yields a decision and leaf values. *)
Theorem C114_turn_exists : forall rows j mask maskl maskr alpha beta pgrow pprune sigma tau n nl nr np1 ns ns1 np nv cnt d1 d2 w nt sm z, rows <> [] -> mask <> [] -> maskl <> [] -> maskr <> [] ->
  (exists acc, turn_grow_f rows j mask maskl alpha beta pgrow pprune sigma tau n nl nr np1 ns nv cnt d1 d2 w acc) /\
  (exists acc, turn_prune_f rows j mask maskl maskr alpha beta pgrow pprune sigma tau n nl nr ns1 np nv cnt d1 d2 w acc) /\
  (exists v, turn_leaf_f rows j mask n nt sigma sm z v) /\ (exists v, turn_right_leaf_f rows j mask maskl n nt sigma sm z v).
Proof.
  intros rows j mask maskl maskr alpha beta pgrow pprune sigma tau n nl nr np1 ns ns1 np nv cnt d1 d2 w nt sm z A B C D.
  destruct (node_sum_exists rows j mask A B) as (s & Hs). destruct (node_sum_exists rows j maskl A C) as (sl & Hl). destruct (node_sum_exists rows j maskr A D) as (sr & Hr).
  destruct (C112_value_exists alpha beta pgrow pprune np1 ns ns1 np nv cnt n d1 d2) as ((a & Ha) & (c & Hc) & (a' & Ha') & (c' & Hc')).
  destruct (C111_value_exists sigma tau n nl nr s sl (fsub s sl)) as (r & R1). destruct (C111_value_exists sigma tau n nl nr s sl sr) as (r' & R2).
  destruct (C108_draw_exists n nt s sigma sm z) as (v & V). destruct (C108_draw_exists n nt (fsub s sl) sigma sm z) as (v' & V').
  split; [|split; [|split]].
  - eexists. exists s, sl, a, r, c. auto 10.
  - eexists. exists s, sl, sr, a', r', c'. auto 10.
  - exists v, s. auto.
  - exists v', (fsub s sl). split; [exists s, sl; auto|exact V'].
Qed.

(** three rows, two trees; the first tree splits off the first row.  All hypotheses of the theorems above hold. *)
Definition some_rows : list frow := [(d1, (d2, [d1; d1])); (d3, (d1, [d2; dm1])); (dm1, (d3, [d1; d2]))].
Definition m_all : list bool := [false; false; false].
Definition m_left : list bool := [false; true; true].
Definition m_right : list bool := [true; false; false].
Lemma val_dm1 : val dm1 = -1.
Proof. unfold val, dm1, d_of, B2R, F2R; cbn; lra. Qed.
Lemma some_rows_usual : usual_rows 3 0 some_rows.
Proof.
  split; [|split].
  - assert (bpow radix2 2 <= bpow radix2 40) by (apply bpow_le; lia). change (bpow radix2 2) with 4 in *. lra.
  - repeat constructor; unfold row_target, row_sum, row_own; cbn [fst snd nth]; rewrite ?(val_d1 : val d1 = 1), ?val_d2, ?val_d3', ?val_dm1; unfold Rabs; destruct (Rcase_abs _); lra.
  - assert (bpow radix2 2 <= bpow radix2 24) by (apply bpow_le; lia). change (bpow radix2 2) with 4 in *. cbn [some_rows length INR]. lra.
Qed.
Lemma some_masks : shared_out m_all m_left m_right.
Proof.
  split; [reflexivity|]. split; [reflexivity|]. intros i. unfold in_node, m_all, m_left, m_right.
  destruct i as [|[|[|i]]]; cbn; intuition (try discriminate). all: destruct i; discriminate.
Qed.
Lemma some_sums : exact_node_sum 0 some_rows m_all = 1 /\ exact_node_sum 0 some_rows m_left = 0 /\ exact_node_sum 0 some_rows m_right = 1.
Proof.
  unfold exact_node_sum, exact_handed, row_target, row_sum, row_own, some_rows, m_all, m_left, m_right. cbn [combine filter negb snd fst map fold_right nth].
  rewrite ?(val_d1 : val d1 = 1), ?val_d2, ?val_d3', ?val_dm1. lra.
Qed.
Lemma ln_small x : / 8 <= x <= 8 -> Rabs (ln x) <= 7.
Proof.
  intros (A & B). assert (P : 0 < x) by lra.
  assert (H : forall y, 0 < y -> ln y <= y - 1).
  { intros y Py. pose proof (exp_ineq1_le (ln y)) as E. rewrite exp_ln in E by exact Py. lra. }
  pose proof (H x P). pose proof (H (/ x) (Rinv_0_lt_compat _ P)) as I. rewrite ln_Rinv in I by exact P.
  assert (/ x <= 8). { replace 8 with (/ / 8) by lra. apply Rinv_le_contravar; lra. }
  apply Rabs_le. lra.
Qed.

Lemma some_ratio : let exact := exact_grow (/ 2) (/ 2) (/ 2) 2 0 0 (exact_ratio 1 1 3 1 2 1 0 1) in
  Rabs exact <= 100 /\ ratio_error (/ 2) 1 1 3 1 2 1 0 1 + sums_error 1 1 3 3 3 <= 100.
Proof.
  assert (W : weight 1 1 3 1 = / 8 /\ weight 1 1 1 0 = 0 /\ weight 1 1 2 1 = / 6) by (unfold weight; repeat split; field). destruct W as (W1 & W2 & W3).
  assert (CP : Rabs (counts_part 1 1 3 1 2) <= 7).
  { unfold counts_part. replace (1 * 1 * (1 * 1 + 3 * 1) / ((1 * 1 + 1 * (1 * 1)) * (1 * 1 + 2 * (1 * 1)))) with (2 / 3) by field. apply ln_small. split.
    - rewrite <- (sqrt_Rsqr (/ 8)) by lra. apply sqrt_le_1_alt. unfold Rsqr. lra.
    - rewrite <- (sqrt_Rsqr 8) by lra. apply sqrt_le_1_alt. unfold Rsqr. lra. }
  assert (SO : Rabs (log_structure_odds (/ 2) 2 0) <= 40).
  { assert (Q0 : split_probability (/ 2) 2 0 = / 2).
    { unfold split_probability. replace (1 + INR 0) with 1 by (cbn [INR]; lra). unfold Rpower. rewrite ln_1, Rmult_0_r, exp_0. lra. }
    assert (Q1 : split_probability (/ 2) 2 1 = / 8).
    { unfold split_probability. replace (1 + INR 1) with 2 by (cbn [INR]; lra). rewrite Rpower_Ropp. replace 2 with (INR 2) at 3 by (cbn [INR]; lra). rewrite Rpower_pow by lra. cbn [pow]. field. }
    unfold log_structure_odds. cbv zeta. rewrite Q0, Q1. pose proof (ln_small (1 - / 8) ltac:(lra)) as A. pose proof (ln_small (/ 2) ltac:(lra)) as B. pose proof (ln_small (1 - / 2) ltac:(lra)) as C.
    apply Rabs_le_inv in A. apply Rabs_le_inv in B. apply Rabs_le_inv in C. apply Rabs_le. lra. }
  assert (Hb : forall k, (k <= 0)%Z -> bpow radix2 k <= 1) by (intros k Hk; change 1 with (bpow radix2 0); apply bpow_le; lia).
  cbv zeta. split.
  - unfold exact_grow, exact_ratio, sums_part. rewrite W1, W2, W3. cbn [INR]. replace (/ 2 / / 2) with 1 by field. rewrite ln_1.
    revert CP SO. generalize (counts_part 1 1 3 1 2) (log_structure_odds (/ 2) 2 0). intros a b A B. apply Rabs_le. apply Rabs_le_inv in A. apply Rabs_le_inv in B. lra.
  - unfold ratio_error, ratio_size, sums_error. rewrite W1, W2, W3. pose proof (Hb (-46)%Z ltac:(lia)) as B1. pose proof (Hb (-45)%Z ltac:(lia)) as B2. pose proof (Hb (-36)%Z ltac:(lia)) as B3.
    pose proof (bpow_gt_0 radix2 (-46)) as P1. pose proof (bpow_gt_0 radix2 (-45)) as P2. assert (B2' : bpow radix2 (-45) <= / 32) by (replace (/ 32) with (bpow radix2 (-5)) by (cbn; lra); apply bpow_le; lia).
    revert CP. generalize (Rabs (counts_part 1 1 3 1 2)). intros a A. cbn [INR plus]. replace (1 - / 2) with (/ 2) by lra. unfold Rdiv. rewrite Rinv_inv.
    assert (bpow radix2 (-46) * (1 + a + (0 + / 6 + / 8)) <= 1 * (1 + 7 + (0 + / 6 + / 8))). { destruct (Rle_dec 0 (1 + a + (0 + / 6 + / 8))); [apply Rmult_le_compat; lra|]. apply Rle_trans with 0; [|lra]. nra. } 
    replace (1 * / (1 * 1)) with 1 by field. lra.
Qed.

(** and the draw 2^60 is far from the ratio, so the decision is that of exact arithmetic *)
Example C114_case : usual_rows 3 0 some_rows /\ shared_out m_all m_left m_right /\ usual_settings half_f d2 half_f half_f /\
  exact_node_sum 0 some_rows m_all = 1 /\ exact_node_sum 0 some_rows m_left = 0 /\ exact_node_sum 0 some_rows m_right = 1 /\
  members m_all = 3%nat /\ members m_left = 1%nat /\ members m_right = 2%nat /\
  (exists v, turn_leaf_f some_rows 0 m_left d1 d2 d1 d1 d1 v) /\ (exists v, turn_right_leaf_f some_rows 0 m_all m_left d2 d2 d1 d1 d1 v) /\
  (exists acc, turn_grow_f some_rows 0 m_all m_left half_f d2 half_f half_f d1 d1 d3 d1 d2 d1 d1 d2 d1 d1 d2 d60 acc) /\
  forall acc, turn_grow_f some_rows 0 m_all m_left half_f d2 half_f half_f d1 d1 d3 d1 d2 d1 d1 d2 d1 d1 d2 d60 acc ->
    acc = accepts (val d60) (XFin (exact_grow (/ 2) (/ 2) (/ 2) 2 0 0 (exact_ratio 1 1 3 1 2 1 0 1))).
Proof.
  destruct some_sums as (S1 & S2 & S3). destruct C112_case as (Us & _ & C1 & C2 & _).
  destruct (C114_turn_exists some_rows 0 m_all m_left m_right half_f d2 half_f half_f d1 d1 d3 d1 d2 d1 d1 None d1 d2 d1 d1 d2 d60 d2 d1 d1 ltac:(discriminate) ltac:(discriminate) ltac:(discriminate) ltac:(discriminate)) as (G & _ & _ & _).
  destruct (C114_turn_exists some_rows 0 m_left m_left m_right half_f d2 half_f half_f d1 d1 d1 d1 d2 d1 d1 None d1 d2 d1 d1 d2 d60 d2 d1 d1 ltac:(discriminate) ltac:(discriminate) ltac:(discriminate) ltac:(discriminate)) as (_ & _ & V & _).
  destruct (C114_turn_exists some_rows 0 m_all m_left m_right half_f d2 half_f half_f d1 d1 d2 d1 d2 d1 d1 None d1 d2 d1 d1 d2 d60 d2 d1 d1 ltac:(discriminate) ltac:(discriminate) ltac:(discriminate) ltac:(discriminate)) as (_ & _ & _ & V').
  do 9 (split; [solve [auto using some_rows_usual, some_masks | reflexivity]|]). split; [exact V|]. split; [exact V'|]. split; [exact G|]. clear G V V'.
  intros acc T.
  assert (V1 : val d1 = 1) by exact val_d1. assert (Vh : val half_f = / 2) by exact half_val.
  pose proof (C114_grow 3 0 some_rows m_all m_left m_right half_f d2 half_f half_f d1 d1 d3 d1 d2 d1 d1 d2 d1 d1 d2 0 1 2 1 0 d60 acc some_rows_usual eq_refl some_masks Us moderate_1 moderate_1 counts_3 C1 C2 C1 C1 C2 C1 C1 C2 ltac:(lia) eq_refl T) as X.
  cbv zeta in X. rewrite Vh, V1, val_d2, S1, S2, S3 in X. change (members m_all) with 3%nat in X. change (members m_left) with 1%nat in X. change (members m_right) with 2%nat in X. change (length some_rows) with 3%nat in X.
  replace (INR 3) with 3 in X by (cbn [INR]; lra). replace (INR 2) with 2 in X by (cbn [INR]; lra). change (INR 1) with 1 in X. apply X. clear X T.
  destruct some_ratio as (A & B). eapply Rle_lt_trans; [exact B|]. apply Rabs_le_inv in A.
  assert (W : 200 < val d60). { rewrite val_d60. apply Rlt_le_trans with (bpow radix2 8); [change (bpow radix2 8) with 256; lra|apply bpow_le; lia]. }
  eapply Rlt_le_trans; [|apply Rle_abs]. lra.
Qed.

Print Assumptions C114_sum.
Print Assumptions C114_right_sum.
Print Assumptions C114_exact_sum.
Print Assumptions C114_leaf.
Print Assumptions C114_right_leaf.
Print Assumptions C114_row.
Print Assumptions C114_grow.
Print Assumptions C114_prune.
Print Assumptions C114_turn_exists.
