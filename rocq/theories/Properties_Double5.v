(** C112: the whole acceptance ratio of a proposal in double precision. *)
From Coq Require Import ZArith Reals List Lra Lia Psatz.
From Flocq Require Import Core.Core IEEE754.BinarySingleNaN.
From Verif Require Import Base Fl Ext MData MSplit MTree MSampler MScalar MHist MTreeHist Spec PSampler SpecSampler MFloat MFloat2 MFloat3 MFloat4 MFloat5 SpecDouble SpecDouble3 SpecDouble4 SpecDouble5
  PFloat PFloat2 PFloat3 PFloat5 PFloat6 PFloat7 PFloat8 PFloat9 PFloat10 PFloat11 PFloat12
  Properties_Double Properties_Drift Properties_Double2 Properties_Double3 Properties_Double4 SpecTree Properties_Tree Properties_Sampler.
Import ListNotations.
Local Open Scope R_scope.

Lemma odds_form alpha beta k : log_structure_odds alpha beta k =
  ln (1 - alpha * Rpower (INR (S (S k))) (- beta)) + ln (1 - alpha * Rpower (INR (S (S k))) (- beta)) + ln (alpha * Rpower (INR (S k)) (- beta)) - ln (1 - alpha * Rpower (INR (S k)) (- beta)).
Proof. unfold log_structure_odds, split_probability. cbv zeta. rewrite !(Rplus_comm 1), <- !S_INR. reflexivity. Qed.

(** The log acceptance ratio of a grow, as computed, is finite and close to the exact one, in which the probability of the chosen
    cut cancels: [np1] is the number of prunable nodes plus 1, [ns] the number of splittable leaves, [nv] of splittable columns,
    [cnt] the number of rows with the chosen value, [d1] and [d2] are 1 and 2 more than the depth. *)
Theorem C112_grow : forall alpha beta pgrow pprune sigma tau n nl nr s sl sr k kl kr np1 ns nv cnt d1 d2 knp ks kv kc depth a r c,
  usual_settings alpha beta pgrow pprune -> usual_split sigma tau n nl nr s sl sr k kl kr ->
  counts np1 (S knp) -> counts ns ks -> counts nv kv -> counts cnt kc -> counts d1 (S depth) -> counts d2 (S (S depth)) -> (depth <= 1022)%nat ->
  grow_transition_f pgrow pprune np1 ns nv cnt n a -> likelihood_f sigma tau n nl nr s sl sr r -> grow_tree_f alpha beta d1 d2 ns nv cnt n c ->
  finite (ratio_f true a r c) /\
  Rabs (val (ratio_f true a r c) -
        exact_grow (val pgrow) (val pprune) (val alpha) (val beta) knp depth (exact_ratio (val sigma) (val tau) (INR k) (INR kl) (INR kr) (val s) (val sl) (val sr))) <=
    ratio_error (val alpha) (val sigma) (val tau) (INR k) (INR kl) (INR kr) (val s) (val sl) (val sr).
Proof.
  intros alpha beta pgrow pprune sigma tau n nl nr s sl sr k kl kr np1 ns nv cnt d1 d2 knp ks kv kc depth a r c Us Up C1 Cs Cv Cc D1 D2 Dp La Lr Lc.
  pose proof Up as (_ & _ & Cn & _).
  pose proof (grow_transition_ok _ _ _ _ Us _ _ _ _ _ _ _ _ _ _ _ C1 Cs Cv Cc Cn La) as A.
  pose proof (grow_tree_ok _ _ _ _ Us _ _ _ _ _ _ _ _ _ _ _ _ D1 D2 ltac:(lia) Cs Cv Cc Cn Lc) as C.
  destruct (whole_ok _ _ _ _ Us true _ _ _ _ _ _ _ _ _ _ _ _ _ _ _ _ Up A C Lr) as (F & E). split; [exact F|].
  unfold exact_grow. rewrite odds_form. match type of E with Rabs (_ - ?y) <= _ => match goal with |- Rabs (_ - ?z) <= _ => replace z with y; [exact E|] end end. unfold val. ring.
Qed.
(** The same for a prune; [ns1] is the number of splittable leaves minus 1, [np] the number of prunable nodes. *)
Theorem C112_prune : forall alpha beta pgrow pprune sigma tau n nl nr s sl sr k kl kr ns1 np nv cnt d1 d2 kns knp kv kc depth a r c,
  usual_settings alpha beta pgrow pprune -> usual_split sigma tau n nl nr s sl sr k kl kr ->
  counts ns1 kns -> counts np knp -> counts nv kv -> counts cnt kc -> counts d1 (S depth) -> counts d2 (S (S depth)) -> (depth <= 1022)%nat ->
  prune_transition_f pgrow pprune (Some ns1) np nv cnt n a -> likelihood_f sigma tau n nl nr s sl sr r -> prune_tree_f alpha beta d1 d2 nv cnt n c ->
  finite (ratio_f false a r c) /\
  Rabs (val (ratio_f false a r c) -
        exact_prune (val pgrow) (val pprune) (val alpha) (val beta) kns knp depth (exact_ratio (val sigma) (val tau) (INR k) (INR kl) (INR kr) (val s) (val sl) (val sr))) <=
    ratio_error (val alpha) (val sigma) (val tau) (INR k) (INR kl) (INR kr) (val s) (val sl) (val sr).
Proof.
  intros alpha beta pgrow pprune sigma tau n nl nr s sl sr k kl kr ns1 np nv cnt d1 d2 kns knp kv kc depth a r c Us Up C1 Cs Cv Cc D1 D2 Dp La Lr Lc.
  pose proof Up as (_ & _ & Cn & _).
  pose proof (prune_transition_ok _ _ _ _ Us _ _ _ _ _ _ _ _ _ _ _ C1 Cs Cv Cc Cn La) as A.
  pose proof (prune_tree_ok _ _ _ _ Us _ _ _ _ _ _ _ _ _ _ D1 D2 ltac:(lia) Cv Cc Cn Lc) as C.
  destruct (whole_ok _ _ _ _ Us false _ _ _ _ _ _ _ _ _ _ _ _ _ _ _ _ Up A C Lr) as (F & E). split; [exact F|].
  unfold exact_prune. rewrite odds_form. match type of E with Rabs (_ - ?y) <= _ => match goal with |- Rabs (_ - ?z) <= _ => replace z with y; [exact E|] end end. unfold val. ring.
Qed.

(** A ratio that close to the exact one leads to the same decision, unless the draw is within the error of the exact ratio. *)
Theorem C112_decision : forall (grow : bool) w a r c exact error,
  finite w -> finite (ratio_f grow a r c) -> Rabs (val (ratio_f grow a r c) - exact) <= error -> error < Rabs (val w - exact) ->
  accepted_f w grow a r c = accepts (val w) (XFin exact).
Proof.
  intros gr w a r c ex er Fw Fr E G. unfold accepted_f. apply abs_interval in E. apply Bool.eq_iff_eq_true. rewrite (fless_finite w _ Fw Fr). unfold accepts. cbn [xltb].
  unfold val in *. destruct (Rlt_dec (fr w) ex) as [L|L].
  - rewrite Rabs_left in G by lra. split; [reflexivity|]. intros _. lra.
  - rewrite Rabs_pos_eq in G by lra. split; [lra|discriminate].
Qed.

(** The exact ratios are those of the exact model, for every proposal in every tree that can be reached (C36). *)
Theorem C112_exact_model_grow : forall X y normalize h0 os h t idx m h1 idx1 sigma p,
  no_nan X -> tree_reached X y normalize h0 os h t -> sample_grow_mutation h t idx = Ok (m, h1, idx1) -> 0 < sigma -> usual p ->
  exists x nd, log_likihood_ratio h1 m sigma p = Ok (XFin x) /\ h_get h (mu_existing m) = Some nd /\
    log_probability_ratio h1 t m sigma p =
    Ok (XFin (exact_grow (pa_pgrow p) (pa_pprune p) (pa_alpha p) (pa_beta p) (length (prunable_decision_nodes h t)) (nd_depth nd) x)).
Proof.
  intros X y nrm h0 os h t idx m h1 idx1 sigma p Hn Hr Hg Hs Hp. destruct (C36_grow _ _ _ _ _ _ _ _ _ _ _ sigma p Hn Hr Hg Hs Hp) as (L & nd & A & B & C).
  exists L, nd. split; [exact A|]. split; [exact B|]. rewrite C. unfold exact_grow. now rewrite S_INR.
Qed.
Theorem C112_exact_model_prune : forall X y normalize h0 os h t idx m h1 idx1 sigma p ns,
  no_nan X -> mx_rows X <> [] -> tree_reached X y normalize h0 os h t -> Forall proposed_op os -> sample_prune_mutation h t idx = Ok (m, h1, idx1) ->
  length (splittable_leaf_nodes h t) = S ns -> (1 <= ns)%nat -> 0 < sigma -> usual p ->
  exists x nd, log_likihood_ratio h1 m sigma p = Ok (XFin (- x)) /\ h_get h (mu_existing m) = Some nd /\
    log_probability_ratio h1 t m sigma p =
    Ok (XFin (exact_prune (pa_pgrow p) (pa_pprune p) (pa_alpha p) (pa_beta p) ns (length (prunable_decision_nodes h t)) (nd_depth nd) x)).
Proof.
  intros X y nrm h0 os h t idx m h1 idx1 sigma p ns Hn Hne Hr Hpo Hg Hns H1 Hs Hp.
  destruct (C36_prune _ _ _ _ _ _ _ _ _ _ _ sigma p Hn Hne Hr Hpo Hg ltac:(lia) Hs Hp) as (L & nd & A & B & C).
  exists (- L), nd. rewrite Ropp_involutive. split; [exact A|]. split; [exact B|]. rewrite C, Hns, S_INR. unfold exact_prune. do 2 f_equal. replace (INR ns + 1 - 1) with (INR ns) by ring. ring.
Qed.

(** With exactly one splittable leaf the ratio of a prune is -inf or NaN in double precision too (C38). *)
Theorem C112_one_leaf : forall alpha beta pgrow pprune np nv cnt n kp kv kc kn a,
  usual_settings alpha beta pgrow pprune -> counts np kp -> counts nv kv -> counts cnt kc -> counts n kn ->
  prune_transition_f pgrow pprune None np nv cnt n a -> forall w r c, accepted_f w false a r c = false.
Proof.
  intros alpha beta pgrow pprune np nv cnt n kp kv kc kn a Us Cp Cv Cc Cn (gn & sp & lp & lr & -> & Ls & Lp & Lr & ->) w r c.
  destruct (within_node_ok _ _ _ _ _ _ _ Cv Cc Cn Ls) as (Fs & _). destruct (log_count _ _ _ Cp Lp) as (Fp & _). destruct (prob_ok _ _ _ _ Us) as (F0 & B0 & F1 & B1).
  destruct (log_odds _ _ _ F0 B0 F1 B1 Lr) as (Fr & _).
  assert (E : fadd lr (fsub (fadd (B754_infinity true) sp) (fneg lp)) = B754_infinity true).
  { destruct sp as [[]|[]| |[] ? ? ?]; try discriminate; destruct lp as [[]|[]| |[] ? ? ?]; try discriminate; destruct lr as [[]|[]| |[] ? ? ?]; try discriminate; reflexivity. }
  rewrite E. unfold accepted_f, ratio_f. set (z := fneg r). clearbody z.
  destruct z as [[]|[]| |[] ? ? ?]; destruct c as [[]|[]| |[] ? ? ?]; destruct w as [[]|[]| |[] ? ? ?]; reflexivity.
Qed.

(** *** there are such numbers *)
Lemma power_exists x y : exists r, powers x y r.
Proof.
  unfold powers. cbv zeta. set (q := Rpower (fr x) (fr y)). clearbody q.
  destruct (Rle_dec (bpow radix2 (-1000)) q) as [A|A]; [|exists fone; intros (H & _); contradiction].
  destruct (Rle_dec q (bpow radix2 1000)) as [B|B]; [|exists fone; intros (_ & H); contradiction].
  pose proof (bpow_gt_0 radix2 (-1000)) as P.
  assert (O : Rabs (rnd q) < big).
  { apply (rnd_fits q q 0 1000); try lia; [replace (q - q) with 0 by ring; rewrite Rabs_R0; lra|]. rewrite Rabs_pos_eq; lra. }
  destruct (dbl_exists _ O) as (r & F & E). exists r. intros _. split; [exact F|]. rewrite E. eapply Rle_trans; [apply any_err|]. rewrite Rabs_pos_eq, two_u by lra.
  assert (bpow radix2 (-1075) <= u * q); [|pose proof u_pos; nra]. apply Rle_trans with (u * bpow radix2 (-1000)); [rewrite <- bpow_plus; apply bpow_le; lia|]. apply Rmult_le_compat_l; [apply bpow_ge_0|exact A].
Qed.
Theorem C112_value_exists : forall alpha beta pgrow pprune np1 ns (ns1 : option b64) np nv cnt n d1 d2,
  (exists a, grow_transition_f pgrow pprune np1 ns nv cnt n a) /\ (exists c, grow_tree_f alpha beta d1 d2 ns nv cnt n c) /\
  (exists a, prune_transition_f pgrow pprune ns1 np nv cnt n a) /\ (exists c, prune_tree_f alpha beta d1 d2 nv cnt n c).
Proof.
  intros alpha beta pgrow pprune np1 ns ns1 np nv cnt n d1 d2.
  destruct (log_exists np1) as (l1 & L1). destruct (log_exists ns) as (l2 & L2). destruct (log_exists nv) as (l3 & L3). destruct (log_exists (fdiv cnt n)) as (l4 & L4).
  destruct (log_exists np) as (l5 & L5). destruct (log_exists (fdiv pprune pgrow)) as (l6 & L6). destruct (log_exists (fdiv pgrow pprune)) as (l7 & L7).
  assert (N : within_node_f nv cnt n (fadd (fneg l3) l4)) by (exists l3, l4; auto).
  assert (T : within_tree_f ns nv cnt n (fadd (fneg l2) (fadd (fneg l3) l4))) by (exists l2, (fadd (fneg l3) l4); auto).
  destruct (power_exists d1 (fneg beta)) as (p1 & P1). destruct (power_exists d2 (fneg beta)) as (p2 & P2).
  destruct (log_exists (fmul alpha p1)) as (u1 & U1). destruct (log_exists (fsub fone (fmul alpha p1))) as (v1 & V1). destruct (log_exists (fsub fone (fmul alpha p2))) as (v2 & V2).
  assert (A1 : node_split_f alpha beta d1 u1) by (exists p1; auto). assert (A2 : node_not_split_f alpha beta d1 v1) by (exists p1; auto). assert (A3 : node_not_split_f alpha beta d2 v2) by (exists p2; auto).
  repeat split.
  - eexists. exists l1, (fadd (fneg l2) (fadd (fneg l3) l4)), l6. repeat split; auto.
  - eexists. exists v1, v2, v2, u1, (fadd (fneg l2) (fadd (fneg l3) l4)). repeat split; auto.
  - destruct ns1 as [m|].
    + destruct (log_exists m) as (l8 & L8). eexists. exists (fneg l8), (fadd (fneg l3) l4), l5, l7. repeat split; eauto.
    + eexists. exists (B754_infinity true), (fadd (fneg l3) l4), l5, l7. repeat split; auto.
  - eexists. exists v1, v2, v2, u1, (fadd (fneg l3) l4). repeat split; auto.
Qed.
(** alpha and the probabilities 1/2, beta 2, a split of three rows into one and two at the root: all hypotheses of [C112_grow] hold *)
Example C112_case : usual_settings half_f d2 half_f half_f /\ usual_split d1 d1 d3 d1 d2 d2 dm1 d3 3 1 2 /\
  counts d1 1 /\ counts d2 2 /\
  exists a r c, grow_transition_f half_f half_f d1 d1 d2 d1 d3 a /\ likelihood_f d1 d1 d3 d1 d2 d2 dm1 d3 r /\ grow_tree_f half_f d2 d1 d2 d1 d2 d1 d3 c.
Proof.
  destruct C111_case as (A1 & A2 & A3 & A4 & A5 & A6 & A7 & A8 & A9 & A10 & A11 & (r & Hr)).
  assert (Vh : val half_f = / 2) by exact half_val.
  destruct (C112_value_exists half_f d2 half_f half_f d1 d1 None d1 d2 d1 d3 d1 d2) as ((a & Ha) & (c & Hc) & _).
  split; [|split; [|split; [|split]]]; auto.
  - unfold usual_settings. rewrite Vh, val_d2. assert (bpow radix2 (-50) <= / 2) by (replace (/2) with (bpow radix2 (-1)) by (cbn; lra); apply bpow_le; lia).
    assert (bpow radix2 (-40) <= / 2) by (replace (/2) with (bpow radix2 (-1)) by (cbn; lra); apply bpow_le; lia). assert (bpow radix2 (-25) <= / 2) by (replace (/2) with (bpow radix2 (-1)) by (cbn; lra); apply bpow_le; lia).
    repeat split; auto; lra.
  - unfold usual_split. auto 20.
  - exists a, r, c. auto.
Qed.

Print Assumptions C112_grow.
Print Assumptions C112_prune.
Print Assumptions C112_decision.
Print Assumptions C112_exact_model_grow.
Print Assumptions C112_exact_model_prune.
Print Assumptions C112_one_leaf.
Print Assumptions C112_value_exists.
