(** C99: the oblivious tree sampler climbs a score and never comes back, but need not stop *)
From Coq Require Import Reals Lra Permutation.
From Verif Require Import Base Fl Ext MData MSplit MTree MSampler MHist MTreeHist MOblivious Spec SpecTree SpecSampler SpecScore SpecOblivious SpecObScore LFl LList
  PData PSplit PDataProps PCond PTree PPred PTreeHist PTreeProps PTreeProps2 PSampler PSampler2 PModel7 PDiag PScore POblivious POblivious2 POblivious3 POblivious4 POblivious5 PObScore PObScore2
  SpecObFlat PObSize Properties_Sampler Properties_Oblivious Properties_ObFlat.
Local Open Scope R_scope.

(** ** C99 *)
(** If all leaves have a finite ratio, the log ratio of a grow is exactly the change of the score. *)
Theorem C99_grow_ratio : forall X y nrm h0 os h t idx ms h1 idx1 h2 t2 sigma p, no_nan X -> mx_rows X <> [] -> ob_reached X y nrm h0 os h t ->
  ob_grow_mutations h t idx = Ok (ms, h1, idx1) -> mutate_all h1 t ms = Ok (h2, t2) -> (forall j, In j (leaf_nodes h t) -> scorable X h j) ->
  0 < sigma -> usual p ->
  let S := ob_score (last_ob_target (start_target y nrm) os) sigma p in
  ob_ratio h1 ms sigma p = Ok (XFin (S h2 t2 - S h t)).
Proof.
  intros X y nrm h0 os h t idx ms h1 idx1 h2 t2 sigma p Hn Hne Hr E Em Hsc Hs Hp S. destruct (ob_reached_target _ _ _ _ _ _ _ Hn Hr) as (k&o&H).
  destruct (ob_grow_score _ _ _ _ _ _ _ _ _ _ _ _ sigma p Hn Hne H E Em Hsc Hp Hs) as (o2&H2&_&Er).
  unfold S. rewrite (ob_score_osc _ _ _ _ _ _ _ sigma p H2), (ob_score_osc _ _ _ _ _ _ _ sigma p H). exact Er.
Qed.
Print Assumptions C99_grow_ratio.
(** So is the log ratio of a prune. *)
Theorem C99_prune_ratio : forall X y nrm h0 os h t ms h1 h2 t2 sigma p, no_nan X -> mx_rows X <> [] -> ob_reached X y nrm h0 os h t ->
  prunable_decision_nodes h t <> [] -> ob_prune_mutations h t = Ok (ms, h1) -> mutate_all h1 t ms = Ok (h2, t2) ->
  (forall j, In j (prunable_decision_nodes h t) -> scorable X h j) -> 0 < sigma -> usual p ->
  let S := ob_score (last_ob_target (start_target y nrm) os) sigma p in
  ob_ratio h1 ms sigma p = Ok (XFin (S h2 t2 - S h t)).
Proof.
  intros X y nrm h0 os h t ms h1 h2 t2 sigma p Hn Hne Hr Hpr E Em Hsc Hs Hp S. destruct (ob_reached_target _ _ _ _ _ _ _ Hn Hr) as (k&o&H).
  assert (Hk : (1 <= k)%nat).
  { destruct k; [|lia]. exfalso. apply Hpr. apply Permutation_nil. pose proof (prunable_perm _ _ _ _ _ _ H) as P. rewrite (opr_zero _ _ _ (oi_full _ _ _ _ _ _ H)) in P. now apply Permutation_sym. }
  destruct (ob_prune_score _ _ _ _ _ _ _ _ _ _ sigma p Hn Hne H Hk E Em Hsc Hp Hs) as (o2&H2&_&Er).
  unfold S. rewrite (ob_score_osc _ _ _ _ _ _ _ sigma p H2), (ob_score_osc _ _ _ _ _ _ _ sigma p H). exact Er.
Qed.
Print Assumptions C99_prune_ratio.
(** When every grow so far was accepted by the sampler, every decision node has a finite ratio. *)
Theorem C99_finite : forall X y nrm h0 os h t, no_nan X -> ob_reached X y nrm h0 os h t -> Forall sampled_op os ->
  forall j, In j (decision_nodes h t) -> scorable X h j.
Proof.
  intros X y nrm h0 os h t Hn Hr Hg. destruct (ob_reached_scd _ _ _ _ _ _ _ Hn Hr Hg) as (k&o&H&Hd). eapply oscd_scorable; eauto.
Qed.
Print Assumptions C99_finite.
(** As long as target, noise and parameters stay the same the score never falls, and it rises with every accepted move. *)
Theorem C99_climbs : forall X y nrm h0 os h t sigma p n h2 t2, no_nan X -> mx_rows X <> [] -> ob_reached X y nrm h0 os h t -> Forall sampled_op os ->
  0 < sigma -> usual p -> ob_stretch sigma p h t n h2 t2 ->
  let S := ob_score (last_ob_target (start_target y nrm) os) sigma p in
  S h t <= S h2 t2 /\ ((0 < n)%nat -> S h t < S h2 t2).
Proof.
  intros X y nrm h0 os h t sigma p n h2 t2 Hn Hne Hr Hg Hs Hp Hst S. destruct (ob_reached_scd _ _ _ _ _ _ _ Hn Hr Hg) as (k&o&H&Hd).
  destruct (ob_stretch_spec _ _ _ _ _ _ _ _ _ Hn Hne Hs Hp Hst _ _ H Hd) as (k2&o2&H2&_&A&B&_).
  unfold S. rewrite (ob_score_osc _ _ _ _ _ _ _ sigma p H2), (ob_score_osc _ _ _ _ _ _ _ sigma p H). auto.
Qed.
Print Assumptions C99_climbs.
(** So a way of dividing the rows that was left is never taken up again. *)
Theorem C99_never_returns : forall X y nrm h0 os h t sigma p n h2 t2, no_nan X -> mx_rows X <> [] -> ob_reached X y nrm h0 os h t -> Forall sampled_op os ->
  0 < sigma -> usual p -> ob_stretch sigma p h t n h2 t2 -> (0 < n)%nat -> ~ same_cuts h t h2 t2.
Proof.
  intros X y nrm h0 os h t sigma p n h2 t2 Hn Hne Hr Hg Hs Hp Hst Hn0 Hc.
  destruct (C99_climbs _ _ _ _ _ _ _ _ _ _ _ _ Hn Hne Hr Hg Hs Hp Hst) as (_&B). specialize (B Hn0). rewrite (score_cuts _ _ _ _ _ _ _ Hc) in B. lra.
Qed.
Print Assumptions C99_never_returns.
(** Without an accepted move the rows stay divided as they were. *)
Lemma cut_of_ook h X oy h2 oy2 : forall o cs d, ook h X oy cs d o -> ook h2 X oy2 cs d o -> map (cut_of h) (oids o) = map (cut_of h2) (oids o).
Proof.
  induction o as [i|i q l IHl r IHr]; intros cs d H H2.
  - destruct H as (w&s&E&_). destruct H2 as (w2&s2&E2&_). simpl. unfold cut_of. now rewrite E, E2.
  - pose proof (held_root _ _ _ _ _ _ H) as Hi. pose proof (held_root _ _ _ _ _ _ H2) as Hi2. destruct H as ((s&E&_)&_&Hl&Hr). destruct H2 as ((s2&E2&_)&_&Hl2&Hr2).
    simpl. rewrite !map_app, (IHl _ _ Hl Hl2), (IHr _ _ Hr Hr2). f_equal. simpl in Hi, Hi2. unfold cut_of. rewrite E, E2, Hi, Hi2.
    now rewrite (held_root _ _ _ _ _ _ Hl), (held_root _ _ _ _ _ _ Hr), (held_root _ _ _ _ _ _ Hl2), (held_root _ _ _ _ _ _ Hr2).
Qed.
Theorem C99_idle : forall X y nrm h0 os h t sigma p h2 t2, no_nan X -> mx_rows X <> [] -> ob_reached X y nrm h0 os h t -> Forall sampled_op os ->
  0 < sigma -> usual p -> ob_stretch sigma p h t 0 h2 t2 -> same_cuts h t h2 t2.
Proof.
  intros X y nrm h0 os h t sigma p h2 t2 Hn Hne Hr Hg Hs Hp Hst. destruct (ob_reached_scd _ _ _ _ _ _ _ Hn Hr Hg) as (k&o&H&Hd).
  destruct (ob_stretch_spec _ _ _ _ _ _ _ _ _ Hn Hne Hs Hp Hst _ _ H Hd) as (k2&o2&H2&_&_&_&Eo&_). rewrite (Eo eq_refl) in H2. clear Eo.
  unfold same_cuts. eapply Permutation_trans; [apply Permutation_map, (nodes_perm _ _ _ _ _ _ H)|].
  rewrite (cut_of_ook _ _ _ _ _ _ _ _ (oi_ok _ _ _ _ _ _ H) (oi_ok _ _ _ _ _ _ H2)). apply Permutation_map, Permutation_sym, (nodes_perm _ _ _ _ _ _ H2).
Qed.
Print Assumptions C99_idle.
(** Unlike the usual sampler (C88) there is no bound on the number of moves that depends on the training data alone: on three rows, for every
    target, noise and prior there are settings of the two move probabilities with which a stretch from the start has at least k moves. *)
Theorem C99_stops_refuted : forall y sigma p k, length y = 3%nat -> 0 < sigma -> usual p -> (0 < pa_limit p)%nat ->
  exists g q h t n h2 t2, 0 < g /\ 0 < q /\ g + q = 1 /\ usual (with_moves p g q) /\ ob_reached three_rows y false h_empty [] h t /\
    ob_stretch sigma (with_moves p g q) h t n h2 t2 /\ (k <= n)%nat.
Proof.
  intros y sigma p k Hy Hs Hp Hl. destruct (C97_size_refuted y sigma p k Hy Hs Hp Hl) as (g&q&rs&h2&t2&Hg&Hq&Hgq&_&Hu&(Hl2&Hso&s&E&R)&Hpf&_).
  assert (Hp' : usual (with_moves p g q)) by (destruct Hp as [(A&B&C&_) D]; unfold usual, good; simpl; auto 10).
  assert (Hu' : forall r, In r rs -> Forall (fun u => 0 <= u) (rg_unif r)) by (intros r Hr; eapply Forall_impl; [|apply Hu; exact Hr]; simpl; intros; lra).
  destruct (steps_stretch _ _ _ _ _ _ _ Hu' R) as (n&Hst).
  exists g, q, (fst (start_tree h_empty s)), (snd (start_tree h_empty s)), n, h2, t2. do 4 (split; [assumption|]).
  split; [split; [exact Hl2|]; split; [constructor|]; exists s; auto|]. split; auto.
  destruct (ob_stretch_spec three_rows _ _ _ _ _ _ _ _ three_no_nan ltac:(discriminate) Hs Hp' Hst _ _ (start_oinv three_rows y false h_empty s Hl2 E) I) as (k2&o2&H2&_&_&_&_&Hk).
  rewrite <- (perfect_depth _ _ _ _ (oinv_perfect _ _ _ _ _ _ H2) Hpf). lia.
Qed.
Print Assumptions C99_stops_refuted.
(** a stretch with at least two moves, so that the score rises and the first tree is not found again *)
Definition cx_p : params := Pa 1 (1/2) 2 2 1 1 (1/2) (1/2) 10.
Example C99_case : exists p h t n h2 t2, ob_reached three_rows [1; 2; 3] false h_empty [] h t /\ usual p /\ ob_stretch 1 p h t n h2 t2 /\ (2 <= n)%nat /\
  ob_score [1; 2; 3] 1 p h t < ob_score [1; 2; 3] 1 p h2 t2 /\ ~ same_cuts h t h2 t2.
Proof.
  assert (Hp : usual cx_p) by (unfold usual, cx_p; simpl; repeat split; try lra; lia).
  destruct (C99_stops_refuted [1; 2; 3] 1 cx_p 2 eq_refl ltac:(lra) Hp ltac:(simpl; lia)) as (g&q&h&t&n&h2&t2&_&_&_&Hp'&Hr&Hst&Hk).
  exists (with_moves cx_p g q), h, t, n, h2, t2. do 4 (split; [assumption|]).
  assert (Hne : mx_rows three_rows <> []) by discriminate. assert (H01 : 0 < 1) by lra. assert (Hn0 : (0 < n)%nat) by lia. split.
  - destruct (C99_climbs _ _ _ _ _ _ _ _ _ _ _ _ three_no_nan Hne Hr (Forall_nil _) H01 Hp' Hst) as (_&B). exact (B Hn0).
  - exact (C99_never_returns _ _ _ _ _ _ _ _ _ _ _ _ three_no_nan Hne Hr (Forall_nil _) H01 Hp' Hst Hn0).
Qed.
(** In [ox_1] the leaf 2 can be split and the leaf 1 was made by "<=", in [ox_2] the same holds of the prunable nodes 9 and 6 (C63_prune_ratio_case). *)
Example C99_ratio_case : (forall j, In j (leaf_nodes (fst ox_1) (snd ox_1)) -> scorable ox_X (fst ox_1) j) /\ prunable_decision_nodes (fst ox_2) (snd ox_2) <> [].
Proof.
  split.
  - assert (E : leaf_nodes (fst ox_1) (snd ox_1) = [1; 2]%nat) by (vm_compute; reflexivity). rewrite E. intros j [<-|[<-|[]]].
    + apply scorable_le. vm_compute. reflexivity.
    + left. vm_compute. reflexivity.
  - assert (E : prunable_decision_nodes (fst ox_2) (snd ox_2) = [6; 9]%nat) by (vm_compute; reflexivity). rewrite E. discriminate.
Qed.
