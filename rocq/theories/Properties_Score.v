(** C88: at a fixed target and noise level the tree sampler only climbs. *)
From Coq Require Import Reals Lra Permutation.
From Verif Require Import Base Fl Ext MData MSplit MTree MSampler MHist MTreeHist Spec SpecTree SpecSampler SpecScore LFl LList
  PData PSplit PDataProps PCond PTree PPred PTreeHist PTreeProps PTreeProps2 PSampler PSampler2 PSampler3 PCounts PScore PScore2
  Properties_Tree Properties_Sampler Properties_Propose Properties_Noise.
Local Open Scope R_scope.

(** The acceptance ratio of a grow is the change of the score of the tree, less log(prunable nodes + 1). *)
Theorem C88_grow_ratio : forall X y nrm h0 os h t idx m h1 idx1 h2 t2 sigma p st st2,
  no_nan X -> tree_reached X y nrm h0 os h t -> sample_grow_mutation h t idx = Ok (m, h1, idx1) -> mutate h1 t m = (h2, t2, None) ->
  0 < sigma -> usual p -> reads h t st -> reads h2 t2 st2 ->
  let S := tree_score X (last_tree_target (start_target y nrm) os) sigma p in
  log_probability_ratio h1 t m sigma p = Ok (XFin (S st2 - S st - ln (INR (length (prunable_decision_nodes h t)) + 1))).
Proof.
  intros X y nrm h0 os h t idx m h1 idx1 h2 t2 sigma p st st2 Hn Hr E Em Hs Hp R1 R2 S.
  destruct (tree_reached_inv _ _ _ _ _ _ _ Hn Hr) as (a&H&_). destruct (grow_score _ _ _ _ _ _ _ _ _ _ _ sigma p Hn H E Em Hs Hp) as (a2&H2&_&Er&_).
  unfold S. rewrite (reads_score _ _ _ _ _ _ _ sigma p H R1), (reads_score _ _ _ _ _ _ _ sigma p H2 R2). exact Er.
Qed.
Print Assumptions C88_grow_ratio.
(** That of a prune is the change of the score, less log(splittable leaves - 1), plus log(prunable nodes). *)
Theorem C88_prune_ratio : forall X y nrm h0 os h t idx m h1 idx1 h2 t2 sigma p st st2,
  no_nan X -> mx_rows X <> [] -> tree_reached X y nrm h0 os h t -> Forall proposed_op os ->
  sample_prune_mutation h t idx = Ok (m, h1, idx1) -> mutate h1 t m = (h2, t2, None) ->
  0 < sigma -> usual p -> (2 <= length (splittable_leaf_nodes h t))%nat -> reads h t st -> reads h2 t2 st2 ->
  let S := tree_score X (last_tree_target (start_target y nrm) os) sigma p in
  log_probability_ratio h1 t m sigma p = Ok (XFin (S st2 - S st - ln (INR (length (splittable_leaf_nodes h t)) - 1)
    + ln (INR (length (prunable_decision_nodes h t))))).
Proof.
  intros X y nrm h0 os h t idx m h1 idx1 h2 t2 sigma p st st2 Hn Hne Hr Hpo E Em Hs Hp Hns R1 R2 S.
  destruct (tree_reached_inv _ _ _ _ _ _ _ Hn Hr) as (a&H&Hfil&_).
  destruct (prune_score _ _ _ _ _ _ _ _ _ _ _ sigma p Hn H (Hfil Hpo Hne) E Em Hs Hp Hns) as (a2&H2&_&Er&_).
  unfold S. rewrite (reads_score _ _ _ _ _ _ _ sigma p H R1), (reads_score _ _ _ _ _ _ _ sigma p H2 R2). exact Er.
Qed.
Print Assumptions C88_prune_ratio.
(** When every leaf can be split, there are more splittable leaves than prunable nodes. *)
Theorem C88_all_splittable : forall X y nrm h0 os h t, no_nan X -> tree_reached X y nrm h0 os h t ->
  (forall i, In i (leaf_nodes h t) -> is_splittable h i = true) ->
  (length (prunable_decision_nodes h t) < length (splittable_leaf_nodes h t))%nat.
Proof.
  intros X y nrm h0 os h t Hn Hr Ha. destruct (C16_leaf_count _ _ _ _ _ _ _ Hn Hr) as (E&_).
  assert (Es : splittable_leaf_nodes h t = leaf_nodes h t).
  { unfold splittable_leaf_nodes. clear E. induction (leaf_nodes h t) as [|i l IH]; auto. simpl. rewrite Ha by (simpl; auto). rewrite IH; auto. intros; apply Ha; simpl; auto. }
  rewrite Es, E. unfold prunable_decision_nodes. pose proof (filter_length_le (is_prunable h) (decision_nodes h t)). lia.
Qed.
Print Assumptions C88_all_splittable.
(** Over a stretch with the same target, sigma and parameters the score never falls, and rises with every accepted move. *)
Theorem C88_climbs : forall X y nrm h0 os h t sigma p n h2 t2 st st2,
  no_nan X -> mx_rows X <> [] -> tree_reached X y nrm h0 os h t -> Forall proposed_op os -> 0 < sigma -> usual p ->
  stretch X sigma p h t n h2 t2 -> reads h t st -> reads h2 t2 st2 ->
  let S := tree_score X (last_tree_target (start_target y nrm) os) sigma p in
  S st <= S st2 /\ ((0 < n)%nat -> S st < S st2) /\ (n = 0%nat -> splits_of st2 = splits_of st).
Proof.
  intros X y nrm h0 os h t sigma p n h2 t2 st st2 Hn Hne Hr Hpo Hs Hp Hst R1 R2 S.
  destruct (tree_reached_inv _ _ _ _ _ _ _ Hn Hr) as (a&H&Hfil&_).
  destruct (stretch_spec _ _ _ _ _ _ _ _ _ Hn Hs Hp Hst _ H (Hfil Hpo Hne)) as (a2&H2&_&A&B&C&_).
  unfold S. rewrite (reads_score _ _ _ _ _ _ _ sigma p H R1), (reads_score _ _ _ _ _ _ _ sigma p H2 R2). split; auto. split; auto.
  intros E. specialize (C E). subst a2. now rewrite (reads_shape _ _ _ _ _ _ H R1), (reads_shape _ _ _ _ _ _ H2 R2).
Qed.
Print Assumptions C88_climbs.
(** Hence a tree that was left is never visited again. *)
Theorem C88_never_returns : forall X y nrm h0 os h t sigma p n h2 t2 st st2,
  no_nan X -> mx_rows X <> [] -> tree_reached X y nrm h0 os h t -> Forall proposed_op os -> 0 < sigma -> usual p ->
  stretch X sigma p h t n h2 t2 -> reads h t st -> reads h2 t2 st2 -> (0 < n)%nat -> splits_of st2 <> splits_of st.
Proof.
  intros X y nrm h0 os h t sigma p n h2 t2 st st2 Hn Hne Hr Hpo Hs Hp Hst R1 R2 Hk E.
  destruct (C88_climbs _ _ _ _ _ _ _ _ _ _ _ _ _ _ Hn Hne Hr Hpo Hs Hp Hst R1 R2) as (_&B&_). specialize (B Hk).
  unfold tree_score in B. rewrite <- score_splits, <- (score_splits _ _ _ _ st2), E in B. lra.
Qed.
Print Assumptions C88_never_returns.
(** And there is a bound on the number of accepted moves, which depends on the covariates alone. *)
Theorem C88_stops : forall X, no_nan X -> mx_rows X <> [] -> exists N, forall y nrm h0 os h t sigma p n h2 t2,
  tree_reached X y nrm h0 os h t -> Forall proposed_op os -> 0 < sigma -> usual p -> stretch X sigma p h t n h2 t2 -> (n < N)%nat.
Proof.
  intros X Hn Hne. exists (length (all_shapes X)). intros y nrm h0 os h t sigma p n h2 t2 Hr Hpo Hs Hp Hst.
  destruct (tree_reached_inv _ _ _ _ _ _ _ Hn Hr) as (a&H&Hfil&_).
  destruct (stretch_spec _ _ _ _ _ _ _ _ _ Hn Hs Hp Hst _ H (Hfil Hpo Hne)) as (a2&_&_&_&_&_&L&HL&HN&HI&_).
  pose proof (NoDup_incl_length HN HI). lia.
Qed.
Print Assumptions C88_stops.
(** Two accepted moves of opposite kinds in a row, whatever the numbers of splittable leaves and prunable nodes, never lead back:
    an accepted move cannot be undone by the next one (rejected proposals and calls that leave tree and target alone may lie in between). *)
Theorem C88_no_undo : forall X y nrm h0 os h t sigma p r m h1 t1 r1 h2 t2 r' m' h3 t3 r1' st st3,
  no_nan X -> mx_rows X <> [] -> tree_reached X y nrm h0 os h t -> Forall proposed_op os -> 0 < sigma -> usual p ->
  Forall (fun u => 0 <= u) (rg_unif r) -> Forall (fun u => 0 <= u) (rg_unif r') ->
  tree_step h t sigma p r = Ok (Some m, h1, t1, r1) -> stretch X sigma p h1 t1 0 h2 t2 -> tree_step h2 t2 sigma p r' = Ok (Some m', h3, t3, r1') ->
  mu_kind m' <> mu_kind m -> reads h t st -> reads h3 t3 st3 -> splits_of st3 <> splits_of st.
Proof.
  intros X y nrm h0 os h t sigma p r m h1 t1 r1 h2 t2 r' m' h3 t3 r1' st st3 Hn Hne Hr Hpo Hs Hp Hu Hu' E Hst E' Hk R1 R3 Heq.
  destruct (tree_reached_inv _ _ _ _ _ _ _ Hn Hr) as (a&H&Hfil&_). specialize (Hfil Hpo Hne). set (Y := last_tree_target _ _) in H.
  destruct (step_score _ _ _ _ _ _ _ _ _ _ _ _ Hn H Hfil Hs Hp Hu E) as (a1&H1&Hf1&C1).
  destruct (stretch_spec _ _ _ _ _ _ _ _ _ Hn Hs Hp Hst _ H1 Hf1) as (a2&H2&_&_&_&E2&_). specialize (E2 eq_refl). subst a2.
  destruct (step_score _ _ _ _ _ _ _ _ _ _ _ _ Hn H2 Hf1 Hs Hp Hu' E') as (a3&H3&_&C3).
  assert (Enp : np h2 t2 = np h1 t1).
  { unfold np. rewrite (Permutation_length (prun_perm _ _ _ _ _ H1)), (Permutation_length (prun_perm _ _ _ _ _ H2)). reflexivity. }
  assert (Es : sc X Y sigma p a3 = sc X Y sigma p a).
  { rewrite <- (reads_score _ _ _ _ _ _ _ sigma p H R1), <- (reads_score _ _ _ _ _ _ Y sigma p H3 R3). unfold tree_score.
    rewrite <- score_splits, Heq, score_splits. reflexivity. }
  destruct C1 as [(K1&D1&N1)|(K1&D1&S1&N1)]; destruct C3 as [(K3&D3&N3)|(K3&D3&S3&N3)]; try congruence.
  - pose proof (ln_le_nat (np h2 t2) (S (np h t)) ltac:(lia) ltac:(lia)) as A. rewrite S_INR in A.
    pose proof (ln_pos_ge (ns h2 t2 - 1) ltac:(lia)) as B. rewrite minus_INR in B by lia. simpl in B. lra.
  - pose proof (ln_le_nat (np h t) (S (np h2 t2)) ltac:(lia) ltac:(lia)) as A. rewrite S_INR in A.
    pose proof (ln_pos_ge (ns h t - 1) ltac:(lia)) as B. rewrite minus_INR in B by lia. simpl in B. lra.
Qed.
Print Assumptions C88_no_undo.

(** An accepted grow, and an accepted prune, as stretches. *)
Example C88_grow_case : exists sigma h2 t2, 0 < sigma /\ tree_reached zx_X ox_y false h_empty [] (fst ox_start) (snd ox_start) /\ usual zx_p /\
  stretch zx_X sigma zx_p (fst ox_start) (snd ox_start) 1 h2 t2.
Proof.
  destruct C85_grow_case as (sigma&m&h2&t2&Hs&E&Hk). exists sigma, h2, t2. split; auto. split; [apply ox_reached|]. split; [apply zx_usual|].
  eapply st_accept; [|exact E| |apply st_done]; [repeat constructor; simpl; lra|]. rewrite Hk. discriminate.
Qed.
Example C88_prune_case : exists sigma h2 t2, 0 < sigma /\ stretch zx_X sigma zx_p (fst wx_s) (snd wx_s) 1 h2 t2.
Proof.
  destruct C85_prune_case as (sigma&m&h2&t2&Hs&E&Hk). exists sigma, h2, t2. split; auto.
  eapply st_accept; [|exact E| |apply st_done]; [repeat constructor; simpl; lra|]. intros _. vm_compute. lia.
Qed.
