(** C116: mutations that are neither a grow nor a prune, and targets without values. *)
From Coq Require Import Reals.
From Verif Require Import Base Fl Ext MData MSplit MTree MSampler MOblivious Spec PTree.
Import ListNotations.

(** Such a mutation cannot be scored, by either sampler. *)
Theorem C116_not_scored : forall h t m sigma p, mu_kind m <> MGrow -> mu_kind m <> MPrune ->
  log_probability_ratio h t m sigma p = Raise ENotImplementedError /\ ob_log_ratio h m sigma p = Raise ENotImplementedError /\
  log_transition_ratio h t m p = Raise ENotImplementedError /\ ob_log_transition h m p = Raise ENotImplementedError /\
  log_likihood_ratio h m sigma p = Raise ENotImplementedError /\
  log_tree_ratio h t m p = Raise ETypeError /\ ob_log_tree h m p = Raise ETypeError.
Proof.
  intros h t m sigma p G P. unfold log_probability_ratio, ob_log_ratio, log_transition_ratio, ob_log_transition, log_likihood_ratio, log_tree_ratio, ob_log_tree.
  destruct (mu_kind m); try congruence. repeat split; reflexivity.
Qed.
(** No proposal is of such a kind. *)
Lemma grow_kind h e u m : grow_mutation h e u = Ok m -> mu_kind m = MGrow.
Proof. unfold grow_mutation. destruct (negb _); [discriminate|]. now intros [= <-]. Qed.
Lemma prune_kind h e u m : prune_mutation h e u = Ok m -> mu_kind m = MPrune.
Proof. unfold prune_mutation. destruct (negb _ || _)%bool; [discriminate|]. now intros [= <-]. Qed.
Theorem C116_never_proposed : forall limit h t r m h' r', propose limit h t r = Ok (m, h', r') -> mu_kind m = MGrow \/ mu_kind m = MPrune.
Proof.
  induction limit as [|limit IH]; intros h t r m h' r' H; [discriminate|]. cbn [propose] in H. destruct (rg_method r) as [|b bs]; [discriminate|]. destruct b.
  - unfold sample_grow_mutation in H. destruct (random_splittable_leaf_node h t (rg_index r)) as [(i & idx)|e|]; cbn [rbind] in H; try discriminate.
    + destruct (sample_split_node h i idx) as [((p & h1) & idx2)|e|]; cbn [rbind] in H; try discriminate.
      * destruct (grow_mutation h1 i p) as [m'|e|] eqn:G; cbn [rbind] in H; try discriminate.
        -- injection H as -> _ _. left. eauto using grow_kind.
        -- destruct e; try discriminate; eauto.
      * destruct e; try discriminate; eauto.
    + destruct e; try discriminate; eauto.
  - unfold sample_prune_mutation in H. destruct (random_prunable_decision_node h t (rg_index r)) as [(i & idx)|e|]; cbn [rbind] in H; try discriminate.
    + destruct (h_get h i) as [n|]; [|discriminate]. destruct (h_alloc h (Nd (KLeaf 0) (nd_split n) (nd_depth n))) as (u & h1).
      destruct (prune_mutation h1 i u) as [m'|e|] eqn:G; cbn [rbind] in H; try discriminate.
      * injection H as -> _ _. right. eauto using prune_kind.
      * destruct e; try discriminate; eauto.
    + destruct e; try discriminate; eauto.
Qed.
Lemma ob_grows_kind leaves : forall h idx ms h' idx', ob_grows h leaves idx = Ok (ms, h', idx') -> Forall (fun m => mu_kind m = MGrow) ms.
Proof.
  induction leaves as [|i leaves IH]; intros h idx ms h' idx'; cbn [ob_grows]; [now intros [= <- _ _]|].
  destruct (ob_split_node h i idx) as [((p & h1) & idx2)|e|]; cbn [rbind]; try discriminate. destruct (grow_mutation h1 i p) as [m|e|] eqn:G; cbn [rbind]; try discriminate.
  destruct (ob_grows h1 leaves idx2) as [((ms1 & h2) & idx3)|e|] eqn:E; cbn [rbind]; try discriminate. intros H; inversion H; subst. constructor; eauto using grow_kind.
Qed.
Lemma ob_prunes_kind ns : forall h ms h', ob_prunes h ns = Ok (ms, h') -> Forall (fun m => mu_kind m = MPrune) ms.
Proof.
  induction ns as [|i ns IH]; intros h ms h'; cbn [ob_prunes]; [now intros [= <- _]|]. destruct (h_get h i) as [n|]; [|discriminate].
  destruct (h_alloc h _) as (u & h1). destruct (prune_mutation h1 i u) as [m|e|] eqn:G; cbn [rbind]; try discriminate.
  destruct (ob_prunes h1 ns) as [(ms1 & h2)|e|] eqn:E; cbn [rbind]; try discriminate. intros H; inversion H; subst. constructor; eauto using prune_kind.
Qed.
(** nor any of the proposals of the oblivious sampler, which all are of the same kind *)
Theorem C116_never_proposed_oblivious : forall limit h t r ms h' r', ob_propose limit h t r = Ok (ms, h', r') ->
  Forall (fun m => mu_kind m = MGrow) ms \/ Forall (fun m => mu_kind m = MPrune) ms.
Proof.
  induction limit as [|limit IH]; intros h t r ms h' r' H; [discriminate|]. cbn [ob_propose] in H. destruct (rg_method r) as [|b bs]; [discriminate|]. destruct b.
  - unfold ob_grow_mutations in H. match type of H with match ?x with _ => _ end = _ => destruct x as [((ms1 & h1) & idx)|e|] eqn:E end; try discriminate.
    + inversion H; subst. left. eauto using ob_grows_kind.
    + destruct e; try discriminate; eauto.
  - unfold ob_prune_mutations in H. destruct (ob_prunes h (prunable_decision_nodes h t)) as [(ms1 & h1)|e|] eqn:E; cbn [rbind] in H; try discriminate.
    + inversion H; subst. right. eauto using ob_prunes_kind.
    + destruct e; try discriminate; eauto.
Qed.
(** Applied to a tree it raises nothing and leaves the list of nodes as it was, but every listed node that had the old node as
    a child now has the new one instead. *)
Definition replaced (e u x : nat) : nat := if Nat.eqb x e then u else x.
Theorem C116_applied : forall h t m, mu_kind m <> MGrow -> mu_kind m <> MPrune -> mu_updated m <> mu_existing m ->
  exists h', mutate h t m = (h', Tr (tr_nodes t) false (tr_pred t), None) /\
    (forall i, ~ In i (tr_nodes t) -> h_get h' i = h_get h i) /\
    (forall i v s d, In i (tr_nodes t) -> h_get h i = Some (Nd (KLeaf v) s d) -> h_get h' i = Some (Nd (KLeaf v) s d)) /\
    (forall i l r s d, In i (tr_nodes t) -> h_get h i = Some (Nd (KDec l r) s d) ->
      h_get h' i = Some (Nd (KDec (replaced (mu_existing m) (mu_updated m) l) (replaced (mu_existing m) (mu_updated m) r)) s d)).
Proof.
  intros h t m G P U. unfold mutate. destruct (mu_kind m); try congruence. eexists. split; [reflexivity|].
  assert (M : forall i, In i (tr_nodes t) -> mem i (tr_nodes t) = true) by (intros i; apply mem_in).
  repeat split; intros i.
  - intros H. rewrite relink_get by auto. destruct (mem i (tr_nodes t)) eqn:E; auto. apply mem_in in E. contradiction.
  - intros v s d H E. now rewrite relink_get, M, E by auto.
  - intros l r s d H E. now rewrite relink_get, M, E by auto.
Qed.
(** So a tree can be left with a child that is not one of its nodes. *)
Theorem C116_left_broken : forall h t e u i l r s d, u <> e -> ~ In u (tr_nodes t) ->
  In i (tr_nodes t) -> h_get h i = Some (Nd (KDec l r) s d) -> l = e \/ r = e ->
  exists h' t', mutate h t (Mu MOther e u) = (h', t', None) /\ In i (tr_nodes t') /\ ~ In u (tr_nodes t') /\
    (left_child h' i = Some u \/ right_child h' i = Some u).
Proof.
  intros h t e u i l r s d N U I E H. destruct (C116_applied h t (Mu MOther e u)) as (h' & Em & _ & _ & D); [discriminate|discriminate|exact N|]. exists h'. eexists. split; [exact Em|].
  split; [exact I|]. split; [exact U|]. specialize (D i l r s d I E). unfold left_child, right_child. rewrite D. unfold replaced. cbn [mu_existing mu_updated].
  destruct H as [-> | ->]; rewrite Nat.eqb_refl; auto.
Qed.
(** a tree of one split: replacing its left leaf by a node that is not listed *)
Example C116_case : exists h t h' t' s, tr_nodes t = [0; 1; 2]%nat /\ h_get h 0 = Some (Nd (KDec 1 2) s 0) /\
  mutate h t (Mu MOther 1 3) = (h', t', None) /\ tr_nodes t' = [0; 1; 2]%nat /\ left_child h' 0 = Some 3%nat /\
  (forall sigma p, log_probability_ratio h t (Mu MOther 1 3) sigma p = Raise ENotImplementedError).
Proof.
  pose (s := SCond (CC [] [])).
  pose (h := Hp 4 (fun i => match i with 0%nat => Some (Nd (KDec 1 2) s 0) | 1%nat | 2%nat | 3%nat => Some (Nd (KLeaf 0) s 1) | _ => None end)).
  exists h, (make_tree [0; 1; 2]%nat). do 2 eexists. exists s. split; [reflexivity|]. split; [reflexivity|]. split; [reflexivity|]. split; [reflexivity|]. split; [reflexivity|].
  intros sigma p. apply (C116_not_scored h (make_tree [0; 1; 2]%nat) (Mu MOther 1 3) sigma p); discriminate.
Qed.

Print Assumptions C116_not_scored.
Print Assumptions C116_never_proposed.
Print Assumptions C116_never_proposed_oblivious.
Print Assumptions C116_applied.
Print Assumptions C116_left_broken.
