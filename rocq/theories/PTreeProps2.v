(** Proposals, quiet calls, first predictions. *)
From Coq Require Import Reals Lra Permutation.
From Verif Require Import Base Fl Ext MData MSplit MTree MSampler MHist MTreeHist Spec SpecTree LFl LList
  PData PSplit PDataProps PCond PTree PPred PTreeHist PTreeProps.

Definition hframe (h h1 : heap) : Prop := h_next h <= h_next h1 /\ forall j, j < h_next h -> h_get h1 j = h_get h j.

Lemma grow_legal h X oy t a idx m h1 idx' : no_nan X -> tree_inv h X oy t a ->
  sample_grow_mutation h t idx = Ok (m, h1, idx') -> legal_grow X h t m h1 /\ hframe h h1.
Proof.
  intros Hn H E. pose proof (sample_grow_frame _ _ _ _ _ _ E) as Hfr. split; [|exact Hfr].
  apply sample_grow_spec in E as (i&v&x&p&s&i1&i2&Hi&Es&Hv&Hrv&Hsp&Hg).
  destruct (splittable_leaf _ _ _ _ _ _ H Hi) as (w&s0&d0&ci&Hi'&Hl&Hf&Eg&Hs0&_).
  unfold node_split in Es. rewrite Eg in Es. injection Es as ->.
  destruct (sampled_fills _ _ _ _ _ _ _ _ Hn Hs0 Hrv) as (Hx&(rl&Hrl&Hkl)&(rr&Hrr&Hkr)).
  pose proof Hrv as Hrv'. apply (rsv_value X oy ci s Hn Hs0) in Hrv' as (_&ix&jx&Hix&Hjx&Hxv&Hlt&_).
  apply split_node_spec in Hsp as (k&s0&d&s'&sl&sr&Eg'&Hsc&->&Hnx&Hold&Hgl&Hgr&Hgp).
  rewrite Eg in Eg'. injection Eg' as <- <- <-.
  destruct (split_children_sinv _ _ _ _ _ _ _ _ _ Hn Hx Hs0 Hsc) as (Hvc&Hs'&Hsl&Hsr).
  unfold grow_mutation in Hg. destruct (negb (is_leaf h1 i)); [discriminate|]. injection Hg as <-.
  split; auto. split; [simpl; unfold leaf_nodes; now apply filter_In|]. simpl.
  exists w, s, d0, v, x, (h_next h), (S (h_next h)), s', sl, sr.
  split; auto. split; auto. split; [eauto|]. split; [eauto|]. split; auto. split; auto. split; auto.
  split; [lia|]. split; [lia|]. split; [lia|].
  destruct (split_children_masks _ _ _ _ _ _ Hsc) as ((sl0&El0&Ml)&(sr0&Er0&Mr)&Mp).
  split. { intros j. unfold in_node. now rewrite Mp. }
  assert (Hpl : forall j, in_node sl j <-> in_node s j /\ fle (value_in X j v) x = true).
  { intros j. unfold in_node at 1. rewrite Ml.
    destruct (partition_add X oy ci s Hn Hs0 v x sl0 sr0 j Hx El0 Er0) as (_&_&A&_). exact A. }
  assert (Hpr : forall j, in_node sr j <-> in_node s j /\ fgt (value_in X j v) x = true).
  { intros j. unfold in_node at 1. rewrite Mr.
    destruct (partition_add X oy ci s Hn Hs0 v x sl0 sr0 j Hx El0 Er0) as (_&_&_&A). exact A. }
  split; auto. split; auto. split.
  { exists ix. apply Hpl. split; auto. rewrite Hxv. apply fle_refl. now apply not_nan. }
  split. { exists jx. apply Hpr. split; auto. }
  destruct (sinv_recent _ _ _ _ _ Hsl) as (c&Ec&Erc). exists c. unfold dec_most_recent, left_child. rewrite Hgp, Hgl. simpl.
  split; auto. destruct c as [cv cx [| |] cs cn]; unfold rule_of in Erc; simpl in Erc; injection Erc as -> ->; auto; discriminate.
Qed.
Lemma prune_legal h X oy t a idx m h1 idx' : tree_inv h X oy t a ->
  sample_prune_mutation h t idx = Ok (m, h1, idx') -> legal_prune h t m h1 /\ hframe h h1.
Proof.
  intros H E. pose proof (sample_prune_frame _ _ _ _ _ _ E) as Hfr. split; [|exact Hfr].
  apply sample_prune_spec in E as (i&n&Hi&Eg&->&Hpm).
  unfold prunable_decision_nodes, decision_nodes in Hi. rewrite !filter_In in Hi. destruct Hi as [[Hi Hd] Hp].
  unfold prune_mutation in Hpm. destruct (negb _ || negb _); [discriminate|]. injection Hpm as <-.
  split; auto. split; auto. unfold is_prunable, left_child, right_child in Hp. rewrite Eg in Hp.
  destruct n as [[w|l r] s d]; [discriminate|]. apply andb_true_iff in Hp as [Hl Hr].
  exists l, r, s, d. simpl. rewrite Nat.eqb_refl. auto 10.
Qed.
Lemma propose_cases limit : forall h t r m h1 r1, propose limit h t r = Ok (m, h1, r1) ->
  (exists idx', sample_grow_mutation h t (rg_index r) = Ok (m, h1, idx') /\ rg_index r1 = idx') \/
  (exists idx', sample_prune_mutation h t (rg_index r) = Ok (m, h1, idx') /\ rg_index r1 = idx').
Proof.
  induction limit as [|limit IH]; intros h t r m h1 r1; simpl; [discriminate|].
  destruct (rg_method r) as [|b bs]; [discriminate|].
  destruct b.
  - destruct (sample_grow_mutation h t (rg_index r)) as [[[m' h'] idx]|e|] eqn:E; try discriminate.
    + intros E'; injection E' as <- <- <-. left. eauto.
    + assert (Hrec : propose limit h t (rng_set_method r bs) = Ok (m, h1, r1) -> 
        (exists idx', Raise e = Ok (m, h1, idx') /\ rg_index r1 = idx') \/
        (exists idx', sample_prune_mutation h t (rg_index r) = Ok (m, h1, idx') /\ rg_index r1 = idx')).
      { intros E'. apply IH in E' as [(idx'&E'&?)|(idx'&E'&?)]; simpl in E'; [congruence|eauto]. }
      destruct e; try discriminate; auto.
  - destruct (sample_prune_mutation h t (rg_index r)) as [[[m' h'] idx]|e|] eqn:E; try discriminate.
    + intros E'; injection E' as <- <- <-. right. eauto.
    + assert (Hrec : propose limit h t (rng_set_method r bs) = Ok (m, h1, r1) -> 
        (exists idx', sample_grow_mutation h t (rg_index r) = Ok (m, h1, idx') /\ rg_index r1 = idx') \/
        (exists idx', Raise e = Ok (m, h1, idx') /\ rg_index r1 = idx')).
      { intros E'. apply IH in E' as [(idx'&E'&?)|(idx'&E'&?)]; simpl in E'; [eauto|congruence]. }
      destruct e; try discriminate; auto.
Qed.
Lemma propose_legal limit h X oy t a r m h1 r1 : no_nan X -> tree_inv h X oy t a ->
  propose limit h t r = Ok (m, h1, r1) ->
  (legal_grow X h t m h1 \/ legal_prune h t m h1) /\ hframe h h1.
Proof.
  intros Hn H E. apply propose_cases in E as [(idx'&E&_)|(idx'&E&_)].
  - destruct (grow_legal _ _ _ _ _ _ _ _ _ Hn H E); auto.
  - destruct (prune_legal _ _ _ _ _ _ _ _ _ H E); auto.
Qed.

(** calls that do not mutate keep the node list and the kinds of the nodes *)
Lemma quiet_step h X y t a o h' t' : no_nan X -> tree_inv h X (Some y) t a ->
  sane_tree_op (length (mx_rows X)) o -> ~ mutates o -> tree_do h t o = Ok (h', t') ->
  tr_nodes t' = tr_nodes t /\ forall j, In j (tr_nodes t) -> is_leaf h' j = is_leaf h j.
Proof.
  intros Hn H Hs Hm Hd. 
  assert (Hfr : forall h1, (forall j, j < h_next h -> h_get h1 j = h_get h j) ->
    forall j, In j (tr_nodes t) -> is_leaf h1 j = is_leaf h j).
  { intros h1 Hold j Hj. unfold is_leaf. rewrite Hold; auto. eapply nodes_below; eauto. }
  destruct o as [i v x|i|idx|idx|idx|idx|i w|y0|]; cbn [mutates] in Hm; try tauto; cbn [tree_do] in Hd.
  - destruct (sample_grow_mutation h t idx) as [[[m h1] idx']| |] eqn:E; try discriminate. cbn [rbind] in Hd.
    injection Hd as <- <-. split; auto. apply Hfr. eapply sample_grow_frame; eauto.
  - destruct (sample_prune_mutation h t idx) as [[[m h1] idx']| |] eqn:E; try discriminate. cbn [rbind] in Hd.
    injection Hd as <- <-. split; auto. apply Hfr. eapply sample_prune_frame; eauto.
  - destruct (existsb _ _); try discriminate. injection Hd as <- <-. split; auto. intros j Hj.
    unfold is_leaf, set_value. destruct (h_get h i) as [[[w'|l r] s d]|] eqn:E; auto. simpl.
    destruct (Nat.eqb_spec j i); auto. subst. now rewrite E.
  - simpl in Hs. destruct (update_y_step _ _ _ _ _ (Some y0) H) as (h1&E&_&G&_). { intros y' E; injection E as <-; auto. }
    rewrite E in Hd. injection Hd as <- <-. split; auto. intros j Hj. unfold is_leaf. rewrite G.
    rewrite (proj2 (mem_in _ _) Hj). destruct (h_get h j) as [[k [s|c] d]|]; auto.
  - unfold tree_predict in Hd. destruct (if tr_fresh t then _ else _) as [[v|]| |]; try discriminate.
    cbn [rbind] in Hd. injection Hd as <- <-. auto.
Qed.
Lemma quiet_run X os : no_nan X -> forall h y t a h' t', tree_inv h X (Some y) t a ->
  Forall (sane_tree_op (length (mx_rows X))) os -> Forall (fun o => ~ mutates o) os -> tree_run h t os = Ok (h', t') ->
  tr_nodes t' = tr_nodes t /\ forall j, In j (tr_nodes t) -> is_leaf h' j = is_leaf h j.
Proof.
  intros Hn. induction os as [|o os IH]; intros h y t a h' t' H Hs Hm; simpl.
  - intros E; injection E as <- <-. auto.
  - inversion Hs; subst. inversion Hm; subst.
    destruct (tree_do h t o) as [[h1 t1]| |] eqn:E; try discriminate. cbn [rbind]. intros Hr.
    destruct (quiet_step _ _ _ _ _ _ _ _ Hn H H2 H4 E) as [E1 E2].
    assert (H1 : exists y1 a1, tree_inv h1 X (Some y1) t1 a1).
    { destruct (tree_run_inv X [o] Hn h y t a h1 t1 H) as (a1&HI&_); [constructor; auto|simpl; rewrite E; auto|eauto]. }
    destruct H1 as (y1&a1&H1). destruct (IH _ _ _ _ _ _ H1 H3 H5 Hr) as [F1 F2].
    split; [congruence|]. intros j Hj. rewrite F2 by (rewrite E1; auto). auto.
Qed.
Lemma fresh_step h t o h' t' : no_predict o -> tr_fresh t = false -> tree_do h t o = Ok (h', t') -> tr_fresh t' = false.
Proof.
  intros Hp Hf Hd. assert (Hi : invalidates o -> tr_fresh t' = false) by (intros; eapply invalidates_fresh; eauto).
  destruct o as [i v x|i|idx|idx|idx|idx|i w|y0|]; cbn [no_predict invalidates mutates] in *; auto; cbn [tree_do] in Hd; try tauto.
  - destruct (sample_grow_mutation h t idx) as [[[m h1] idx']| |]; try discriminate. cbn [rbind] in Hd. now injection Hd as <- <-.
  - destruct (sample_prune_mutation h t idx) as [[[m h1] idx']| |]; try discriminate. cbn [rbind] in Hd. now injection Hd as <- <-.
  - destruct (existsb _ _); try discriminate. now injection Hd as <- <-.
Qed.
Lemma fresh_run os : forall h t h' t', Forall no_predict os -> tr_fresh t = false -> tree_run h t os = Ok (h', t') -> tr_fresh t' = false.
Proof.
  induction os as [|o os IH]; intros h t h' t' Hf Hfr; simpl.
  - intros E; injection E as <- <-. auto.
  - inversion Hf; subst. destruct (tree_do h t o) as [[h1 t1]| |] eqn:E; try discriminate. cbn [rbind]. intros Hr.
    apply (IH h1 t1 h' t' H2); auto. apply (fresh_step _ _ _ _ _ H1 Hfr E).
Qed.
Lemma never_predicted X y nrm h0 os h t : tree_reached X y nrm h0 os h t -> Forall no_predict os ->
  tr_fresh t = false /\ tr_pred t = None.
Proof.
  intros (_&_&s&_&Hr) Hp. split; [eapply fresh_run; eauto; reflexivity|].
  apply (no_predict_run _ _ _ _ _ Hp) in Hr. exact Hr.
Qed.
