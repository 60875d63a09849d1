(** Safety and liveness of the samplers. *)
From Coq Require Import Reals Lra Permutation.
From Verif Require Import Base Fl Ext MData MSplit MTree MSampler MHist MTreeHist MModel MModelHist Spec SpecTree SpecSampler SpecModel LFl LList
  PData PSplit PDataProps PCond PTree PPred PTreeHist PTreeProps PTreeProps2 PSampler PSampler2 PSampler3
  PModel PModel2 PModel3 PModel4 PModel5 PModel6 PModel7 PModel8 PModel9.

(** ** proposals *)
Lemma prunable_in h t i : In i (prunable_decision_nodes h t) -> In i (tr_nodes t) /\ is_prunable h i = true.
Proof. unfold prunable_decision_nodes, decision_nodes. rewrite !filter_In. tauto. Qed.
Lemma grow_raises h X y t a idx e : no_nan X -> tree_inv h X (Some y) t a ->
  sample_grow_mutation h t idx = Raise e -> e = ENoSplittableVariable /\ splittable_leaf_nodes h t = [].
Proof.
  intros Hn H. unfold sample_grow_mutation, random_splittable_leaf_node.
  destruct (splittable_leaf_nodes h t) as [|n ns] eqn:En.
  { simpl. intros E; injection E as <-. auto. }
  destruct (np_choice 0 (n :: ns) idx) as [[i i1]| |] eqn:E1; try discriminate.
  2:{ unfold np_choice in E1. destruct idx; discriminate. }
  cbn [rbind]. apply np_choice_in in E1. rewrite <- En in E1.
  destruct (splittable_leaf _ _ _ _ _ _ H E1) as (w&s&d&ci&Hi&Hl&Hf&Eg&Hs&Hsp).
  unfold sample_split_node, node_data, node_split. rewrite Eg. unfold sample_split_condition.
  pose proof Hsp as Hsp'. apply (any_meaning X _ ci s Hs) in Hsp' as (v0&Hv0).
  destruct (np_choice 0 (fst (splittable_variables (d_X (sp_data s)))) i1) as [[v i2]| |] eqn:E2; try discriminate.
  2:{ unfold np_choice in E2. destruct (fst (splittable_variables _)); [destruct Hv0|]. destruct i1; discriminate. }
  cbn [rbind]. apply np_choice_in in E2.
  destruct (random_splittable_value (d_X (sp_data s)) v i2) as [[x i3]| |] eqn:E3; try discriminate.
  + cbn [rbind]. change (SC v x OpLe None None) with (fresh_le v x). change (SC v x OpGt None None) with (fresh_gt v x).
    destruct (sampled_fills _ _ _ _ _ _ _ _ Hn Hs E3) as (Hx&_).
    apply (offered_varies X _ ci s Hn Hs) in E2 as (Hv&_).
    destruct (split_node_total h X _ i w s d ci v x Hn Eg Hs Hx Hv) as (p&h1&Esp&Egm).
    { eapply nodes_below; eauto. }
    rewrite Esp. cbn [rbind]. rewrite Egm. discriminate.
  + apply (rsv_raises X _ ci s Hn Hs) in E3 as [_ E3]. tauto.
Qed.
Lemma prune_raises h X y t a idx e : tree_inv h X (Some y) t a ->
  sample_prune_mutation h t idx = Raise e -> e = ENoPrunableNode /\ prunable_decision_nodes h t = [].
Proof.
  intros H. unfold sample_prune_mutation, random_prunable_decision_node.
  destruct (prunable_decision_nodes h t) as [|n ns] eqn:En.
  { simpl. intros E; injection E as <-. auto. }
  destruct (np_choice 0 (n :: ns) idx) as [[i i1]| |] eqn:E1; try discriminate.
  2:{ unfold np_choice in E1. destruct idx; discriminate. }
  cbn [rbind]. apply np_choice_in in E1. rewrite <- En in E1. apply prunable_in in E1 as [Hi Hp].
  destruct (prune_step _ _ _ _ _ _ H Hi Hp) as (v&x&jl&jr&s&d&ci&Hf&Hg&Hss&Hpm&_).
  rewrite Hg. unfold h_alloc at 1. simpl nd_split. simpl nd_depth. unfold h_alloc in Hpm. simpl snd in Hpm.
  rewrite Hpm. discriminate.
Qed.
Lemma choose_first {A} (d x : A) l : choose d (x :: l) 0 = x.
Proof. unfold choose. rewrite Nat.mod_0_l by discriminate. reflexivity. Qed.
Lemma grow_exists h X y t a : no_nan X -> tree_inv h X (Some y) t a -> splittable_leaf_nodes h t <> [] ->
  exists idx m h1, forall rest, sample_grow_mutation h t (idx ++ rest) = Ok (m, h1, rest).
Proof.
  intros Hn H Hm. destruct (splittable_leaf_nodes h t) as [|i ns] eqn:En; [congruence|].
  destruct (splittable_leaf _ _ _ _ _ i H) as (w&s&d&ci&Hi&Hlf&Hf&Eg&Hs&Hsp); [rewrite En; simpl; auto|].
  pose proof Hsp as Hsp'. apply (any_meaning X _ ci s Hs) in Hsp' as (v0&Hv0).
  destruct (fst (splittable_variables (d_X (sp_data s)))) as [|v vs] eqn:Ev; [destruct Hv0|].
  assert (Hvin : In v (fst (splittable_variables (d_X (sp_data s))))) by (rewrite Ev; simpl; auto).
  destruct (rsv_escape X _ ci s Hn Hs v Hvin) as (dd&_&Hdd).
  assert (Hmax : exists mm c', max_value_of_column (d_X (sp_data s)) v = Ok (mm, c')).
  { destruct (max_value_of_column (d_X (sp_data s)) v) as [[mm c']|e|] eqn:Emx; [eauto| |].
    - exfalso. pose proof Hvin as Hv1. apply (offered_varies X _ ci s Hn Hs) in Hv1 as (Hvc&k&_&Hk&_).
      apply (max_raises X _ ci s Hn Hs v e Hvc) in Emx as [_ Emx]. exact (Emx k Hk).
    - exfalso. unfold max_value_of_column in Emx. destruct (_ <=? _); [discriminate|].
      destruct (nth v (cm_max (d_X (sp_data s))) None); [discriminate|].
      unfold list_max in Emx. destruct (get_column (d_X (sp_data s)) v); discriminate. }
  destruct Hmax as (mm&c'&Emx).
  assert (Hall : exists x, forall rest, random_splittable_value (d_X (sp_data s)) v (dd :: rest) = Ok (x, rest)).
  { destruct (Hdd [] [] mm c' Emx (Forall_nil _)) as (x&Ex). exists x. intros rest.
    destruct (Hdd [] rest mm c' Emx (Forall_nil _)) as (x'&Ex'). simpl in Ex, Ex'. rewrite Ex'.
    apply (rsv_first X _ ci s Hn Hs v (dd :: rest) x' rest Hvin) in Ex' as (pre&d1&m1&c1&M1&E1&->&_&F1).
    apply (rsv_first X _ ci s Hn Hs v [dd] x [] Hvin) in Ex as (pre2&d2&m2&c2&M2&E2&->&_&F2).
    assert (Hlen : length pre = 0) by (apply (f_equal (@length nat)) in E1; rewrite app_length in E1; simpl in E1; lia).
    assert (Hlen2 : length pre2 = 0) by (apply (f_equal (@length nat)) in E2; rewrite app_length in E2; simpl in E2; lia).
    destruct pre; [|discriminate]. destruct pre2; [|discriminate]. injection E1 as <-. injection E2 as <-. reflexivity. }
  destruct Hall as (x&Hall).
  destruct (sampled_fills _ _ _ _ _ _ _ _ Hn Hs (Hall [])) as (Hx&_).
  pose proof Hvin as Hv. apply (offered_varies X _ ci s Hn Hs) in Hv as (Hv&_).
  destruct (split_node_total h X _ i w s d ci v x Hn Eg Hs Hx Hv) as (p&h1&Esp&Egm).
  { eapply nodes_below; eauto. }
  exists [0; 0; dd], (Mu MGrow i p), h1. intros rest. unfold sample_grow_mutation, random_splittable_leaf_node.
  rewrite En. unfold np_choice at 1. simpl app. cbn [rbind]. rewrite choose_first.
  unfold sample_split_node, node_data, node_split. rewrite Eg. unfold sample_split_condition. rewrite Ev.
  unfold np_choice at 1. cbn [rbind]. rewrite choose_first. rewrite Hall. cbn [rbind].
  change (SC v x OpLe None None) with (fresh_le v x). change (SC v x OpGt None None) with (fresh_gt v x).
  rewrite Esp. cbn [rbind]. rewrite Egm. reflexivity.
Qed.
Lemma prune_exists h X y t a : tree_inv h X (Some y) t a -> prunable_decision_nodes h t <> [] ->
  exists idx m h1, forall rest, sample_prune_mutation h t (idx ++ rest) = Ok (m, h1, rest).
Proof.
  intros H Hm. destruct (prunable_decision_nodes h t) as [|i ns] eqn:En; [congruence|].
  destruct (prunable_in h t i) as [Hi Hp]; [rewrite En; simpl; auto|].
  destruct (prune_step _ _ _ _ _ _ H Hi Hp) as (v&x&jl&jr&s&d&ci&Hf&Hg&Hss&Hpm&_).
  eexists [0], _, _. intros rest. unfold sample_prune_mutation, random_prunable_decision_node. rewrite En. simpl app.
  unfold np_choice. cbn [rbind]. rewrite choose_first, Hg. unfold h_alloc at 1. simpl nd_split. simpl nd_depth. unfold h_alloc in Hpm. simpl snd in Hpm.
  rewrite Hpm. reflexivity.
Qed.

(** ** the outcome of one proposal *)
(** the column varies beyond its first row *)
Definition offers (X : matrix) : Prop := exists v x, chosen X [] v x.
Lemma move_exists h X y t a : no_nan X -> tree_inv h X (Some y) t a -> offers X ->
  splittable_leaf_nodes h t <> [] \/ prunable_decision_nodes h t <> [].
Proof.
  intros Hn H (v&x&Hv&_&k&i&j&Hki&Hkj&Hk&Hi&Hj&Hd). destruct a as [q|q v' x' l r].
  - left. destruct (ti_ok _ _ _ _ _ H) as (w&s&Eg&Hs).
    assert (Hin : In q (tr_nodes t)) by (apply (ti_in _ _ _ _ _ _ H); simpl; auto).
    assert (Hsp : In q (splittable_leaf_nodes h t)).
    { unfold splittable_leaf_nodes, leaf_nodes. rewrite !filter_In. split; [split; auto|].
      - unfold is_leaf. now rewrite Eg.
      - unfold is_splittable, node_data, node_split. rewrite Eg. apply (any_meaning X _ [] s Hs). exists v.
        apply (offered_iff X _ [] s Hn Hs). split; auto. exists k, i, j. rewrite !(in_node_kept _ _ _ _ _ Hs). auto 10. }
    intros E. rewrite E in Hsp. destruct Hsp.
  - right. destruct (prunable_exists _ _ _ _ _ _ (ti_ok _ _ _ _ _ H)) as (j0&Hj0&Hp); [simpl; discriminate|].
    intros E. assert (Hin : In j0 (prunable_decision_nodes h t)); [|rewrite E in Hin; destruct Hin].
    unfold prunable_decision_nodes, decision_nodes. rewrite !filter_In. split; [split|auto].
    + apply (ti_in _ _ _ _ _ _ H). exact Hj0.
    + now apply prunable_dec.
Qed.
Definition sampled (h : heap) (t : tree) (m : mutation) (h1 : heap) : Prop :=
  exists idx idx', sample_grow_mutation h t idx = Ok (m, h1, idx') \/ sample_prune_mutation h t idx = Ok (m, h1, idx').
Definition fair (p : params) : Prop := (0 < pa_k p /\ 0 < pa_pgrow p /\ 0 < pa_pprune p)%R /\ 1 <= pa_ntrees p.
Lemma grow_total h X y t cs d v x i u l r sigma p : no_nan X -> family h X y cs d v x i u l r -> chosen X cs v x -> (pa_pgrow p <> 0)%R ->
  exists L, log_probability_ratio h t (Mu MGrow i u) sigma p = Ok L.
Proof.
  intros Hn Hf Hc Hp. destruct (family_pick _ _ _ _ _ _ _ _ _ _ _ Hn Hf Hc) as (q&Eq).
  destruct (family_depth _ _ _ _ _ _ _ _ _ _ _ Hf) as (D1&D2&D3&D4).
  unfold log_probability_ratio, log_transition_ratio, log_grow_transition_ratio, log_likihood_ratio, log_tree_ratio, log_tree_ratio_grow.
  simpl mu_kind. cbv iota. simpl mu_existing. simpl mu_updated. unfold log_probability_split_within_tree. rewrite Eq, D1, D2.
  rewrite (family_children _ _ _ _ _ _ _ _ _ _ _ Hf). cbn [rbind].
  unfold py_div. destruct (Req_EM_T (pa_pgrow p) 0) as [E0|_]; [contradiction|]. cbn [rbind].
  rewrite (family_lik _ _ _ _ _ _ _ _ _ _ _ sigma p Hf). cbn [rbind]. rewrite D3, D4. cbn [rbind]. eauto.
Qed.
Lemma sampled_ratio h X y t a m h1 sigma p : no_nan X -> tree_inv h X (Some y) t a -> filled X [] a -> fair p -> (0 < sigma)%R ->
  sampled h t m h1 -> exists L, log_probability_ratio h1 t m sigma p = Ok L.
Proof.
  intros Hn H Hf Hp Hs (idx&idx'&[E|E]).
  - destruct (grow_view _ _ _ _ _ _ _ _ _ Hn H E) as (i&u&l&r&cs&d&v&x&->&Hfa&Hc&_&Hi&Hfr&_).
    eapply grow_total; eauto. destruct Hp as [(_&?&_) _]. lra.
  - destruct (prune_view _ _ _ _ _ _ _ _ _ H E) as (i&l&r&cs&d&v&x&->&Hfa&_&Hc&_&_&Hg).
    eapply prune_total; eauto. destruct Hp as [(_&_&?) _]. lra.
Qed.
Lemma sampled_mutate h X y t a m h1 : no_nan X -> tree_inv h X (Some y) t a -> sampled h t m h1 ->
  exists h2 t2, mutate h1 t m = (h2, t2, None).
Proof.
  intros Hn H (idx&idx'&[E|E]).
  - destruct (grow_view _ _ _ _ _ _ _ _ _ Hn H E) as (i&u&l&r&cs&d&v&x&->&_&_&_&Hi&_&Hx&Hsp&_).
    destruct (splittable_leaf _ _ _ _ _ _ H Hi) as (w&s&dd&ci&Hin&Hl&_).
    destruct (grow_step _ _ _ _ _ _ _ _ _ _ Hn H Hin Hl Hx Hsp) as (_&_&_&l1&_&Hm&_). eauto.
  - apply sample_prune_spec in E as (i&n&Hi&Eg&->&Hpm). apply prunable_in in Hi as [Hin Hp].
    destruct (prune_step _ _ _ _ _ _ H Hin Hp) as (v&x&jl&jr&s&d&ci&Hf&Hg&Hss&Hpm'&l1&l2&l3&_&_&_&Hm&_).
    rewrite Eg in Hg. injection Hg as ->. simpl nd_split in *. simpl nd_depth in *. rewrite Hpm' in Hpm. injection Hpm as <-. eauto.
Qed.
Lemma propose_outcome limit : forall h X y t a r, no_nan X -> tree_inv h X (Some y) t a ->
  match propose limit h t r with
  | Ok (m, h1, r1) => sampled h t m h1 /\ rg_gamma r1 = rg_gamma r
  | Raise e => e = ERecursionError
  | NoDraws => True
  end.
Proof.
  induction limit as [|limit IH]; intros h X y t a r Hn H; simpl; auto. destruct (rg_method r) as [|b bs]; auto.
  destruct b.
  - destruct (sample_grow_mutation h t (rg_index r)) as [[[m h1] idx]|e|] eqn:E; auto.
    + split; auto. exists (rg_index r), idx. auto.
    + destruct (grow_raises _ _ _ _ _ _ _ Hn H E) as [-> _]. apply (IH h X y t a (rng_set_method r bs) Hn H).
  - destruct (sample_prune_mutation h t (rg_index r)) as [[[m h1] idx]|e|] eqn:E; auto.
    + split; auto. exists (rg_index r), idx. auto.
    + destruct (prune_raises _ _ _ _ _ _ _ H E) as [-> _]. apply (IH h X y t a (rng_set_method r bs) Hn H).
Qed.
Lemma tree_step_safe h X y t a sigma p r : no_nan X -> tree_inv h X (Some y) t a -> filled X [] a -> fair p -> (0 < sigma)%R ->
  match tree_step h t sigma p r with
  | Ok (_, _, _, r1) => rg_gamma r1 = rg_gamma r
  | Raise e => e = ERecursionError
  | NoDraws => True
  end.
Proof.
  intros Hn H Hf Hp Hs. unfold tree_step, tree_sample. pose proof (propose_outcome (pa_limit p) h X y t a r Hn H) as Ho.
  destruct (propose (pa_limit p) h t r) as [[[m h1] r1]|e|]; cbn [rbind]; auto. destruct Ho as [Hsa Hg].
  destruct (sampled_ratio _ _ _ _ _ _ _ sigma p Hn H Hf Hp Hs Hsa) as (L&->). cbn [rbind].
  destruct (rg_unif r1) as [|u us]; cbn [rbind]; auto. destruct (accepts u L); auto.
  destruct (sampled_mutate _ _ _ _ _ _ _ Hn H Hsa) as (h2&t2&->). auto.
Qed.
Lemma count_of_pos X cs r : In r (mx_rows X) -> kept cs r = true -> 1 <= count_of X cs.
Proof.
  intros Hr Hk.
  apply In_nth with (d := []) in Hr as (j&Hj&E).
  unfold count_of. rewrite <- (count_count_false (mask_of X cs) (length (mx_rows X))) by apply mask_of_length.
  apply count_pos with (i := j); auto. unfold mask_of.
  rewrite nth_error_map, (nth_error_nth' _ [] Hj), E. simpl. unfold kept in Hk. now destruct (existsb _ cs).
Qed.
Lemma leaf_total h X y t a i sigma p r : tree_inv h X (Some y) t a -> filled X [] a -> In i (leaf_nodes h t) -> fair p -> (0 < sigma)%R ->
  match rg_norm r with
  | [] => leaf_step h i sigma p r = NoDraws
  | z :: zs => exists w, leaf_step h i sigma p r = Ok (set_value h i w, rng_set_norm r zs)
  end.
Proof.
  intros H Hf Hi Hp Hs. pose proof (leaf_region _ _ _ _ _ _ H Hi) as Hreg.
  unfold leaf_nodes in Hi. apply filter_In in Hi as [Hin Hl].
  pose proof (proj1 (ti_in _ _ _ _ _ _ H) Hin) as Hia. destruct (afind_in a [] 0 i Hia) as ([[ci di] ai]&Hfi).
  pose proof (afind_leaf _ _ _ _ _ _ _ _ _ _ (ti_ok _ _ _ _ _ H) Hfi Hl) as ->.
  pose proof (afind_aok _ _ _ _ _ _ _ _ _ _ (ti_ok _ _ _ _ _ H) Hfi) as (w&s&Eg&Hss).
  pose proof (filled_afind _ _ _ _ _ _ _ _ Hf Hfi) as (r0&Hr0&Hk0).
  assert (Hc : 1 <= count_of X ci).
  { eapply count_of_pos; eauto. }
  unfold leaf_step. rewrite (node_n_spec _ _ _ _ _ _ _ _ Eg Hss), (node_sum_spec _ _ _ _ _ _ _ _ Eg Hss). cbn [rbind].
  destruct (rg_norm r) as [|z zs]; auto. destruct Hp as [(Hk&_) Hnt]. rewrite leaf_sample_fin by auto. eauto.
Qed.
