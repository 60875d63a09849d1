(** The acceptance ratio of proposals on reachable trees. *)
From Coq Require Import Reals Lra Permutation.
From Verif Require Import Base Fl Ext MData MSplit MTree MSampler MHist MTreeHist Spec SpecTree SpecSampler LFl LList
  PData PSplit PDataProps PCond PTree PPred PTreeHist PTreeProps PTreeProps2 PSampler.

(** A node [e] with data and a decision node [p] over leaves [l], [r], all on the same rows. *)
Definition family (h : heap) (X : matrix) (y : list R) (cs : list rule) (d v : nat) (x : fl) (e p l r : nat) : Prop :=
  exists ke se sp kl sl kr sr,
    h_get h e = Some (Nd ke (SFull se) d) /\ h_get h p = Some (Nd (KDec l r) (SFull sp) d) /\
    h_get h l = Some (Nd kl (SFull sl) (S d)) /\ h_get h r = Some (Nd kr (SFull sr) (S d)) /\
    sinv X (Some y) cs se /\ sinv X (Some y) cs sp /\
    sinv X (Some y) (cs ++ [Rl v x true]) sl /\ sinv X (Some y) (cs ++ [Rl v x false]) sr.
(** likelihood ratio as a function of the rows *)
Definition Lk (X : matrix) (y : list R) (cs : list rule) (v : nat) (x : fl) (sigma : R) (p : params) : ext :=
  log_grow_ratio (Z.of_nat (count_of X cs)) (Z.of_nat (count_of X (cs ++ [Rl v x true]))) (Z.of_nat (count_of X (cs ++ [Rl v x false])))
    (sum_of X y cs) (sum_of X y (cs ++ [Rl v x true])) (sum_of X y (cs ++ [Rl v x false])) sigma (sigma_m p).

Lemma node_n_spec h i k s d X oy cs : h_get h i = Some (Nd k (SFull s) d) -> sinv X oy cs s ->
  node_n h i = Ok (Z.of_nat (count_of X cs)).
Proof.
  intros E Hs. unfold node_n, node_data, node_split. rewrite E. f_equal.
  rewrite (cvd_n _ (si_c _ _ _ _ Hs)), (si_mask _ _ _ _ Hs). reflexivity.
Qed.
Lemma node_sum_spec h i k s d X y cs : h_get h i = Some (Nd k (SFull s) d) -> sinv X (Some y) cs s ->
  node_sum h i = Ok (sum_of X y cs).
Proof.
  intros E Hs. unfold node_sum, node_data, node_split. rewrite E.
  destruct (summed_y_total _ _ _ (si_t _ _ _ _ Hs)) as (t'&->). reflexivity.
Qed.
Lemma family_lik h X y cs d v x e p l r sigma P : family h X y cs d v x e p l r ->
  log_grow_ratio_nodes h e l r sigma P = Ok (Lk X y cs v x sigma P).
Proof.
  intros (ke&se&sp&kl&sl&kr&sr&E1&E2&E3&E4&H1&H2&H3&H4). unfold log_grow_ratio_nodes.
  rewrite (node_n_spec _ _ _ _ _ _ _ _ E1 H1), (node_n_spec _ _ _ _ _ _ _ _ E3 H3), (node_n_spec _ _ _ _ _ _ _ _ E4 H4).
  rewrite (node_sum_spec _ _ _ _ _ _ _ _ E1 H1), (node_sum_spec _ _ _ _ _ _ _ _ E3 H3), (node_sum_spec _ _ _ _ _ _ _ _ E4 H4).
  reflexivity.
Qed.
Lemma family_children h X y cs d v x e p l r : family h X y cs d v x e p l r -> get_children h p = Ok (l, r).
Proof. intros (ke&se&sp&kl&sl&kr&sr&E1&E2&_). unfold get_children, left_child, right_child. now rewrite E2. Qed.
Lemma family_depth h X y cs d v x e p l r : family h X y cs d v x e p l r ->
  node_depth h e = Ok d /\ node_depth h p = Ok d /\ node_depth h l = Ok (S d) /\ node_depth h r = Ok (S d).
Proof. intros (ke&se&sp&kl&sl&kr&sr&E1&E2&E3&E4&_). unfold node_depth. rewrite E1, E2, E3, E4. auto. Qed.
Lemma family_recent h X y cs d v x e p l r : family h X y cs d v x e p l r ->
  exists c, dec_most_recent h p = Some c /\ sc_var c = v /\ sc_val c = x /\ sc_op c = OpLe.
Proof.
  intros (ke&se&sp&kl&sl&kr&sr&E1&E2&E3&E4&_&_&H3&_). unfold dec_most_recent, left_child. rewrite E2, E3. simpl.
  destruct (sinv_recent _ _ _ _ _ H3) as (c&Ec&Erc). exists c. split; auto.
  destruct c as [cv cx [| |] cs' cn]; unfold rule_of in Erc; simpl in Erc; injection Erc as -> ->; auto; discriminate.
Qed.
(** the probability of the chosen variable and value is positive *)
Lemma family_pick h X y cs d v x e p l r : no_nan X -> family h X y cs d v x e p l r -> chosen X cs v x ->
  exists q, log_probability_split_within_node h e p = Ok (XFin q).
Proof.
  intros Hn Hf Hc. destruct (family_recent _ _ _ _ _ _ _ _ _ _ _ Hf) as (c&Ec&<-&<-&_).
  destruct Hf as (ke&se&sp&kl&sl&kr&sr&E1&E2&E3&E4&H1&_).
  unfold log_probability_split_within_node, node_data, node_split. rewrite E1, Ec.
  destruct Hc as (Hv&(r0&Hr0&Hk0&Hx0)&Hvar). 
  apply In_nth with (d := []) in Hr0 as (i&Hi&<-).
  assert (Hin : in_node se i) by (apply (in_node_kept _ _ _ _ _ H1); auto).
  assert (Hoff : In (sc_var c) (fst (splittable_variables (d_X (sp_data se))))).
  { apply (offered_iff X _ cs se Hn H1). split; auto. destruct Hvar as (k&i'&j&Hki&Hkj&Hk&Hi'&Hj&Hd).
    exists k, i', j. split; auto. split; auto. rewrite !(in_node_kept _ _ _ _ _ H1). auto. }
  destruct (proportion_occurring X _ cs se Hn H1 (sc_var c) (sc_val c) i Hv Hin Hx0) as (c'&Ep). rewrite Ep. cbn [rbind].
  assert (Hnv : (0 < INR (fst (n_splittable_variables (d_X (sp_data se)))))%R).
  { apply lt_0_INR. unfold n_splittable_variables. destruct (splittable_variables (d_X (sp_data se))) as [vs c1]. simpl in *.
    destruct vs; [destruct Hoff|simpl; lia]. }
  rewrite xlog_fin by auto. simpl xneg.
  rewrite xlog_fin. { simpl. eauto. }
  assert (Hb : in_nodeb se i = true) by (apply in_nodeb_iff; auto).
  apply Rdiv_lt_0_compat; apply lt_0_INR; apply count_pos with (i := i); auto.
  rewrite Hb. simpl. unfold value_in. rewrite Hx0. apply feqb_eq. split; auto.
  rewrite <- Hx0. apply Hn; auto. apply nth_In; auto.
Qed.

Lemma frame_lists h h1 X oy t a : tree_inv h X oy t a -> hframe h h1 ->
  leaf_nodes h1 t = leaf_nodes h t /\ splittable_leaf_nodes h1 t = splittable_leaf_nodes h t /\
  decision_nodes h1 t = decision_nodes h t /\ prunable_decision_nodes h1 t = prunable_decision_nodes h t.
Proof.
  intros H [_ Hold].
  assert (Hb : forall j, In j (tr_nodes t) -> h_get h1 j = h_get h j) by (intros j Hj; apply Hold; eapply nodes_below; eauto).
  assert (El : leaf_nodes h1 t = leaf_nodes h t).
  { unfold leaf_nodes. apply filter_ext_in. intros j Hj. unfold is_leaf. now rewrite Hb. }
  assert (Ed : decision_nodes h1 t = decision_nodes h t).
  { unfold decision_nodes. apply filter_ext_in. intros j Hj. unfold is_dec. now rewrite Hb. }
  split; auto. split.
  { unfold splittable_leaf_nodes. rewrite El. apply filter_ext_in. intros j Hj. unfold leaf_nodes in Hj. apply filter_In in Hj as [Hj _].
    unfold is_splittable, node_data, node_split. now rewrite Hb. }
  split; auto. unfold prunable_decision_nodes. rewrite Ed. apply filter_ext_in. intros j Hj.
  unfold decision_nodes in Hj. apply filter_In in Hj as [Hj Hd].
  unfold is_prunable, left_child, right_child. rewrite Hb by auto.
  destruct (h_get h j) as [[[w|l r] s d]|] eqn:E; auto.
  pose proof (proj1 (ti_in _ _ _ _ _ _ H) Hj) as Hja.
  destruct (child_listed _ _ _ _ _ _ _ _ _ _ _ (ti_ok _ _ _ _ _ H) Hja E) as (Hl&Hr&_).
  unfold is_leaf. rewrite !Hb; auto; apply (ti_in _ _ _ _ _ _ H); auto.
Qed.

Lemma grow_view h X y t a idx m h1 idx' : no_nan X -> tree_inv h X (Some y) t a ->
  sample_grow_mutation h t idx = Ok (m, h1, idx') ->
  exists i p l r cs d v x, m = Mu MGrow i p /\ family h1 X y cs d v x i p l r /\ chosen X cs v x /\
    afind [] 0 i a = Some (cs, d, ALeaf i) /\ In i (splittable_leaf_nodes h t) /\ hframe h h1 /\
    x <> FNaN /\ split_node h i (fresh_le v x) (fresh_gt v x) = Ok (p, h1) /\ grow_mutation h1 i p = Ok m /\
    l = h_next h /\ r = S (h_next h).
Proof.
  intros Hn H E. pose proof (sample_grow_frame _ _ _ _ _ _ E) as Hfr.
  apply sample_grow_spec in E as (i&v&x&p&s&i1&i2&Hi&Es&Hv&Hrv&Hsp&Hg).
  destruct (splittable_leaf _ _ _ _ _ _ H Hi) as (w&s0&d0&ci&Hi'&Hl&Hf&Eg&Hs0&_).
  unfold node_split in Es. rewrite Eg in Es. injection Es as ->.
  destruct (sampled_fills _ _ _ _ _ _ _ _ Hn Hs0 Hrv) as (Hx&_).
  pose proof (sampled_chosen _ _ _ _ _ _ _ _ Hn Hs0 Hrv) as Hch.
  pose proof Hsp as Hsp0.
  apply split_node_spec in Hsp as (k&s0&d&s'&sl&sr&Eg'&Hsc&->&Hnx&Hold&Hgl&Hgr&Hgp).
  rewrite Eg in Eg'. injection Eg' as <- <- <-.
  destruct (split_children_sinv _ _ _ _ _ _ _ _ _ Hn Hx Hs0 Hsc) as (Hvc&Hs'&Hsl&Hsr).
  pose proof Hg as Hg0. unfold grow_mutation in Hg. destruct (negb (is_leaf h1 i)); [discriminate|]. injection Hg as <-.
  exists i, (S (S (h_next h))), (h_next h), (S (h_next h)), ci, d0, v, x.
  split; auto. split; [|repeat (split; [solve [auto]|]); auto].
  exists (KLeaf w), s, s', (KLeaf 0), sl, (KLeaf 0), sr. rewrite Hold by (eapply nodes_below; eauto). auto 10.
Qed.
Lemma filled_afind X a : forall cs d i ci di ai, filled X cs a -> afind cs d i a = Some (ci, di, ai) -> filled X ci ai.
Proof.
  induction a as [j|j v x l IHl r IHr]; intros cs d i ci di ai; simpl; destruct (Nat.eqb_spec j i) as [E|Hne].
  - intros Hf H; injection H as <- <- <-. exact Hf.
  - discriminate.
  - intros Hf H; injection H as <- <- <-. exact Hf.
  - intros (_&Hl&Hr). destruct (afind _ _ i l) as [[[c0 d0] a0]|] eqn:El.
    + intros H; injection H as <- <- <-. eauto.
    + eauto.
Qed.
Lemma prune_view h X y t a idx m h1 idx' : tree_inv h X (Some y) t a ->
  sample_prune_mutation h t idx = Ok (m, h1, idx') ->
  exists i l r cs d v x, m = Mu MPrune i (h_next h) /\ family h1 X y cs d v x (h_next h) i l r /\
    afind [] 0 i a = Some (cs, d, ANode i v x (ALeaf l) (ALeaf r)) /\
    (filled X [] a -> chosen X cs v x) /\ In i (prunable_decision_nodes h t) /\ hframe h h1 /\
    grow_mutation h1 (h_next h) i = Ok (Mu MGrow (h_next h) i).
Proof.
  intros H E. pose proof (sample_prune_frame _ _ _ _ _ _ E) as Hfr.
  apply sample_prune_spec in E as (i&n&Hi&Eg&->&Hpm). pose proof Hi as Hi0.
  unfold prunable_decision_nodes, decision_nodes in Hi. rewrite !filter_In in Hi. destruct Hi as [[Hi Hd] Hp].
  destruct (prune_step _ _ _ _ _ _ H Hi Hp) as (v&x&jl&jr&s&d&ci&Hf&Hg&Hs&Hpm'&_).
  rewrite Eg in Hg. injection Hg as ->. simpl nd_split in *. simpl nd_depth in *.
  rewrite Hpm' in Hpm. injection Hpm as <-.
  exists i, jl, jr, ci, d, v, x. split; auto.
  pose proof (afind_aok _ _ _ _ _ _ _ _ _ _ (ti_ok _ _ _ _ _ H) Hf) as ((s1&E1&Hs1)&_&_&(wl&sl&El&Hsl)&(wr&sr&Er&Hsr)).
  pose proof (afind_sub _ _ _ _ _ _ _ Hf) as [_ Hsub].
  assert (Hb : forall j, In j [i; jl; jr] -> j < h_next h).
  { intros j Hj. apply (ti_below _ _ _ _ _ H). apply Hsub. exact Hj. }
  split.
  { destruct Hfr as [_ Hold]. exists (KLeaf 0), s, s, (KLeaf wl), sl, (KLeaf wr), sr.
    rewrite (Hold i), (Hold jl), (Hold jr) by (apply Hb; simpl; auto). simpl h_get. rewrite Nat.eqb_refl. auto 10. }
  split; auto. split.
  { intros Hfil. apply (filled_afind _ _ _ _ _ _ _ _ Hfil) in Hf. apply Hf. }
  split; auto. split; auto. unfold grow_mutation, is_leaf. simpl. now rewrite Nat.eqb_refl.
Qed.

(** ** the ratios *)
Definition good (p : params) : Prop :=
  (0 < pa_alpha p < 1 /\ 0 <= pa_beta p /\ 0 < pa_k p /\ 0 < pa_pgrow p /\ 0 < pa_pprune p)%R /\ 1 <= pa_ntrees p.
Lemma Lk_fin X y cs v x sigma p : (0 < sigma)%R -> good p -> exists L, Lk X y cs v x sigma p = XFin L.
Proof.
  intros Hs Hp. destruct Hp as [(_&_&Hk&_) Hnt]. unfold Lk. rewrite sigma_m_fin by auto. rewrite log_grow_ratio_fin; eauto using tau_pos.
Qed.
Lemma not_split_fin p d : good p -> log_probability_node_not_split p d = XFin (ln (1 - split_probability (pa_alpha p) (pa_beta p) d)).
Proof.
  intros [(Ha&Hb&_) _]. unfold log_probability_node_not_split. rewrite split_prior_spec.
  pose proof (split_probability_range (pa_alpha p) (pa_beta p) d). rewrite xlog_fin; auto. lra.
Qed.
Lemma split_fin p d : good p -> log_probability_node_split p d = XFin (ln (split_probability (pa_alpha p) (pa_beta p) d)).
Proof.
  intros [(Ha&Hb&_) _]. unfold log_probability_node_split. rewrite split_prior_spec.
  pose proof (split_probability_range (pa_alpha p) (pa_beta p) d). rewrite xlog_fin; auto. lra.
Qed.
Local Open Scope R_scope.
Lemma grow_ratio h X y t cs d v x i u l r sigma p L : no_nan X -> family h X y cs d v x i u l r -> chosen X cs v x ->
  good p -> (1 <= n_splittable_leaf_nodes h t)%nat -> Lk X y cs v x sigma p = XFin L ->
  log_probability_ratio h t (Mu MGrow i u) sigma p =
  Ok (XFin (ln (pa_pprune p / pa_pgrow p) - ln (INR (n_prunable_decision_nodes h t) + 1) + L
            + log_structure_odds (pa_alpha p) (pa_beta p) d)).
Proof.
  intros Hn Hf Hc Hp Hns HL. unfold log_probability_ratio, log_transition_ratio, log_likihood_ratio, log_tree_ratio. simpl mu_kind. cbv iota.
  unfold log_grow_transition_ratio, log_tree_ratio_grow. simpl mu_existing. simpl mu_updated.
  rewrite (family_children _ _ _ _ _ _ _ _ _ _ _ Hf).
  destruct (family_depth _ _ _ _ _ _ _ _ _ _ _ Hf) as (D1&D2&D3&D4). rewrite D1, D2.
  unfold log_probability_split_within_tree.
  destruct (family_pick _ _ _ _ _ _ _ _ _ _ _ Hn Hf Hc) as (q&Eq). rewrite Eq. cbn [rbind].
  unfold py_div. pose proof Hp as [(_&_&_&Hg&Hpr) _].
  destruct (Req_EM_T (pa_pgrow p) 0) as [?|_]; [lra|]. cbn [rbind].
  rewrite (family_lik _ _ _ _ _ _ _ _ _ _ _ sigma p Hf), HL. cbn [rbind]. rewrite D3, D4. cbn [rbind].
  rewrite !not_split_fin, split_fin by auto.
  assert (0 < INR (n_splittable_leaf_nodes h t)) by (apply lt_0_INR; lia).
  pose proof (pos_INR (n_prunable_decision_nodes h t)).
  rewrite (xlog_fin (INR (n_splittable_leaf_nodes h t))) by auto.
  rewrite (xlog_fin (INR (n_prunable_decision_nodes h t + 1))) by (rewrite plus_INR; simpl; lra).
  rewrite xlog_fin by (now apply Rdiv_lt_0_compat).
  rewrite plus_INR. change (INR 1) with 1.
  rewrite !xneg_fin, !xadd_fin, !xsub_fin, !xadd_fin. do 2 f_equal. unfold log_structure_odds. lra.
Qed.
Lemma prune_ratio h X y t cs d v x i u l r sigma p L : no_nan X -> family h X y cs d v x u i l r -> chosen X cs v x ->
  good p -> (2 <= n_splittable_leaf_nodes h t)%nat -> (1 <= n_prunable_decision_nodes h t)%nat -> 
  grow_mutation h u i = Ok (Mu MGrow u i) -> Lk X y cs v x sigma p = XFin L ->
  log_probability_ratio h t (Mu MPrune i u) sigma p =
  Ok (XFin (ln (pa_pgrow p / pa_pprune p) - ln (INR (n_splittable_leaf_nodes h t) - 1) + ln (INR (n_prunable_decision_nodes h t)) - L
            - log_structure_odds (pa_alpha p) (pa_beta p) d)).
Proof.
  intros Hn Hf Hc Hp Hns Hnp Hgm HL. unfold log_probability_ratio, log_transition_ratio, log_likihood_ratio, log_tree_ratio. simpl mu_kind. cbv iota.
  unfold log_prune_transition_ratio, log_tree_ratio_prune. simpl mu_existing. simpl mu_updated. rewrite Hgm.
  rewrite (family_children _ _ _ _ _ _ _ _ _ _ _ Hf).
  destruct (family_depth _ _ _ _ _ _ _ _ _ _ _ Hf) as (D1&D2&D3&D4). rewrite D1, D2.
  destruct (family_pick _ _ _ _ _ _ _ _ _ _ _ Hn Hf Hc) as (q&Eq). rewrite Eq. cbn [rbind].
  unfold py_div. pose proof Hp as [(_&_&_&Hg&Hpr) _].
  destruct (Req_EM_T (pa_pprune p) 0) as [?|_]; [lra|]. cbn [rbind].
  rewrite (family_lik _ _ _ _ _ _ _ _ _ _ _ sigma p Hf), HL. cbn [rbind]. rewrite D3. cbn [rbind].
  rewrite !not_split_fin, split_fin by auto.
  assert (2 <= INR (n_splittable_leaf_nodes h t)) by (change 2 with (INR 2); apply le_INR; lia).
  assert (1 <= INR (n_prunable_decision_nodes h t)) by (change 1 with (INR 1); apply le_INR; lia).
  destruct (Nat.eqb_spec (n_splittable_leaf_nodes h t) 1); [lia|].
  rewrite (xlog_fin (INR (n_splittable_leaf_nodes h t) - 1)) by lra.
  rewrite (xlog_fin (INR (n_prunable_decision_nodes h t))) by lra.
  rewrite xlog_fin by (now apply Rdiv_lt_0_compat).
  rewrite !xneg_fin, !xadd_fin, !xsub_fin, !xadd_fin. do 2 f_equal. unfold log_structure_odds. lra.
Qed.

(** prunes with at most one splittable leaf *)
Definition low (a : ext) : Prop := a = XNInf \/ a = XNaN.
Lemma low_l a b : low a -> low (xadd a b).
Proof. intros [-> | ->]; destruct b; simpl; unfold low; auto. Qed.
Lemma low_r a b : low b -> low (xadd a b).
Proof. intros [-> | ->]; destruct a; simpl; unfold low; auto. Qed.
Lemma low_accept u a : low a -> accepts u a = false.
Proof. intros [-> | ->]; reflexivity. Qed.
Lemma prune_low h t i u sigma p L : (n_splittable_leaf_nodes h t <= 1)%nat ->
  log_probability_ratio h t (Mu MPrune i u) sigma p = Ok L -> low L.
Proof.
  intros Hns. unfold log_probability_ratio, log_transition_ratio. simpl mu_kind. cbv iota.
  destruct (log_prune_transition_ratio h t (Mu MPrune i u) p) as [a| |] eqn:E; try discriminate. cbn [rbind].
  destruct (log_likihood_ratio h (Mu MPrune i u) sigma p) as [b| |]; try discriminate. cbn [rbind].
  destruct (log_tree_ratio h t (Mu MPrune i u) p) as [c| |]; try discriminate. cbn [rbind].
  intros E'; injection E' as <-. apply low_l, low_l.
  revert E. unfold log_prune_transition_ratio. simpl mu_existing. simpl mu_updated.
  destruct (grow_mutation h u i) as [g| |]; try discriminate. cbn [rbind].
  destruct (log_probability_split_within_node h u i) as [q| |]; try discriminate. cbn [rbind].
  destruct (py_div (pa_pgrow p) (pa_pprune p)) as [z| |]; try discriminate. cbn [rbind].
  intros E; injection E as <-. apply low_r. apply low_l. apply low_l.
  destruct (Nat.eqb_spec (n_splittable_leaf_nodes h t) 1); [left; auto|].
  right. replace (n_splittable_leaf_nodes h t) with 0%nat by lia. simpl INR. simpl. rewrite rsign_neg by lra. reflexivity.
Qed.
Lemma prune_total h X y t cs d v x i u l r sigma p : no_nan X -> family h X y cs d v x u i l r -> chosen X cs v x ->
  pa_pprune p <> 0 -> grow_mutation h u i = Ok (Mu MGrow u i) ->
  exists L, log_probability_ratio h t (Mu MPrune i u) sigma p = Ok L.
Proof.
  intros Hn Hf Hc Hp Hgm. destruct (family_pick _ _ _ _ _ _ _ _ _ _ _ Hn Hf Hc) as (q&Eq).
  destruct (family_depth _ _ _ _ _ _ _ _ _ _ _ Hf) as (D1&D2&D3&D4).
  unfold log_probability_ratio, log_transition_ratio, log_prune_transition_ratio, log_likihood_ratio, log_tree_ratio, log_tree_ratio_prune.
  simpl mu_kind. cbv iota. simpl mu_existing. simpl mu_updated. rewrite Hgm, Eq, D1, D2.
  rewrite (family_children _ _ _ _ _ _ _ _ _ _ _ Hf). cbn [rbind].
  unfold py_div. destruct (Req_EM_T (pa_pprune p) 0) as [E0|_]; [contradiction|]. cbn [rbind].
  rewrite (family_lik _ _ _ _ _ _ _ _ _ _ _ sigma p Hf). cbn [rbind]. rewrite D3. cbn [rbind]. eauto.
Qed.
