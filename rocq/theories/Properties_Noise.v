(** Property C85: what the noise level does to the decisions of the tree sampler. *)
From Coq Require Import Reals Lra Lia.
From Verif Require Import Base Fl Ext MData MSplit MTree MSampler MHist MTreeHist Spec SpecTree SpecSampler LFl LList
  PData PSplit PDataProps PCond PTree PPred PTreeHist PTreeProps PTreeProps2 PSampler PSampler2 PSampler3 PModel10 PAlpha Properties_Tree Properties_Sampler Properties_Propose PNoise.
Local Open Scope R_scope.

Lemma grow_view_filled h X y t a idx m h1 idx' : no_nan X -> tree_inv h X (Some y) t a ->
  sample_grow_mutation h t idx = Ok (m, h1, idx') ->
  exists i p l r cs d v x, m = Mu MGrow i p /\ family h1 X y cs d v x i p l r /\ chosen X cs v x /\
    afind [] 0 i a = Some (cs, d, ALeaf i) /\ In i (splittable_leaf_nodes h t) /\ hframe h h1 /\
    (1 <= count_of X (cs ++ [Rl v x true]))%nat /\ (1 <= count_of X (cs ++ [Rl v x false]))%nat.
Proof.
  intros Hn H E. pose proof (sample_grow_frame _ _ _ _ _ _ E) as Hfr.
  apply sample_grow_spec in E as (i&v&x&p&s&i1&i2&Hi&Es&Hv&Hrv&Hsp&Hg).
  destruct (splittable_leaf _ _ _ _ _ _ H Hi) as (w&s0&d0&ci&Hi'&Hl&Hf&Eg&Hs0&_).
  unfold node_split in Es. rewrite Eg in Es. injection Es as ->.
  destruct (sampled_fills _ _ _ _ _ _ _ _ Hn Hs0 Hrv) as (Hx&(r1&Hr1&Hk1)&(r2&Hr2&Hk2)).
  pose proof (sampled_chosen _ _ _ _ _ _ _ _ Hn Hs0 Hrv) as Hch.
  apply split_node_spec in Hsp as (k&s0&d&s'&sl&sr&Eg'&Hsc&->&Hnx&Hold&Hgl&Hgr&Hgp).
  rewrite Eg in Eg'. injection Eg' as <- <- <-.
  destruct (split_children_sinv _ _ _ _ _ _ _ _ _ Hn Hx Hs0 Hsc) as (Hvc&Hs'&Hsl&Hsr).
  unfold grow_mutation in Hg. destruct (negb (is_leaf h1 i)); [discriminate|]. injection Hg as <-.
  exists i, (S (S (h_next h))), (h_next h), (S (h_next h)), ci, d0, v, x.
  split; auto. split; [|repeat (split; [solve [auto]|]); eauto using count_of_pos].
  exists (KLeaf w), s, s', (KLeaf 0), sl, (KLeaf 0), sr. rewrite Hold by (eapply nodes_below; eauto). auto 10.
Qed.
Lemma chosen_not_nan X cs v x : no_nan X -> chosen X cs v x -> x <> FNaN.
Proof. intros Hn (Hv&(r&Hr&_&<-)&_). now apply Hn. Qed.

(** the likelihood ratio in terms of the two sides *)
Lemma family_value h X y cs d v x e u l r p : no_nan X -> family h X y cs d v x e u l r -> chosen X cs v x -> good p ->
  exists sl sr, sides h u sl sr /\ length (node_targets sl y) = count_of X (cs ++ [Rl v x true]) /\
    length (node_targets sr y) = count_of X (cs ++ [Rl v x false]) /\
    forall sigma, 0 < sigma -> Lk X y cs v x sigma p =
      XFin (grow_val (INR (length (node_targets sl y)) + INR (length (node_targets sr y))) (INR (length (node_targets sl y))) (INR (length (node_targets sr y)))
             (rsum (node_targets sl y) + rsum (node_targets sr y)) (rsum (node_targets sl y)) (rsum (node_targets sr y)) sigma (tau_of (pa_k p) (pa_ntrees p))).
Proof.
  intros Hn Hf Hc Hp. pose proof Hf as (ke&se&sp&kl&sl&kr&sr&E1&E2&E3&E4&H1&H2&H3&H4).
  exists sl, sr. split.
  { exists l, r. unfold left_child, right_child, node_split. now rewrite E2, E3, E4. }
  rewrite !(targets_len _ _ _ _ H3), !(targets_len _ _ _ _ H4), !(targets_sum _ _ _ _ H3), !(targets_sum _ _ _ _ H4). split; auto. split; auto.
  intros sigma Hs. destruct Hp as [(_&_&Hk&_) Hnt]. pose proof (chosen_not_nan _ _ _ _ Hn Hc) as Hx. destruct Hc as (Hv&_).
  unfold Lk. rewrite sigma_m_fin by auto. rewrite log_grow_ratio_fin by (auto using tau_pos).
  rewrite <- plus_INR, count_of_split by auto. rewrite sum_of_split; auto.
  pose proof (tv_len _ _ _ (si_t _ _ _ _ H1) y eq_refl) as Hl. rewrite mask_of_length in Hl. lia.
Qed.
Lemma averages a b k n : (1 <= k)%nat -> (1 <= n)%nat -> (a / INR k = b / INR n <-> a * INR n = b * INR k).
Proof.
  intros Hk Hn. assert (0 < INR k) by (apply lt_0_INR; lia). assert (0 < INR n) by (apply lt_0_INR; lia). split; intros E.
  - apply Rmult_eq_reg_r with (/ INR k * / INR n); [|apply Rgt_not_eq, Rmult_lt_0_compat; apply Rinv_0_lt_compat; auto].
    replace (a * INR n * (/ INR k * / INR n)) with (a / INR k) by (field; lra). rewrite E. field. lra.
  - apply Rmult_eq_reg_r with (INR k * INR n); [|apply Rgt_not_eq, Rmult_lt_0_compat; auto].
    replace (a / INR k * (INR k * INR n)) with (a * INR n) by (field; lra). rewrite E. field. lra.
Qed.
(** the likelihood ratio for little noise *)
Lemma small_noise (A B : list R) t M N : 0 < t -> (1 <= length A)%nat -> (1 <= length B)%nat ->
  exists s0, 0 < s0 /\ forall sigma, 0 < sigma < s0 ->
    let L := grow_val (INR (length A) + INR (length B)) (INR (length A)) (INR (length B)) (rsum A + rsum B) (rsum A) (rsum B) sigma t in
    (average A <> average B -> M < L) /\ (average A = average B -> L < N).
Proof.
  intros Ht HA HB. pose proof (averages (rsum A) (rsum B) _ _ HA HB) as Hav.
  assert (1 <= INR (length A)) by (change 1 with (INR 1); now apply le_INR). assert (1 <= INR (length B)) by (change 1 with (INR 1); now apply le_INR).
  destruct (Req_dec (rsum A * INR (length B)) (rsum B * INR (length A))) as [E|E].
  - destruct (grow_val_small_equal (INR (length A) + INR (length B)) (INR (length A)) (INR (length B)) (rsum A) (rsum B) t N) as (s0&Hs0&Hd); auto.
    exists s0. split; auto. intros sigma Hs L. split; [|intros _; now apply Hd]. unfold average. tauto.
  - destruct (grow_val_small (INR (length A) + INR (length B)) (INR (length A)) (INR (length B)) (rsum A) (rsum B) t M) as (s0&Hs0&Hd); auto.
    exists s0. split; auto. intros sigma Hs L. split; [intros _; now apply Hd|]. unfold average. tauto.
Qed.
Lemma step_decided h t sigma p r m h1 r0 u us q : propose (pa_limit p) h t r = Ok (m, h1, r0) -> rg_unif r0 = u :: us ->
  log_probability_ratio h1 t m sigma p = Ok (XFin q) -> (exists h2 t2, mutate h1 t m = (h2, t2, None)) ->
  (u < q -> exists h2 t2, mutate h1 t m = (h2, t2, None) /\ tree_step h t sigma p r = Ok (Some m, h2, t2, rng_set_unif r0 us)) /\
  (q <= u -> tree_step h t sigma p r = Ok (None, h1, t, rng_set_unif r0 us)).
Proof.
  intros Ep Eu Eq (h2&t2&Em). unfold tree_step, tree_sample. rewrite Ep. cbn [rbind]. rewrite Eq. cbn [rbind]. rewrite Eu. cbn [rbind].
  unfold accepts, xltb. destruct (Rlt_dec u q); split; intros; try lra; cbn [rbind]; auto. rewrite Em. eauto.
Qed.

(** ** C85 *)
(** With little enough noise a proposed split is accepted whatever the draw if the mean targets of its two sides differ,
    and rejected whatever the draw if they are equal. *)
Theorem C85_grow : forall X y normalize h0 os h t idx m h1 idx1 p,
  no_nan X -> tree_reached X y normalize h0 os h t -> sample_grow_mutation h t idx = Ok (m, h1, idx1) -> usual p ->
  let Y := last_tree_target (start_target y normalize) os in
  exists sl sr, sides h1 (mu_updated m) sl sr /\ node_targets sl Y <> [] /\ node_targets sr Y <> [] /\
  exists s0, 0 < s0 /\ forall sigma r r0 u us, 0 < sigma < s0 ->
    propose (pa_limit p) h t r = Ok (m, h1, r0) -> rg_unif r0 = u :: us -> 0 <= u < 1 ->
    (average (node_targets sl Y) <> average (node_targets sr Y) ->
       exists h2 t2, mutate h1 t m = (h2, t2, None) /\ tree_step h t sigma p r = Ok (Some m, h2, t2, rng_set_unif r0 us)) /\
    (average (node_targets sl Y) = average (node_targets sr Y) -> tree_step h t sigma p r = Ok (None, h1, t, rng_set_unif r0 us)).
Proof.
  intros X y nrm h0 os h t idx m h1 idx1 p Hn Hr Hsg Hp Y.
  destruct (tree_reached_inv _ _ _ _ _ _ _ Hn Hr) as (a&H&_). fold Y in H.
  assert (Hmu : exists h2 t2, mutate h1 t m = (h2, t2, None)).
  { eapply sampled_mutate; eauto. exists idx, idx1. auto. }
  destruct (grow_view_filled _ _ _ _ _ _ _ _ _ Hn H Hsg) as (i&u&l&r&cs&d&v&x&->&Hf&Hch&Haf&Hin&Hfr&Hcl&Hcr).
  destruct (family_value _ _ _ _ _ _ _ _ _ _ _ p Hn Hf Hch Hp) as (sl&sr&Hsd&Ll&Lr&HL).
  exists sl, sr. split; [exact Hsd|]. rewrite <- Ll in Hcl. rewrite <- Lr in Hcr.
  split; [intros E; rewrite E in Hcl; simpl in Hcl; lia|]. split; [intros E; rewrite E in Hcr; simpl in Hcr; lia|].
  destruct (frame_lists _ _ _ _ _ _ H Hfr) as (_&E1&_&E2).
  assert (Hns : (1 <= n_splittable_leaf_nodes h1 t)%nat).
  { unfold n_splittable_leaf_nodes. rewrite E1. destruct (splittable_leaf_nodes h t); [destruct Hin|simpl; lia]. }
  set (P := ln (pa_pprune p / pa_pgrow p) - ln (INR (n_prunable_decision_nodes h1 t) + 1)).
  set (O := log_structure_odds (pa_alpha p) (pa_beta p) d).
  destruct (small_noise (node_targets sl Y) (node_targets sr Y) (tau_of (pa_k p) (pa_ntrees p)) (1 - P - O) (- P - O)) as (s0&Hs0&Hd); auto.
  { destruct Hp as [(_&_&Hk&_) Hnt]. now apply tau_pos. }
  exists s0. split; auto. intros sigma rr r0 u' us Hs Ep Eu Hu. specialize (Hd sigma Hs). cbv zeta in Hd.
  pose proof (grow_ratio _ _ _ t _ _ _ _ _ _ _ _ sigma p _ Hn Hf Hch Hp Hns (HL sigma (proj1 Hs))) as Hq. fold P in Hq. fold O in Hq.
  destruct (step_decided _ _ _ _ _ _ _ _ _ _ _ Ep Eu Hq Hmu) as [Hacc Hrej]. destruct Hd as [D1 D2].
  split; intros E; [apply Hacc; specialize (D1 E); lra|apply Hrej; specialize (D2 E); lra].
Qed.
(** With little enough noise a prune is rejected whatever the draw if the mean targets of the two sides differ, and
    accepted whatever the draw if they are equal (at least two splittable leaves; fewer: C38). *)
Theorem C85_prune : forall X y normalize h0 os h t idx m h1 idx1 p,
  no_nan X -> mx_rows X <> [] -> tree_reached X y normalize h0 os h t -> Forall proposed_op os ->
  sample_prune_mutation h t idx = Ok (m, h1, idx1) -> (2 <= length (splittable_leaf_nodes h t))%nat -> usual p ->
  let Y := last_tree_target (start_target y normalize) os in
  exists sl sr, sides h (mu_existing m) sl sr /\ node_targets sl Y <> [] /\ node_targets sr Y <> [] /\
  exists s0, 0 < s0 /\ forall sigma r r0 u us, 0 < sigma < s0 ->
    propose (pa_limit p) h t r = Ok (m, h1, r0) -> rg_unif r0 = u :: us -> 0 <= u < 1 ->
    (average (node_targets sl Y) <> average (node_targets sr Y) -> tree_step h t sigma p r = Ok (None, h1, t, rng_set_unif r0 us)) /\
    (average (node_targets sl Y) = average (node_targets sr Y) ->
       exists h2 t2, mutate h1 t m = (h2, t2, None) /\ tree_step h t sigma p r = Ok (Some m, h2, t2, rng_set_unif r0 us)).
Proof.
  intros X y nrm h0 os h t idx m h1 idx1 p Hn Hne Hr Hpo Hsg Hns Hp Y.
  destruct (tree_reached_inv _ _ _ _ _ _ _ Hn Hr) as (a&H&Hfil&_). fold Y in H. specialize (Hfil Hpo Hne).
  assert (Hmu : exists h2 t2, mutate h1 t m = (h2, t2, None)).
  { eapply sampled_mutate; eauto. exists idx, idx1. auto. }
  destruct (prune_view _ _ _ _ _ _ _ _ _ H Hsg) as (i&l&r&cs&d&v&x&->&Hf&Haf&Hch&Hin&Hfr&Hgm). specialize (Hch Hfil).
  destruct (family_value _ _ _ _ _ _ _ _ _ _ _ p Hn Hf Hch Hp) as (sl&sr&Hsd&Ll&Lr&HL).
  exists sl, sr. simpl mu_existing.
  assert (Hc : (1 <= count_of X (cs ++ [Rl v x true]))%nat /\ (1 <= count_of X (cs ++ [Rl v x false]))%nat).
  { pose proof (filled_afind _ _ _ _ _ _ _ _ Hfil Haf) as (_&(r1&Hr1&Hk1)&(r2&Hr2&Hk2)). eauto using count_of_pos. }
  destruct Hc as [Hcl Hcr]. split.
  { pose proof (afind_aok _ _ _ _ _ _ _ _ _ _ (ti_ok _ _ _ _ _ H) Haf) as ((s1&G1&_)&_&_&(wl&tl&Gl&_)&(wr&tr&Gr&_)).
    destruct Hsd as (l'&r'&A1&A2&A3&A4).
    apply prunable_in in Hin as [Hi _]. pose proof (proj1 (ti_in _ _ _ _ _ _ H) Hi) as Hia.
    destruct (child_listed _ _ _ _ _ _ _ _ _ _ _ (ti_ok _ _ _ _ _ H) Hia G1) as (Hl&Hr'&_).
    apply (ti_in _ _ _ _ _ _ H) in Hl, Hr'.
    assert (K : forall j, In j (tr_nodes t) -> h_get h1 j = h_get h j).
    { intros j Hj. destruct Hfr as [_ Hfr]. apply Hfr. eapply nodes_below; eauto. }
    unfold left_child in A1. unfold right_child in A2. rewrite (K i Hi), G1 in A1, A2. simpl in A1, A2. injection A1 as <-. injection A2 as <-.
    unfold node_split in A3, A4. rewrite (K l Hl), Gl in A3. rewrite (K r Hr'), Gr in A4.
    exists l, r. unfold left_child, right_child, node_split. rewrite G1, Gl, Gr. auto. }
  rewrite <- Ll in Hcl. rewrite <- Lr in Hcr.
  split; [intros E; rewrite E in Hcl; simpl in Hcl; lia|]. split; [intros E; rewrite E in Hcr; simpl in Hcr; lia|].
  destruct (frame_lists _ _ _ _ _ _ H Hfr) as (_&E1&_&E2).
  set (P := ln (pa_pgrow p / pa_pprune p) - ln (INR (n_splittable_leaf_nodes h1 t) - 1) + ln (INR (n_prunable_decision_nodes h1 t))).
  set (O := log_structure_odds (pa_alpha p) (pa_beta p) d).
  destruct (small_noise (node_targets sl Y) (node_targets sr Y) (tau_of (pa_k p) (pa_ntrees p)) (P - O) (P - O - 1)) as (s0&Hs0&Hd); auto.
  { destruct Hp as [(_&_&Hk&_) Hnt]. now apply tau_pos. }
  exists s0. split; auto. intros sigma rr r0 u' us Hs Ep Eu Hu. specialize (Hd sigma Hs). cbv zeta in Hd.
  assert (Hns' : (2 <= n_splittable_leaf_nodes h1 t)%nat) by (unfold n_splittable_leaf_nodes; now rewrite E1).
  assert (Hnp' : (1 <= n_prunable_decision_nodes h1 t)%nat).
  { unfold n_prunable_decision_nodes. rewrite E2. destruct (prunable_decision_nodes h t); [destruct Hin|simpl; lia]. }
  pose proof (prune_ratio _ _ _ t _ _ _ _ _ _ _ _ sigma p _ Hn Hf Hch Hp Hns' Hnp' Hgm (HL sigma (proj1 Hs))) as Hq. fold P in Hq. fold O in Hq.
  destruct (step_decided _ _ _ _ _ _ _ _ _ _ _ Ep Eu Hq Hmu) as [Hacc Hrej]. destruct Hd as [D1 D2].
  split; intros E; [apply Hrej; specialize (D1 E); lra|apply Hacc; specialize (D2 E); lra].
Qed.

(** With enough noise the targets do not matter: the log acceptance ratio of a grow is as close as wanted to a number that
    depends on the parameters, the depth of the leaf and the number of prunable nodes only. *)
Theorem C85_large_noise : forall X y normalize h0 os h t idx m h1 idx1 p e,
  no_nan X -> tree_reached X y normalize h0 os h t -> sample_grow_mutation h t idx = Ok (m, h1, idx1) -> usual p -> 0 < e ->
  exists (n : tnode) s0, h_get h (mu_existing m) = Some n /\ 0 < s0 /\ forall sigma, s0 < sigma ->
    exists q, log_probability_ratio h1 t m sigma p = Ok (XFin q) /\ Rabs (q - (ln (pa_pprune p / pa_pgrow p) - ln (INR (length (prunable_decision_nodes h t)) + 1)
                 + log_structure_odds (pa_alpha p) (pa_beta p) (nd_depth n))) < e.
Proof.
  intros X y nrm h0 os h t idx m h1 idx1 p e Hn Hr Hsg Hp He.
  destruct (tree_reached_inv _ _ _ _ _ _ _ Hn Hr) as (a&H&_).
  destruct (grow_view_filled _ _ _ _ _ _ _ _ _ Hn H Hsg) as (i&u&l&r&cs&d&v&x&->&Hf&Hch&Haf&Hin&Hfr&Hcl&Hcr).
  destruct (family_value _ _ _ _ _ _ _ _ _ _ _ p Hn Hf Hch Hp) as (sl&sr&Hsd&Ll&Lr&HL).
  pose proof (afind_aok _ _ _ _ _ _ _ _ _ _ (ti_ok _ _ _ _ _ H) Haf) as (w&s&Eg&_).
  destruct (frame_lists _ _ _ _ _ _ H Hfr) as (_&E1&_&E2).
  assert (Hns : (1 <= n_splittable_leaf_nodes h1 t)%nat).
  { unfold n_splittable_leaf_nodes. rewrite E1. destruct (splittable_leaf_nodes h t); [destruct Hin|simpl; lia]. }
  set (Y := last_tree_target (start_target y nrm) os) in *.
  assert (Ht : 0 < tau_of (pa_k p) (pa_ntrees p)) by (destruct Hp as [(_&_&Hk&_) Hnt]; now apply tau_pos).
  destruct (grow_val_large (INR (length (node_targets sl Y)) + INR (length (node_targets sr Y))) (INR (length (node_targets sl Y))) (INR (length (node_targets sr Y)))
    (rsum (node_targets sl Y)) (rsum (node_targets sr Y)) (tau_of (pa_k p) (pa_ntrees p)) e (pos_INR _) (pos_INR _) eq_refl Ht He) as (s0&Hs0&Hd).
  exists (Nd (KLeaf w) (SFull s) d), s0. split; [exact Eg|]. split; auto. intros sigma Hs. specialize (Hd sigma Hs).
  eexists. split; [exact (grow_ratio _ _ _ t _ _ _ _ _ _ _ _ sigma p _ Hn Hf Hch Hp Hns (HL sigma ltac:(lra)))|].
  unfold n_prunable_decision_nodes. rewrite E2. simpl nd_depth.
  match type of Hd with Rabs ?g < _ => set (G := g) in * end. match goal with |- Rabs ?z < _ => replace z with G by ring end. exact Hd.
Qed.
(** Hence with the default alpha and beta and equal chances of grows and prunes the first split of a tree is accepted
    whatever the draw and the targets once there is enough noise. *)
Theorem C85_first_split : forall X y normalize h0 os h t idx m h1 idx1 p,
  no_nan X -> tree_reached X y normalize h0 os h t -> length (tr_nodes t) = 1%nat ->
  sample_grow_mutation h t idx = Ok (m, h1, idx1) -> usual p ->
  pa_alpha p = 95 / 100 -> pa_beta p = 2 -> pa_pgrow p = pa_pprune p ->
  exists s0, 0 < s0 /\ forall sigma r r0 u us, s0 < sigma ->
    propose (pa_limit p) h t r = Ok (m, h1, r0) -> rg_unif r0 = u :: us -> u < 1 ->
    exists h2 t2, mutate h1 t m = (h2, t2, None) /\ tree_step h t sigma p r = Ok (Some m, h2, t2, rng_set_unif r0 us).
Proof.
  intros X y nrm h0 os h t idx m h1 idx1 p Hn Hr H1 Hsg Hp Ea Eb Ec.
  destruct (C85_large_noise _ _ _ _ _ _ _ _ _ _ _ p (1 / 10) Hn Hr Hsg Hp ltac:(lra)) as (n&s0&En&Hs0&Hd).
  destruct (tree_reached_inv _ _ _ _ _ _ _ Hn Hr) as (a&H&_).
  assert (Hmu : exists h2 t2, mutate h1 t m = (h2, t2, None)).
  { eapply sampled_mutate; eauto. exists idx, idx1. auto. }
  destruct (grow_view _ _ _ _ _ _ _ _ _ Hn H Hsg) as (i&u&l&r&cs&d&v&x&->&_&_&Haf&_).
  simpl mu_existing in En.
  destruct (single_leaf _ _ _ _ _ H H1) as (i0&Ea0&_). subst a. simpl in Haf. destruct (Nat.eqb_spec i0 i) as [<-|]; [|discriminate].
  pose proof (ti_ok _ _ _ _ _ H) as (w&s&Eg&_). rewrite En in Eg. injection Eg as ->.
  assert (Hpd : prunable_decision_nodes h t = []).
  { destruct (prunable_decision_nodes h t) as [|j l0] eqn:E; auto. assert (Hj : In j (prunable_decision_nodes h t)) by (rewrite E; left; auto).
    unfold prunable_decision_nodes, decision_nodes in Hj. apply filter_In in Hj as [Hj _]. apply filter_In in Hj as [Hj Hdec].
    apply (ti_in _ _ _ _ _ _ H) in Hj. simpl in Hj. destruct Hj as [<-|[]]. unfold is_dec in Hdec. rewrite En in Hdec. discriminate. }
  exists s0. split; auto. intros sigma rr r0 u' us Hs Ep Eu Hu. destruct (Hd sigma Hs) as (q&Eq&Hq).
  destruct (step_decided _ _ _ _ _ _ _ _ _ _ _ Ep Eu Eq Hmu) as [Hacc _]. apply Hacc.
  rewrite Hpd in Hq. simpl length in Hq. change (INR 0) with 0 in Hq. simpl nd_depth in Hq. rewrite Rplus_0_l, ln_1 in Hq.
  rewrite Ec in Hq. assert (Hpp : 0 < pa_pprune p) by (destruct Hp as [(_&_&_&_&?) _]; auto).
  replace (pa_pprune p / pa_pprune p) with 1 in Hq by (field; lra). rewrite ln_1 in Hq.
  assert (HO : 11 / 10 <= log_structure_odds (pa_alpha p) (pa_beta p) 0); [|apply Rabs_def2 in Hq; lra].
  rewrite Ea, Eb. unfold log_structure_odds, split_probability.
  assert (E2 : forall k, Rpower (1 + INR k) (Ropp 2) = / ((1 + INR k) * (1 + INR k))).
  { intros k. pose proof (pos_INR k). rewrite Rpower_Ropp. f_equal. replace 2 with (INR 2) by (simpl; lra). rewrite Rpower_pow by lra. simpl. ring. }
  cbv zeta. rewrite !E2. simpl INR.
  replace (1 - 95 / 100 * / ((1 + 1) * (1 + 1))) with (61 / 80) by field.
  replace (95 / 100 * / ((1 + 0) * (1 + 0))) with (95 / 100) by field.
  rewrite <- ln_mult by lra. rewrite <- ln_mult by lra. rewrite <- ln_div by lra.
  assert (Hval : 9 <= 61 / 80 * (61 / 80) * (95 / 100) / (1 - 95 / 100)) by lra.
  eapply Rle_trans; [|apply ln_mono; [|exact Hval]; lra].
  pose proof exp_le_3. rewrite <- (ln_exp (11 / 10)). apply ln_mono; [apply exp_pos|].
  apply Rle_trans with (exp (1 + 1)); [apply Rlt_le, exp_increasing; lra|]. rewrite exp_plus.
  pose proof (exp_pos 1). nra.
Qed.

(** Six rows with a step in the targets: the split at the step is accepted by the sampler itself, with a draw of 1/2. *)
Definition ox_y : list R := [0; 0; 0; 1; 1; 1].
Definition ox_start : heap * tree :=
  match root_split zx_X ox_y false with Ok s => start_tree h_empty s | _ => (h_empty, make_tree []) end.
Definition ox_grow := sample_grow_mutation (fst ox_start) (snd ox_start) [0; 0; 2]%nat.
Definition ox_m := match ox_grow with Ok (m, _, _) => m | _ => Mu MOther 0 0 end.
Definition ox_h1 := match ox_grow with Ok (_, h1, _) => h1 | _ => h_empty end.
Lemma ox_reached : tree_reached zx_X ox_y false h_empty [] (fst ox_start) (snd ox_start).
Proof. split; [reflexivity|]. split; [constructor|]. eexists. split; reflexivity. Qed.
Lemma ox_grow_ok : ox_grow = Ok (ox_m, ox_h1, []).
Proof.
  unfold ox_m, ox_h1.
  assert (E : match ox_grow with Ok (_, _, i) => Some i | _ => None end = Some []) by (vm_compute; reflexivity).
  destruct ox_grow as [[[m h1] i]| |]; try discriminate. injection E as ->. reflexivity.
Qed.
Lemma sides_targets h u sl sr y l r : sides h u sl sr ->
  match left_child h u, right_child h u with
  | Some l, Some r => match node_split h l, node_split h r with Some a, Some b => Some (node_targets a y, node_targets b y) | _, _ => None end
  | _, _ => None end = Some (l, r) -> node_targets sl y = l /\ node_targets sr y = r.
Proof. intros (i&j&->&->&->&->) E. injection E as <- <-. auto. Qed.
Example C85_grow_case : exists sigma m h2 t2, 0 < sigma /\
  tree_step (fst ox_start) (snd ox_start) sigma zx_p (Rng [true] [0; 0; 2]%nat [/ 2] [] []) = Ok (Some m, h2, t2, Rng [] [] [] [] []) /\
  mu_kind m = MGrow.
Proof.
  destruct (C85_grow _ _ _ _ _ _ _ _ _ _ _ zx_p zx_no_nan ox_reached ox_grow_ok zx_usual) as (sl&sr&Hsd&_&_&s0&Hs0&H).
  assert (E : node_targets sl ox_y = [0; 0; 0] /\ node_targets sr ox_y = [1; 1; 1]) by (eapply sides_targets; [exact Hsd|vm_compute; reflexivity]).
  destruct (H (s0 / 2) (Rng [true] [0; 0; 2]%nat [/ 2] [] []) (Rng [] [] [/ 2] [] []) (/ 2) [] ltac:(lra)) as [Hacc _]; [|reflexivity|lra|].
  - exact (propose_grow_first 999 _ _ [] _ [/ 2] [] [] _ _ _ ox_grow_ok).
  - cbn [last_tree_target start_target] in Hacc. destruct E as [E1 E2]. destruct Hacc as (h2&t2&_&E).
    { change (start_target ox_y false) with ox_y. rewrite E1, E2. unfold average, rsum. simpl. lra. }
    exists (s0 / 2), ox_m, h2, t2. split; [lra|]. split; [exact E|vm_compute; reflexivity].
Qed.
Lemma propose_prune_first n h t bs idx us zs gs m h1 idx' : sample_prune_mutation h t idx = Ok (m, h1, idx') ->
  propose (S n) h t (Rng (false :: bs) idx us zs gs) = Ok (m, h1, Rng bs idx' us zs gs).
Proof. intros E. simpl. now rewrite E. Qed.
Lemma prune_kind h t idx m h1 idx1 : sample_prune_mutation h t idx = Ok (m, h1, idx1) -> mu_kind m = MPrune.
Proof.
  intros E. apply sample_prune_spec in E as (i&n&_&_&_&Hpm). unfold prune_mutation in Hpm. destruct (_ || _); [discriminate|]. now injection Hpm as <-.
Qed.
(** With all targets equal the sampler prunes the split at 3 again. *)
Example C85_prune_case : exists sigma m h2 t2, 0 < sigma /\
  tree_step (fst wx_s) (snd wx_s) sigma zx_p (Rng [false] [0]%nat [/ 2] [] []) = Ok (Some m, h2, t2, Rng [] [] [] [] []) /\
  mu_kind m = MPrune.
Proof.
  destruct C75_prune_case as (m&h1&h2&t2&E1&E2&E3&_).
  destruct (C85_prune _ _ _ _ _ _ _ _ _ _ _ zx_p zx_no_nan ltac:(discriminate) wx_reached ltac:(repeat constructor) E1 ltac:(lia) zx_usual) as (sl&sr&Hsd&_&_&s0&Hs0&H).
  assert (Hz : forall s, rsum (node_targets s zx_y) = 0).
  { intros s. apply rsum_zeros. intros x Hx. unfold node_targets in Hx. apply in_map_iff in Hx as (i&<-&_).
    do 6 (destruct i as [|i]; [reflexivity|]). destruct i; reflexivity. }
  destruct (H (s0 / 2) (Rng [false] [0]%nat [/ 2] [] []) (Rng [] [] [/ 2] [] []) (/ 2) [] ltac:(lra)) as [_ Hacc]; [|reflexivity|lra|].
  - exact (propose_prune_first 999 _ _ [] _ [/ 2] [] [] _ _ _ E1).
  - destruct Hacc as (h3&t3&_&E).
    { cbn [last_tree_target]. change (start_target zx_y false) with zx_y. unfold average. rewrite !Hz. unfold Rdiv. now rewrite !Rmult_0_l. }
    exists (s0 / 2), m, h3, t3. split; [lra|]. split; [exact E|].
    exact (prune_kind _ _ _ _ _ _ E1).
Qed.
Print Assumptions C85_grow.
Print Assumptions C85_prune.
Print Assumptions C85_large_noise.
Print Assumptions C85_first_split.
