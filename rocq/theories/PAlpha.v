(** Trees under a prior that allows no split at the root. *)
From Coq Require Import Reals Lra Lia ZArith Permutation.
From Verif Require Import Base Fl Ext MData MSplit MTree MSampler MHist MTreeHist MModel MModelHist Spec SpecTree SpecSampler SpecModel SpecAlpha LFl LList
  PData PSplit PDataProps PCond PTree PPred PTreeHist PTreeProps PTreeProps2 PSampler PSampler2 PSampler3
  PModel PModel2 PModel3 PModel4 PModel5 PModel6 PModel7 PModel8.

Definition dead (x : ext) : Prop := x = XNaN \/ x = XNInf.
Lemma dead_add_l a b : dead a -> dead (xadd a b).
Proof. intros [->| ->]; destruct b; unfold dead; simpl; auto. Qed.
Lemma dead_add_r a b : dead b -> dead (xadd a b).
Proof. intros [->| ->]; destruct a; unfold dead; simpl; auto. Qed.
Lemma dead_rejects u x : dead x -> accepts u x = false.
Proof. intros [->| ->]; reflexivity. Qed.
Definition sterile (p : params) : Prop := forbids_growth p.
Lemma log_dead r : (r <= 0)%R -> dead (xlog (XFin r)).
Proof. intros H. unfold xlog, rsign, dead. destruct (Rlt_dec r 0); auto. destruct (Rlt_dec 0 r); [lra|auto]. Qed.
Lemma log_nan r : (r < 0)%R -> xlog (XFin r) = XNaN.
Proof. intros H. unfold xlog, rsign. destruct (Rlt_dec r 0); auto. lra. Qed.
Lemma prior_root p : split_prior p 0 = pa_alpha p.
Proof. unfold split_prior, Rpower. simpl. rewrite ln_1, Rmult_0_r, exp_0. ring. Qed.
Lemma prior_child p : split_prior p 1 = (pa_alpha p * Rpower 2 (- pa_beta p))%R.
Proof. unfold split_prior. simpl. replace (1 + 1)%R with 2%R by ring. reflexivity. Qed.
(** the prior ratio of a grow at the root *)
Lemma sterile_grow h t m p q l r : sterile p -> pa_pprune p <> 0%R -> node_depth h (mu_existing m) = Ok 0 ->
  get_children h (mu_updated m) = Ok (l, r) -> node_depth h l = Ok 1 -> log_tree_ratio_grow h t m p = Ok q -> dead q.
Proof.
  intros Hs Hz Hd Hc Hl. unfold log_tree_ratio_grow. rewrite Hd. cbn [rbind].
  rewrite Hc. cbn [rbind]. rewrite Hl. cbn [rbind]. destruct (node_depth h r) as [dr| |]; try discriminate. cbn [rbind].
  destruct (node_depth h (mu_updated m)) as [du| |]; try discriminate. cbn [rbind].
  destruct (log_probability_split_within_tree _ _ _ _) as [ch| |]; try discriminate. cbn [rbind]. intros [= <-].
  destruct Hs as [Hs|[Hs|Hs]]; [| |contradiction].
  - destruct (Rle_dec (pa_alpha p) 0) as [Hs'|Hs'].
    + apply dead_add_l. apply dead_add_l. apply dead_add_r. apply log_dead. unfold split_prior.
      assert (0 < Rpower (INR (1 + du)) (- pa_beta p))%R by apply exp_pos. nra.
    + apply dead_add_r. unfold log_probability_node_not_split. rewrite prior_root, log_nan by lra. left. reflexivity.
  - apply dead_add_l, dead_add_l, dead_add_l, dead_add_l. apply log_dead. rewrite prior_child. lra.
Qed.
(** the proposal ratio of a grow that can never be taken back *)
Lemma sterile_trans h t m p q : pa_pprune p = 0%R -> mu_kind m = MGrow -> log_transition_ratio h t m p = Ok q -> dead q.
Proof.
  intros Hz Hk. unfold log_transition_ratio, log_grow_transition_ratio. rewrite Hk, Hz.
  destruct (log_probability_split_within_tree _ _ _ _) as [ch| |]; try discriminate. cbn [rbind].
  unfold py_div. destruct (Req_EM_T _ _); try discriminate. cbn [rbind]. intros [= <-]. apply dead_add_l, log_dead. unfold Rdiv. lra.
Qed.

Lemma single_leaf h X oy t a : tree_inv h X oy t a -> length (tr_nodes t) = 1 -> exists i, a = ALeaf i /\ tr_nodes t = [i].
Proof.
  intros H L. destruct (tr_nodes t) as [|i [|]] eqn:E; try discriminate. destruct a as [j|j v x l r].
  - exists j. split; auto. assert (Hj : In j (tr_nodes t)) by (apply (ti_in _ _ _ _ _ _ H); simpl; auto). rewrite E in Hj. destruct Hj as [->|[]]. auto.
  - exfalso. assert (In j (tr_nodes t)) by (apply (ti_in _ _ _ _ _ _ H); simpl; auto).
    assert (Hl : In (aroot l) (tr_nodes t)) by (apply (ti_in _ _ _ _ _ _ H); simpl; right; apply in_app_iff; left; destruct l; simpl; auto).
    rewrite E in *. pose proof (ti_nodup _ _ _ _ _ H) as Hnd. simpl in Hnd. inversion Hnd as [|? ? Hni _]; subst. apply Hni. apply in_app_iff. left.
    destruct H0 as [->|[]]. destruct Hl as [Hl|[]]. rewrite Hl. destruct l; simpl; auto.
Qed.
Lemma tree_step_sterile h X y t a sigma p r om h1 t1 r1 : no_nan X -> tree_inv h X (Some y) t a -> length (tr_nodes t) = 1 -> sterile p ->
  tree_step h t sigma p r = Ok (om, h1, t1, r1) -> om = None /\ t1 = t.
Proof.
  intros Hn H L Hp. destruct (single_leaf _ _ _ _ _ H L) as (i0&->&_). unfold tree_step, tree_sample.
  destruct (propose (pa_limit p) h t r) as [[[m h2] r2]| |] eqn:Ep; try discriminate. cbn [rbind].
  destruct (log_probability_ratio h2 t m sigma p) as [q| |] eqn:Eq; try discriminate. cbn [rbind].
  assert (Hdead : dead q).
  { apply propose_cases in Ep as [(idx'&E&_)|(idx'&E&_)].
    - destruct (grow_view _ _ _ _ _ _ _ _ _ Hn H E) as (i&u'&l&r'&cs&d&v&x&->&Hfam&_&Hf&_&Hfr&_).
      assert (Hi : i = i0 /\ d = 0) by (simpl in Hf; destruct (Nat.eqb_spec i0 i); [injection Hf as _ <- _; auto|discriminate]). destruct Hi as [-> ->].
      unfold log_probability_ratio in Eq. destruct (log_transition_ratio _ _ _ _) as [qa| |] eqn:Ea; try discriminate. cbn [rbind] in Eq.
      destruct (log_likihood_ratio _ _ _ _) as [qb| |]; try discriminate. cbn [rbind] in Eq. unfold log_tree_ratio in Eq. cbn [mu_kind] in Eq.
      destruct (log_tree_ratio_grow h2 t _ p) as [qc| |] eqn:Ec; try discriminate. cbn [rbind] in Eq. injection Eq as <-.
      destruct (Req_EM_T (pa_pprune p) 0) as [Hz|Hz].
      { apply dead_add_l, dead_add_l. eapply sterile_trans; [exact Hz| |exact Ea]; reflexivity. }
      apply dead_add_r. destruct (family_depth _ _ _ _ _ _ _ _ _ _ _ Hfam) as (De&Du&Dl&Dr).
      exact (sterile_grow h2 t (Mu MGrow i0 u') p qc l r' Hp Hz De (family_children _ _ _ _ _ _ _ _ _ _ _ Hfam) Dl Ec).
    - destruct (prune_view _ _ _ _ _ _ _ _ _ H E) as (i&l&r'&cs&d&v&x&_&_&Hf&_). simpl in Hf. destruct (Nat.eqb i0 i); discriminate. }
  destruct (rg_unif r2) as [|u us]; try discriminate. cbn [rbind]. rewrite dead_rejects by auto. intros [= <- <- <- <-]. auto.
Qed.

Definition stumps (m : model) : Prop := Forall (fun t => length (tr_nodes t) = 1) (m_trees m).
Definition shape (m : model) : list (list nat) := map tr_nodes (m_trees m).
Lemma stumps_shape m m' : shape m' = shape m -> stumps m -> stumps m'.
Proof.
  unfold shape, stumps. intros E H. assert (G : forall ts, Forall (fun t => length (tr_nodes t) = 1) ts <-> Forall (fun l : list nat => length l = 1) (map tr_nodes ts)) by (intros; rewrite Forall_map; reflexivity).
  rewrite G, E, <- G. exact H.
Qed.
Lemma lkeeps_shape m m' : length (m_trees m') = length (m_trees m) -> (forall k, lkeeps k m m') -> shape m' = shape m.
Proof.
  intros L H. unfold shape. apply nth_ext with [] []; [rewrite !map_length; auto|]. intros k Hk. rewrite map_length in Hk.
  destruct (nth_error (m_trees m) k) as [t|] eqn:E; [|apply nth_error_None in E; lia]. destruct (H k t E) as (t'&E'&Ht&_).
  apply (map_nth_error tr_nodes) in E, E'. erewrite !nth_error_nth by eauto. exact Ht.
Qed.
Lemma shape_set m h j t t' : nth_error (m_trees m) j = Some t -> tr_nodes t' = tr_nodes t -> shape (m_set_trees m h (set_nth j t' (m_trees m))) = shape m.
Proof.
  unfold shape. simpl. intros E Et. revert j E. induction (m_trees m) as [|t0 l IH]; intros [|j] E; simpl in *; try discriminate.
  - injection E as ->. congruence.
  - f_equal. auto.
Qed.
Lemma call_sterile X y e m fr pc As r b a m' r' : no_nan X -> ginv X y e m fr pc As -> pc <> GStart -> stumps m -> sterile (m_par m) ->
  call m fr (snd (yields pc)) r = Ok (b, a, m', r') -> shape m' = shape m.
Proof.
  intros Hn Hg Hpc Hst Hp E. pose proof E as E0. destruct (call_spec _ _ _ _ _ _ _ _ _ _ _ _ Hn Hg Hpc E) as (As'&_&Hsm&_&Hact).
  destruct pc as [|j|j rest|]; [congruence| | |].
  - cbn [yields snd call] in E0. simpl in Hg. destruct Hg as [H Hft]. rewrite Hft in E0. destruct (mi_target _ _ _ _ _ _ H j eq_refl) as (t&at0&ty&Et&Ea&Hi&_). rewrite Et in E0.
    destruct (tree_step _ t _ _ r) as [[[[om h1] t1] r1]| |] eqn:Es; try discriminate. cbn [rbind] in E0. injection E0 as _ _ <- _.
    assert (L : length (tr_nodes t) = 1) by (unfold stumps in Hst; rewrite Forall_forall in Hst; apply Hst; eapply nth_error_In; eauto).
    destruct (tree_step_sterile _ _ _ _ _ _ _ _ _ _ _ _ Hn Hi L Hp Es) as [_ ->]. eapply shape_set; eauto.
  - destruct Hact as [_ Hlk]. apply lkeeps_shape; auto. apply Hsm.
  - destruct Hact as [_ Hlk]. apply lkeeps_shape; auto. apply Hsm.
Qed.
Lemma drive_sterile X y e : no_nan X -> forall fuel m fr pc As r log acts mf rf, ginv X y e m fr pc As -> stumps m -> sterile (m_par m) ->
  drive fuel m fr pc r = Ok (log, acts, mf, rf) -> shape mf = shape m.
Proof.
  intros Hn. induction fuel as [|fuel IH]; intros m fr pc As r log acts mf rf Hg Hst Hp; [discriminate|]. cbn [drive].
  destruct (pc_dec pc) as [->|Hpc].
  { simpl. intros E. injection E as <- <- <- <-. auto. }
  destruct (gen_next_spec _ _ _ _ _ _ _ Hn Hg Hpc) as (fr1&m1&->&Hfr&Hg1&Hsm1&Hlk1&Es1). cbn [rbind].
  set (pc1 := pc_next m pc) in *.
  assert (Hns : pc1 <> GStart).
  { unfold pc1, pc_next, succ_pc. clear. destruct pc as [|j|j [|i rest]|]; try congruence.
    - destruct (_ <? _); congruence.
    - destruct (nth_error _ _); [|congruence]. destruct (leaf_nodes _ _); [destruct (_ <? _)|]; congruence.
    - destruct (_ <? _); congruence. }
  destruct (yields pc1) as [ky th] eqn:Ey.
  destruct (call m1 fr1 th r) as [[[[b a] m2] r1]| |] eqn:Ec; try discriminate. cbn [rbind].
  assert (Hth : th = snd (yields pc1)) by now rewrite Ey. rewrite Hth in Ec.
  assert (S1 : shape m1 = shape m) by (apply lkeeps_shape; auto; apply Hsm1).
  assert (P1 : m_par m1 = m_par m) by apply Hsm1.
  assert (T1 : stumps m1) by (eapply stumps_shape; eauto).
  assert (Hp1 : sterile (m_par m1)) by now rewrite P1.
  assert (S2 : shape m2 = shape m1) by (eapply call_sterile; [exact Hn|exact Hg1|exact Hns|exact T1|exact Hp1|exact Ec]).
  destruct (call_spec _ _ _ _ _ _ _ _ _ _ _ _ Hn Hg1 Hns Ec) as (As2&Hg2&Hsm2&_).
  destruct (drive fuel m2 fr1 pc1 r1) as [[[[log2 acts2] m3] r2]| |] eqn:Ed; try discriminate. cbn [rbind].
  intros E. injection E as <- <- <- <-.
  assert (P2 : m_par m2 = m_par m1) by apply Hsm2.
  rewrite (IH _ _ _ _ _ _ _ _ _ Hg2 ltac:(eapply stumps_shape; eauto) ltac:(now rewrite P2) Ed). congruence.
Qed.
Lemma gibbs_sterile X y e m As r d acts m' r' : no_nan X -> minv X y None e m As -> stumps m -> sterile (m_par m) ->
  gibbs_step m r = Ok (d, acts, m', r') -> shape m' = shape m.
Proof.
  intros Hn H Hst Hp. unfold gibbs_step. destruct (drive _ m _ GStart r) as [[[[log a] m1] r1]| |] eqn:Ed; try discriminate. cbn [rbind].
  intros [= <- <- <- <-]. exact (drive_sterile X y e Hn _ m (Fr None None) GStart As r _ _ _ _ H Hst Hp Ed).
Qed.
