(** The oblivious tree sampler under settings that allow no growth. *)
From Coq Require Import Reals Lra Lia ZArith Permutation.
From Verif Require Import Base Fl Ext MData MSplit MTree MSampler MHist MTreeHist MModel MModelHist MSklearn MOblivious MObModel MObSklearn Spec SpecTree SpecSampler SpecModel SpecSklearn SpecOblivious SpecObModel SpecObSklearn SpecAlpha LFl LList
  PData PSplit PDataProps PCond PTree PPred PTreeHist PTreeProps PTreeProps2 PSampler PSampler2 PSampler3 PModel PModel2 PModel3 PModel4 PModel5 PModel6 PModel7 PModel8 PModel9 PModel10 PModel11 PModel12
  PSklearn PSklearn2 PSklearn3 POblivious POblivious2 POblivious3 POblivious4 POblivious5 PObModel PObModel2 PObModel3 PObModel4 PObModel5 PObSklearn PObSklearn2 PAlpha.

Lemma ob_sterile_grow h m p q l r : sterile p -> pa_pprune p <> 0%R -> node_depth h (mu_existing m) = Ok 0 ->
  get_children h (mu_updated m) = Ok (l, r) -> node_depth h l = Ok 1 -> ob_log_tree_grow h m p = Ok q -> dead q.
Proof.
  intros Hs Hz Hd Hc Hl. unfold ob_log_tree_grow. rewrite Hd. cbn [rbind].
  rewrite Hc. cbn [rbind]. rewrite Hl. cbn [rbind]. destruct (node_depth h r) as [dr| |]; try discriminate. cbn [rbind].
  destruct (node_depth h (mu_updated m)) as [du| |]; try discriminate. cbn [rbind].
  destruct (ob_log_split _ _ _) as [ch| |]; try discriminate. cbn [rbind]. intros [= <-].
  destruct Hs as [Hs|[Hs|Hs]]; [| |contradiction].
  - destruct (Rle_dec (pa_alpha p) 0) as [Hs'|Hs'].
    + apply dead_add_l. apply dead_add_l. apply dead_add_r. apply log_dead. unfold split_prior.
      assert (0 < Rpower (INR (1 + du)) (- pa_beta p))%R by apply exp_pos. nra.
    + apply dead_add_r. unfold log_probability_node_not_split. rewrite prior_root, log_nan by lra. left. reflexivity.
  - apply dead_add_l, dead_add_l, dead_add_l, dead_add_l. apply log_dead. rewrite prior_child. lra.
Qed.
Lemma ob_sterile_trans h m p q : pa_pprune p = 0%R -> ob_log_grow_transition h m p = Ok q -> dead q.
Proof.
  intros Hz. unfold ob_log_grow_transition. rewrite Hz.
  destruct (ob_log_split _ _ _) as [ch| |]; try discriminate. cbn [rbind].
  unfold py_div. destruct (Req_EM_T _ _); try discriminate. cbn [rbind]. intros [= <-]. apply dead_add_l, log_dead. unfold Rdiv. lra.
Qed.
Lemma ratio_dead h sigma p : forall ms a q, dead a -> ob_ratio_from a h ms sigma p = Ok q -> dead q.
Proof.
  induction ms as [|m ms IH]; intros a q Ha; cbn [ob_ratio_from]; [now intros [= <-]|].
  destruct (ob_log_ratio h m sigma p) as [x| |]; try discriminate. cbn [rbind]. apply IH. now apply dead_add_l.
Qed.
Lemma ob_step_sterile h X oy t k o sigma p r om h1 t1 r1 : no_nan X -> oinv h X oy t k o -> length (tr_nodes t) = 1 -> sterile p -> udraws r ->
  ob_step h t sigma p r = Ok (om, h1, t1, r1) -> om = None /\ t1 = t.
Proof.
  intros Hn H L Hp Hu.
  assert (Ek : k = 0). { pose proof (oinv_size _ _ _ _ _ _ H) as Z. rewrite L in Z. destruct k; auto. simpl in Z. pose proof (Nat.pow_nonzero 2 k). lia. }
  subst k. pose proof (oi_full _ _ _ _ _ _ H) as F. destruct o as [i0|i0 w l r0]; [|destruct F].
  unfold ob_step, ob_sample. destruct (ob_propose (pa_limit p) h t r) as [[[ms h2] r2]| |] eqn:Ep; try discriminate. cbn [rbind].
  pose proof (ob_propose_unif _ _ _ _ _ _ _ Ep) as Eu. unfold udraws in Hu. rewrite <- Eu in Hu.
  destruct (ob_ratio h2 ms sigma p) as [q| |] eqn:Eq; try discriminate. cbn [rbind].
  destruct (rg_unif r2) as [|u us]; try discriminate. cbn [rbind]. inversion Hu as [|? ? Hu0 _]; subst.
  assert (Hrej : MSampler.accepts u q = false).
  { apply (ob_propose_ok _ _ _ _ _ _ _ _ _ _ _ Hn H) in Ep as [(idx&idx'&E)|E].
    - destruct (ob_grow_ok _ _ _ _ _ _ _ _ _ _ Hn H E) as (H2&_&_&ps&_&_&->&Hps&_&HB&_).
      assert (Hlen : length ps = 1).
      { rewrite <- (map_length en_e), Hps. rewrite (Permutation_length (oleaf_nodes_perm _ _ _ _ _ _ H)). reflexivity. }
      destruct ps as [|en ps]; [discriminate|]. destruct (HB en (or_introl eq_refl)) as (ci&di&Hin&Hok). simpl in Hin. destruct Hin as [Hin|[]].
      injection Hin as He <- <-. apply dead_rejects. unfold ob_ratio in Eq. cbn [map ob_ratio_from] in Eq.
      destruct (ob_log_ratio h2 (g_mut en) sigma p) as [x| |] eqn:Ex; try discriminate. cbn [rbind] in Eq. eapply ratio_dead; [|exact Eq]. apply dead_add_r.
      unfold ob_log_ratio in Ex. destruct (ob_log_transition _ _ _) as [qa| |] eqn:Ea; try discriminate. cbn [rbind] in Ex.
      destruct (log_likihood_ratio _ _ _ _) as [qb| |]; try discriminate. cbn [rbind] in Ex.
      destruct (ob_log_tree h2 _ p) as [qc| |] eqn:Ec; try discriminate. cbn [rbind] in Ex. injection Ex as <-.
      destruct (Req_EM_T (pa_pprune p) 0) as [Hz|Hz].
      { apply dead_add_l, dead_add_l. eapply ob_sterile_trans; [exact Hz|exact Ea]. }
      apply dead_add_r. simpl in Hok. destruct Hok as ((s&Eg&_)&_&(wl&sl&El&_)&_).
      destruct (oi_ok _ _ _ _ _ _ H2) as (w0&s0&E0&_).
      eapply (ob_sterile_grow h2 (g_mut en) p qc (en_l en) (en_r en) Hp Hz); [| | |exact Ec].
      + unfold g_mut, node_depth. cbn [mu_existing]. rewrite <- He, E0. reflexivity.
      + unfold g_mut, get_children, left_child, right_child. cbn [mu_updated mu_existing]. rewrite Eg. reflexivity.
      + unfold node_depth. rewrite El. reflexivity.
    - assert (P0 : prunable_decision_nodes h t = []).
      { pose proof (prunable_perm _ _ _ _ _ _ H) as P. rewrite (opr_zero _ _ _ (oi_full _ _ _ _ _ _ H)) in P. apply Permutation_nil. now symmetry. }
      unfold ob_prune_mutations in E. rewrite P0 in E. cbn [ob_prunes] in E. injection E as <- <-. unfold ob_ratio in Eq. cbn [ob_ratio_from] in Eq. injection Eq as <-.
      unfold MSampler.accepts. simpl xltb. destruct (Rlt_dec u 0); [lra|reflexivity]. }
  rewrite Hrej. intros [= <- <- <- <-]. auto.
Qed.

Lemma ob_call_sterile X y e m fr pc r b a m' r' : no_nan X -> egi X y e m fr pc -> pc <> GStart -> udraws r -> stumps m -> sterile (m_par m) ->
  ob_call m fr (snd (yields pc)) r = Ok (b, a, m', r') -> shape m' = shape m.
Proof.
  intros Hn Hg Hpc Hu Hst Hp E. pose proof E as E0. destruct (ecall _ _ _ _ _ _ _ _ _ _ _ Hn Hg Hpc Hu E) as (_&Hsm&_&Hact).
  destruct pc as [|j|j rest|]; [congruence| | |].
  - cbn [yields snd ob_call] in E0. simpl in Hg. destruct Hg as [H Hft]. rewrite Hft in E0. destruct (ei_target _ _ _ _ _ H j eq_refl) as (t&k&o&ty&Et&Hi&_). rewrite Et in E0.
    destruct (ob_step _ t _ _ r) as [[[[om h1] t1] r1]| |] eqn:Es; try discriminate. cbn [rbind] in E0. injection E0 as _ _ <- _.
    assert (L : length (tr_nodes t) = 1) by (unfold stumps in Hst; rewrite Forall_forall in Hst; apply Hst; eapply nth_error_In; eauto).
    destruct (ob_step_sterile _ _ _ _ _ _ _ _ _ _ _ _ _ Hn Hi L Hp Hu Es) as [_ ->]. eapply shape_set; eauto.
  - destruct Hact as [_ Hlk]. apply lkeeps_shape; auto. apply Hsm.
  - destruct Hact as [_ Hlk]. apply lkeeps_shape; auto. apply Hsm.
Qed.
Lemma ob_drive_sterile X y e : no_nan X -> forall fuel m fr pc r log acts mf rf, egi X y e m fr pc -> udraws r -> stumps m -> sterile (m_par m) ->
  ob_drive fuel m fr pc r = Ok (log, acts, mf, rf) -> shape mf = shape m.
Proof.
  intros Hn. induction fuel as [|fuel IH]; intros m fr pc r log acts mf rf Hg Hu Hst Hp; [discriminate|]. cbn [ob_drive].
  destruct (pc_dec pc) as [->|Hpc].
  { simpl. intros E. injection E as <- <- <- <-. auto. }
  destruct (egen_next _ _ _ _ _ _ Hn Hg Hpc) as (fr1&m1&->&Hfr&Hg1&Hsm1&Hlk1&Es1). cbn [rbind].
  set (pc1 := pc_next m pc) in *.
  assert (Hns : pc1 <> GStart).
  { unfold pc1, pc_next, succ_pc. clear. destruct pc as [|j|j [|i rest]|]; try congruence.
    - destruct (_ <? _); congruence.
    - destruct (nth_error _ _); [|congruence]. destruct (leaf_nodes _ _); [destruct (_ <? _)|]; congruence.
    - destruct (_ <? _); congruence. }
  destruct (yields pc1) as [ky th] eqn:Ey.
  destruct (ob_call m1 fr1 th r) as [[[[b a] m2] r1]| |] eqn:Ec; try discriminate. cbn [rbind].
  assert (Hth : th = snd (yields pc1)) by now rewrite Ey. rewrite Hth in Ec.
  assert (S1 : shape m1 = shape m) by (apply lkeeps_shape; auto; apply Hsm1).
  assert (P1 : m_par m1 = m_par m) by apply Hsm1.
  assert (T1 : stumps m1) by (eapply stumps_shape; eauto).
  assert (Hp1 : sterile (m_par m1)) by now rewrite P1.
  assert (S2 : shape m2 = shape m1) by (eapply ob_call_sterile; [exact Hn|exact Hg1|exact Hns|exact Hu|exact T1|exact Hp1|exact Ec]).
  destruct (ecall _ _ _ _ _ _ _ _ _ _ _ Hn Hg1 Hns Hu Ec) as (Hg2&Hsm2&Hu2&_).
  destruct (ob_drive fuel m2 fr1 pc1 r1) as [[[[log2 acts2] m3] r2]| |] eqn:Ed; try discriminate. cbn [rbind].
  intros E. injection E as <- <- <- <-.
  assert (P2 : m_par m2 = m_par m1) by apply Hsm2.
  rewrite (IH _ _ _ _ _ _ _ _ Hg2 Hu2 ltac:(eapply stumps_shape; eauto) ltac:(now rewrite P2) Ed). congruence.
Qed.
Definition no_moves (d : list (skey * R)) : Prop := forall k x, In (k, x) d -> x = 0%R.
Lemma mean01_false l : Forall (fun b => b = false) l -> mean01 l = 0%R.
Proof.
  intros H. unfold mean01. replace (rsum (map (fun b : bool => if b then 1 else 0)%R l)) with 0%R; [unfold Rdiv; ring|].
  unfold rsum. induction H as [|b l -> _ IH]; simpl; auto. rewrite <- IH. ring.
Qed.
Lemma ob_gibbs_sterile X y e m r d acts m' r' : no_nan X -> einv X y None e m -> udraws r -> stumps m -> sterile (m_par m) ->
  ob_gibbs_step m r = Ok (d, acts, m', r') -> shape m' = shape m /\ no_moves d.
Proof.
  intros Hn H Hu Hst Hp. unfold ob_gibbs_step. destruct (ob_drive _ m _ GStart r) as [[[[log a] m1] r1]| |] eqn:Ed; try discriminate. cbn [rbind].
  intros [= <- <- <- <-]. assert (Hs : shape m1 = shape m) by exact (ob_drive_sterile X y e Hn _ m (Fr None None) GStart r _ _ _ _ H Hu Hst Hp Ed). split; auto.
  destruct (edrive X _ e Hn _ m (Fr None None) GStart r _ _ _ _ H Hu Ed) as (_&_&_&_&_&_&Hlog).
  intros k x Hin. unfold step_dict in Hin. apply in_map_iff in Hin as (k'&E&_). injection E as _ <-. apply mean01_false.
  apply Forall_forall. intros b Hb. apply in_map_iff in Hb as (e0&<-&He0). apply filter_In in He0 as [He0 _]. rewrite Hlog in He0. apply in_map_iff in He0 as (j&<-&_). simpl.
  unfold changed. assert (En : nodes_of m1 j = nodes_of m j).
  { unfold nodes_of. unfold shape in Hs. assert (E2 : nth_error (map tr_nodes (m_trees m1)) j = nth_error (map tr_nodes (m_trees m)) j) by now rewrite Hs.
    rewrite !nth_error_map in E2. destruct (nth_error (m_trees m1) j), (nth_error (m_trees m) j); simpl in E2; congruence. }
  rewrite En. destruct (list_eq_dec _ _ _); auto. congruence.
Qed.

(** ** whole chains *)
Definition storing (o : ob_model_op) : Prop := match o with BPredict | BStore => True | _ => False end.
Lemma stores_storing nb q sp i : Forall storing (ob_stores_every nb q sp i).
Proof. unfold ob_stores_every. destruct (i <? nb); auto. destruct (_ =? _); auto. destruct sp; repeat constructor. Qed.
Lemma storing_ops X y e : no_nan X -> forall os m m', Forall storing os -> einv X y None e m -> ob_model_run m os = Ok m' ->
  einv X y None e m' /\ shape m' = shape m /\ m_par m' = m_par m.
Proof.
  intros Hn. induction os as [|o os IH]; intros m m' Hs H; cbn [ob_model_run]; [intros [= <-]; auto|].
  inversion Hs as [|? ? Ho Hos]; subst. destruct o; try destruct Ho; cbn [ob_model_do].
  - destruct (emodel_predict _ _ _ _ Hn H) as (v&m1&->&_&_&H1&S1&L1&_). cbn [rbind]. intros E. destruct (IH _ _ Hos H1 E) as (A&B&C). split; auto.
    assert (P1 : m_par m1 = m_par m) by apply S1. rewrite B, C, P1. split; auto. apply lkeeps_shape; auto. apply S1.
  - destruct (edeep_copy _ _ _ _ _ H) as (s&m1&->&H1&S1&L1&_). cbn [rbind]. intros E. destruct (IH _ _ Hos H1 E) as (A&B&C). split; auto.
    assert (P1 : m_par m1 = m_par m) by apply S1. rewrite B, C, P1. split; auto. apply lkeeps_shape; auto. apply S1.
Qed.
Lemma ob_sampling_sterile X y e stores : no_nan X -> (forall i, Forall storing (stores i)) -> forall i m r l m' r', ob_sampling stores i m r l m' r' ->
  einv X y None e m -> udraws r -> stumps m -> sterile (m_par m) -> Forall (fun st => stumps (snd st) /\ no_moves (fst st)) l.
Proof.
  intros Hn Hs. induction 1 as [|i m r d acts m1 r1 m2 l m' r' Hg Hm H IH]; intros Hi Hu Hst Hp; constructor.
  - simpl. destruct (ob_gibbs_sterile _ _ _ _ _ _ _ _ _ Hn Hi Hu Hst Hp Hg) as [A B]. split; auto. eapply stumps_shape; eauto.
  - destruct (ob_gibbs_sterile _ _ _ _ _ _ _ _ _ Hn Hi Hu Hst Hp Hg) as [A B]. destruct (ob_same_gibbs _ _ _ _ _ _ _ _ _ Hn Hi Hu Hg) as (H1&S1&U1).
    destruct (storing_ops _ _ _ Hn _ _ _ (Hs i) H1 Hm) as (H2&C&D). apply IH; auto.
    + eapply stumps_shape; [|exact Hst]. congruence.
    + rewrite D. assert (E : m_par m1 = m_par m) by apply S1. now rewrite E.
Qed.
Definition flat (s : sample) : Prop := Forall (fun t => length (tr_nodes t) = 1) (sm_trees s).
Lemma same_flat' h ts h' ts' : same_conditions h ts h' ts' -> Forall (fun t => length (tr_nodes t) = 1) ts' -> Forall (fun t => length (tr_nodes t) = 1) ts.
Proof. induction 1 as [|t t' ts ts' H _ IH]; intros F; constructor; inversion F; subst; auto. rewrite (PModel7.Forall2_length _ _ _ H). auto. Qed.
Lemma ob_chain_flat s X y e r : no_nan X -> length y = length (mx_rows X) -> udraws r -> forbids_growth (sk_par s) -> ob_chain_ran s X y e r ->
  Forall flat (ch_models (snd e)) /\ Forall no_moves (ch_accept (snd e)).
Proof.
  intros Hn Hl Hu Ha (hs&m&m'&r'&_&Hm&Hs&_). destruct (estart _ _ _ _ _ _ _ Hl Hm) as (H&_&Hp&_).
  assert (S0 : stumps m).
  { destruct (start_model_spec _ _ _ _ _ _ _ Hl Hm) as (_&Ht&_). unfold stumps. rewrite Ht. apply Forall_forall. intros t Hin. apply in_map_iff in Hin as (q&<-&_). reflexivity. }
  destruct (sk_thin s) as [|num den].
  { unfold ob_samples in Hs. destruct (ob_burn _ m r) as [[m1 r1]| |]; discriminate. }
  destruct (Z.eq_dec num 0) as [->|Hz].
  - unfold ob_samples in Hs. destruct (ob_burn _ m r) as [[m1 r1]| |] eqn:Eb; try discriminate. cbn [rbind] in Hs.
    destruct (sk_nsamples s) as [|n]; cbn [ob_sample_loop] in Hs.
    + injection Hs as <- <- <-. split; constructor.
    + exfalso. unfold ob_sample_iter in Hs. destruct (ob_gibbs_step m1 r1) as [[[[? ?] ?] ?]| |]; cbn [rbind] in Hs; try discriminate.
  - destruct (keeps_some num den Hz) as (q&Hq&Hk).
    destruct (ob_samples_spec X _ _ num den q _ _ _ _ m r _ m' r' Hn H Hu Hz Hk Hs) as (l&lb&Hsm&_&_&_&_&Hmod&Hacc&_).
    assert (HF := ob_sampling_sterile X _ _ _ Hn (stores_storing _ _ _) _ _ _ _ _ _ Hsm H Hu S0 ltac:(unfold sterile; now rewrite Hp)).
    assert (HF' : forall st, In st (every_from q 0 l) -> stumps (snd st) /\ no_moves (fst st)).
    { intros st Hst. rewrite Forall_forall in HF. apply HF, in_app_iff. right. eapply every_in; eauto. }
    split.
    + apply Forall_forall. intros sm Hin. destruct (forall2_in_l _ _ _ Hmod sm Hin) as (st&Hst&(_&Hc&_)&_). destruct (HF' st Hst) as [Hs1 _]. eapply same_flat'; eauto.
    + rewrite Hacc. destruct (sk_store_accept s); [|constructor]. apply Forall_forall. intros d Hd. apply in_map_iff in Hd as (st&<-&Hst). now apply HF'.
Qed.
(** one number for all rows *)
Lemma ob_stump_const X ys e m X' v i j : einv X ys None e m -> stumps m -> mx_ncols X <= mx_ncols X' -> trees_predict_out (m_heap m) (m_trees m) X' = Ok v ->
  i < length (mx_rows X') -> row_clean (mx_ncols X) (nth i (mx_rows X') []) = true ->
  j < length (mx_rows X') -> row_clean (mx_ncols X) (nth j (mx_rows X') []) = true -> nth i v 0%R = nth j v 0%R.
Proof.
  intros H Hst Hc Hv Hi Ci Hj Cj. destruct (oouts_spec _ _ _ _ X' H Hc) as (v'&Ev&_&G). rewrite Hv in Ev. injection Ev as <-.
  pose proof (G i Hi) as Gi. pose proof (G j Hj) as Gj. rewrite Ci in Gi. rewrite Cj in Gj. destruct Gi as (xs&Fx&->), Gj as (zs&Fz&->). f_equal.
  clear - Hst Fx Fz. unfold stumps in Hst. revert zs Fz. induction Fx as [|t x ts xs Hx _ IH]; intros zs Fz; inversion Fz as [|? z ? zs' Hz Fz']; subst; auto.
  inversion Hst; subst. f_equal; auto. destruct Hx as (L1&a&L2&E&_&_&V), Hz as (L1'&a'&L2'&E'&_&_&V').
  assert (Hle : length (leaf_nodes (m_heap m) t) <= 1) by (replace 1 with (length (tr_nodes t)) by auto; apply filter_length_le).
  rewrite E in E'. rewrite E, app_length in Hle. cbn [length] in Hle. destruct L1; [|simpl in Hle; lia]. destruct L2; [|simpl in Hle; lia].
  destruct L1'; [|apply (f_equal (@length _)) in E'; simpl in E'; rewrite app_length in E'; simpl in E'; lia]. injection E' as <- _. congruence.
Qed.
