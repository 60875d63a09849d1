(** Models sampled with the oblivious tree sampler: what the trees say, drift, targets; steps that can be made. *)
From Coq Require Import Reals Lra Permutation.
From Verif Require Import Base Fl Ext MData MSplit MTree MSampler MHist MTreeHist MModel MModelHist MOblivious MObModel Spec SpecTree SpecSampler SpecModel SpecOblivious SpecObModel LFl LList
  PData PSplit PDataProps PCond PTree PPred PTreeHist PTreeProps PTreeProps2 PSampler PSampler2 PSampler3 PModel PModel2 PModel3 PModel4 PModel5 PModel6 PModel7 PModel8 PModel9 PModel10 PModel11
  POblivious POblivious2 POblivious3 POblivious4 POblivious5 PObModel PObModel2 PObModel3.

Lemma udraws_nonneg r : nonneg_draws r <-> udraws r.
Proof. reflexivity. Qed.
Lemma sane_ok os : Forall sane_ob_model_op os -> Forall ob_ok os.
Proof. intros H. eapply Forall_impl; [|exact H]. intros [r| | |n b r]; simpl; auto. Qed.
Lemma completes_ends os : Forall ob_completes os -> Forall ob_ends os.
Proof. intros H. eapply Forall_impl; [|exact H]. intros [r| | |n b r]; simpl; auto. Qed.
Lemma ob_model_reached_spec X y nrm h0 sigma p os m : no_nan X -> ob_model_reached X y nrm h0 sigma p os m ->
  exists e, einv X (start_target y nrm) None e m /\ (Forall ob_completes os -> forall i, e i = 0%R) /\ length (m_trees m) = pa_ntrees p /\ m_par m = p.
Proof.
  intros Hn (Hl&Hs&m0&E0&Hr). destruct (estart _ _ _ _ _ _ _ Hl E0) as (H0&L0&P0&_).
  destruct (ob_run_spec _ _ Hn _ _ _ _ H0 (sane_ok _ Hs) Hr) as (e&H&Hsm&He). exists e. split; auto. destruct Hsm as (A&_&B&_).
  split; [intros Hc i; rewrite (He (completes_ends _ Hc)); auto|]. split; congruence.
Qed.

(** ** what the trees say *)
Lemma otree_says_fun h X t v v' : otree_says h X t v -> otree_says h X t v' -> v' = v.
Proof.
  intros [L A] [L' A']. apply nth_ext with (d := 0%R) (d' := 0%R); [congruence|]. intros i Hi. rewrite L' in Hi.
  destruct (A i Hi) as (j&(L1&L2&B1&B2&B3)&B4). destruct (A' i Hi) as (j'&(L1'&L2'&C1&C2&C3)&C4).
  eapply (lastval_fun (fun j => leaf_holds h j i) (leaf_value h) (leaf_nodes h t)); [exists L1, j, L2|exists L1', j', L2']; auto.
Qed.
Lemma otree_says_show h X oy t k o : no_nan X -> oinv h X oy t k o -> otree_says h X t (oshow h (length (mx_rows X)) t).
Proof.
  intros Hn H. destruct (oshow_spec _ _ _ _ _ _ Hn H) as [A B]. split; auto. intros i Hi. destruct (B i Hi) as (L1&j&L2&C&D&F&G).
  exists j. split; auto. exists L1, L2. auto.
Qed.
Definition shows (m : model) (X : matrix) : list (list R) := map (oshow (m_heap m) (length (mx_rows X))) (m_trees m).
Lemma shows_say X y op e m : no_nan X -> einv X y op e m -> otrees_say m X (shows m X).
Proof.
  intros Hn H. unfold otrees_say, shows. pose proof (es_tree _ _ _ _ _ (ei_st _ _ _ _ _ H)) as Ht.
  assert (G : forall t, In t (m_trees m) -> exists oy k o, oinv (m_heap m) X oy t k o).
  { intros t Hin. apply In_nth_error in Hin as (j&Hj). destruct (Ht _ _ Hj) as (oy&k&o&Hi&_). eauto. }
  clear - Hn G. induction (m_trees m) as [|t ts IH]; simpl; constructor.
  - destruct (G t) as (oy&k&o&Hi); [simpl; auto|]. eapply otree_says_show; eauto.
  - apply IH. intros. apply G. simpl; auto.
Qed.
Lemma otrees_say_unique X y op e m vs : no_nan X -> einv X y op e m -> otrees_say m X vs -> vs = shows m X.
Proof.
  intros Hn H Hv. pose proof (shows_say _ _ _ _ _ Hn H) as Hs. unfold otrees_say in *. revert Hv Hs. generalize (shows m X). generalize (m_trees m).
  intros ts vs' Hv. revert vs'. induction Hv as [|t v ts vs A Hv IH]; intros vs' Hs; inversion Hs; subst; auto. f_equal; [|auto].
  eapply otree_says_fun; eauto.
Qed.
Lemma total_ecol m X i : total (shows m X) i = rsum (ecol (m_heap m) (length (mx_rows X)) (m_trees m) i).
Proof. unfold total, shows, ecol. now rewrite map_map. Qed.
Lemma others_ecol m X i j : j < length (m_trees m) ->
  total (others j (shows m X)) i = (rsum (ecol (m_heap m) (length (mx_rows X)) (m_trees m) i) - nth j (ecol (m_heap m) (length (mx_rows X)) (m_trees m) i) 0)%R.
Proof.
  intros Hj. unfold total. rewrite map_others, rsum_others.
  - unfold shows, ecol. now rewrite map_map.
  - unfold shows. now rewrite !map_length.
Qed.
Lemma nth_shows m X i j : j < length (m_trees m) -> nth i (nth j (shows m X) []) 0%R = nth j (ecol (m_heap m) (length (mx_rows X)) (m_trees m) i) 0%R.
Proof.
  intros Hj. destruct (nth_error (m_trees m) j) as [t|] eqn:Ht; [|apply nth_error_None in Ht; lia].
  rewrite (ecol_nth _ _ _ _ _ _ Ht). unfold shows. rewrite (nth_error_nth (map _ _) j [] (nth_error_map_some (oshow (m_heap m) (length (mx_rows X))) _ _ _ Ht)). reflexivity.
Qed.

(** ** drift and targets *)
Lemma einv_drift X y e m : no_nan X -> einv X y None e m -> odrift m X e.
Proof.
  intros Hn H. unfold odrift. destruct (m_pred m) as [pr|] eqn:Ep.
  - destruct (ei_pred _ _ _ _ _ H pr Ep) as [L N]. split; auto. intros vs Hv i Hi.
    rewrite (otrees_say_unique _ _ _ _ _ _ Hn H Hv), total_ecol, N by auto. simpl. lra.
  - intros i _. apply (ei_none _ _ _ _ _ H Ep).
Qed.
Lemma drift_einv X y e m d : no_nan X -> einv X y None e m -> odrift m X d -> forall i, i < length (mx_rows X) -> d i = e i.
Proof.
  intros Hn H Hd i Hi. unfold odrift in Hd. destruct (m_pred m) as [pr|] eqn:Ep.
  - destruct (ei_pred _ _ _ _ _ H pr Ep) as [L N]. destruct Hd as [_ Hd]. specialize (Hd _ (shows_say _ _ _ _ _ Hn H) i Hi).
    rewrite total_ecol, N in Hd by auto. simpl in Hd. lra.
  - rewrite Hd by auto. symmetry. apply (ei_none _ _ _ _ _ H Ep).
Qed.
Lemma odrift_ext m X d d' : (forall i, i < length (mx_rows X) -> d' i = d i) -> odrift m X d -> odrift m X d'.
Proof.
  intros E. unfold odrift. destruct (m_pred m).
  - intros [L H]. split; auto. intros vs Hv i Hi. rewrite E by auto. auto.
  - intros H i Hi. rewrite E by auto. auto.
Qed.
Lemma onode_target h X y t k o q : oinv h X (Some y) t k o -> In q (tr_nodes t) -> exists s, node_split h q = Some s /\ t_y (d_y (sp_data s)) = Some y.
Proof.
  intros H Hq. apply (oi_same _ _ _ _ _ _ H) in Hq.
  destruct (osub o [] 0 q (oi_nodup _ _ _ _ _ _ H) Hq) as (o'&cs'&d'&Er&Hin&_&_&Hok).
  specialize (Hok _ _ _ (oi_ok _ _ _ _ _ _ H)). destruct o' as [q'|q' w l r]; simpl in Er; subst q'.
  - destruct Hok as (w&s&Eg&Hsv). exists s. unfold node_split. rewrite Eg. split; auto. apply (si_t _ _ _ _ Hsv).
  - destruct Hok as ((s&Eg&Hsv)&_). exists s. unfold node_split. rewrite Eg. split; auto. apply (si_t _ _ _ _ Hsv).
Qed.
Lemma einv_target X y e m j : no_nan X -> einv X y (Some j) e m -> ofits_residual m X y j e.
Proof.
  intros Hn H. destruct (ei_target _ _ _ _ _ H j eq_refl) as (t&k&o&ty&Et&Hi&L&N). exists t, ty. split; auto. split; [|split; auto].
  - intros q Hq. eapply onode_target; eauto.
  - intros vs Hv i Hi0. rewrite (otrees_say_unique _ _ _ _ _ _ Hn H Hv).
    assert (Hj : j < length (m_trees m)) by (apply nth_error_Some; congruence). rewrite others_ecol by auto.
    destruct (m_pred m) as [pr|] eqn:Ep; [|destruct (ei_none _ _ _ _ _ H Ep); discriminate].
    destruct (ei_pred _ _ _ _ _ H pr Ep) as [L' N']. rewrite (N pr), N' by auto. simpl. lra.
Qed.
Lemma ofits_ext m X y j d d' : (forall i, i < length (mx_rows X) -> d' i = d i) -> ofits_residual m X y j d -> ofits_residual m X y j d'.
Proof.
  intros E (t&tg&H1&H2&H3&H4). exists t, tg. split; auto. split; auto. split; auto. intros vs Hv i Hi. rewrite E by auto. auto.
Qed.
Lemma einv_abandon_drift X y e m j : no_nan X -> einv X y (Some j) e m ->
  forall vs, otrees_say m X vs -> odrift m X (fun i => e i + nth i (nth j vs []) 0)%R.
Proof.
  intros Hn H vs Hv. pose proof (einv_drift _ _ _ _ Hn (einv_abandon _ _ _ _ _ H)) as Hd.
  eapply odrift_ext; [|exact Hd]. intros i Hi. simpl. rewrite (otrees_say_unique _ _ _ _ _ _ Hn H Hv), nth_shows; auto.
  apply (es_op _ _ _ _ _ (ei_st _ _ _ _ _ H)). reflexivity.
Qed.

(** ** steps that can be made: prunes proposed for one-leaf trees *)
Lemma oempty_prune h X oy t k o sigma p i u us bs idx ns gs : oinv h X oy t k o -> tr_nodes t = [i] -> 0 < pa_limit p -> (0 <= u)%R ->
  ob_step h t sigma p (Rng (false :: bs) idx (u :: us) ns gs) = Ok (None, h, t, Rng bs idx us ns gs).
Proof.
  intros H En Hlim Hu.
  assert (Ek : k = 0). { pose proof (oinv_size _ _ _ _ _ _ H) as Z. rewrite En in Z. simpl in Z. destruct k; auto. simpl in Z. pose proof (Nat.pow_nonzero 2 k). lia. }
  subst k. assert (Ep : prunable_decision_nodes h t = []).
  { pose proof (prunable_perm _ _ _ _ _ _ H) as P. rewrite (opr_zero _ _ _ (oi_full _ _ _ _ _ _ H)) in P. apply Permutation_nil. now symmetry. }
  unfold ob_step, ob_sample. destruct (pa_limit p) as [|n]; [lia|]. cbn [ob_propose rg_method rg_index]. unfold ob_prune_mutations. rewrite Ep. cbn [ob_prunes rbind].
  unfold ob_ratio. cbn [ob_ratio_from rbind rng_set_index rng_set_method rg_unif]. unfold accepts. simpl xltb. destruct (Rlt_dec u 0); [lra|]. reflexivity.
Qed.
Lemma osingle_leaf_step h X y t k o i sigma p : oinv h X (Some y) t k o -> tr_nodes t = [i] -> mx_rows X <> [] -> fair p -> (0 < sigma)%R ->
  exists w, forall s, leaf_step h i sigma p (radd (Rng [] [] [] [0%R] []) s) = Ok (set_value h i w, s).
Proof.
  intros H En Hx Hp Hs.
  assert (Ek : k = 0). { pose proof (oinv_size _ _ _ _ _ _ H) as Z. rewrite En in Z. simpl in Z. destruct k; auto. simpl in Z. pose proof (Nat.pow_nonzero 2 k). lia. }
  subst k. pose proof (oi_full _ _ _ _ _ _ H) as F. pose proof (oi_ok _ _ _ _ _ _ H) as Hok. pose proof (oi_same _ _ _ _ _ _ H) as Hsm.
  destruct o as [q|q w l r]; [|destruct F]. assert (q = i) as -> by (rewrite En in Hsm; specialize (Hsm q); simpl in Hsm; destruct (proj2 Hsm (or_introl eq_refl)) as [->|[]]; auto).
  destruct Hok as (w&s0&Eg&Hss).
  destruct (mx_rows X) as [|r0 rs] eqn:Er; [congruence|].
  assert (Hc : 1 <= count_of X []) by (apply (count_of_pos X [] r0); [rewrite Er; simpl; auto|reflexivity]).
  destruct Hp as [(Hk&_) Hnt].
  assert (G : forall z zs r, rg_norm r = z :: zs -> exists w', leaf_step h i sigma p r = Ok (set_value h i w', rng_set_norm r zs) /\ leaf_sample (Z.of_nat (count_of X [])) (sum_of X y []) sigma p z = XFin w').
  { intros z zs r Ez. unfold leaf_step. rewrite (node_n_spec _ _ _ _ _ _ _ _ Eg Hss), (node_sum_spec _ _ _ _ _ _ _ _ Eg Hss). cbn [rbind].
    rewrite Ez. rewrite leaf_sample_fin by auto. eauto. }
  destruct (G 0%R [] (Rng [] [] [] [0%R] []) eq_refl) as (w'&_&Ew). exists w'. intros s.
  destruct (G 0%R (rg_norm s) (radd (Rng [] [] [] [0%R] []) s) eq_refl) as (w2&E2&Ew2). rewrite E2. rewrite Ew in Ew2. injection Ew2 as <-.
  f_equal. f_equal. destruct s; reflexivity.
Qed.
Lemma esigma_total X y e m r : no_nan X -> einv X y None e m -> well (m_par m) ->
  exists shape scale m1, (0 < shape)%R /\ (0 < scale)%R /\
    sigma_step m r = match rg_gamma r with
      | [] => NoDraws
      | g :: gs => match sigma_value (g shape scale) with XFin s => Ok (m_set_sigma m1 s, rng_set_gamma r gs) | _ => Raise XNonFinite end
      end.
Proof.
  intros Hn H (_&Ha&Hb). unfold sigma_step, residuals, data_values. rewrite (ei_y _ _ _ _ _ H). cbn [rbind].
  destruct (emodel_predict _ _ _ _ Hn H) as (v&m1&->&Lv&Nv&H1&Hsm&Hlk&E1&E2&E3&E4). cbn [rbind].
  destruct (vop_sum Rminus y v _ (ei_ylen _ _ _ _ _ H) Lv) as (d&->&Ld&Nd). cbn [rbind].
  rewrite (ei_n _ _ _ _ _ H). rewrite <- INR_IZR_INZ.
  set (shape := (pa_siga (m_par m) + INR (length (mx_rows X)) / 2)%R). set (rate := (pa_sigb (m_par m) + / 2 * rsum (map (fun x => x * x) d))%R).
  assert (0 < shape)%R by (unfold shape; pose proof (pos_INR (length (mx_rows X))); lra).
  assert (0 < rate)%R by (unfold rate; pose proof (sq_sum_pos d); lra).
  pose proof (Rinv_0_lt_compat _ H2). exists shape, (/ rate)%R, m1. split; auto. split; auto.
  destruct (Req_EM_T rate 0); [lra|]. destruct (Rlt_dec shape 0); [lra|]. destruct (Rlt_dec (/ rate) 0); [lra|]. reflexivity.
Qed.
(** every tree has one node *)
Definition single (m : model) : Prop := forall k, k < length (m_trees m) -> exists i, nodes_of m k = [i].
Lemma all_single_single m : all_single m <-> single m.
Proof.
  unfold all_single, single, nodes_of. split.
  - intros H k Hk. destruct (nth_error (m_trees m) k) as [t|] eqn:E; [|apply nth_error_None in E; lia]. apply H. eapply nth_error_In; eauto.
  - intros H t Ht. apply In_nth_error in Ht as (k&Hk). destruct (H k) as (i&Hi); [apply nth_error_Some; congruence|]. rewrite Hk in Hi. eauto.
Qed.
Lemma single_keeps m m' : same m m' -> (forall k, lkeeps k m m') -> single m -> single m'.
Proof.
  intros Hsm Hk H k Hlt. assert (Hl : length (m_trees m') = length (m_trees m)) by apply Hsm. rewrite Hl in Hlt.
  destruct (H k Hlt) as (i&Hi). exists i. destruct (lkeeps_of k m m' Hl (Hk k)) as [E _]. congruence.
Qed.
Lemma ecall_single X y e m fr pc : no_nan X -> egi X y e m fr pc -> pc <> GStart -> mx_rows X <> [] -> single m ->
  well (m_par m) -> (0 < m_sigma m)%R -> 0 < pa_limit (m_par m) ->
  exists r0 b a m', udraws r0 /\ fit_rng r0 /\ single m' /\ (0 < m_sigma m')%R /\ (forall ky, fst (yields pc) = ky -> trace_log ky b = match ky with KyTree => Some false | KyNode => None end) /\
    forall s, ob_call m fr (snd (yields pc)) (radd r0 s) = Ok (b, a, m', s).
Proof.
  intros Hn Hg Hpc Hx Hsi Hw Hs Hl. pose proof Hw as (Hp&_).
  assert (G : exists r0 b a m', udraws r0 /\ fit_rng r0 /\ (forall k, nodes_of m' k = nodes_of m k) /\ (0 < m_sigma m')%R /\ (forall ky, fst (yields pc) = ky -> trace_log ky b = match ky with KyTree => Some false | KyNode => None end) /\ forall s, ob_call m fr (snd (yields pc)) (radd r0 s) = Ok (b, a, m', s)).
  { destruct pc as [|j|j rest|]; [congruence|..]; simpl in Hg; cbn [yields snd fst ob_call].
  - destruct Hg as [H Hft]. rewrite Hft. destruct (ei_target _ _ _ _ _ H j eq_refl) as (t&k&o&ty&Et&Hi&_). rewrite Et.
    destruct (Hsi j ltac:(apply nth_error_Some; congruence)) as (i&En). unfold nodes_of in En. rewrite Et in En.
    exists (Rng [false] [] [0%R] [] []), false, (DoTree j), (m_set_trees m (m_heap m) (set_nth j t (m_trees m))).
    split; [constructor; [lra|constructor]|]. split; [constructor|]. split; [intros q; unfold nodes_of; simpl; now rewrite (set_nth_same _ _ _ Et)|]. split; [exact Hs|]. split; [intros ky <-; reflexivity|]. intros s.
    unfold radd. cbn [rg_method rg_index rg_unif rg_norm rg_gamma app].
    rewrite (oempty_prune _ _ _ _ _ _ _ _ _ _ _ _ _ _ _ Hi En Hl (Rle_refl 0)). cbn [rbind]. destruct s; reflexivity.
  - destruct Hg as (H&Hft&t&i&Et&Hi&Hin&_). destruct (ei_target _ _ _ _ _ H j eq_refl) as (t'&k&o&ty&Et'&Hti&_).
    rewrite Et in Et'. injection Et' as <-. destruct (Hsi j ltac:(apply nth_error_Some; congruence)) as (i'&En). unfold nodes_of in En. rewrite Et in En.
    assert (i' = i) as -> by (apply leaf_in in Hin; rewrite En in Hin; destruct Hin as [|[]]; auto).
    destruct (osingle_leaf_step _ _ _ _ _ _ _ (m_sigma m) (m_par m) Hti En Hx Hp Hs) as (w&Hw').
    exists (Rng [] [] [] [0%R] []). do 3 eexists. split; [constructor|]. split; [constructor|]. split; [|split; [|split; [intros ky <-; reflexivity|intros s; unfold call; rewrite Hi, Hw'; reflexivity]]]; [reflexivity|exact Hs].
  - destruct Hg as [H _]. destruct (esigma_total _ _ _ _ (Rng [] [] [] [] [fun _ _ => 1%R]) Hn H Hw) as (sh&sc&m1&Hsh&Hsc&E).
    destruct (sigma_value_total 1%R) as (sv&Ev&Hsv); [lra|].
    assert (Hs0 : forall s, sigma_step m (radd (Rng [] [] [] [] [fun _ _ => 1%R]) s) = Ok (m_set_sigma m1 sv, s)).
    { intros s. revert E. unfold sigma_step. destruct (residuals m) as [[rr m2]| |]; try discriminate; [|simpl; rewrite Ev; discriminate..]. cbn [rbind].
      destruct (Req_EM_T _ _); [simpl; rewrite Ev; discriminate|]. destruct (Rlt_dec _ _); [simpl; rewrite Ev; discriminate|]. destruct (Rlt_dec _ _); [simpl; rewrite Ev; discriminate|].
      simpl. rewrite Ev. intros E'. assert (E2 : m_set_sigma m2 sv = m_set_sigma m1 sv) by congruence. rewrite E2. f_equal. f_equal. destruct s; reflexivity. }
    exists (Rng [] [] [] [] [fun _ _ => 1%R]). do 3 eexists. split; [constructor|]. split; [constructor; [intros ? ? _ _; lra|constructor]|].
    destruct (esigma_step _ _ _ _ _ _ _ Hn H (Hs0 rnil)) as (_&Hsm&Hlk&_).
    split; [|split; [|split; [intros ky <-; reflexivity|intros s; unfold call; rewrite Hs0; reflexivity]]].
    + intros k. apply (lkeeps_of k); [apply Hsm|apply Hlk].
    + exact Hsv. }
  destruct G as (r0&b&a&m'&A&B&C&D&F&E). exists r0, b, a, m'. split; auto. split; auto. split; auto.
  intros k Hk. rewrite C. apply Hsi.
  destruct (ecall _ _ _ _ _ _ (radd r0 rnil) _ _ _ _ Hn Hg Hpc ltac:(rewrite radd_nil_r; exact A) (E rnil)) as (_&Hsm&_).
  destruct Hsm as (L&_). congruence.
Qed.
Lemma edrive_single X y e : no_nan X -> mx_rows X <> [] -> forall fuel m fr pc, egi X y e m fr pc -> single m ->
  well (m_par m) -> (0 < m_sigma m)%R -> 0 < pa_limit (m_par m) -> eneed m pc <= fuel ->
  exists r0 log acts mf, udraws r0 /\ fit_rng r0 /\ single mf /\ (0 < m_sigma mf)%R /\ Forall (fun kb => kb = (KyTree, false)) log /\ forall s, ob_drive fuel m fr pc (radd r0 s) = Ok (log, acts, mf, s).
Proof.
  intros Hn Hx. induction fuel as [|fuel IH]; intros m fr pc Hg Hsi Hw Hs Hl Hfu; [pose proof (eneed_pos m pc); lia|]. cbn [ob_drive].
  destruct (pc_dec pc) as [->|Hpc].
  { exists rnil, [], [], m. split; [constructor|]. split; [constructor|]. split; auto. split; auto. split; [constructor|]. intros s. simpl. now rewrite radd_nil. }
  destruct (egen_next _ _ _ _ _ _ Hn Hg Hpc) as (fr1&m1&Egn&Hfr&Hg1&Hsm1&Hlk1&Es1). rewrite Egn. cbn [rbind].
  assert (Hp1 : m_par m1 = m_par m) by apply Hsm1.
  destruct (ecall_single X y e m1 fr1 (pc_next m pc) Hn Hg1 (pc_next_started m pc Hpc) Hx (single_keeps _ _ Hsm1 Hlk1 Hsi) ltac:(congruence) ltac:(congruence) ltac:(congruence))
    as (r0&b&a&m2&Hu0&Hr0&Hsi2&Hs2&Hlog&Ec).
  destruct (yields (pc_next m pc)) as [ky th] eqn:Ey.
  assert (Hth : th = snd (yields (pc_next m pc))) by now rewrite Ey. cbn [snd] in Ec.
  assert (Hu0' : udraws (radd r0 rnil)) by now rewrite radd_nil_r.
  destruct (ecall X y e m1 fr1 (pc_next m pc) (radd r0 rnil) b a m2 rnil Hn Hg1 (pc_next_started m pc Hpc) Hu0' ltac:(rewrite <- Hth; apply Ec))
    as (Hg2&Hsm2&_).
  assert (Hp2 : m_par m2 = m_par m) by (transitivity (m_par m1); [apply Hsm2|auto]).
  rewrite <- Ey in Egn. pose proof (eneed_dec _ _ _ _ _ _ _ _ _ _ _ _ _ _ Hn Hg Hpc Hu0' Egn Hth (Ec rnil)) as Hdec.
  destruct (IH m2 fr1 (pc_next m pc) Hg2 Hsi2 ltac:(congruence) Hs2 ltac:(congruence) ltac:(lia))
    as (r1&log&acts&mf&Hu1&Hr1&Hsf&Hpf&Hlf&Ed).
  exists (radd r0 r1), (match trace_log ky b with Some b0 => (ky, b0) :: log | None => log end), (a :: acts), mf. split; [|split; [|split; [auto|split; [auto|split]]]].
  - unfold udraws in *. simpl. now apply Forall_app.
  - unfold fit_rng in *. simpl. now apply Forall_app.
  - rewrite (Hlog ky eq_refl). destruct ky; [|exact Hlf]. constructor; auto.
  - intros s. rewrite radd_assoc, Ec. cbn [rbind]. rewrite Ed. reflexivity.
Qed.
(** models of one-node trees *)
Definition estump (X : matrix) (y : list R) (p : params) (m : model) : Prop :=
  (exists e, einv X y None e m) /\ single m /\ m_par m = p /\ (0 < m_sigma m)%R.
Lemma egibbs_single X y p m : no_nan X -> mx_rows X <> [] -> well p -> 0 < pa_limit p -> estump X y p m ->
  exists r0 d acts m', udraws r0 /\ fit_rng r0 /\ estump X y p m' /\ forall s, ob_gibbs_step m (radd r0 s) = Ok (d, acts, m', s).
Proof.
  intros Hn Hx Hw Hl ((e&H)&Hsi&<-&Hs).
  destruct (edrive_single X y e Hn Hx (ob_drive_fuel m) m (Fr None None) GStart H Hsi Hw Hs Hl (le_n _)) as (r0&log&acts&mf&Hu&Hr&Hsf&Hpf&_&Ed).
  exists r0, (step_dict log), acts, mf. split; auto. split; auto.
  assert (Hu0 : udraws (radd r0 rnil)) by now rewrite radd_nil_r.
  destruct (edrive X y e Hn _ m (Fr None None) GStart (radd r0 rnil) _ _ _ _ H Hu0 (Ed rnil)) as (H'&_&Hsm&_).
  split; [split; [eauto|]; split; [auto|]; split; [apply Hsm|auto]|]. intros s. unfold ob_gibbs_step. rewrite Ed. reflexivity.
Qed.
Lemma estump_copy X y p m : estump X y p m -> exists s m', deep_copy_model m = Ok (s, m') /\ estump X y p m'.
Proof.
  intros ((e&H)&Hsi&Hp&Hs). destruct (edeep_copy _ _ _ _ _ H) as (s&m'&E&H'&Hsm&Hlk&_&Es&_).
  exists s, m'. split; auto. split; [eauto|]. split; [eapply single_keeps; eauto|]. split; [|congruence]. rewrite <- Hp. apply Hsm.
Qed.
Lemma estump_predict X y p m : no_nan X -> estump X y p m -> exists v m', model_predict m = Ok (v, m') /\ estump X y p m'.
Proof.
  intros Hn ((e&H)&Hsi&Hp&Hs). destruct (emodel_predict _ _ _ _ Hn H) as (v&m'&E&_&_&H'&Hsm&Hlk&_&Es&_).
  exists v, m'. split; auto. split; [eauto|]. split; [eapply single_keeps; eauto|]. split; [|congruence]. rewrite <- Hp. apply Hsm.
Qed.
Lemma eburn_single X y p : no_nan X -> mx_rows X <> [] -> well p -> 0 < pa_limit p -> forall n m, estump X y p m ->
  exists r0 m', udraws r0 /\ fit_rng r0 /\ estump X y p m' /\ forall s, ob_burn n m (radd r0 s) = Ok (m', s).
Proof.
  intros Hn Hx Hw Hl. induction n as [|n IH]; intros m H; cbn [ob_burn].
  - exists rnil, m. split; [constructor|]. split; [constructor|]. split; auto. intros s. now rewrite radd_nil.
  - destruct (egibbs_single _ _ _ _ Hn Hx Hw Hl H) as (r0&d&acts&m1&Hu&Hr&H1&E). destruct (IH m1 H1) as (r1&m2&Hu1&Hr1&H2&E2).
    exists (radd r0 r1), m2. split; [unfold udraws in *; simpl; now apply Forall_app|]. split; [unfold fit_rng in *; simpl; now apply Forall_app|]. split; auto.
    intros s. rewrite radd_assoc, E. cbn [rbind]. apply E2.
Qed.
Lemma eloop_single X y p num den sp sa : no_nan X -> mx_rows X <> [] -> well p -> 0 < pa_limit p -> num <> 0%Z -> forall n ss m, estump X y p m ->
  exists r0 c m', udraws r0 /\ fit_rng r0 /\ estump X y p m' /\ forall s, ob_sample_loop ss n num den sp sa m (radd r0 s) = Ok (c, m', s).
Proof.
  intros Hn Hx Hw Hl Hz. induction n as [|n IH]; intros ss m H; cbn [ob_sample_loop].
  - exists rnil, (Ch [] [] []), m. split; [constructor|]. split; [constructor|]. split; auto. intros s. now rewrite radd_nil.
  - destruct (egibbs_single _ _ _ _ Hn Hx Hw Hl H) as (r0&d&acts&m1&Hu&Hr&H1&E).
    assert (G : exists c1 m2, estump X y p m2 /\ forall s, ob_sample_iter ss num den sp sa m (radd r0 s) = Ok (c1, m2, s)).
    { unfold ob_sample_iter. destruct (Z.eqb_spec num 0) as [|_]; [congruence|]. destruct (keeps_sample ss num den).
      - destruct sp.
        + destruct (estump_predict _ _ _ _ Hn H1) as (v&m2&Ev&H2). destruct (estump_copy _ _ _ _ H2) as (sm&m3&Ec&H3).
          do 2 eexists. split; [exact H3|]. intros s. rewrite E. cbn [rbind]. rewrite Ev. cbn [rbind]. rewrite Ec. cbn [rbind]. reflexivity.
        + destruct (estump_copy _ _ _ _ H1) as (sm&m3&Ec&H3). do 2 eexists. split; [exact H3|]. intros s. rewrite E. cbn [rbind]. rewrite Ec. cbn [rbind]. reflexivity.
      - do 2 eexists. split; [exact H1|]. intros s. rewrite E. cbn [rbind]. reflexivity. }
    destruct G as (c1&m2&H2&E2). destruct (IH (S ss) m2 H2) as (r1&c&m3&Hu1&Hr1&H3&E3).
    exists (radd r0 r1), (ch_app c1 c), m3. split; [unfold udraws in *; simpl; now apply Forall_app|]. split; [unfold fit_rng in *; simpl; now apply Forall_app|]. split; auto.
    intros s. rewrite radd_assoc, E2. cbn [rbind]. rewrite E3. reflexivity.
Qed.
