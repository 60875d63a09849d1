(** Property C89: estimators fitted with the tree sampler of bartpy/samplers/oblivioustrees. *)
From Coq Require Import Reals Lra Permutation ZArith Lia.
From Verif Require Import Base Fl Ext MData MSplit MTree MSampler MHist MTreeHist MModel MModelHist MSklearn MOblivious MObModel MObSklearn Spec SpecTree SpecSampler SpecModel SpecSklearn SpecOblivious SpecObModel SpecObSklearn LFl LList
  PData PSplit PDataProps PCond PTree PPred PTreeHist PTreeProps PTreeProps2 PSampler PSampler2 PSampler3 PModel PModel2 PModel3 PModel4 PModel5 PModel6 PModel7 PModel8 PModel9 PModel10 PModel11 PModel12
  PSklearn PSklearn2 PSklearn3 POblivious POblivious2 POblivious3 POblivious4 POblivious5 PObModel PObModel2 PObModel3 PObModel4 PObModel5 PObSklearn PObSklearn2
  Properties_Model Properties_Model2 Properties_Sklearn Properties_Oblivious Properties_ObModel.
Local Open Scope R_scope.

(** ** New rows *)
(** In every reachable state the ensemble predicts, for a row without NaN and -inf in the training columns, the sum over
    the trees of the value of the last leaf (in the order of the tree's leaf list) whose conditions the row satisfies:
    there is exactly one such number for every tree.  For all other rows it predicts 0. *)
Theorem C89_new_rows : forall X y nrm h0 sigma p os m X', no_nan X -> ob_model_reached X y nrm h0 sigma p os m -> (mx_ncols X <= mx_ncols X')%nat ->
  exists v, trees_predict_out (m_heap m) (m_trees m) X' = Ok v /\ length v = length (mx_rows X') /\
    forall i, (i < length (mx_rows X'))%nat -> let r := nth i (mx_rows X') [] in
      ((forall c, (c < mx_ncols X)%nat -> cell r c <> FNaN /\ cell r c <> FNInf) ->
         exists xs, Forall2 (otree_gives (m_heap m) r) (m_trees m) xs /\ (forall xs', Forall2 (otree_gives (m_heap m) r) (m_trees m) xs' -> xs' = xs) /\
           nth i v 0 = rsum xs) /\
      ((exists c, (c < mx_ncols X)%nat /\ (cell r c = FNaN \/ cell r c = FNInf)) -> nth i v 0 = 0).
Proof.
  intros X y nrm h0 sigma p os m X' Hn Hr Hc. destruct (ob_model_reached_spec _ _ _ _ _ _ _ _ Hn Hr) as (e&H&_&Hl&_).
  destruct (oouts_spec _ _ _ _ X' H Hc) as (v&Ev&Lv&G). exists v. split; auto. split; auto. intros i Hi r. specialize (G i Hi). fold r in G. split.
  - intros Hclean. rewrite (proj2 (row_clean_iff _ _) Hclean) in G. destruct G as (xs&F&->). exists xs. split; auto. split; auto.
    intros xs' F'. pose proof (ei_st _ _ _ _ _ H) as Hs.
    assert (Hnd : forall t, In t (m_trees m) -> NoDup (leaf_nodes (m_heap m) t)).
    { intros t Ht. apply In_nth_error in Ht as (j&Ht). destruct (es_tree _ _ _ _ _ Hs _ _ Ht) as (oy&k&o&Hti&_).
      eapply Permutation_NoDup; [symmetry; apply (oleaf_nodes_perm _ _ _ _ _ _ Hti)|]. apply (NoDup_oleaf o (oi_nodup _ _ _ _ _ _ Hti)). }
    clear - F F' Hnd. revert xs' F'. induction F as [|t x ts xs Hx F IH]; intros xs' F'; inversion F' as [|? x' ? xs0 Hx' F0]; subst; auto.
    f_equal; [eapply gives_fun; eauto; apply Hnd; simpl; auto|]. apply IH; auto. intros; apply Hnd; simpl; auto.
  - intros (c&Hcc&Hcell). destruct (row_clean (mx_ncols X) r) eqn:Er; auto. exfalso. destruct (proj1 (row_clean_iff _ _) Er c Hcc). tauto.
Qed.
Print Assumptions C89_new_rows.

(** ** Fits *)
(** The oblivious fit succeeds for some draws also when no covariate varies (the ordinary one cannot: C66_constant_data_stuck). *)
Theorem C89_fit_possible : forall b s h X y num den,
  no_nan X -> length y = length (mx_rows X) -> mx_ncols X <> 0%nat -> (exists a b, In a y /\ In b y /\ a <> b) ->
  sane_params (sk_par s) -> (0 < pa_limit (sk_par s))%nat -> sk_thin s = TInv num den -> num <> 0%Z -> (0 < sk_nchains s)%nat ->
  exists rs s', Forall nonneg_draws rs /\ length rs = sk_nchains s /\ ob_fit b s h X y rs = Ok s'.
Proof.
  intros b s h X y num den Hn Hl Hv Hy Hp Hlim Ht Hz Hc. apply ob_fit_ok; [|lia].
  split; auto. split; auto. split; [split; auto; destruct Hy as (a&c&Ha&_); destruct (mx_rows X); [|discriminate]; destruct y; [destruct Ha|discriminate]|].
  split; auto. split; auto. split; auto. eauto.
Qed.
Print Assumptions C89_fit_possible.
(** but on such data a chain whose first random draw asks for a grow makes the whole fit fail *)
Theorem C89_fit_unsplittable : forall b s h X y bs idx us ns gs rs num den,
  no_nan X -> length y = length (mx_rows X) -> mx_rows X <> [] -> mx_ncols X <> 0%nat -> (exists a b, In a y /\ In b y /\ a <> b) -> ~ varies X ->
  (0 < pa_ntrees (sk_par s))%nat -> (0 < pa_limit (sk_par s))%nat -> (0 < sk_nburn s + sk_nsamples s)%nat -> (0 < sk_nchains s)%nat -> sk_thin s = TInv num den ->
  ob_fit b s h X y (Rng (true :: bs) idx us ns gs :: rs) = Raise EAttributeError.
Proof.
  intros b s h X y bs idx us ns gs rs num den Hn Hl Hx Hv (a&c&Ha&Hb&Hab) Hvar Hnt Hlim Hsteps Hch Hth.
  set (r0 := Rng (true :: bs) idx us ns gs).
  assert (Hchain : forall s1 h1, settings s1 = settings s -> ob_run_chain s1 h1 X y r0 = Raise EAttributeError).
  { intros s1 h1 Hset. destruct (settings_fields _ _ Hset) as (E1&E2&E3&E4&E5&E6&E7).
    destruct (construct_ok s1 h1 X y a c Hl Hx Hv Ha Hb Hab) as (d&m&Ec&Hm). unfold ob_run_chain. rewrite Ec. cbn [rbind sk_set_model sk_model sk_data].
    assert (Hr : ob_model_reached X y true h1 1 (sk_par s1) [] m) by (split; auto; split; [constructor|]; exists m; auto).
    assert (Hst : ob_gibbs_step m r0 = Raise EAttributeError).
    { destruct (start_model_spec _ _ _ _ _ _ _ Hl Hm) as (_&Ht&_).
      assert (Hp0 : (0 < pa_ntrees (sk_par s1))%nat) by congruence.
      assert (H0 : exists t i, nth_error (m_trees m) 0 = Some t /\ tr_nodes t = [i]).
      { rewrite Ht. destruct (pa_ntrees (sk_par s1)) as [|k]; [lia|]. cbn [seq map nth_error]. eexists; eexists. split; reflexivity. }
      destruct H0 as (t&i&Et&Ei). apply (C86_unsplittable_root X y true h1 1 (sk_par s1) [] m t i); auto. congruence. }
    unfold ob_samples. rewrite E5, Hth, E3, E4. destruct (sk_nburn s) as [|nb].
    - cbn [ob_burn rbind]. destruct (sk_nsamples s) as [|n]; [simpl in Hsteps; lia|]. cbn [ob_sample_loop]. unfold ob_sample_iter. rewrite Hst. reflexivity.
    - cbn [ob_burn]. rewrite Hst. reflexivity. }
  destruct (construct_ok s h X y a c Hl Hx Hv Ha Hb Hab) as (d&m&Ec&Hm). unfold ob_fit. rewrite Ec. cbn [rbind]. cbn [sk_set_model sk_model].
  change (sk_nchains (sk_set_model s d m)) with (sk_nchains s). destruct (sk_nchains s) as [|n]; [lia|]. destruct b.
  - cbn [repeat ob_run_processes]. rewrite Hchain by reflexivity. reflexivity.
  - cbn [ob_run_here]. rewrite Hchain by reflexivity. reflexivity.
Qed.
Print Assumptions C89_fit_unsplittable.

Theorem C89_predict_is_predict_train : forall b s h X y rs s',
  clean X -> length y = length (mx_rows X) -> Forall nonneg_draws rs -> ob_fit b s h X y rs = Ok s' -> sk_store_preds s = true ->
  sk_predict s' None = sk_predict s' (Some X).
Proof.
  intros b s h X y rs s' Hc Hl Hu Hf Hsp. destruct (ob_fit_in_sample _ _ _ _ _ _ _ Hc Hl Hu Hf Hsp) as (ss&ps&Hss&Hps&Hsay).
  assert (Hn : no_nan X) by (intros r v Hr Hv; apply (Hc r v Hr Hv)).
  destruct (ob_fit_data _ _ _ _ _ _ _ Hn Hl Hu Hf) as (d&m&lo&hi&ny&Hd&Hm&_&Hset&_).
  destruct (settings_fields _ _ Hset) as (_&_&_&_&_&E&_). unfold sk_predict, out_of_sample_predict. rewrite E, Hsp, Hd, Hss, Hps.
  apply predict_samples_spec in Hsay. now rewrite Hsay.
Qed.
Print Assumptions C89_predict_is_predict_train.
(** predict is the mean over the stored samples, in the units of the target.  It is not below all of them nor above all of them. *)
Theorem C89_mean_of_samples : forall b s h X y rs s' X',
  no_nan X -> length y = length (mx_rows X) -> Forall nonneg_draws rs -> ob_fit b s h X y rs = Ok s' -> (mx_ncols X <= mx_ncols X')%nat ->
  exists lo hi ss ps, range_of y lo hi /\ sk_samples s' = Some ss /\ samples_say ss X' ps /\
    (forall p, In p ps -> length p = length (mx_rows X')) /\
    (ss = [] -> sk_predict s' (Some X') = Raise XNonFinite) /\
    (ss <> [] -> exists v, sk_predict s' (Some X') = Ok v /\ length v = length (mx_rows X') /\
       forall i, (i < length (mx_rows X'))%nat -> nth i v 0 = mean (map (fun p => in_units lo hi (nth i p 0)) ps) /\
         forall a c, (forall p, In p ps -> a <= in_units lo hi (nth i p 0) <= c) -> a <= nth i v 0 <= c).
Proof.
  intros b s h X y rs s' X' Hn Hl Hu Hf Hc. destruct (ob_fit_out _ _ _ _ _ _ _ X' Hn Hl Hu Hf Hc) as (ss&ps&Hss&Hsay&Hps).
  destruct (ob_fit_data _ _ _ _ _ _ _ Hn Hl Hu Hf) as (d&m&lo&hi&ny&Hd&Hm&_&Hset&Hr&_&Hrng&_). exists lo, hi, ss, ps.
  split; auto. split; auto. split; auto. split; [intros p Hp; now apply Hps|]. pose proof (proj2 (predict_samples_spec _ _ _) Hsay) as Hpp.
  unfold sk_predict, out_of_sample_predict. rewrite Hd, Hss, Hpp. cbn [rbind]. assert (Hlen : length ss = length ps) by (eapply PModel7.Forall2_length; exact Hsay). split.
  - intros ->. inversion Hsay; subst. reflexivity.
  - intros Hne. assert (Hpne : ps <> []) by (destruct ps; [destruct ss; [congruence|discriminate]|congruence]).
    destruct (vmean_spec ps (length (mx_rows X')) Hpne ltac:(intros p Hp; now apply Hps)) as (u&->&Hul&Hu'). cbn [rbind]. unfold unnormalize_y. rewrite Hrng.
    eexists. split; [reflexivity|]. rewrite unnormalize_units, map_length. split; auto. intros i Hi.
    assert (E : nth i (map (in_units lo hi) u) 0 = mean (map (fun p => in_units lo hi (nth i p 0)) ps)).
    { rewrite nth_map_in with (d := 0) by lia. rewrite Hu' by auto. rewrite mean_units by (destruct ps; [congruence|discriminate]). now rewrite map_map. }
    rewrite E. split; auto. intros a c Hac. apply mean_bounds.
    + destruct ps; [congruence|discriminate].
    + intros x Hx. apply in_map_iff in Hx as (p&<-&Hp). auto.
Qed.
Print Assumptions C89_mean_of_samples.
(** the samples of the chains one after the other; chain [i] is a run of the sampler on the draws [i] *)
Theorem C89_chain_order : forall b s h X y rs s',
  no_nan X -> length y = length (mx_rows X) -> Forall nonneg_draws rs -> ob_fit b s h X y rs = Ok s' ->
  exists es, sk_samples s' = Some (all_samples es) /\ length es = sk_nchains s /\ (sk_nchains s <= length rs)%nat /\
    sk_preds s' = Some (flat_map (fun e : extract => ch_preds (snd e)) es) /\ sk_accept s' = Some (flat_map (fun e : extract => ch_accept (snd e)) es) /\
    Forall2 (ob_chain_result s X y) es (firstn (sk_nchains s) rs).
Proof.
  intros b s h X y rs s' Hn Hl Hu Hf. destruct (ob_fit_spec _ _ _ _ _ _ _ Hn Hl Hu Hf) as (d&m&es&_&_&_&_&_&Hle&_&Hlr&HF&Hss&Hps&Hac).
  exists es. split; [exact Hss|]. split; auto. split; auto. split; auto. split; auto. eapply Forall2_impl_in; [|exact HF].
  intros e r _ _ (hs&m0&m'&r'&kept&H1&H2&H3&_). exists hs, m0, m', r'. auto.
Qed.
Print Assumptions C89_chain_order.
(** the number of stored samples, for thin = den/num = den'/q in lowest terms *)
Theorem C89_count : forall b s h X y rs s' num den q den',
  no_nan X -> length y = length (mx_rows X) -> Forall nonneg_draws rs -> ob_fit b s h X y rs = Ok s' -> sk_thin s = TInv num den ->
  (0 < q)%nat -> (0 < den')%nat -> Nat.gcd q den' = 1%nat -> (num * Z.of_nat den' = Z.of_nat q * Zpos den)%Z ->
  exists ss, sk_samples s' = Some ss /\ length ss = (sk_nchains s * ((sk_nsamples s + q - 1) / q))%nat.
Proof.
  intros b s h X y rs s' num den q den' Hn Hl Hu Hf Ht Hq Hd' Hg Hqd.
  destruct (ob_fit_spec _ _ _ _ _ _ _ Hn Hl Hu Hf) as (d&m&es&_&_&_&_&_&Hle&_&Hlr&HF&Hss&_). eexists. split; [exact Hss|].
  assert (Hnz : num <> 0%Z) by (intros ->; lia).
  assert (G : forall e, In e es -> length (ch_models (snd e)) = ((sk_nsamples s + q - 1) / q)%nat).
  { intros e He. destruct (forall2_right _ _ _ HF e He) as (r&h0&m0&m'&r'&kept&_&_&_&(_&F2&_)&Hcount).
    rewrite (PModel7.Forall2_length _ _ _ F2). eapply Hcount; eauto. intros k. eapply keeps_multiple; eauto. }
  rewrite <- Hle. clear - G. induction es as [|e es IH]; [reflexivity|]. simpl. rewrite app_length, map_length, G by (simpl; auto).
  etransitivity; [apply f_equal2; [reflexivity|apply IH; intros; apply G; simpl; auto]|]. lia.
Qed.
Print Assumptions C89_count.
(** predict() without stored predictions *)
Theorem C89_no_predictions : forall b s h X y rs s',
  no_nan X -> length y = length (mx_rows X) -> Forall nonneg_draws rs -> ob_fit b s h X y rs = Ok s' -> sk_store_preds s = false ->
  sk_predict s' None = Raise EValueError.
Proof.
  intros b s h X y rs s' Hn Hl Hu Hf Hsp. destruct (ob_fit_data _ _ _ _ _ _ _ Hn Hl Hu Hf) as (d&m&lo&hi&ny&Hd&Hm&_&Hset&_).
  destruct (settings_fields _ _ Hset) as (_&_&_&_&_&E&_). unfold sk_predict. now rewrite E, Hsp.
Qed.
Print Assumptions C89_no_predictions.
(** every stored sample predicts what the ensemble predicted in some state of the sampler: [C89_new_rows] says what that is *)
Lemma ob_run_app os : forall m m1 os', ob_model_run m os = Ok m1 -> ob_model_run m (os ++ os') = ob_model_run m1 os'.
Proof.
  induction os as [|o os IH]; intros m m1 os' H; cbn [ob_model_run app] in *; [now injection H as <-|].
  destruct (ob_model_do m o) as [m2| |]; try discriminate. cbn [rbind] in *. now apply IH.
Qed.
Lemma ob_sampling_reach X y stores : no_nan X -> (forall i, Forall sane_ob_model_op (stores i) /\ Forall ob_completes (stores i)) ->
  forall i m r l m' r', ob_sampling stores i m r l m' r' -> nonneg_draws r -> (exists e, einv X y None e m) ->
  forall st, In st l -> exists os, Forall sane_ob_model_op os /\ Forall ob_completes os /\ ob_model_run m os = Ok (snd st).
Proof.
  intros Hn Hs. induction 1 as [|i m r d acts m1 r1 m2 l m' r' Hg Hm H IH]; intros Hu (e&Hi) st Hst; [destruct Hst|].
  assert (E1 : ob_model_run m [BStep r] = Ok m1) by (cbn [ob_model_run ob_model_do]; now rewrite Hg).
  destruct Hst as [<-|Hst].
  - exists [BStep r]. split; [repeat constructor; exact Hu|]. split; [repeat constructor|exact E1].
  - destruct (ob_same_gibbs _ _ _ _ _ _ _ _ _ Hn Hi Hu Hg) as (H1&_&Hu1).
    destruct (ob_run_spec _ _ Hn _ _ _ _ H1 (sane_ok _ (proj1 (Hs i))) Hm) as (e2&H2&_).
    destruct (IH Hu1 (ex_intro _ e2 H2) st Hst) as (os&Ho1&Ho2&Ho3).
    exists (BStep r :: stores i ++ os). split; [constructor; [exact Hu|apply Forall_app; split; auto; apply Hs]|].
    split; [constructor; [exact I|apply Forall_app; split; auto; apply Hs]|].
    change (BStep r :: stores i ++ os) with ([BStep r] ++ (stores i ++ os)). rewrite (ob_run_app _ _ _ _ E1), (ob_run_app _ _ _ _ Hm). exact Ho3.
Qed.
Lemma ob_stores_completes nb q sp i : Forall ob_completes (ob_stores_every nb q sp i).
Proof. unfold ob_stores_every. destruct (i <? nb)%nat; auto. destruct (_ =? _)%nat; auto. destruct sp; repeat constructor. Qed.
Theorem C89_samples_are_states : forall b s h X y rs s' ss st,
  no_nan X -> length y = length (mx_rows X) -> Forall nonneg_draws rs -> ob_fit b s h X y rs = Ok s' -> sk_samples s' = Some ss -> In st ss ->
  exists h0 os m, ob_model_reached X y true h0 1 (sk_par s) os m /\ Forall ob_completes os /\
    forall X', sample_predict (fst st) (snd st) X' = trees_predict_out (m_heap m) (m_trees m) X'.
Proof.
  intros b s h X y rs s' ss st Hn Hl Hu Hf Hss Hst. destruct (C89_chain_order _ _ _ _ _ _ _ Hn Hl Hu Hf) as (es&Hss'&_&_&_&_&HF).
  rewrite Hss in Hss'. injection Hss' as ->. apply in_flat_map in Hst as (e&He&Hst). apply in_map_iff in Hst as (sm&<-&Hsm). cbn [fst snd].
  destruct (forall2_in_l _ _ _ HF e He) as (r&Hr&h0&m&m'&r'&Hm&Hsam&Hread).
  assert (Hur : nonneg_draws r) by (rewrite Forall_forall in Hu; apply Hu; rewrite <- (firstn_skipn (sk_nchains s) rs); apply in_app_iff; auto).
  destruct (estart _ _ _ _ _ _ _ Hl Hm) as (H&_).
  destruct (sk_thin s) as [|num den] eqn:Eth.
  { unfold ob_samples in Hsam. destruct (ob_burn (sk_nburn s) m r) as [[m1 r1]| |]; discriminate. }
  destruct (Z.eq_dec num 0) as [->|Hz].
  { exfalso. unfold ob_samples in Hsam. destruct (ob_burn (sk_nburn s) m r) as [[m1 r1]| |] eqn:Eb; try discriminate. cbn [rbind] in Hsam.
    destruct (sk_nsamples s) as [|n]; cbn [ob_sample_loop] in Hsam.
    - injection Hsam as E _ _. rewrite <- E in Hsm. destruct Hsm.
    - unfold ob_sample_iter in Hsam. destruct (ob_gibbs_step m1 r1) as [[[[? ?] ?] ?]| |]; cbn [rbind] in Hsam; discriminate. }
  destruct (keeps_some num den Hz) as (q&Hq&Hk).
  destruct (ob_samples_spec X _ _ num den q _ _ _ _ m r _ m' r' Hn H Hur Hz Hk Hsam) as (l&lb&Hrun&_&_&_&_&Hmod&_).
  destruct (forall2_in_l _ _ _ Hmod sm Hsm) as (sta&Hsta&Hof&_).
  destruct (ob_sampling_reach X _ _ Hn (fun i => conj (ob_stores_sane _ _ _ i) (ob_stores_completes _ _ _ i)) _ _ _ _ _ _ Hrun Hur (ex_intro _ _ H) sta) as (os&Ho1&Ho2&Ho3).
  { apply in_app_iff. right. eapply every_in; eauto. }
  exists h0, os, (snd sta). split; [split; auto; split; auto; exists m; auto|]. split; auto. intros X'. rewrite Hread by auto. apply Hof.
Qed.
Print Assumptions C89_samples_are_states.

(** ** Concrete fits, on both backends *)
Lemma ob_ex_fit b : exists rs s', Forall nonneg_draws rs /\ ob_fit b ex_sk ex_empty mx_X mx_y rs = Ok s'.
Proof.
  destruct (C89_fit_possible b ex_sk ex_empty mx_X mx_y 2 1) as (rs&s'&Hu&_&Hf); try reflexivity; try exact mx_no_nan; try exact mx_sane; try discriminate; try (simpl; lia).
  - exists 1, 2. simpl. repeat split; auto. lra.
  - exists rs, s'. auto.
Qed.
Example C89_case : forall b, exists rs s' v, Forall nonneg_draws rs /\ ob_fit b ex_sk ex_empty mx_X mx_y rs = Ok s' /\
  sk_predict s' None = Ok v /\ sk_predict s' (Some mx_X) = Ok v /\ length v = 3%nat /\ exists ss, sk_samples s' = Some ss /\ length ss = 6%nat.
Proof.
  intros b. destruct (ob_ex_fit b) as (rs&s'&Hu&Hf).
  destruct (C89_count b ex_sk _ mx_X mx_y rs s' 2 1 2 1 mx_no_nan eq_refl Hu Hf eq_refl ltac:(lia) ltac:(lia) eq_refl eq_refl) as (ss&Hss&Hlen).
  destruct (C89_mean_of_samples b ex_sk _ mx_X mx_y rs s' mx_X mx_no_nan eq_refl Hu Hf (le_n _)) as (lo&hi&ss'&ps&_&Hss'&_&_&_&H). rewrite Hss in Hss'. injection Hss' as <-.
  change (length ss = 6%nat) in Hlen. destruct H as (v&Hv&Hl&_); [intros ->; discriminate|].
  exists rs, s', v. split; auto. split; auto.
  split; [rewrite (C89_predict_is_predict_train b ex_sk _ mx_X mx_y rs s' ex_clean eq_refl Hu Hf eq_refl); auto|]. split; auto. split; auto.
  exists ss. auto.
Qed.
(** three equal rows: no covariate varies.  Some draws complete the fit, and all draws that begin with a grow make it raise. *)
Definition flat_X : matrix := Mx 1 [[fz 4]; [fz 4]; [fz 4]].
Lemma flat_no_nan : no_nan flat_X.
Proof. intros r v Hr Hv. simpl in Hr, Hv. assert (v = 0)%nat as -> by lia. destruct Hr as [<-|[<-|[<-|[]]]]; discriminate. Qed.
Lemma flat_fixed : ~ varies flat_X.
Proof.
  intros (v&i&j&Hv&Hi&Hj&H). simpl in Hv, Hi, Hj. assert (v = 0)%nat as -> by lia. apply H.
  assert (E : forall k, (k < 3)%nat -> value_in flat_X k 0 = fz 4) by (intros [|[|[|k]]] Hk; try reflexivity; lia).
  rewrite !E; auto; lia.
Qed.
Example C89_flat_case : forall b, (exists rs s', Forall nonneg_draws rs /\ ob_fit b ex_sk ex_empty flat_X mx_y rs = Ok s') /\
  forall bs idx us ns gs rs, ob_fit b ex_sk ex_empty flat_X mx_y (Rng (true :: bs) idx us ns gs :: rs) = Raise EAttributeError.
Proof.
  intros b. assert (Hy : exists a c, In a mx_y /\ In c mx_y /\ a <> c) by (exists 1, 2; simpl; repeat split; auto; lra). split.
  - destruct (C89_fit_possible b ex_sk ex_empty flat_X mx_y 2 1) as (rs&s'&Hu&_&Hf); try reflexivity; try exact flat_no_nan; try exact mx_sane; try discriminate; try (simpl; lia); auto.
    exists rs, s'. auto.
  - intros bs idx us ns gs rs. apply (C89_fit_unsplittable b ex_sk ex_empty flat_X mx_y bs idx us ns gs rs 2 1);
      try reflexivity; try exact flat_no_nan; try exact flat_fixed; try discriminate; try (simpl; lia); auto.
Qed.
