(** Property C86: Gibbs sampling of an ensemble with the tree sampler of bartpy/samplers/oblivioustrees. *)
From Coq Require Import Reals Lra Permutation ZArith.
From Verif Require Import Base Fl Ext MData MSplit MTree MSampler MHist MTreeHist MModel MModelHist MOblivious MObModel Spec SpecTree SpecSampler SpecModel SpecOblivious SpecObModel LFl LList
  PData PSplit PDataProps PCond PTree PPred PTreeHist PTreeProps PTreeProps2 PSampler PSampler2 PSampler3 PModel PModel2 PModel3 PModel4 PModel5 PModel6 PModel7 PModel8 PModel9 PModel10 PModel11 PModel12
  POblivious POblivious2 POblivious3 POblivious4 POblivious5 PObModel PObModel2 PObModel3 PObModel4 PObModel5 Properties_Model Properties_Model2 Properties_Oblivious.
Local Open Scope R_scope.

(** ** The trees *)
(** At every point of every history, also of histories with abandoned steps: the model has its number of trees, every
    tree is a perfect binary tree, no two trees share a node, and the prediction of every tree exists and is unique. *)
Theorem C86_trees : forall X y nrm h0 sigma p os m, no_nan X -> ob_model_reached X y nrm h0 sigma p os m ->
  length (m_trees m) = pa_ntrees p /\
  (forall t, In t (m_trees m) -> exists k, perfect_tree (m_heap m) t k) /\
  (forall a b t u q, nth_error (m_trees m) a = Some t -> nth_error (m_trees m) b = Some u -> In q (tr_nodes t) -> In q (tr_nodes u) -> a = b) /\
  exists vs, otrees_say m X vs /\ forall vs', otrees_say m X vs' -> vs' = vs.
Proof.
  intros X y nrm h0 sigma p os m Hn Hr. destruct (ob_model_reached_spec _ _ _ _ _ _ _ _ Hn Hr) as (e&H&_&Hl&_). split; auto.
  pose proof (ei_st _ _ _ _ _ H) as Hs. split; [|split].
  - intros t Ht. apply In_nth_error in Ht as (j&Ht). destruct (es_tree _ _ _ _ _ Hs _ _ Ht) as (oy&k&o&Hi&_). exists k. eapply oinv_perfect; eauto.
  - intros a b t u q Ha Hb Hq Hq'. eapply (es_disj _ _ _ _ _ Hs); eauto.
  - exists (shows m X). split; [eapply shows_say; eauto|]. intros vs' Hv. eapply otrees_say_unique; eauto.
Qed.
Print Assumptions C86_trees.

(** ** Backfitting *)
Theorem C86_running_prediction : forall X y nrm h0 sigma p os m pr, no_nan X -> ob_model_reached X y nrm h0 sigma p os m ->
  Forall ob_completes os -> m_pred m = Some pr ->
  length pr = length (mx_rows X) /\ forall vs, otrees_say m X vs -> forall i, (i < length (mx_rows X))%nat -> nth i pr 0 = total vs i.
Proof.
  intros X y nrm h0 sigma p os m pr Hn Hr Hc Hp. destruct (ob_model_reached_spec _ _ _ _ _ _ _ _ Hn Hr) as (e&H&He&_).
  pose proof (einv_drift _ _ _ _ Hn H) as Hd. unfold odrift in Hd. rewrite Hp in Hd. destruct Hd as [L Hd]. split; auto.
  intros vs Hv i Hi. rewrite (Hd vs Hv i Hi), (He Hc i). lra.
Qed.
Print Assumptions C86_running_prediction.
(** the tree being updated has as its target the data minus what all other trees predict, plus the drift [d] that earlier
    abandoned steps left behind (0 if there were none) *)
Theorem C86_targets : forall X y nrm h0 sigma p os m d n produced r m1 pc j, no_nan X -> ob_model_reached X y nrm h0 sigma p os m ->
  odrift m X d -> nonneg_draws r -> ob_half_step n produced m r = Ok (m1, pc) -> open_of pc = Some j ->
  ofits_residual m1 X (start_target y nrm) j d.
Proof.
  intros X y nrm h0 sigma p os m d n b r m1 pc j Hn Hr Hd Hu Hh Hj. destruct (ob_model_reached_spec _ _ _ _ _ _ _ _ Hn Hr) as (e&H&_).
  pose proof (drift_einv _ _ _ _ _ Hn H Hd) as Ede. destruct (ehalf_step _ _ _ _ _ _ _ _ _ Hn H Hu Hh) as (H'&_). rewrite Hj in H'.
  eapply ofits_ext; [|eapply einv_target; eauto]. auto.
Qed.
Print Assumptions C86_targets.
Theorem C86_drift_exists : forall X y nrm h0 sigma p os m, no_nan X -> ob_model_reached X y nrm h0 sigma p os m ->
  exists d, odrift m X d /\ (Forall ob_completes os -> forall i, d i = 0).
Proof.
  intros X y nrm h0 sigma p os m Hn Hr. destruct (ob_model_reached_spec _ _ _ _ _ _ _ _ Hn Hr) as (e&H&He&_).
  exists e. split; [eapply einv_drift; eauto|auto].
Qed.
(** a step abandoned while tree [j] is being updated removes that tree's prediction from the running prediction *)
Theorem C86_abandoned_step : forall X y nrm h0 sigma p os m d n produced r m1 pc, no_nan X -> ob_model_reached X y nrm h0 sigma p os m ->
  odrift m X d -> nonneg_draws r -> ob_half_step n produced m r = Ok (m1, pc) ->
  match open_of pc with
  | Some j => forall vs, otrees_say m1 X vs -> odrift m1 X (fun i => d i + nth i (nth j vs []) 0)
  | None => odrift m1 X d
  end.
Proof.
  intros X y nrm h0 sigma p os m d n b r m1 pc Hn Hr Hd Hu Hh. destruct (ob_model_reached_spec _ _ _ _ _ _ _ _ Hn Hr) as (e&H&_).
  pose proof (drift_einv _ _ _ _ _ Hn H Hd) as Ede. destruct (ehalf_step _ _ _ _ _ _ _ _ _ Hn H Hu Hh) as (H'&_). destruct (open_of pc) as [j|].
  - intros vs Hv. eapply odrift_ext; [|eapply einv_abandon_drift; eauto]. intros i Hi. simpl. now rewrite Ede.
  - eapply odrift_ext; [|eapply einv_drift; eauto]. auto.
Qed.
Print Assumptions C86_abandoned_step.
(** and nothing ever repairs it *)
Theorem C86_forever : forall X y nrm h0 sigma p os m d later m1, no_nan X -> ob_model_reached X y nrm h0 sigma p os m -> odrift m X d ->
  Forall sane_ob_model_op later -> Forall ob_completes later -> ob_model_run m later = Ok m1 -> odrift m1 X d.
Proof.
  intros X y nrm h0 sigma p os m d later m1 Hn Hr Hd Hs Hc Hrun. destruct (ob_model_reached_spec _ _ _ _ _ _ _ _ Hn Hr) as (e&H&_).
  pose proof (drift_einv _ _ _ _ _ Hn H Hd) as Ede.
  destruct (ob_run_spec _ _ Hn _ _ _ _ H (sane_ok _ Hs) Hrun) as (e'&H'&_&He'). rewrite (He' (completes_ends _ Hc)) in H'.
  eapply odrift_ext; [|eapply einv_drift; eauto]. auto.
Qed.
Print Assumptions C86_forever.

(** ** Gibbs steps *)
Theorem C86_visits : forall X y nrm h0 sigma p os m r d acts m' r', no_nan X -> ob_model_reached X y nrm h0 sigma p os m ->
  nonneg_draws r -> ob_gibbs_step m r = Ok (d, acts, m', r') ->
  let leaves k := match nth_error (m_trees m') k with Some t => leaf_nodes (m_heap m') t | None => [] end in
  acts = flat_map (fun k => DoTree k :: map DoLeaf (leaves k)) (seq 0 (pa_ntrees p)) ++ [DoSigma] /\
  NoDup acts /\ length (m_trees m') = pa_ntrees p.
Proof.
  intros X y nrm h0 sigma p os m r d acts m' r' Hn Hr Hu Hg leaves.
  destruct (ob_model_reached_spec _ _ _ _ _ _ _ _ Hn Hr) as (e&H&_&Hl&_).
  unfold ob_gibbs_step in Hg. destruct (ob_drive _ m _ GStart r) as [[[[log a] m1] r1]| |] eqn:Ed; try discriminate.
  cbn [rbind] in Hg. injection Hg as <- <- <- <-.
  destruct (edrive X _ e Hn _ m (Fr None None) GStart r _ _ _ _ H Hu Ed) as (H'&_&Hsm&_&_&Ha&_).
  assert (Hl' : length (m_trees m1) = pa_ntrees p) by (rewrite <- Hl; apply Hsm).
  assert (E : a = flat_map (turn m1) (seq 0 (pa_ntrees p)) ++ [DoSigma]).
  { rewrite Ha. unfold rest_acts, tail_acts. now rewrite Hl, Nat.sub_0_r. }
  split; [exact E|]. split; auto. rewrite E.
  pose proof (ei_st _ _ _ _ _ H') as Hs.
  assert (Hleaf : forall k i, In i (leaves_of m1 k) -> exists t, nth_error (m_trees m1) k = Some t /\ In i (tr_nodes t)).
  { intros k i. unfold leaves_of. destruct (nth_error (m_trees m1) k) as [t|] eqn:Et; [|simpl; tauto]. intros Hi. exists t. split; auto. eapply leaf_in; eauto. }
  assert (Hnd : NoDup (flat_map (turn m1) (seq 0 (pa_ntrees p)))).
  { apply nodup_turns; [apply seq_NoDup| |].
    - intros k _. unfold leaves_of. destruct (nth_error (m_trees m1) k) as [t|] eqn:Et; [|constructor].
      destruct (es_tree _ _ _ _ _ Hs _ _ Et) as (oy&kk&o&Hti&_). eapply Permutation_NoDup; [symmetry; apply (oleaf_nodes_perm _ _ _ _ _ _ Hti)|].
      apply (NoDup_oleaf o (oi_nodup _ _ _ _ _ _ Hti)).
    - intros k k' i _ _ Hi Hi'. destruct (Hleaf _ _ Hi) as (t1&Ht1&Hin1). destruct (Hleaf _ _ Hi') as (t2&Ht2&Hin2).
      eapply (es_disj _ _ _ _ _ Hs); eauto. }
  apply NoDup_rev in Hnd. rewrite <- (rev_involutive (_ ++ _)). apply NoDup_rev. rewrite rev_app_distr. simpl. constructor; auto.
  rewrite <- in_rev. rewrite in_flat_map. intros (k&_&[Hk|Hk]); [discriminate|]. apply in_map_iff in Hk as (i&Hk&_). discriminate.
Qed.
Print Assumptions C86_visits.
(** the iteration bound built into the model never cuts a step short *)
Theorem C86_no_cut : forall X y nrm h0 sigma p os m r fuel, no_nan X -> ob_model_reached X y nrm h0 sigma p os m -> nonneg_draws r ->
  (ob_drive_fuel m <= fuel)%nat -> ob_drive fuel m (Fr None None) GStart r = ob_drive (ob_drive_fuel m) m (Fr None None) GStart r.
Proof.
  intros X y nrm h0 sigma p os m r fuel Hn Hr Hu Hf. destruct (ob_model_reached_spec _ _ _ _ _ _ _ _ Hn Hr) as (e&H&_).
  eapply (edrive_enough X _ e Hn fuel (ob_drive_fuel m) m (Fr None None) GStart r H Hu); [exact Hf|apply le_n].
Qed.
Print Assumptions C86_no_cut.
(** the reported acceptance rate is the share of trees whose depth changed, each by one *)
Lemma step_rates m m1 n : (n <> 0)%nat -> step_dict (map (fun k => (KyTree, changed m m1 k)) (seq 0 n)) =
  [(KyTree, INR (length (filter (changed m m1) (seq 0 n))) / INR n)].
Proof.
  intros Hz. unfold step_dict, log_keys. cbn [filter].
  assert (E1 : existsb (fun e0 => skey_eqb KyTree (fst e0)) (map (fun k => (KyTree, changed m m1 k)) (seq 0 n)) = true) by (destruct n; [congruence|reflexivity]).
  assert (E2 : forall ks, existsb (fun e0 => skey_eqb KyNode (fst e0)) (map (fun k => (KyTree, changed m m1 k)) ks) = false) by (induction ks; simpl; auto).
  assert (E3 : forall ks, filter (fun e0 => skey_eqb KyTree (fst e0)) (map (fun k => (KyTree, changed m m1 k)) ks) = map (fun k => (KyTree, changed m m1 k)) ks).
  { induction ks as [|k ks IH]; [reflexivity|]. cbn [map filter fst skey_eqb]. f_equal. exact IH. }
  rewrite E1, E2. cbn [map]. f_equal. f_equal. rewrite E3. unfold mean01. rewrite !map_map. simpl snd. rewrite map_length, seq_length. f_equal.
  generalize (seq 0 n). clear. induction l as [|k l IH]; [reflexivity|]. cbn [map filter].
  assert (Hc : forall a b, rsum (a :: b) = a + rsum b) by reflexivity. rewrite Hc, IH.
  destruct (changed m m1 k); [|lra]. cbn [length]. rewrite S_INR. lra.
Qed.
Theorem C86_rates : forall X y nrm h0 sigma p os m r d acts m' r', no_nan X -> ob_model_reached X y nrm h0 sigma p os m ->
  nonneg_draws r -> ob_gibbs_step m r = Ok (d, acts, m', r') ->
  exists accepted, NoDup accepted /\
    (forall k, In k accepted <-> (k < pa_ntrees p)%nat /\
       option_map tr_nodes (nth_error (m_trees m') k) <> option_map tr_nodes (nth_error (m_trees m) k)) /\
    d = (if (pa_ntrees p =? 0)%nat then [] else [(KyTree, INR (length accepted) / INR (pa_ntrees p))]) /\
    (length accepted <= pa_ntrees p)%nat.
Proof.
  intros X y nrm h0 sigma p os m r d acts m' r' Hn Hr Hu Hg.
  destruct (ob_model_reached_spec _ _ _ _ _ _ _ _ Hn Hr) as (e&H&_&Hl&_).
  unfold ob_gibbs_step in Hg. destruct (ob_drive _ m _ GStart r) as [[[[log a] m1] r1]| |] eqn:Ed; try discriminate.
  cbn [rbind] in Hg. injection Hg as <- <- <- <-.
  destruct (edrive X _ e Hn _ m (Fr None None) GStart r _ _ _ _ H Hu Ed) as (H'&_&Hsm&_&_&_&Hlog).
  cbn [first_open] in Hlog. rewrite Hl, Nat.sub_0_r in Hlog.
  assert (Hl' : length (m_trees m1) = pa_ntrees p) by (rewrite <- Hl; apply Hsm).
  exists (filter (changed m m1) (seq 0 (pa_ntrees p))). split; [apply NoDup_filter, seq_NoDup|]. split; [|split].
  - intros k. rewrite filter_In, in_seq. split.
    + intros [Hk Hc]. split; [lia|]. unfold changed, nodes_of in Hc.
      destruct (nth_error (m_trees m) k) as [t|] eqn:E1; [|apply nth_error_None in E1; lia].
      destruct (nth_error (m_trees m1) k) as [t'|] eqn:E2; [|apply nth_error_None in E2; lia].
      destruct (list_eq_dec _ _ _); [discriminate|]. simpl. congruence.
    + intros [Hk Hc]. split; [lia|]. unfold changed, nodes_of.
      destruct (nth_error (m_trees m) k) as [t|] eqn:E1; [|apply nth_error_None in E1; lia].
      destruct (nth_error (m_trees m1) k) as [t'|] eqn:E2; [|apply nth_error_None in E2; lia].
      destruct (list_eq_dec _ _ _); auto. simpl in Hc. exfalso. congruence.
  - subst log. destruct (Nat.eqb_spec (pa_ntrees p) 0) as [->|Hz]; [reflexivity|]. now apply step_rates.
  - pose proof (filter_length_le (changed m m1) (seq 0 (pa_ntrees p))) as Hle. now rewrite seq_length in Hle.
Qed.
Print Assumptions C86_rates.

(** ** Predictions *)
(** predict() is the sum of the trees; it equals predict(X) on the training matrix when the rows hold neither NaN nor -inf *)
Theorem C86_predict : forall X y nrm h0 sigma p os m vs, no_nan X -> ob_model_reached X y nrm h0 sigma p os m -> otrees_say m X vs ->
  exists v m', model_predict m = Ok (v, m') /\ length v = length (mx_rows X) /\ (forall i, (i < length (mx_rows X))%nat -> nth i v 0 = total vs i) /\
    otrees_say m' X vs /\
    ((forall r, In r (mx_rows X) -> row_clean (mx_ncols X) r = true) -> trees_predict_out (m_heap m) (m_trees m) X = Ok v).
Proof.
  intros X y nrm h0 sigma p os m vs Hn Hr Hv. destruct (ob_model_reached_spec _ _ _ _ _ _ _ _ Hn Hr) as (e&H&_&Hl&_).
  rewrite (otrees_say_unique _ _ _ _ _ _ Hn H Hv).
  destruct (emodel_predict _ _ _ _ Hn H) as (v&m'&E&L&N&H'&_&_&_&_&Eh&Et). exists v, m'. split; auto. split; auto.
  split; [intros i Hi; rewrite N by auto; symmetry; apply total_ecol|]. split.
  - pose proof (shows_say _ _ _ _ _ Hn H') as Hs. assert (Es : shows m' X = shows m X); [|rewrite Es in Hs; exact Hs].
    unfold shows. rewrite Eh, Et, map_map. apply map_ext. intros t. apply oshow_cached.
  - intros Hc. unfold trees_predict_out.
    assert (G : predict_out_all (m_heap m) (m_trees m) X = Ok (shows m X)).
    { pose proof (es_tree _ _ _ _ _ (ei_st _ _ _ _ _ H)) as Ht. unfold shows.
      assert (Ht' : forall t, In t (m_trees m) -> exists oy k o, oinv (m_heap m) X oy t k o).
      { intros t Hin. apply In_nth_error in Hin as (j&Hj). destruct (Ht _ _ Hj) as (oy&k&o&Hi&_). eauto. }
      clear - Hn Hc Ht'. induction (m_trees m) as [|t ts IH]; [reflexivity|]. cbn [predict_out_all map].
      destruct (Ht' t (or_introl eq_refl)) as (oy&k&o&Hi). destruct (oshow_spec _ _ _ _ _ _ Hn Hi) as [A B].
      rewrite (out_last _ _ _ _ _ _ _ Hn Hi Hc A B). cbn [rbind]. rewrite IH; [reflexivity|]. intros. apply Ht'. simpl; auto. }
    rewrite G. cbn [rbind].
    revert E. unfold model_predict. rewrite (epredict_all _ (length (mx_rows X)) _ (fun k t => emst_ready X None _ _ _ k t Hn (ei_st _ _ _ _ _ H))). cbn [rbind].
    rewrite (ei_mask _ _ _ _ _ H). fold (shows m X). intros E. destruct (vsum (length (mx_rows X)) (shows m X)) as [v'| |] eqn:Ev; try discriminate. cbn [rbind] in E. injection E as <- _.
    reflexivity.
Qed.
Print Assumptions C86_predict.

(** ** Sampling runs *)
(** The k-th stored model, acceptance report and in-sample prediction all belong to step number n_burn + k*q (1/thin =
    q/den' in lowest terms), and the stored model predicts at the end of the run what the ensemble predicted right
    after that step. *)
Theorem C86_aligned : forall X y nrm h0 sigma p os m n nb num den q den' sp sa r c m' r',
  no_nan X -> ob_model_reached X y nrm h0 sigma p os m -> nonneg_draws r ->
  (0 < q)%nat -> (0 < den')%nat -> Nat.gcd q den' = 1%nat -> (num * Z.of_nat den' = Z.of_nat q * Zpos den)%Z ->
  ob_samples m n nb (TInv num den) sp sa r = Ok (c, m', r') ->
  exists steps kept,
    ob_sampling (ob_stores_every nb q sp) 0 m r steps m' r' /\ length steps = (nb + n)%nat /\
    length kept = ((n + q - 1) / q)%nat /\
    (forall k, (k < length kept)%nat -> nth_error steps (nb + k * q) = nth_error kept k) /\
    Forall2 (fun s st => sample_of (m_heap m') s (snd st)) (ch_models c) kept /\
    ch_accept c = (if sa then map fst kept else []) /\
    (if sp then Forall2 (fun v st => length v = length (mx_rows X) /\ (exists m1, model_predict (snd st) = Ok (v, m1)) /\
                          forall vs, otrees_say (snd st) X vs -> forall i, (i < length (mx_rows X))%nat -> nth i v 0 = total vs i)
                        (ch_preds c) kept
     else ch_preds c = []).
Proof.
  intros X y nrm h0 sigma p os m n nb num den q den' sp sa r c m' r' Hn Hr Hu Hq Hd Hg Hqd E.
  destruct (ob_model_reached_spec _ _ _ _ _ _ _ _ Hn Hr) as (e&H&_).
  assert (Hz : num <> 0%Z) by nia.
  destruct (ob_samples_spec X _ e num den q n nb sp sa m r c m' r' Hn H Hu Hz (fun ss => keeps_multiple num den q den' ss Hq Hd Hg Hqd) E)
    as (l&lb&Hs&Lb&Ll&_&_&Hm&Ha&Hp).
  exists (lb ++ l), (every_from q 0 l). split; auto. split; [rewrite app_length; lia|]. split; [rewrite every_length; congruence|].
  split; [|split; [|split; auto]].
  - intros k Hk. rewrite every_nth by auto. rewrite nth_error_app2 by lia. f_equal. lia.
  - eapply Forall2_impl_in; [|exact Hm]. intros a b _ _ [Hab _]. exact Hab.
Qed.
Print Assumptions C86_aligned.
(** storing always succeeds, and nothing done to the model later changes a prediction of the stored sample *)
Theorem C86_stored : forall X y nrm h0 sigma p os m,
  no_nan X -> ob_model_reached X y nrm h0 sigma p os m ->
  exists s m1, deep_copy_model m = Ok (s, m1) /\ sample_of (m_heap m1) s m /\
    forall later m2, Forall sane_ob_model_op later -> ob_model_run m1 later = Ok m2 ->
      forall X', sample_predict (m_heap m2) s X' = sample_predict (m_heap m1) s X'.
Proof.
  intros X y nrm h0 sigma p os m Hn Hr. destruct (ob_model_reached_spec _ _ _ _ _ _ _ _ Hn Hr) as (e&H&_).
  destruct (edeep_copy _ _ _ _ _ H) as (s&m1&E&H1&S1&_&_&_&_&Ess&Els&Hst&Hsp&_).
  exists s, m1. split; auto. split; [split; auto|]. intros later m2 Hs Hrun X'.
  destruct (ob_run_spec _ _ Hn _ _ _ _ H1 (sane_ok _ Hs) Hrun) as (e2&_&(_&_&_&Hk)&_). now apply stored_later with (m' := m2) in Hst as [_ ->].
Qed.
Print Assumptions C86_stored.

(** ** When steps fail *)
(** A grow proposed for a first tree of one leaf raises AttributeError when no column varies among the rows other than the
    first. *)
Lemma root_unsplittable h X oy t o i : no_nan X -> ~ varies X -> oinv h X oy t 0 o -> tr_nodes t = [i] -> leaf_nodes h t = [i] /\ is_splittable h i = false.
Proof.
  intros Hn Hv H Et. destruct o as [j|]; [|destruct (oi_full _ _ _ _ _ _ H)].
  assert (j = i). { assert (A : In j (tr_nodes t)) by (apply (oi_same _ _ _ _ _ _ H); simpl; auto). rewrite Et in A. destruct A as [A|[]]; auto. } subst j.
  destruct (oi_ok _ _ _ _ _ _ H) as (w&s&E&Hs). split; [unfold leaf_nodes; rewrite Et; unfold is_leaf; simpl; now rewrite E|].
  unfold is_splittable, node_data, node_split. rewrite E. cbn [nd_split]. destruct (fst (is_at_least_one_splittable_variable _)) eqn:Hsp; auto. exfalso.
  apply (any_meaning X _ [] s Hs) in Hsp as (v&Hv').
  apply (offered_iff X _ [] s Hn Hs) in Hv' as (Hv'&k&i'&j'&Hki&Hkj&Hk&Hi&Hj&Hd).
  apply (in_node_kept _ _ _ _ _ Hs) in Hi. apply (in_node_kept _ _ _ _ _ Hs) in Hj. apply Hv. exists v, i', j'.
  destruct Hi, Hj. repeat (split; auto); lia.
Qed.
Theorem C86_unsplittable_root : forall X y nrm h0 sigma p os m t i bs idx us ns gs, no_nan X -> ob_model_reached X y nrm h0 sigma p os m ->
  ~ varies X -> nth_error (m_trees m) 0 = Some t -> tr_nodes t = [i] -> (0 < pa_limit p)%nat ->
  ob_gibbs_step m (Rng (true :: bs) idx us ns gs) = Raise EAttributeError.
Proof.
  intros X y nrm h0 sigma p os m t i bs idx us ns gs Hn Hr Hv Et Ei Hlim. destruct (ob_model_reached_spec _ _ _ _ _ _ _ _ Hn Hr) as (e&H&_&Hl&Ep).
  unfold ob_gibbs_step, ob_drive_fuel. cbn [Nat.add ob_drive].
  destruct (egen_next X _ e m (Fr None None) GStart Hn H ltac:(discriminate)) as (fr1&m1&->&_&Hg1&Hsm1&Hlk&_). cbn [rbind].
  assert (Hpc : pc_next m GStart = GTree 0).
  { simpl. unfold succ_pc. destruct (Nat.ltb_spec 0 (length (m_trees m))) as [_|Hb]; auto. apply nth_error_None in Hb. congruence. }
  rewrite Hpc in *. simpl yields. cbv iota beta. destruct Hg1 as [H1 Hfr]. unfold ob_call. rewrite Hfr.
  destruct (ei_target _ _ _ _ _ H1 0%nat eq_refl) as (t1&k&o&ty&Et1&Hi&_). rewrite Et1.
  destruct (Hlk 0%nat t Et) as (t2&Et2&En&_). assert (t2 = t1) by congruence. subst t2. rewrite Ei in En.
  assert (k = 0%nat).
  { pose proof (full_count _ _ (oi_full _ _ _ _ _ _ Hi)) as [F1 F2]. 
    assert (Hle : (length (oleafids o) <= 1)%nat).
    { apply (NoDup_incl_length (l' := [i])); [apply NoDup_oleaf, Hi|]. intros z Hz. rewrite <- En. apply (oi_same _ _ _ _ _ _ Hi). apply oids_incl. auto. }
    rewrite F1 in Hle. destruct k as [|k]; auto. simpl in Hle. pose proof (Nat.pow_nonzero 2 k). lia. }
  subst k. destruct (root_unsplittable _ _ _ _ _ _ Hn Hv Hi En) as [El Hs].
  assert (Ep1 : m_par m1 = p) by (rewrite <- Ep; apply Hsm1).
  rewrite (ob_step_stuck _ _ _ _ _ _ _ (m_sigma m1) (m_par m1) bs idx us ns gs Hn Hi El Hs); [reflexivity|]. now rewrite Ep1.
Qed.
Print Assumptions C86_unsplittable_root.
(** From every state in which all trees have one node, and so from the start, every sampling request has draws for which
    it completes: on any data, also where the ordinary sampler can make no step (C66). *)
Theorem C86_possible : forall X y nrm h0 sigma p os m n nb num den sp sa,
  no_nan X -> mx_rows X <> [] -> sane_params p -> (0 < pa_limit p)%nat -> ob_model_reached X y nrm h0 sigma p os m -> all_single m -> 0 < m_sigma m ->
  num <> 0%Z ->
  exists r c m', nonneg_draws r /\ sane_draws r /\ ob_samples m n nb (TInv num den) sp sa r = Ok (c, m', Rng [] [] [] [] []) /\
    all_single m' /\ 0 < m_sigma m'.
Proof.
  intros X y nrm h0 sigma p os m n nb num den sp sa Hn Hx Hp Hlim Hr Ha Hs Hz. destruct (ob_model_reached_spec _ _ _ _ _ _ _ _ Hn Hr) as (e&H&_&_&Ep).
  assert (Hm : estump X (start_target y nrm) p m) by (split; [eauto|]; split; [now apply all_single_single|]; auto).
  destruct (eburn_single X _ p Hn Hx Hp Hlim nb m Hm) as (r0&m1&Hu0&Hr0&Hm1&E1).
  destruct (eloop_single X _ p num den sp sa Hn Hx Hp Hlim Hz n 0 m1 Hm1) as (r1&c&m'&Hu1&Hr1&Hm'&E2).
  exists (radd r0 r1), c, m'. split; [unfold nonneg_draws, udraws in *; simpl; now apply Forall_app|].
  split; [unfold sane_draws, fit_rng in *; simpl; now apply Forall_app|]. split.
  - unfold ob_samples. rewrite E1. cbn [rbind]. rewrite <- (radd_nil_r r1). apply E2.
  - destruct Hm' as (_&B&_&D). split; auto. now apply all_single_single.
Qed.
Print Assumptions C86_possible.
Lemma ob_start_single X y p m : length y = length (mx_rows X) -> start_model X y false (Hp 0 (fun _ => None)) 1 p = Ok m ->
  ob_model_reached X y false (Hp 0 (fun _ => None)) 1 p [] m /\ all_single m /\ m_sigma m = 1.
Proof.
  intros Hl Hm. split; [split; auto; split; [constructor|]; exists m; auto|].
  destruct (start_model_spec _ _ _ _ _ _ _ Hl Hm) as (_&B&_). split; [|apply (estart _ _ _ _ _ _ _ Hl Hm)]. intros t Ht. rewrite B in Ht. apply in_map_iff in Ht as (q&<-&_). simpl. eauto.
Qed.

(** ** Concrete cases *)
(** data with a column that varies: a model is reached in which 7 samples after 2 burn-in steps, one in two kept, exist *)
Definition ob_fresh (m : model) : Prop := ob_model_reached mx_X mx_y false (Hp 0 (fun _ => None)) 1 mx_p [] m /\ all_single m /\ m_sigma m = 1.
Lemma ob_fresh_exists : exists m, ob_fresh m.
Proof. exists (get mx_0 mx_start). apply ob_start_single; [reflexivity|]. apply okb_get. vm_compute. reflexivity. Qed.
Example C86_case : exists m r c m' r', ob_fresh m /\ nonneg_draws r /\ ob_samples m 7 2 (TInv 2 1) true true r = Ok (c, m', r') /\ length (ch_models c) = 4%nat.
Proof.
  destruct ob_fresh_exists as (m&Hm&Ha&Hs).
  destruct (C86_possible _ _ _ _ _ _ _ _ 7 2 2 1 true true mx_no_nan ltac:(discriminate) mx_sane (Nat.lt_0_succ _) Hm Ha) as (r&c&m'&Hu&_&E&_); [lra|discriminate|].
  exists m, r, c, m', (Rng [] [] [] [] []). split; [split; auto|]. split; auto. split; auto.
  destruct (C86_aligned _ _ _ _ _ _ _ _ _ _ 2%Z 1%positive 2%nat 1%nat _ _ _ _ _ _ mx_no_nan Hm Hu (Nat.lt_0_succ _) (Nat.lt_0_succ _) eq_refl eq_refl E)
    as (steps&kept&_&_&Hk&_&Hf&_). apply PModel7.Forall2_length in Hf. rewrite Hf, Hk. reflexivity.
Qed.
(** a Gibbs step in that state *)
Example C86_step_case : exists m r d acts m' r', ob_fresh m /\ nonneg_draws r /\ ob_gibbs_step m r = Ok (d, acts, m', r') /\
  (exists x, d = [(KyTree, x)]) /\ (5 <= length acts)%nat.
Proof.
  destruct ob_fresh_exists as (m&Hm&Ha&Hs).
  destruct (C86_possible _ _ _ _ _ _ _ _ 0 1 2 1 true true mx_no_nan ltac:(discriminate) mx_sane (Nat.lt_0_succ _) Hm Ha) as (r&c&m'&Hu&_&E&_); [lra|discriminate|].
  unfold ob_samples in E. cbn [ob_burn] in E. destruct (ob_gibbs_step m r) as [[[[d acts] m1] r1]| |] eqn:Eg; try discriminate.
  exists m, r, d, acts, m1, r1. split; [split; auto|]. split; auto. split; auto. split.
  - destruct (C86_rates _ _ _ _ _ _ _ _ _ _ _ _ _ mx_no_nan Hm Hu Eg) as (acc&_&_&Ed&_). rewrite Ed. simpl. eauto.
  - destruct (C86_visits _ _ _ _ _ _ _ _ _ _ _ _ _ mx_no_nan Hm Hu Eg) as (Ea&_&Hl).
    assert (Hr : forall k, (k < 2)%nat -> exists t, nth_error (m_trees m1) k = Some t /\ (1 <= length (leaf_nodes (m_heap m1) t))%nat).
    { intros k Hk. destruct (nth_error (m_trees m1) k) as [t|] eqn:Et; [|apply nth_error_None in Et; simpl in Hl; lia]. exists t. split; auto.
      destruct (ob_model_reached_spec _ _ _ _ _ _ _ _ mx_no_nan Hm) as (e&H&_).
      destruct (ob_same_gibbs _ _ _ _ _ _ _ _ _ mx_no_nan H Hu Eg) as (H1&_).
      destruct (es_tree _ _ _ _ _ (ei_st _ _ _ _ _ H1) _ _ Et) as (oy&kk&o&Hi&_).
      pose proof (Permutation_length (oleaf_nodes_perm _ _ _ _ _ _ Hi)) as Hp. destruct (full_count _ _ (oi_full _ _ _ _ _ _ Hi)) as [F1 _].
      pose proof (Nat.pow_nonzero 2 kk). lia. }
    destruct (Hr 0%nat ltac:(lia)) as (t0&E0&L0). destruct (Hr 1%nat ltac:(lia)) as (t1&E1&L1).
    rewrite Ea. cbn [pa_ntrees mx_p seq flat_map]. rewrite E0, E1. simpl. rewrite !app_length. simpl. rewrite app_length, !map_length. simpl. lia.
Qed.
(** constant data: a grow proposal raises, and yet 5 samples are possible *)
Definition oc_X : matrix := Mx 1 [[fz 1]; [fz 1]; [fz 1]].
Lemma oc_no_nan : no_nan oc_X.
Proof. intros r v Hr Hv. simpl in Hr, Hv. destruct v as [|v]; try lia; repeat (destruct Hr as [<-|Hr]; [discriminate|]); destruct Hr. Qed.
Lemma oc_constant : ~ varies oc_X.
Proof.
  intros (v&i&j&Hv&Hi&Hj&Hd). simpl in *. apply Hd. clear Hd.
  destruct i as [|[|[|i]]]; try lia; destruct j as [|[|[|j]]]; try lia; destruct v as [|v]; try lia; reflexivity.
Qed.
Example C86_constant_case : exists m t i, ob_model_reached oc_X mx_y false (Hp 0 (fun _ => None)) 1 mx_p [] m /\
  nth_error (m_trees m) 0 = Some t /\ tr_nodes t = [i] /\ ~ varies oc_X /\
  ob_gibbs_step m (Rng [true] [] [] [] []) = Raise EAttributeError /\
  exists r c m', nonneg_draws r /\ ob_samples m 5 0 (TInv 1 1) true true r = Ok (c, m', Rng [] [] [] [] []).
Proof.
  destruct (start_model oc_X mx_y false (Hp 0 (fun _ => None)) 1 mx_p) as [m| |] eqn:Em.
  2,3: exfalso; assert (Hok : okb (start_model oc_X mx_y false (Hp 0 (fun _ => None)) 1 mx_p) = true) by (vm_compute; reflexivity); rewrite Em in Hok; discriminate.
  destruct (ob_start_single oc_X mx_y mx_p m eq_refl Em) as (Hm&Ha&Hs).
  destruct (ob_model_reached_spec _ _ _ _ _ _ _ _ oc_no_nan Hm) as (_&_&_&Hl&_).
  destruct (nth_error (m_trees m) 0) as [t|] eqn:Et; [|apply nth_error_None in Et; simpl in Hl; lia].
  destruct (Ha t (nth_error_In _ _ Et)) as (i&Hi). exists m, t, i. split; auto. split; auto. split; auto. split; [exact oc_constant|]. split.
  - eapply (C86_unsplittable_root _ _ _ _ _ _ _ _ _ _ [] [] [] [] [] oc_no_nan Hm oc_constant Et Hi). apply Nat.lt_0_succ.
  - destruct (C86_possible _ _ _ _ _ _ _ _ 5 0 1 1 true true oc_no_nan ltac:(discriminate) mx_sane (Nat.lt_0_succ _) Hm Ha) as (r&c&m'&Hu&_&E&_); [lra|discriminate|].
    exists r, c, m'. split; auto.
Qed.
(** a step abandoned while the first tree is being updated *)
Example C86_abandoned_case : exists m m1, ob_fresh m /\ ob_half_step 0 true m (Rng [] [] [] [] []) = Ok (m1, GTree 0) /\
  open_of (GTree 0) = Some 0%nat /\ odrift m mx_X (fun _ => 0) /\ ofits_residual m1 mx_X mx_y 0 (fun _ => 0).
Proof.
  destruct ob_fresh_exists as (m&Hm&Ha&Hs). destruct (ob_model_reached_spec _ _ _ _ _ _ _ _ mx_no_nan Hm) as (e&H&He&Hl&_).
  destruct (egen_next _ _ e m (Fr None None) GStart mx_no_nan H ltac:(discriminate)) as (fr1&m1&E&_).
  assert (Hpc : pc_next m GStart = GTree 0) by (simpl; unfold succ_pc; now rewrite Hl). rewrite Hpc in E.
  assert (Eh : ob_half_step 0 true m (Rng [] [] [] [] []) = Ok (m1, GTree 0)) by (unfold ob_half_step; cbn [ob_drive_for rbind]; rewrite E; reflexivity).
  assert (Hd : odrift m mx_X (fun _ => 0)).
  { eapply odrift_ext; [|eapply einv_drift; [exact mx_no_nan|exact H]]. intros i _. now rewrite (He (Forall_nil _)). }
  exists m, m1. split; [split; auto|]. split; [exact Eh|]. split; [reflexivity|]. split; [exact Hd|].
  exact (C86_targets _ _ _ _ _ _ _ _ _ _ _ _ _ _ _ mx_no_nan Hm Hd (Forall_nil (fun u => 0 <= u) : nonneg_draws (Rng [] [] [] [] [])) Eh eq_refl).
Qed.
