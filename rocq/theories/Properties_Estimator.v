(** Properties C81, C83 and C84: see /verif/properties.jsonl. *)
From Coq Require Import Reals Lra Lia ZArith.
From Verif Require Import Base Fl Ext MData MSplit MTree MSampler MHist MTreeHist MModel MModelHist MSklearn MEstimator Spec SpecTree SpecModel SpecSklearn SpecFeatures SpecInvariance SpecEstimator.
From Verif Require Import LList PHeap PTree PTreeHist PModel PModel2 PModel4 PModel5 PModel6 PModel7 PModel8 PModel9 PModel10 PModel11 PModel12 PRel PRel2 PRel3 PInvar PSklearn PFeatures
  Properties_Model Properties_Model2 Properties_Sklearn Properties_Invariance.
Local Open Scope R_scope.

(** ** C81 *)
Lemma run_known os : forall e e', est_run e os = Ok e' ->
  get_params e' = settings_after (get_params e) os /\ es_schedule e' = constructed_with (get_params e) (es_schedule e) os.
Proof.
  induction os as [|o os IH]; intros e e'; cbn [est_run settings_after constructed_with]; [now intros [= <-]|].
  destruct (est_do e o) as [e1| |] eqn:Ed; try discriminate. cbn [rbind]. intros E. apply IH in E as [E1 E2].
  destruct o as [p|cpus limit h X y rs|f|]; cbn [est_do] in Ed.
  - unfold set_params in Ed. destruct (is_param sklearn_signature p); try discriminate. injection Ed as <-. auto.
  - unfold est_fit in Ed. destruct (construct_model (as_sklearn limit e) h X y); try discriminate. cbn [rbind] in Ed.
    destruct (backend_of cpus _); try discriminate. cbn [rbind] in Ed. destruct (fit _ _ h X y rs); try discriminate. injection Ed as <-. auto.
  - injection Ed as <-. auto.
  - injection Ed as <-. auto.
Qed.
Definition fitted_of (e : estimator) (s : sklearn) : estimator :=
  Es (es_hyper e) (es_schedule e) (Ft (sk_data s) (sk_model s) (sk_samples s) (sk_preds s) (sk_accept s)).
Lemma est_fit_fit cpus limit e h X y rs : hy_njobs (es_hyper e) <> 0%Z ->
  exists b, est_fit cpus limit e h X y rs = (let! s := fit b (as_sklearn limit e) h X y rs in Ok (fitted_of e s)).
Proof.
  intros Hj. unfold est_fit, backend_of. destruct (Z.eqb_spec (hy_njobs (es_hyper e)) 0) as [|_]; [contradiction|]. eexists.
  unfold fit at 2. destruct (construct_model (as_sklearn limit e) h X y) as [s1|x|] eqn:E; cbn [rbind]; auto. unfold fit. rewrite E. cbn [rbind]. reflexivity.
Qed.
Lemma fit_same b b' s s' h h' X y rs : heap_ok h -> heap_ok h' -> same_settings s s' ->
  same_outcome (follows (fun v => v) (fun X' => X')) (fit b s h X y rs) (fit b' s' h' X y rs).
Proof.
  intros W W' Hs.
  pose proof (fit_follow idc ltac:(auto) ltac:(auto) ltac:(auto) ltac:(auto) ltac:(auto) idr eq_refl 1 ltac:(ring) X y y
    (convert_recode idc X y) (fun v => v) (fun d v _ => units_id d v) b b' s s' h h' rs W W' Hs) as H.
  now rewrite tX_idc, trgs_1 in H.
Qed.
(** a fit leaves the hyper-parameters alone *)
Lemma construct_settings s h X y s1 : construct_model s h X y = Ok s1 -> same_settings s s1.
Proof.
  unfold construct_model. destruct (_ || _); try discriminate. destruct (convert_to_data X y) as [d| |]; try discriminate. cbn [rbind].
  destruct (normalizing_scale (d_y d)); try discriminate. cbn [rbind]. destruct (make_model h d 1 (sk_par s)); try discriminate. cbn [rbind]. intros [= <-].
  repeat split.
Qed.
Lemma same_settings_trans s1 s2 s3 : same_settings s1 s2 -> same_settings s2 s3 -> same_settings s1 s3.
Proof. unfold same_settings. intuition congruence. Qed.
Lemma store_settings s es s' : store_chains s es = Ok s' -> same_settings s s'.
Proof. unfold store_chains. destruct (combine_chains es) as [[[ms ps] acs]| |]; try discriminate. cbn [rbind]. intros [= <-]. repeat split. Qed.
Lemma run_chain_settings s h X y r c s' h' : run_chain s h X y r = Ok (c, s', h') -> same_settings s s'.
Proof.
  unfold run_chain. destruct (construct_model s h X y) as [s1| |] eqn:E; try discriminate. cbn [rbind]. apply construct_settings in E.
  destruct (sk_model s1) as [m|]; try discriminate. destruct (sk_data s1) as [d|]; try discriminate.
  destruct (samples m _ _ _ _ _ r) as [[[c1 m1] r1]| |]; try discriminate. cbn [rbind]. intros [= _ <- _].
  eapply same_settings_trans; [exact E|]. repeat split.
Qed.
Lemma run_here_settings X y : forall n s h rs cs s' h', run_here n s h X y rs = Ok (cs, s', h') -> same_settings s s'.
Proof.
  induction n as [|n IH]; intros s h rs cs s' h'; cbn [run_here]; [intros [= _ <- _]; repeat split|]. destruct rs as [|r rs]; try discriminate.
  destruct (run_chain s h X y r) as [[[c s1] h1]| |] eqn:E; try discriminate. cbn [rbind].
  destruct (run_here n s1 h1 X y rs) as [[[cs' s2] h2]| |] eqn:E2; try discriminate. cbn [rbind]. intros [= _ <- _].
  apply run_chain_settings in E. apply IH in E2. eapply same_settings_trans; eauto.
Qed.
Lemma fit_settings b s h X y rs s' : fit b s h X y rs = Ok s' -> same_settings s s'.
Proof.
  unfold fit. destruct (construct_model s h X y) as [s1| |] eqn:E; try discriminate. cbn [rbind]. apply construct_settings in E.
  destruct (sk_model s1) as [m|]; try discriminate. destruct b.
  - destruct (run_processes _ rs) as [es| |]; try discriminate. cbn [rbind]. intros H. apply store_settings in H. eapply same_settings_trans; eauto.
  - destruct (run_here _ s1 (m_heap m) X y rs) as [[[cs s2] h2]| |] eqn:E2; try discriminate. cbn [rbind]. intros H.
    apply run_here_settings in E2. apply store_settings in H. eauto using same_settings_trans.
Qed.
Lemma fitted_sklearn limit e s : same_settings (as_sklearn limit e) s -> as_sklearn limit (fitted_of e s) = s.
Proof.
  destruct s. unfold same_settings, as_sklearn, fitted_of. simpl. intros (->&->&->&->&->&->&->). reflexivity.
Qed.
Lemma follows_alike limit e e' s s' : same_settings (as_sklearn limit e) s -> same_settings (as_sklearn limit e') s' ->
  follows (fun v => v) (fun X' => X') s s' -> alike limit (fitted_of e s) (fitted_of e' s').
Proof.
  intros Hs Hs' (A&B&C&D&_).
  assert (Heq : forall m m' : res (list R), same_outcome (fun v v' => v' = map (fun v => v) v) m m' -> m' = m).
  { intros m m'. destruct m, m'; cbn [same_outcome]; try contradiction; try congruence; auto. rewrite map_id. congruence. }
  split; [|split; [exact C|exact D]]. intros X. unfold est_predict. rewrite !fitted_sklearn by auto. destruct X as [X|]; auto.
Qed.
(** After any history of settings, fits, failed fits and clones: get_params reports the values set last, and the
    estimator fits like a new one constructed with these values, except that the tree sampler is the one of the last
    constructor call.  Earlier fits, the machine and what else is in memory have no effect. *)
Theorem C81_history : forall a os e, est_run (construct a) os = Ok e ->
  get_params e = settings_after a os /\
  forall cpus cpus' limit h h' X y rs, heap_ok h -> heap_ok h' -> hy_njobs (get_params e) <> 0%Z ->
    same_outcome (alike limit)
      (est_fit cpus limit (construct (set_hyper (settings_after a os) (SetTreeSampler (constructed_with a (hy_sampler a) os)))) h X y rs)
      (est_fit cpus' limit e h' X y rs).
Proof.
  intros a os e E. apply run_known in E as [E1 E2]. simpl in E1, E2. split; auto. intros cpus cpus' limit h h' X y rs W W' Hj.
  set (a1 := settings_after a os) in *. set (t := constructed_with a (hy_sampler a) os) in *.
  set (e0 := construct (set_hyper a1 (SetTreeSampler t))).
  assert (Hj0 : hy_njobs (es_hyper e0) <> 0%Z). { unfold get_params in *. rewrite E1 in Hj. unfold e0. destruct a1. exact Hj. }
  destruct (est_fit_fit cpus limit e0 h X y rs Hj0) as (b&->). destruct (est_fit_fit cpus' limit e h' X y rs Hj) as (b'&->).
  assert (Hs : same_settings (as_sklearn limit e0) (as_sklearn limit e)).
  { unfold same_settings, as_sklearn, e0, get_params in *. rewrite E1, E2. destruct a1. simpl. repeat split. }
  pose proof (fit_same b b' _ _ h h' X y rs W W' Hs) as H.
  destruct (fit b (as_sklearn limit e0) h X y rs) as [s| |] eqn:F; destruct (fit b' (as_sklearn limit e) h' X y rs) as [s'| |] eqn:F'; try contradiction; cbn [rbind]; auto.
  cbn [same_outcome] in *. apply follows_alike; auto; eapply fit_settings; eauto.
Qed.
Print Assumptions C81_history.
Lemma schedule_unset os : forall a, ~ Exists sets_tree_sampler os -> constructed_with a (hy_sampler a) os = hy_sampler (settings_after a os).
Proof.
  induction os as [|o os IH]; intros a H; cbn [constructed_with settings_after]; auto.
  assert (H' : ~ Exists sets_tree_sampler os) by (intros G; apply H; now right).
  destruct o as [p| | |]; auto. rewrite <- IH by auto. f_equal.
  destruct a, p; simpl; auto. exfalso. apply H. now left.
Qed.
(** Unless the tree sampler was set, an estimator fits like a new one constructed with get_params(). *)
Theorem C81_params_describe : forall a os e, est_run (construct a) os = Ok e -> ~ Exists sets_tree_sampler os ->
  forall cpus cpus' limit h h' X y rs, heap_ok h -> heap_ok h' -> hy_njobs (get_params e) <> 0%Z ->
    same_outcome (alike limit) (est_fit cpus limit (construct (get_params e)) h X y rs) (est_fit cpus' limit e h' X y rs).
Proof.
  intros a os e E Hn. destruct (C81_history a os e E) as [E1 E2]. rewrite schedule_unset in E2 by auto. rewrite E1 in *.
  replace (set_hyper (settings_after a os) (SetTreeSampler (hy_sampler (settings_after a os)))) with (settings_after a os) in E2 by (destruct (settings_after a os); reflexivity).
  exact E2.
Qed.
Print Assumptions C81_params_describe.
(** clone: an unfitted estimator with the same parameters. *)
Theorem C81_clone : forall e, get_params (clone e) = get_params e /\ clone e = construct (get_params e) /\
  forall limit, (forall X, exists x, est_predict limit (clone e) X = Raise x).
Proof.
  intros e. split; [reflexivity|]. split; [reflexivity|]. intros limit X. unfold est_predict, clone, construct, get_params, as_sklearn. destruct X as [X|]; simpl.
  - unfold out_of_sample_predict. simpl. eauto.
  - unfold sk_predict. simpl. destruct (hy_store_preds (es_hyper e)); eauto.
Qed.
Print Assumptions C81_clone.
(** set_params accepts every argument name. *)
Theorem C81_set : forall e p, exists e', set_params e p = Ok e' /\ get_params e' = set_hyper (get_params e) p.
Proof.
  intros e p. assert (E : is_param sklearn_signature p = true) by (destruct p; vm_compute; reflexivity).
  unfold set_params. rewrite E. eauto.
Qed.
Print Assumptions C81_set.
(** It changes the value under that name, and no other. *)
Theorem C81_set_value : forall e p e', set_params e p = Ok e' -> says (get_params e') p /\
  forall q, name_of q <> name_of p -> (says (get_params e') q <-> says (get_params e) q).
Proof.
  intros e p e' E. destruct (C81_set e p) as (e1&E1&G). rewrite E in E1. injection E1 as <-. rewrite G. destruct (get_params e). split.
  - destruct p; reflexivity.
  - intros q Hq. destruct p, q; simpl in *; try tauto; congruence.
Qed.
Print Assumptions C81_set_value.
(** The tree sampler cannot be changed by set_params: get_params reports the new one, fits go on using the old one. *)
Theorem C81_tree_sampler_ignored : forall e t, exists e', set_params e (SetTreeSampler t) = Ok e' /\ hy_sampler (get_params e') = t /\
  forall cpus limit h X y rs, match est_fit cpus limit e h X y rs, est_fit cpus limit e' h X y rs with
    | Ok f, Ok f' => es_fitted f' = es_fitted f
    | Raise x, Raise x' => x' = x
    | NoDraws, NoDraws => True
    | _, _ => False
    end.
Proof.
  intros e t. eexists. split; [reflexivity|]. split; [now destruct e as [[] ? ?]|]. intros cpus limit h X y rs.
  unfold est_fit. assert (E : forall q, as_sklearn limit {| es_hyper := set_hyper (es_hyper e) (SetTreeSampler t); es_schedule := es_schedule e; es_fitted := q |} = as_sklearn limit (Es (es_hyper e) (es_schedule e) q)) by (intros q; now destruct e as [[] ? ?]).
  rewrite E. replace (Es (es_hyper e) (es_schedule e) (es_fitted e)) with e by (now destruct e). clear E.
  assert (E : hy_njobs (set_hyper (es_hyper e) (SetTreeSampler t)) = hy_njobs (es_hyper e)) by (now destruct e as [[] ? ?]). simpl es_hyper. rewrite E.
  destruct (construct_model (as_sklearn limit e) h X y); cbn [rbind]; auto. destruct (backend_of cpus _); cbn [rbind]; auto.
  destruct (fit _ _ h X y rs); cbn [rbind]; auto.
Qed.
Print Assumptions C81_tree_sampler_ignored.
(** a tree sampler that never grows cannot fit anything *)
Lemma leaf_no_step h X y t q sigma p r z : tree_inv h X (Some y) t (ALeaf q) -> pa_pgrow p = 0 -> tree_step h t sigma p r <> Ok z.
Proof.
  intros H Hp. unfold tree_step, tree_sample.
  assert (Hpr : prunable_decision_nodes h t = []).
  { unfold prunable_decision_nodes. destruct (filter _ (decision_nodes h t)) as [|i l] eqn:E; auto. exfalso.
    assert (Hi : In i (decision_nodes h t)) by (apply (filter_In (is_prunable h)); rewrite E; simpl; auto).
    unfold decision_nodes in Hi. apply filter_In in Hi as [Hi Hd]. apply (ti_in _ _ _ _ _ _ H) in Hi. destruct Hi as [<-|[]].
    destruct (ti_ok _ _ _ _ _ H) as (w&s&E'&_). unfold is_dec in Hd. rewrite E' in Hd. discriminate. }
  assert (G : forall limit r m h1 r1, propose limit h t r = Ok (m, h1, r1) -> mu_kind m = MGrow).
  { clear r z. induction limit as [|limit IH]; intros r m h1 r1; cbn [propose]; try discriminate. destruct (rg_method r) as [|[] bs]; try discriminate.
    - destruct (sample_grow_mutation h t (rg_index r)) as [[[m' h'] idx']| |] eqn:E; try discriminate.
      + intros [= <- <- <-]. apply sample_grow_spec in E as (?&?&?&?&?&?&?&_&_&_&_&_&E). unfold grow_mutation in E. destruct (is_leaf _ _); [|discriminate]. now injection E as <-.
      + destruct e; try discriminate; apply IH.
    - unfold sample_prune_mutation, random_prunable_decision_node. rewrite Hpr. cbn [rbind]. apply IH. }
  destruct (propose (pa_limit p) h t r) as [[[m h1] r1]| |] eqn:E; try discriminate. cbn [rbind].
  assert (F : forall L, log_probability_ratio h1 t m sigma p <> Ok L).
  { intros L. unfold log_probability_ratio, log_transition_ratio. rewrite (G _ _ _ _ _ E). unfold log_grow_transition_ratio.
    destruct (log_probability_split_within_tree _ _ _ _); cbn [rbind]; try discriminate. unfold py_div. destruct (Req_EM_T (pa_pgrow p) 0); [cbn [rbind]; discriminate|contradiction]. }
  destruct (log_probability_ratio h1 t m sigma p) as [L| |] eqn:E2; try discriminate. now destruct (F L eq_refl).
Qed.
Theorem C81_never_grows : forall b s h X y rs s', no_nan X -> length y = length (mx_rows X) -> (0 < pa_ntrees (sk_par s))%nat ->
  (0 < sk_nburn s + sk_nsamples s)%nat -> pa_pgrow (sk_par s) = 0 -> fit b s h X y rs <> Ok s'.
Proof.
  intros bk s h X y rs s' Hn Hl Hk Hw Hp Hf.
  destruct (fit_spec _ _ _ _ _ _ _ Hn Hl Hf) as (d&m&es&_&_&_&_&_&_&Hne&_&HF&_).
  destruct HF as [|e r es' rs' Hran _]; [congruence|]. destruct Hran as (hs&m0&m'&r'&kept&Hm0&Hsm&_).
  destruct (start_model_spec _ _ _ _ _ _ _ Hl Hm0) as (H&Ht&_&_&_&Ep&_).
  assert (Hstuck : forall r0 q, gibbs_step m0 r0 <> Ok q).
  { intros r0 q. unfold gibbs_step, drive_fuel. cbn [Nat.add drive].
    destruct (gen_next_spec X _ _ m0 (Fr None None) GStart _ Hn H ltac:(discriminate)) as (fr1&m1&->&_&Hg1&Hsm1&_). cbn [rbind].
    assert (Hpc : pc_next m0 GStart = GTree 0).
    { simpl. unfold succ_pc. rewrite Ht, map_length, seq_length. destruct (Nat.ltb_spec 0 (pa_ntrees (sk_par s))); auto. lia. }
    rewrite Hpc in *. simpl yields. cbv iota beta. destruct Hg1 as [H1 Hfr]. unfold call. rewrite Hfr.
    destruct (mi_target _ _ _ _ _ _ H1 0%nat eq_refl) as (t&a&ty&Et&Ea&Hi&_). rewrite Et.
    apply nth_error_In, in_map_iff in Ea as (i&<-&_).
    assert (Ep1 : pa_pgrow (m_par m1) = 0). { destruct Hsm1 as (_&_&E1&_). now rewrite E1, Ep. }
    destruct (tree_step (m_heap m1) t (m_sigma m1) (m_par m1) r0) as [z| |] eqn:Ez; try discriminate. exfalso. revert Ez. eapply leaf_no_step; eauto. }
  revert Hsm. unfold samples. destruct (sk_nburn s) as [|nb]; simpl.
  - destruct (sk_thin s) as [|num den]; [discriminate|]. destruct (sk_nsamples s) as [|n]; [lia|]. simpl. unfold sample_iter.
    destruct (gibbs_step m0 r) as [q| |] eqn:E; try discriminate. now apply Hstuck in E.
  - destruct (gibbs_step m0 r) as [q| |] eqn:E; try discriminate. now apply Hstuck in E.
Qed.
Print Assumptions C81_never_grows.
(** ... so the parameter reported after set_params is not the one in use. *)
Definition a_hyper : hyper := Hy 2 2 1 1 5 2 (TInv 2 1) (95 / 100) 2 true true (Ts (/ 2) (/ 2)) 1.
Lemma a_as : as_sklearn 20 (construct a_hyper) = ex_sk.
Proof. reflexivity. Qed.
Theorem C81_reported_sampler_refuted : exists a t e rs f, set_params (construct a) (SetTreeSampler t) = Ok e /\ get_params e = set_hyper a (SetTreeSampler t) /\
  est_fit 1 20 e ex_empty mx_X mx_y rs = Ok f /\
  forall rs' f', est_fit 1 20 (construct (get_params e)) ex_empty mx_X mx_y rs' <> Ok f'.
Proof.
  destruct (ex_fit ThisProcess) as (rs&s1&Hl&E). exists a_hyper, (Ts 0 1).
  destruct (C81_tree_sampler_ignored (construct a_hyper) (Ts 0 1)) as (e&Es&_&Hi). specialize (Hi 1%nat 20%nat ex_empty mx_X mx_y rs).
  assert (Ef : exists f, est_fit 1 20 (construct a_hyper) ex_empty mx_X mx_y rs = Ok f).
  { destruct (est_fit_fit 1 20 (construct a_hyper) ex_empty mx_X mx_y rs ltac:(discriminate)) as (b&->). rewrite a_as.
    pose proof (fit_same ThisProcess b ex_sk ex_sk ex_empty ex_empty mx_X mx_y rs ex_heap_ok ex_heap_ok ltac:(repeat split)) as H. rewrite E in H.
    destruct (fit b ex_sk ex_empty mx_X mx_y rs); try contradiction. cbn [rbind]. eauto. }
  destruct Ef as (f0&Ef). rewrite Ef in Hi. destruct (est_fit 1 20 e ex_empty mx_X mx_y rs) as [f| |] eqn:E2; try contradiction.
  exists e, rs, f. split; [exact Es|]. assert (Eg : get_params e = set_hyper a_hyper (SetTreeSampler (Ts 0 1))) by (injection Es as <-; reflexivity).
  split; [exact Eg|]. split; [exact E2|]. intros rs' f'. rewrite Eg.
  destruct (est_fit_fit 1 20 (construct (set_hyper a_hyper (SetTreeSampler (Ts 0 1)))) ex_empty mx_X mx_y rs' ltac:(discriminate)) as (b&->).
  destruct (fit b _ ex_empty mx_X mx_y rs') as [s'| |] eqn:F; cbn [rbind]; try discriminate. exfalso. revert F. apply C81_never_grows; try reflexivity; try exact mx_no_nan; simpl; lia.
Qed.
Print Assumptions C81_reported_sampler_refuted.
(** a history with a setting, a fit, a failed fit and a clone *)
Example C81_case : exists rs e f, est_run (construct default_hyper)
    [Set_ (SetNTrees 2); Failed not_fitted; Set_ (SetNChains 2); Set_ (SetSigmaA 1); Set_ (SetSigmaB 1); Set_ (SetNSamples 5); Clone; Set_ (SetNBurn 2); Set_ (SetThin (TInv 2 1));
     Set_ (SetStorePreds true); Set_ (SetStoreAccept true); Set_ (SetNJobs 1); Fit 1 20 ex_empty mx_X mx_y rs; Set_ (SetNJobs 3)] = Ok e /\
  get_params e = set_hyper a_hyper (SetNJobs 3) /\ est_fit 4 20 e ex_empty mx_X mx_y rs = Ok f.
Proof.
  destruct (ex_fit ThisProcess) as (rs&s1&Hl&E).
  assert (Ef : forall cpus e, hy_njobs (es_hyper e) <> 0%Z -> same_settings ex_sk (as_sklearn 20 e) -> exists s, est_fit cpus 20 e ex_empty mx_X mx_y rs = Ok (fitted_of e s)).
  { intros cpus e Hj Hs. destruct (est_fit_fit cpus 20 e ex_empty mx_X mx_y rs Hj) as (b&->).
    pose proof (fit_same ThisProcess b ex_sk _ ex_empty ex_empty mx_X mx_y rs ex_heap_ok ex_heap_ok Hs) as H. rewrite E in H.
    destruct (fit b (as_sklearn 20 e) ex_empty mx_X mx_y rs); try contradiction. cbn [rbind]. eauto. }
  destruct (Ef 1%nat (construct a_hyper) ltac:(discriminate) ltac:(repeat split)) as (s&Es1).
  destruct (Ef 4%nat (Es (set_hyper a_hyper (SetNJobs 3)) (Ts (/ 2) (/ 2)) (es_fitted (fitted_of (construct a_hyper) s))) ltac:(discriminate) ltac:(repeat split)) as (s'&Es2).
  exists rs. do 2 eexists. split; [|split; [|exact Es2]]; [|reflexivity].
  cbn [est_run est_do]. unfold set_params. cbn [rbind set_hyper default_hyper construct es_hyper es_schedule es_fitted clone get_params hy_sampler].
  change (is_param sklearn_signature _) with true. cbn [rbind]. unfold clone, construct. cbn.
  fold a_hyper. 
  change (est_fit 1 20 _ ex_empty mx_X mx_y rs) with (est_fit 1 20 (construct a_hyper) ex_empty mx_X mx_y rs). rewrite Es1. reflexivity.
Qed.

(** ** C83 *)
Lemma objects_raise ss : ss <> [] -> Forall (fun e : stored_sample => sm_trees (snd e) <> []) ss -> objects_predict ss = Raise ETypeError.
Proof.
  intros Hn HF. destruct HF as [|[h s] ss' H _]; [congruence|]. cbn [objects_predict]. unfold object_predict. simpl in H. now destruct (sm_trees s).
Qed.
Lemma trees_held n k ss tss : (0 < k)%nat -> Forall2 (consists_of n) ss tss -> Forall (fun ts => length ts = k) tss -> Forall (fun e : stored_sample => sm_trees (snd e) <> []) ss.
Proof.
  intros Hp HF. induction HF as [|e' ts ss' tss' HC HF' IH]; intros Hk; constructor.
  - inversion Hk as [|? ? K _]; subst. destruct HC as [HC _]. apply Forall2_length in HC. intros E0. rewrite E0 in HC. simpl in HC. lia.
  - apply IH. now inversion Hk.
Qed.
(** predict() without X after a fit with at least one tree never returns: whatever the base estimator does with the
    object it is handed. *)
Theorem C83_never_returns : forall b s h X y rs s' base v, no_nan X -> length y = length (mx_rows X) -> fit b s h X y rs = Ok s' -> (0 < pa_ntrees (sk_par s))%nat ->
  ext_predict_training base s' <> Ok v.
Proof.
  intros b s h X y rs s' base v Hn Hl Hf Hp. destruct (fit_consists _ _ _ _ _ _ _ Hn Hl Hf) as (tss&(ss&Es&HF)&Hk).
  unfold ext_predict_training. destruct (sk_data s') as [d|]; try discriminate. destruct (base (d_X d)) as [w| |]; cbn [rbind]; try discriminate. rewrite Es.
  destruct ss as [|e ss]; try discriminate. rewrite objects_raise; try discriminate. eapply trees_held; eauto.
Qed.
Print Assumptions C83_never_returns.
(** It raises TypeError if at least one sample was stored and the base estimator accepts the object. *)
Theorem C83_type_error : forall b s h X y rs s' ss base, no_nan X -> length y = length (mx_rows X) -> fit b s h X y rs = Ok s' -> (0 < pa_ntrees (sk_par s))%nat ->
  sk_samples s' = Some ss -> ss <> [] -> (forall c, exists w, base c = Ok w) -> ext_predict_training base s' = Raise ETypeError.
Proof.
  intros b s h X y rs s' ss base Hn Hl Hf Hp Ess Hss Hb. destruct (fit_consists _ _ _ _ _ _ _ Hn Hl Hf) as (tss&(ss0&Es&HF)&Hk).
  rewrite Ess in Es. injection Es as <-.
  destruct (fit_spec _ _ _ _ _ _ _ Hn Hl Hf) as (d&m&es&_&Hd&_).
  unfold ext_predict_training. rewrite Hd, Ess. destruct (Hb (d_X d)) as (w&->). cbn [rbind]. destruct ss as [|e ss]; [congruence|].
  rewrite objects_raise; auto. eapply trees_held; eauto.
Qed.
Print Assumptions C83_type_error.
Example C83_case : forall b, exists rs s', fit b ex_sk ex_empty mx_X mx_y rs = Ok s' /\ ext_predict_training (fun c => Ok [1; 2; 3]) s' = Raise ETypeError /\
  exists v, sk_predict s' None = Ok v.
Proof.
  intros b. destruct (C49_C50_case b) as (rs&s'&v&Hf&Hv&_&_&ss&Hss&Hlen). exists rs, s'. split; auto. split; eauto.
  apply (C83_type_error b ex_sk ex_empty mx_X mx_y rs s' ss); auto; try exact mx_no_nan; try reflexivity; try (simpl; lia); eauto.
  intros ->. discriminate.
Qed.

(** ** C81: the extensions *)
(** The settings of a ResidualBART or OLS cannot be changed by set_params, and are not kept by clone. *)
Theorem C81_extension_set : forall B (e : extension B) p, ext_set_params e p = Raise EValueError.
Proof. intros B e p. unfold ext_set_params. assert (E : is_param extension_signature p = false) by (destruct p; vm_compute; reflexivity). now rewrite E. Qed.
Print Assumptions C81_extension_set.
Theorem C81_extension_clone : forall B (base : B) kwargs, get_params (ex_bart (ext_construct base kwargs)) = fold_left set_hyper kwargs default_hyper /\
  ext_clone (ext_construct base kwargs) = ext_construct base [] /\ get_params (ex_bart (ext_clone (ext_construct base kwargs))) = default_hyper.
Proof. intros. repeat split. Qed.
Print Assumptions C81_extension_clone.
Theorem C81_extension_clone_refuted : exists (e : extension unit), e = ext_construct tt [SetNTrees 50] /\
  hy_ntrees (get_params (ex_bart e)) = 50%nat /\ hy_ntrees (get_params (ex_bart (ext_clone e))) = 200%nat.
Proof. eexists. split; [reflexivity|]. split; reflexivity. Qed.
Print Assumptions C81_extension_clone_refuted.

(** ** C84 *)
(** Fitting a ResidualBART whose base estimator is another object changes no other ResidualBART. *)
Theorem C84_isolated : forall learn b st s1 s2 h X y rs s2' st', ro_base s1 <> ro_base s2 -> ro_fit learn b st s2 h X y rs = Ok (s2', st') ->
  forall X', ro_predict st' s1 X' = ro_predict st s1 X'.
Proof.
  intros learn b st s1 s2 h X y rs s2' st' Hd. unfold ro_fit. destruct (rb_fit _ _ _ h X y rs) as [q| |]; try discriminate. cbn [rbind].
  destruct (rb_base q) as [f|]; try discriminate. intros [= <- <-] X'. unfold ro_predict, store_put. destruct (Nat.eqb_spec (ro_base s1) (ro_base s2)); [contradiction|reflexivity].
Qed.
Print Assumptions C84_isolated.
(** Constructed without a base estimator, it has one of its own. *)
Theorem C84_default_base : forall fresh base s, ro_base (ro_construct fresh base s) = match base with Some a => a | None => fresh end.
Proof. intros fresh [a|] s; reflexivity. Qed.
Print Assumptions C84_default_base.
(** Constructed with one, it uses the caller's object: the fit trains that object, and every ResidualBART constructed
    with it predicts with what it learnt last. *)
Theorem C84_shared : forall learn b st s1 s2 h X y rs s2' st', ro_base s1 = ro_base s2 -> ro_fit learn b st s2 h X y rs = Ok (s2', st') ->
  exists f, learn X y = Ok f /\ st' (ro_base s2) = Some f /\
    forall X' v, ro_predict st' s1 X' = Ok v <->
      exists p q, f X' = Ok p /\ sk_predict (ro_bart s1) (Some X') = Ok q /\ length p = length q /\ v = map2 Rplus p q.
Proof.
  intros learn b st s1 s2 h X y rs s2' st' Hd. unfold ro_fit, rb_fit. destruct (learn X y) as [f| |]; try discriminate. cbn [rbind].
  destruct (f X) as [w| |]; try discriminate. cbn [rbind]. destruct (vop Rminus y w); try discriminate. cbn [rbind].
  destruct (fit _ _ h X _ rs) as [q| |]; try discriminate. cbn [rbind rb_base rb_bart]. intros [= <- <-]. exists f. split; auto.
  unfold store_put. rewrite Nat.eqb_refl. split; auto. intros X' v. unfold ro_predict, rb_predict. cbn [rb_base rb_bart]. rewrite Hd, Nat.eqb_refl. split.
  - destruct (f X') as [p'| |]; try discriminate. cbn [rbind]. destruct (sk_predict (ro_bart s1) (Some X')) as [q'| |]; try discriminate. cbn [rbind].
    unfold vop. destruct (Nat.eqb_spec (length p') (length q')); try discriminate. intros [= <-]. eauto 10.
  - intros (p'&q'&->&->&L&->). cbn [rbind]. unfold vop. rewrite L, Nat.eqb_refl. reflexivity.
Qed.
Print Assumptions C84_shared.
(** Two ResidualBARTs constructed with the same base estimator: fitting the second changes the predictions of the first. *)
Definition learn_first : matrix -> list R -> res predictor := fun _ y => Ok (fun X => Ok (repeat (hd 0 y) (length (mx_rows X)))).
Lemma ro_possible st a y : length y = 3%nat -> (exists u v, In u y /\ In v y /\ u <> v) -> exists rs q st',
  ro_fit learn_first ThisProcess st (ro_construct 7 (Some a) ex_sk) ex_empty mx_X y rs = Ok (q, st') /\ ro_base q = a /\ (exists f, learn_first mx_X y = Ok f /\ st' a = Some f) /\
  exists w, sk_predict (ro_bart q) (Some mx_X) = Ok w /\ length w = 3%nat.
Proof.
  intros Hl (u&v&Hu&Hv&Huv). set (y' := map2 Rminus y (repeat (hd 0 y) 3)).
  assert (Hl' : length y' = 3%nat) by (unfold y'; destruct y as [|a0 [|a1 [|a2 [|]]]]; try discriminate; reflexivity).
  assert (E' : y' = map (fun x => x - hd 0 y) y) by (unfold y'; destruct y as [|a0 [|a1 [|a2 [|]]]]; try discriminate; reflexivity).
  destruct (C66_fit_possible ThisProcess ex_sk ex_empty mx_X y' 2 1) as (rs&s'&_&Hf); auto; try exact mx_no_nan; try exact mx_varies; try exact mx_sane; try reflexivity; try discriminate; try (simpl; lia).
  { exists (u - hd 0 y), (v - hd 0 y). rewrite E'. split; [now apply (in_map (fun x => x - hd 0 y))|]. split; [now apply (in_map (fun x => x - hd 0 y))|lra]. }
  exists rs, (Ro a s'). eexists. split; [|split; [reflexivity|]].
  - unfold ro_fit, rb_fit, learn_first, ro_construct. cbn [rbind ro_base ro_bart rb_base rb_bart]. change (length (mx_rows mx_X)) with 3%nat. unfold vop.
    rewrite repeat_length, Hl. cbn [Nat.eqb rbind]. fold y'. rewrite Hf. cbn [rbind rb_base rb_bart]. reflexivity.
  - split; [eexists; split; [reflexivity|unfold store_put; now rewrite Nat.eqb_refl]|].
    cbn [ro_bart]. destruct (C50_one_in_k ThisProcess ex_sk _ mx_X y' rs s' 2 mx_no_nan Hl' Hf eq_refl ltac:(lia)) as (ss&Hss&Hlen).
    destruct (C50_mean_of_samples ThisProcess ex_sk _ mx_X y' rs s' mx_X mx_no_nan Hl' Hf (le_n _)) as (lo&hi&ss'&ps&_&Hss'&_&_&_&H). rewrite Hss in Hss'. injection Hss' as <-.
    change (length ss = 6%nat) in Hlen. destruct H as (w&Hw&Hwl&_); [intros ->; discriminate|]. exists w. auto.
Qed.
Theorem C84_independent_refuted : exists learn st y1 y2 rs1 rs2 s1 st1 s2 st2 v v',
  ro_fit learn ThisProcess st (ro_construct 7 (Some 3%nat) ex_sk) ex_empty mx_X y1 rs1 = Ok (s1, st1) /\ ro_predict st1 s1 mx_X = Ok v /\
  ro_fit learn ThisProcess st1 (ro_construct 8 (Some 3%nat) ex_sk) ex_empty mx_X y2 rs2 = Ok (s2, st2) /\ ro_predict st2 s1 mx_X = Ok v' /\ v' <> v.
Proof.
  set (y1 := [1; 2; 6]). set (y2 := [5; 2; 6]).
  destruct (ro_possible (fun _ => None) 3 y1 eq_refl) as (rs1&s1&st1&E1&B1&(f1&F1&S1)&(w&Hw&Lw)). { exists 1, 2. simpl. repeat split; auto; lra. }
  destruct (ro_possible st1 3 y2 eq_refl) as (rs2&s2&st2&E2&B2&(f2&F2&S2)&_). { exists 5, 2. simpl. repeat split; auto; lra. }
  injection F1 as <-. injection F2 as <-. simpl hd in *.
  exists learn_first, (fun _ => None), y1, y2, rs1, rs2, s1, st1, s2, st2, (map2 Rplus (repeat 1 3) w), (map2 Rplus (repeat 5 3) w).
  split; [exact E1|]. split.
  - unfold ro_predict, rb_predict. rewrite B1, S1. cbn [rb_base rb_bart rbind]. rewrite Hw. cbn [rbind]. unfold vop. rewrite repeat_length, Lw. reflexivity.
  - split; [exact E2|]. split.
    + unfold ro_predict, rb_predict. rewrite B1, S2. cbn [rb_base rb_bart rbind]. rewrite Hw. cbn [rbind]. unfold vop. rewrite repeat_length, Lw. reflexivity.
    + destruct w as [|w0 ws]; [discriminate|]. simpl. intros E. injection E as E0 _. lra.
Qed.
Print Assumptions C84_independent_refuted.
Example C84_case : exists st rs s2 st', ro_fit learn_first ThisProcess st (ro_construct 8 None ex_sk) ex_empty mx_X [1; 2; 6] rs = Ok (s2, st') /\
  ro_base (ro_construct 7 None ex_sk) <> ro_base (ro_construct 8 None ex_sk).
Proof.
  destruct (ro_possible (fun _ => None) 8 [1; 2; 6] eq_refl) as (rs&s2&st'&E&_). { exists 1, 2. simpl. repeat split; auto; lra. }
  exists (fun _ => None), rs, s2, st'. split; [exact E|discriminate].
Qed.
