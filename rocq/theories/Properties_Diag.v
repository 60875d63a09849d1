(** Property C76: see /verif/properties.jsonl. *)
From Coq Require Import Reals Lra Lia ZArith Permutation.
From Verif Require Import Base Fl Ext MData MSplit MTree MSampler MHist MTreeHist MModel MModelHist MSklearn MDiag Spec SpecTree SpecSampler SpecModel SpecSklearn SpecFeatures SpecInvariance SpecDiag.
From Verif Require Import LFl LList PData PSplit PDataProps PCond PTree PPred PTreeHist PModel PModel2 PModel7 PModel8 PModel11 PModel12 PSklearn PSklearn2 PSklearn3 PFeatures PDiag
  Properties_Model Properties_Model2 Properties_Sklearn Properties_Invariance.
Local Open Scope R_scope.

(** ** depths *)
(** For every stored sample the three curves show 0 (the roots are counted), the mean distance of all nodes of all
    trees from their roots, and the height of the highest tree. *)
Theorem C76_tree_depth : forall b s h X y rs s', no_nan X -> length y = length (mx_rows X) -> fit b s h X y rs = Ok s' -> (0 < pa_ntrees (sk_par s))%nat ->
  exists tss, holds_trees (mx_ncols X) s' tss /\ Forall (fun ts => length ts = pa_ntrees (sk_par s)) tss /\
    plot_tree_depth s' = Ok (map (fun ts => (0%nat, mean (map INR (flat_map distances ts)), highest ts)) tss).
Proof.
  intros b s h X y rs s' Hn Hl Hf Hp. destruct (fit_consists _ _ _ _ _ _ _ Hn Hl Hf) as (tss&(ss&Es&HF)&Hk). exists tss. split; [exists ss; auto|]. split; auto.
  unfold plot_tree_depth. rewrite Es. eapply depth_summaries_spec; eauto. eapply Forall_impl; [|exact Hk]. intros ts L ->. simpl in L. lia.
Qed.
Print Assumptions C76_tree_depth.
(** Without trees there is nothing to plot. *)
Theorem C76_no_trees : forall b s h X y rs s' ss, no_nan X -> length y = length (mx_rows X) -> fit b s h X y rs = Ok s' -> pa_ntrees (sk_par s) = 0%nat ->
  sk_samples s' = Some ss -> ss <> [] -> plot_tree_depth s' = Raise EValueError.
Proof.
  intros b s h X y rs s' ss Hn Hl Hf Hp Es Hs. destruct (fit_consists _ _ _ _ _ _ _ Hn Hl Hf) as (tss&(ss'&Es'&HF)&Hk). rewrite Es in Es'. injection Es' as <-.
  unfold plot_tree_depth. rewrite Es. eapply depth_summaries_none; eauto. eapply Forall_impl; [|exact Hk]. simpl. intros; congruence.
Qed.
Print Assumptions C76_no_trees.

(** ** what a chain records *)
Definition rate_entry (p : params) (d : list (skey * R)) : Prop :=
  exists k, (k <= pa_ntrees p)%nat /\ d = (if (pa_ntrees p =? 0)%nat then [] else [(KyTree, INR k / INR (pa_ntrees p))]).
Lemma iter_records X y nrm h0 p os m ss num den sp sa r c m' r' : no_nan X -> model_reached X y nrm h0 1 p os m -> (0 < m_sigma m) ->
  sample_iter ss num den sp sa m r = Ok (c, m', r') ->
  (exists os', model_reached X y nrm h0 1 p os' m') /\ 0 < m_sigma m' /\ Forall (fun s => 0 < sm_sigma s) (ch_models c) /\ Forall (rate_entry p) (ch_accept c) /\
  (sa = true -> length (ch_accept c) = length (ch_models c)) /\ (sa = false -> ch_accept c = []).
Proof.
  intros Hn Hr Hs. unfold sample_iter. destruct (gibbs_step m r) as [[[[d acts] m1] r1]| |] eqn:Eg; try discriminate. cbn [rbind].
  assert (R1 : model_reached X y nrm h0 1 p (os ++ [GStep r]) m1) by (eapply reached_app; [exact Hr|exact I|]; cbn [model_do]; rewrite Eg; reflexivity).
  assert (S1 : 0 < m_sigma m1) by (apply (model_do_sigma m (GStep r) m1); auto; [exact I|]; cbn [model_do]; rewrite Eg; reflexivity).
  assert (D : rate_entry p d) by (destruct (C45_rates _ _ _ _ _ _ _ _ _ _ _ _ _ Hn Hr Eg) as (acc&_&_&Hd&Hle); exists (length acc); auto).
  destruct (num =? 0)%Z; [discriminate|]. destruct (keeps_sample ss num den).
  2: { intros [= <- <- <-]. split; eauto. repeat (split; [auto; constructor|]). auto. }
  assert (P2 : forall ps m2, (if sp then let! (v, m2) := model_predict m1 in Ok ([v], m2) else Ok ([], m1)) = Ok (ps, m2) ->
    (exists os', model_reached X y nrm h0 1 p os' m2) /\ 0 < m_sigma m2).
  { intros ps m2. destruct sp; [|intros [= <- <-]; eauto]. destruct (model_predict m1) as [[v m2']| |] eqn:Ep; try discriminate. cbn [rbind]. intros [= <- <-].
    split; [eexists; eapply (reached_app _ _ _ _ _ _ _ _ GPredict); [exact R1|exact I|]; cbn [model_do]; rewrite Ep; reflexivity|].
    eapply (model_do_sigma m1 GPredict); [exact I| |exact S1]. cbn [model_do]. rewrite Ep. reflexivity. }
  destruct (if sp then _ else _) as [[ps m2]| |] eqn:E2; try discriminate. cbn [rbind]. destruct (P2 _ _ eq_refl) as ((os2&R2)&S2).
  destruct (deep_copy_model m2) as [[sm m3]| |] eqn:E3; try discriminate. cbn [rbind]. intros [= <- <- <-]. cbn [ch_models ch_accept].
  split; [eexists; eapply (reached_app _ _ _ _ _ _ _ _ GStore); [exact R2|exact I|]; cbn [model_do]; rewrite E3; reflexivity|].
  split; [refine (model_do_sigma m2 GStore _ I _ S2); cbn [model_do]; rewrite E3; reflexivity|].
  split; [constructor; auto|].
  - unfold deep_copy_model in E3. destruct (copy_trees _ _) as [[ts hh]| |]; try discriminate. injection E3 as <- _. exact S2.
  - split; [destruct sa; repeat constructor; auto|]. split; intros ->; reflexivity.
Qed.
Lemma loop_records X y nrm h0 p num den sp sa : no_nan X -> forall todo ss os m r c m' r', model_reached X y nrm h0 1 p os m -> 0 < m_sigma m ->
  sample_loop ss todo num den sp sa m r = Ok (c, m', r') ->
  Forall (fun s => 0 < sm_sigma s) (ch_models c) /\ Forall (rate_entry p) (ch_accept c) /\
  (sa = true -> length (ch_accept c) = length (ch_models c)) /\ (sa = false -> ch_accept c = []).
Proof.
  intros Hn. induction todo as [|todo IH]; intros ss os m r c m' r' Hr Hs; cbn [sample_loop]; [intros [= <- <- <-]; simpl; auto|].
  destruct (sample_iter ss num den sp sa m r) as [[[c1 m1] r1]| |] eqn:E1; try discriminate. cbn [rbind].
  destruct (iter_records _ _ _ _ _ _ _ _ _ _ _ _ _ _ _ _ Hn Hr Hs E1) as ((os1&R1)&S1&A1&B1&C1&D1).
  destruct (sample_loop (S ss) todo num den sp sa m1 r1) as [[[c2 m2] r2]| |] eqn:E2; try discriminate. cbn [rbind]. intros [= <- <- <-].
  destruct (IH _ _ _ _ _ _ _ R1 S1 E2) as (A2&B2&C2&D2). unfold ch_app. cbn [ch_models ch_accept]. rewrite !Forall_app. split; auto. split; auto.
  split; [intros H; rewrite !app_length, C1, C2; auto|intros H; rewrite D1, D2; auto].
Qed.
Lemma burn_records X y nrm h0 p : forall n os m r m' r', model_reached X y nrm h0 1 p os m -> 0 < m_sigma m -> burn n m r = Ok (m', r') ->
  (exists os', model_reached X y nrm h0 1 p os' m') /\ 0 < m_sigma m'.
Proof.
  induction n as [|n IH]; intros os m r m' r' Hr Hs; cbn [burn]; [intros [= <- <-]; eauto|].
  destruct (gibbs_step m r) as [[[[d acts] m1] r1]| |] eqn:Eg; try discriminate. cbn [rbind]. apply IH with (os := os ++ [GStep r]).
  - eapply reached_app; [exact Hr|exact I|]. cbn [model_do]. rewrite Eg. reflexivity.
  - apply (model_do_sigma m (GStep r) m1); auto; [exact I|]. cbn [model_do]. rewrite Eg. reflexivity.
Qed.
Lemma chain_records s X y e r : no_nan X -> length y = length (mx_rows X) -> chain_ran s X y e r ->
  Forall (fun s => 0 < sm_sigma s) (ch_models (snd e)) /\ Forall (rate_entry (sk_par s)) (ch_accept (snd e)) /\
  (sk_store_accept s = true -> length (ch_accept (snd e)) = length (ch_models (snd e))) /\ (sk_store_accept s = false -> ch_accept (snd e) = []).
Proof.
  intros Hn Hl (hs&m&m'&r'&kept&Hm&Hs&_).
  assert (R0 : model_reached X y true hs 1 (sk_par s) [] m) by (split; auto; split; [constructor|]; exists m; auto).
  assert (S0 : 0 < m_sigma m).
  { unfold start_model in Hm. destruct (make_data _ _ _ _ _ _ _ _) as [d| |]; try discriminate. cbn [rbind] in Hm. unfold make_model in Hm.
    destruct (initialize_trees _ _ _) as [[h1 ts]| |]; try discriminate. injection Hm as <-. simpl. lra. }
  unfold samples in Hs. destruct (burn _ m r) as [[m1 r1]| |] eqn:Eb; try discriminate. cbn [rbind] in Hs.
  destruct (burn_records _ _ _ _ _ _ _ _ _ _ _ R0 S0 Eb) as ((os1&R1)&S1). destruct (sk_thin s) as [|num den]; [discriminate|].
  eapply loop_records; eauto.
Qed.
Lemma runs_record s X y es rs : no_nan X -> length y = length (mx_rows X) -> Forall2 (chain_ran s X y) es rs ->
  Forall (fun hs => 0 < sm_sigma (snd hs)) (all_samples es) /\ Forall (rate_entry (sk_par s)) (flat_map (fun e : extract => ch_accept (snd e)) es) /\
  (sk_store_accept s = true -> length (flat_map (fun e : extract => ch_accept (snd e)) es) = length (all_samples es)) /\
  (sk_store_accept s = false -> flat_map (fun e : extract => ch_accept (snd e)) es = []).
Proof.
  intros Hn Hl HF. induction HF as [|e r es rs H HF (A&B&C&D)]; [simpl; auto|]. destruct (chain_records _ _ _ _ _ Hn Hl H) as (A1&B1&C1&D1).
  unfold all_samples in *. cbn [flat_map]. rewrite !Forall_app. split; [split; auto|split; [auto|split]].
  - rewrite Forall_forall in *. intros hs Hin. apply in_map_iff in Hin as (sm&<-&Hsm). simpl. auto.
  - intros Hsa. rewrite !app_length, map_length. rewrite C, C1; auto.
  - intros Hsa. rewrite D, D1; auto.
Qed.

(** ** acceptance rates *)
(** One point per stored sample: the share of the trees that were changed in that step, between 0 and 1. *)
Theorem C76_acceptance : forall b s h X y rs s', no_nan X -> length y = length (mx_rows X) -> fit b s h X y rs = Ok s' ->
  (0 < pa_ntrees (sk_par s))%nat -> sk_store_accept s = true ->
  exists ss ks, sk_samples s' = Some ss /\ length ks = length ss /\ (forall k, In k ks -> (k <= pa_ntrees (sk_par s))%nat) /\
    plot_tree_mutation_acceptance_rate s' = Ok (map (fun k => INR k / INR (pa_ntrees (sk_par s))) ks).
Proof.
  intros b s h X y rs s' Hn Hl Hf Hp Hsa. destruct (fit_spec _ _ _ _ _ _ _ Hn Hl Hf) as (d&m&es&_&_&_&_&_&_&_&_&HF&Es&_&Ea).
  destruct (runs_record _ _ _ _ _ Hn Hl HF) as (_&B&C&_). specialize (C Hsa). exists (all_samples es).
  unfold plot_tree_mutation_acceptance_rate. rewrite Ea. rewrite <- C. clear - B Hp Es. revert B.
  generalize (flat_map (fun e : extract => ch_accept (snd e)) es) as ds. intros ds B.
  assert (G : exists ks, length ks = length ds /\ (forall k, In k ks -> (k <= pa_ntrees (sk_par s))%nat) /\
    trace_rates ds = Ok (map (fun k => INR k / INR (pa_ntrees (sk_par s))) ks)); [|destruct G as (ks&G); exists ks; split; auto].
  induction B as [|dd ds (k&Hk&Hd) B IH]; [exists []; simpl; repeat split; tauto|]. destruct IH as (ks&L&I&E). exists (k :: ks). split; [simpl; congruence|].
  split; [intros k' [<-|H]; auto|]. destruct (Nat.eqb_spec (pa_ntrees (sk_par s)) 0) as [|_]; [lia|]. subst dd. cbn [trace_rates trace_get rbind map]. rewrite E. reflexivity.
Qed.
Print Assumptions C76_acceptance.
(** With store_acceptance_trace=False the curve is empty; with n_trees=0 there is no key "Tree". *)
Theorem C76_acceptance_missing : forall b s h X y rs s', no_nan X -> length y = length (mx_rows X) -> fit b s h X y rs = Ok s' ->
  (sk_store_accept s = false -> plot_tree_mutation_acceptance_rate s' = Ok []) /\
  (pa_ntrees (sk_par s) = 0%nat -> sk_store_accept s = true -> forall ss, sk_samples s' = Some ss -> ss <> [] ->
     plot_tree_mutation_acceptance_rate s' = Raise EKeyError).
Proof.
  intros b s h X y rs s' Hn Hl Hf. destruct (fit_spec _ _ _ _ _ _ _ Hn Hl Hf) as (d&m&es&_&_&_&_&_&_&_&_&HF&Es&_&Ea).
  destruct (runs_record _ _ _ _ _ Hn Hl HF) as (_&B&C&D). unfold plot_tree_mutation_acceptance_rate. rewrite Ea. split; [intros H; rewrite D; auto|].
  intros H0 Hsa ss Ess Hss. specialize (C Hsa). rewrite Es in Ess. injection Ess as <-. fold (all_samples es) in Hss.
  destruct (flat_map (fun e : extract => ch_accept (snd e)) es) as [|dd ds]; [destruct (all_samples es); [congruence|discriminate]|]. inversion B as [|? ? (k&_&Hd) _]; subst. rewrite H0 in *. reflexivity.
Qed.
Print Assumptions C76_acceptance_missing.

(** ** sigma *)
(** One positive point per stored sample, on the scale on which the target is between -1/2 and 1/2: the sigma in the
    units of the target is the plotted one times the range of the target. *)
Theorem C76_sigma : forall b s h X y rs s', no_nan X -> length y = length (mx_rows X) -> fit b s h X y rs = Ok s' ->
  exists ss xs lo hi, sk_samples s' = Some ss /\ plot_sigma_convergence s' = Ok xs /\ xs = map (fun hs => sm_sigma (snd hs)) ss /\
    (forall x, In x xs -> 0 < x) /\ range_of y lo hi /\ forall x, unnormalized_sigma s' x = Ok (x * (hi - lo)).
Proof.
  intros b s h X y rs s' Hn Hl Hf. destruct (fit_spec _ _ _ _ _ _ _ Hn Hl Hf) as (d&m&es&_&_&_&_&_&_&_&_&HF&Es&_&Ea).
  destruct (runs_record _ _ _ _ _ Hn Hl HF) as (A&_). destruct (fit_data _ _ _ _ _ _ _ Hn Hl Hf) as (d'&m'&lo&hi&ny&Hd&_&_&_&Hrg&_&Hrng&_).
  exists (all_samples es), (map (fun hs => sm_sigma (snd hs)) (all_samples es)), lo, hi. split; auto. split; [unfold plot_sigma_convergence; rewrite Es; reflexivity|].
  split; auto. split; [|split; auto].
  - intros x Hx. apply in_map_iff in Hx as (hs&<-&Hin). rewrite Forall_forall in A. auto.
  - intros x. unfold unnormalized_sigma. rewrite Hd. unfold normalizing_scale. rewrite Hrng. reflexivity.
Qed.
Print Assumptions C76_sigma.
(** So the curve does not depend on the units of the target at all. *)
Theorem C76_sigma_has_no_units : forall a b bk s h X y rs s1 s2, 0 < b -> heap_ok h -> fit bk s h X y rs = Ok s1 -> fit bk s h X (affine a b y) rs = Ok s2 ->
  plot_sigma_convergence s2 = plot_sigma_convergence s1.
Proof.
  intros a b bk s h X y rs s1 s2 Hb Hh E1 E2. pose proof (C51_affine a b bk s h h X y rs Hb Hh Hh) as H. rewrite E1, E2 in H. destruct H as (_&_&_&H&_).
  unfold plot_sigma_convergence. destruct (sk_samples s1), (sk_samples s2); simpl in H; congruence.
Qed.
Print Assumptions C76_sigma_has_no_units.

(** ** residuals *)
(** The points are the predictions for the training rows and the distances of the targets from them. *)
Theorem C76_residuals : forall b s h X y rs s' v, no_nan X -> length y = length (mx_rows X) -> fit b s h X y rs = Ok s' ->
  sk_predict s' (Some X) = Ok v ->
  exists e, plot_qq s' = Ok e /\ plot_homoskedasity_diagnostics s' = Ok (v, e) /\ length e = length y /\ length v = length y /\
    forall i, (i < length y)%nat -> nth i e 0 = nth i y 0 - nth i v 0.
Proof.
  intros b s h X y rs s' v Hn Hl Hf Hv. destruct (fit_spec _ _ _ _ _ _ _ Hn Hl Hf) as (d&m&es&Hd&Hsd&_).
  assert (HX : cm_X (d_X d) = X).
  { clear - Hd. unfold convert_to_data, make_data in Hd. destruct (make_target _ _ _ _) as [t| |]; try discriminate. injection Hd as <-. reflexivity. }
  destruct (C50_mean_of_samples b s h X y rs s' X Hn Hl Hf (le_n _)) as (lo&hi&ss&ps&_&_&_&_&H0&H1).
  assert (Lv : length v = length y).
  { destruct ss as [|hs ss]; [rewrite H0 in Hv by auto; discriminate|]. destruct H1 as (v'&Hv'&L&_); [discriminate|]. rewrite Hv in Hv'. injection Hv' as <-. congruence. }
  assert (E : sk_residuals s' (Some X) None = Ok (map2 Rminus y v)).
  { rewrite (C53_training_residuals _ _ _ _ _ _ _ _ Hn Hl Hf). unfold sk_residuals, residuals_with. rewrite Hv. cbn [rbind]. unfold vop. now rewrite Lv, Nat.eqb_refl. }
  exists (map2 Rminus y v). unfold plot_qq, plot_homoskedasity_diagnostics. rewrite Hsd, HX, E, Hv. split; auto. split; auto.
  split; [apply map2_length; congruence|]. split; auto. intros i Hi. apply nth_map2; congruence.
Qed.
Print Assumptions C76_residuals.

(** ** all of it *)
(** Before a fit every diagnostic raises. *)
Theorem C76_unfitted : forall p nc ns nb th sp sa, let s := new_sklearn p nc ns nb th sp sa in
  plot_tree_depth s = Raise ETypeError /\ plot_sigma_convergence s = Raise ETypeError /\ plot_tree_mutation_acceptance_rate s = Raise EAttributeError /\
  plot_qq s = Raise EAttributeError /\ plot_homoskedasity_diagnostics s = Raise EAttributeError /\ plot_diagnostics s = Raise EAttributeError.
Proof. intros. repeat split. Qed.
Print Assumptions C76_unfitted.
(** After a fit with at least one tree and one stored sample, plot_diagnostics has everything it needs: it draws the five
    diagnostics above, each in its own panel, in this order. *)
Theorem C76_diagnostics : forall b s h X y rs s' ss, no_nan X -> length y = length (mx_rows X) -> fit b s h X y rs = Ok s' ->
  (0 < pa_ntrees (sk_par s))%nat -> sk_samples s' = Some ss -> ss <> [] ->
  exists residuals depths sigmas spread rates, plot_diagnostics s' = Ok (residuals, depths, sigmas, spread, rates) /\
    plot_qq s' = Ok residuals /\ plot_tree_depth s' = Ok depths /\ plot_sigma_convergence s' = Ok sigmas /\
    plot_homoskedasity_diagnostics s' = Ok spread /\ plot_tree_mutation_acceptance_rate s' = Ok rates.
Proof.
  intros b s h X y rs s' ss Hn Hl Hf Hp Es Hs.
  destruct (C50_mean_of_samples b s h X y rs s' X Hn Hl Hf (le_n _)) as (lo&hi&ss'&ps&_&Es'&_&_&_&H). rewrite Es in Es'. injection Es' as <-.
  destruct (H Hs) as (v&Hv&_). destruct (C76_residuals _ _ _ _ _ _ _ _ Hn Hl Hf Hv) as (e&E1&E2&_).
  destruct (C76_tree_depth _ _ _ _ _ _ _ Hn Hl Hf Hp) as (tss&_&_&E3). destruct (C76_sigma _ _ _ _ _ _ _ Hn Hl Hf) as (ss1&xs&l1&h1&_&E4&_).
  unfold plot_diagnostics. rewrite E1, E2, E3, E4. cbn [rbind]. destruct (sk_store_accept s) eqn:Ea.
  - destruct (C76_acceptance _ _ _ _ _ _ _ Hn Hl Hf Hp Ea) as (ss2&ks&_&_&_&E5). rewrite E5. do 5 eexists. repeat split.
  - destruct (C76_acceptance_missing _ _ _ _ _ _ _ Hn Hl Hf) as (E5&_). rewrite E5 by auto. do 5 eexists. repeat split.
Qed.
Print Assumptions C76_diagnostics.
Example C76_case : forall b, exists rs s' q, fit b ex_sk ex_empty mx_X mx_y rs = Ok s' /\ plot_diagnostics s' = Ok q /\
  (exists d, plot_tree_depth s' = Ok d /\ length d = 6%nat) /\ (exists r, plot_tree_mutation_acceptance_rate s' = Ok r /\ length r = 6%nat).
Proof.
  intros b. destruct (C49_C50_case b) as (rs&s'&v&Hf&_&_&_&ss&Hss&L). assert (Hs : ss <> []) by (intros ->; discriminate).
  assert (Hp : (0 < pa_ntrees (sk_par ex_sk))%nat) by (simpl; lia).
  destruct (C76_diagnostics b ex_sk _ mx_X mx_y rs s' ss mx_no_nan eq_refl Hf Hp Hss Hs) as (q1&q2&q3&q4&q5&Hq&_). exists rs, s', (q1, q2, q3, q4, q5). split; auto. split; auto. split.
  - destruct (C76_tree_depth b ex_sk _ mx_X mx_y rs s' mx_no_nan eq_refl Hf Hp) as (tss&(ss'&E&HF)&_&Hd). eexists. split; [exact Hd|]. rewrite map_length.
    rewrite Hss in E. injection E as <-. apply PModel7.Forall2_length in HF. congruence.
  - destruct (C76_acceptance b ex_sk _ mx_X mx_y rs s' mx_no_nan eq_refl Hf Hp eq_refl) as (ss'&ks&E&Lk&_&Hr). eexists. split; [exact Hr|]. rewrite map_length.
    rewrite Hss in E. injection E as <-. congruence.
Qed.
