(** C119: what a fit with the default settings does. *)
From Coq Require Import Reals Lra Lia ZArith.
From Verif Require Import Base Fl Ext MData MSplit MTree MSampler MHist MTreeHist MModel MModelHist MSklearn MEstimator Spec SpecTree SpecSampler SpecModel SpecSklearn SpecFeatures SpecEstimator.
From Verif Require Import LList PModel7 PModel11 PModel12 PSklearn2 PSklearn PFeatures Properties_Model Properties_Model2 Properties_Sklearn Properties_Invariance Properties_Estimator Properties_Alpha.
Local Open Scope R_scope.

(** SklearnModel() with Python's recursion limit [limit] *)
Definition default_sk (limit : nat) : sklearn := as_sklearn limit (construct default_hyper).
(** SklearnModel().fit(X, y): four chains, each of 400 Gibbs steps from a new model with 200 trees, of which the steps 200, 210, ...,
    390 are stored; 80 samples of 200 trees altogether.  Neither in-sample predictions nor acceptance rates are stored: predict()
    without X raises ValueError; predict(X) gives the mean over the 80 samples. *)
Lemma default_fit cpus limit h X y rs e : est_fit cpus limit (construct default_hyper) h X y rs = Ok e ->
  exists b s, fit b (default_sk limit) h X y rs = Ok s /\ e = fitted_of (construct default_hyper) s.
Proof.
  intros E. destruct (est_fit_fit cpus limit (construct default_hyper) h X y rs ltac:(discriminate)) as (b&Eb). rewrite Eb in E. exists b. fold (default_sk limit) in E.
  destruct (fit b (default_sk limit) h X y rs) as [s| |]; try discriminate. cbn [rbind] in E. injection E as <-. eauto.
Qed.
Theorem C119_stored : forall cpus limit h X y rs e, no_nan X -> length y = length (mx_rows X) ->
  est_fit cpus limit (construct default_hyper) h X y rs = Ok e ->
  (4 <= length rs)%nat /\
  (exists ss tss, ft_samples (es_fitted e) = Some ss /\ length ss = 80%nat /\ Forall2 (consists_of (mx_ncols X)) ss tss /\ Forall (fun ts => length ts = 200%nat) tss) /\
  ft_preds (es_fitted e) = Some [] /\ ft_accept (es_fitted e) = Some [].
Proof.
  intros cpus limit h X y rs e Hn Hl E. destruct (default_fit _ _ _ _ _ _ _ E) as (b&s&Hf&->). cbn [fitted_of es_fitted ft_samples ft_preds ft_accept].
  destruct (fit_spec _ _ _ _ _ _ _ Hn Hl Hf) as (d&m&es&_&_&_&_&_&Hle&_&Hlr&HF&_&Hps&Hac). split; [exact Hlr|]. split; [|].
  - destruct (C50_one_in_k b _ h X y rs s 10 Hn Hl Hf eq_refl ltac:(lia)) as (ss&Hss&Hlen).
    destruct (fit_consists _ _ _ _ _ _ _ Hn Hl Hf) as (tss&(ss'&Hss'&HC)&Hk). rewrite Hss in Hss'. injection Hss' as <-.
    exists ss, tss. split; [exact Hss|]. split; [exact Hlen|]. split; [exact HC|]. exact Hk.
  - rewrite Hps, Hac.
    assert (G : forall e, In e es -> ch_preds (snd e) = [] /\ ch_accept (snd e) = []).
    { intros e He. destruct (forall2_right _ _ _ HF e He) as (r&hs&m0&m'&r'&kept&Hm&Hs&_).
      destruct (C44_aligned X y true hs 1 (sk_par (default_sk limit)) [] m0 _ _ 10%Z 1%positive 10%nat 1%nat _ _ _ _ _ _ Hn
        ltac:(split; auto; split; [constructor|]; exists m0; auto) ltac:(lia) ltac:(lia) eq_refl eq_refl Hs) as (steps&kept'&_&_&_&_&_&A&B). auto. }
    clear - G. assert (K : flat_map (fun e : extract => ch_preds (snd e)) es = [] /\ flat_map (fun e : extract => ch_accept (snd e)) es = []).
    { induction es as [|e es IH]; [auto|]. destruct IH as [A B]; [intros; apply G; simpl; auto|]. cbn [flat_map]. rewrite A, B. destruct (G e ltac:(simpl; auto)) as [-> ->]. auto. }
    destruct K as [-> ->]. auto.
Qed.
Theorem C119_chains : forall cpus limit h X y rs e, no_nan X -> length y = length (mx_rows X) ->
  est_fit cpus limit (construct default_hyper) h X y rs = Ok e ->
  exists es, ft_samples (es_fitted e) = Some (all_samples es) /\ length es = 4%nat /\
    Forall2 (fun x r => exists h0 m m' r' steps,
      start_model X y true h0 1 (sk_par (default_sk limit)) = Ok m /\ sampling (stores_every 200 10 false) 0 m r steps m' r' /\ length steps = 400%nat /\
      length (ch_models (snd x)) = 20%nat /\
      forall i sm, nth_error (ch_models (snd x)) i = Some sm -> exists d m1, nth_error steps (200 + i * 10) = Some (d, m1) /\ sample_of (m_heap m') sm m1)
    es (firstn 4 rs).
Proof.
  intros cpus limit h X y rs e Hn Hl E. destruct (default_fit _ _ _ _ _ _ _ E) as (b&s&Hf&->). cbn [fitted_of es_fitted ft_samples].
  destruct (C50_chain_order _ _ _ _ _ _ _ Hn Hl Hf) as (es&Hss&Hle&_&_&_&HF). exists es. split; [exact Hss|]. split; [exact Hle|].
  eapply Forall2_impl_in; [|exact HF]. intros x r _ _ (h0&m&m'&r'&Hm&Hs&_).
  destruct (C43_one_in_k X y true h0 1 (sk_par (default_sk limit)) [] m 200 200 10 _ _ _ _ _ _ Hn ltac:(split; auto; split; [constructor|]; exists m; auto) ltac:(lia) Hs) as (L&steps&A&B&C).
  exists h0, m, m', r', steps. split; [exact Hm|]. split; [exact A|]. split; [exact B|]. split; [exact L|exact C].
Qed.
Theorem C119_predict : forall cpus limit h X y rs e, no_nan X -> length y = length (mx_rows X) ->
  est_fit cpus limit (construct default_hyper) h X y rs = Ok e ->
  est_predict limit e None = Raise EValueError /\
  forall X', (mx_ncols X <= mx_ncols X')%nat -> exists lo hi ss ps v, range_of y lo hi /\ ft_samples (es_fitted e) = Some ss /\ samples_say ss X' ps /\ length ps = 80%nat /\
    est_predict limit e (Some X') = Ok v /\ length v = length (mx_rows X') /\
    forall i, (i < length (mx_rows X'))%nat -> nth i v 0 = mean (map (fun p => in_units lo hi (nth i p 0)) ps).
Proof.
  intros cpus limit h X y rs e Hn Hl E. destruct (C119_stored _ _ _ _ _ _ _ Hn Hl E) as (_&(ss0&_&Es&L&_)&_). destruct (default_fit _ _ _ _ _ _ _ E) as (b&s&Hf&->). split; [reflexivity|].
  intros X' HX. cbn [fitted_of es_fitted ft_samples] in *. destruct (C50_mean_of_samples _ _ _ _ _ _ _ X' Hn Hl Hf HX) as (lo&hi&ss&ps&Hr&Hss&Hsay&_&_&H).
  rewrite Es in Hss. injection Hss as <-. destruct H as (v&Hv&Hlv&Hm); [intros ->; discriminate|].
  exists lo, hi, ss0, ps, v. split; auto. split; auto. split; auto. split; [rewrite <- L; symmetry; eapply PModel7.Forall2_length; exact Hsay|].
  split; [|split; auto; intros i Hi; now apply Hm].
  rewrite <- Hv. unfold est_predict, sk_predict, out_of_sample_predict. reflexivity.
Qed.
(** The default prior: a node at depth d is split with probability 0.95 / (1 + d)^2; growing and pruning are each proposed with
    probability 1/2; the prior of sigma has the parameters 0.001; the     standard deviation of a leaf is 0.5 / (2 sqrt 200), so that the sum over the trees has the standard deviation 1/4. *)
Lemma Rpower_m2 x : 0 < x -> Rpower x (- (2)) = / (x * x).
Proof. intros H. rewrite Rpower_Ropp. replace 2 with (1 + 1) by ring. now rewrite Rpower_plus, Rpower_1 by auto. Qed.
Theorem C119_prior : forall limit d, let p := sk_par (default_sk limit) in
  split_prior p d = 95 / 100 / ((1 + INR d) * (1 + INR d)) /\ pa_pgrow p = / 2 /\ pa_pprune p = / 2 /\ pa_siga p = / 1000 /\ pa_sigb p = / 1000 /\
  sigma_m p = XFin (/ (4 * sqrt 200)) /\ INR (pa_ntrees p) * (/ (4 * sqrt 200) * / (4 * sqrt 200)) = / 4 * / 4.
Proof.
  intros limit d p. assert (S : 0 < sqrt 200) by (apply sqrt_lt_R0; lra). assert (Q : sqrt 200 * sqrt 200 = 200) by (apply sqrt_sqrt; lra).
  assert (N : INR (pa_ntrees p) = 200) by (change (INR (pa_ntrees p)) with (INR 200); rewrite INR_IZR_INZ; reflexivity). split; [|do 4 (split; [reflexivity|]); split].
  - unfold split_prior. change (pa_alpha p) with (95 / 100). change (pa_beta p) with 2. rewrite plus_INR. change (INR 1) with 1. assert (D := pos_INR d). rewrite Rpower_m2 by lra. reflexivity.
  - rewrite PSampler.sigma_m_fin; [|change (0 < 2); lra|change (1 <= 200)%nat; lia]. f_equal. unfold tau_of. rewrite N. change (pa_k p) with 2. field. lra.
  - rewrite N. assert (K : / (4 * sqrt 200) * / (4 * sqrt 200) = / (4 * 4 * (sqrt 200 * sqrt 200))) by (field; lra). rewrite K, Q. field.
Qed.
(** A default fit can succeed exactly on data with a column that is not constant on the rows after the first. *)
Theorem C119_possible : forall bk limit h n ds, (0 < limit)%nat -> rows_no_nan n ds -> (exists a b, In a (map snd ds) /\ In b (map snd ds) /\ a <> b) ->
  (can_fit_rows bk (default_sk limit) h n ds <->
   exists v d1 d2, (v < n)%nat /\ In d1 (tl ds) /\ In d2 (tl ds) /\ cell (fst d1) v <> cell (fst d2) v).
Proof.
  intros bk limit h n ds Hl Hn Hy. apply C77_criterion; auto. unfold asks_for_work, sane_params, default_sk, as_sklearn. cbn.
  repeat split; try lra; try lia. exists 10%Z, 1%positive. split; [reflexivity|discriminate].
Qed.
Example C119_case : forall h, exists rs e, est_fit 2 1000 (construct default_hyper) h (Mx 1 (map fst ox_data)) (map snd ox_data) rs = Ok e.
Proof.
  intros h. assert (P : can_fit_rows Processes (default_sk 1000) h 1 ox_data).
  { apply C119_possible; [lia|apply ox_no_nan; auto| |].
    - exists 5, 7. simpl. split; auto. split; auto. lra.
    - exists 0%nat, ([fz 1], 7), ([fz 2], 9). simpl. split; auto. split; auto. split; auto. unfold cell. simpl. discriminate. }
  destruct P as (rs&s'&_&Hf). exists rs. eexists. unfold est_fit. pose proof Hf as Hg. unfold fit in Hg. fold (default_sk 1000).
  destruct (construct_model (default_sk 1000) h _ _) as [s1| |]; try discriminate. cbn [rbind]. change (backend_of 2 (hy_njobs (es_hyper (construct default_hyper)))) with (@Ok backend Processes). cbn [rbind].
  rewrite Hf. reflexivity.
Qed.

Print Assumptions C119_stored.
Print Assumptions C119_chains.
Print Assumptions C119_predict.
Print Assumptions C119_prior.
Print Assumptions C119_possible.
