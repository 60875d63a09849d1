(** Properties C61, C64, C70, continued: see /verif/properties.jsonl. *)
From Coq Require Import Reals Lra Lia ZArith.
From Verif Require Import Base Fl Ext MData MSplit MTree MSampler MModel MModelHist MSklearn MFeatures Spec SpecTree SpecModel SpecSklearn SpecFeatures SpecInvariance.
From Verif Require Import LList PModel7 PRel PRel2 PRel3 PInvar PHeap PSklearn PFeatures Properties_Model Properties_Model2 Properties_Sklearn Properties_Features Properties_Features2 Properties_Features3 Properties_Invariance.
Local Open Scope R_scope.

(** ** C61 *)
(** a percentile outside 0..100 is refused, whatever the null distribution *)
Theorem C61_out_of_range : forall q, q < 0 \/ 100 < q ->
  (forall xs, percentile xs q = Raise EValueError) /\ (forall null, null <> [] -> local_thresholds null q = Raise EValueError).
Proof.
  intros q Hq. assert (H : forall xs, percentile xs q = Raise EValueError).
  { intros xs. unfold percentile. destruct (Rlt_dec q 0); auto. destruct (Rlt_dec 100 q); auto. lra. }
  split; auto. intros [|[f xs] null] Hn; [congruence|]. cbn [local_thresholds]. rewrite H. reflexivity.
Qed.
Print Assumptions C61_out_of_range.
(** and one inside is answered for every non-empty list of values *)
Theorem C61_in_range : forall q xs, 0 <= q <= 100 -> xs <> [] -> exists c, percentile xs q = Ok c.
Proof.
  intros q xs Hq Hx. unfold percentile. destruct (Rlt_dec q 0); [lra|]. destruct (Rlt_dec 100 q); [lra|]. destruct xs; [congruence|eauto].
Qed.
Print Assumptions C61_in_range.
Example C61_range_case : local_thresholds [(0%nat, [1; 2]); (1%nat, [3; 4])] 101 = Raise EValueError /\ exists c, percentile [1; 2] 100 = Ok c.
Proof. split; [apply C61_out_of_range; [lra|congruence]|apply C61_in_range; [lra|congruence]]. Qed.

(** ** C70 *)
(** The number of trees asked for is that of the model the selector fits, and nothing else is changed. *)
Theorem C70_n_trees : forall m q name n s, make_select_null m q name n = Ok s ->
  sn_percentile s = q /\
  match n with
  | None => sn_model s = m
  | Some k => exists mp, sn_model s = mp /\
      (* the number of trees *)
      pa_ntrees (sk_par mp) = k /\
      (* every other argument of the estimator *)
      pa_alpha (sk_par mp) = pa_alpha (sk_par m) /\ pa_beta (sk_par mp) = pa_beta (sk_par m) /\ pa_k (sk_par mp) = pa_k (sk_par m) /\
      pa_siga (sk_par mp) = pa_siga (sk_par m) /\ pa_sigb (sk_par mp) = pa_sigb (sk_par m) /\
      pa_pgrow (sk_par mp) = pa_pgrow (sk_par m) /\ pa_pprune (sk_par mp) = pa_pprune (sk_par m) /\ pa_limit (sk_par mp) = pa_limit (sk_par m) /\
      sk_nchains mp = sk_nchains m /\ sk_nsamples mp = sk_nsamples m /\ sk_nburn mp = sk_nburn m /\ sk_thin mp = sk_thin m /\
      sk_store_preds mp = sk_store_preds m /\ sk_store_accept mp = sk_store_accept m /\
      (* what an earlier fit left in it *)
      sk_data mp = sk_data m /\ sk_model mp = sk_model m /\ sk_samples mp = sk_samples m /\ sk_preds mp = sk_preds m /\ sk_accept mp = sk_accept m
  end.
Proof.
  intros m q name n s. unfold make_select_null. destruct name; try discriminate; destruct n; intros [= <-]; (split; [reflexivity|]); try reflexivity; eexists; (split; [reflexivity|]); cbn; tauto.
Qed.
Print Assumptions C70_n_trees.
(** so every sample of the real fit, with which the null distribution starts, consists of that many trees, and so does every
    sample of the permuted runs *)
Theorem C70_trees_per_sample : forall b m q name n s h X y rs m1, no_nan X -> length y = length (mx_rows X) ->
  make_select_null m q name n = Ok s -> fit b (sn_model s) h X y rs = Ok m1 ->
  exists tss, holds_trees (mx_ncols X) m1 tss /\
    Forall (fun ts => length ts = match n with Some k => k | None => pa_ntrees (sk_par m) end) tss.
Proof.
  intros b m q name n s h X y rs m1 Hn Hl Hm Hf. destruct (C59_samples_are_trees _ _ _ _ _ _ _ Hn Hl Hf) as (tss&A&B). exists tss. split; auto.
  destruct (C70_n_trees _ _ _ _ _ Hm) as [_ Hs]. destruct n; [destruct Hs as (mp&Em&<-&_); subst mp|rewrite <- Hs]; auto.
Qed.
Print Assumptions C70_trees_per_sample.
Example C70_n_trees_case : exists s, make_select_null ex_sk (95 / 100) MethodLocal (Some 7%nat) = Ok s /\ pa_ntrees (sk_par (sn_model s)) = 7%nat /\ sk_nchains (sn_model s) = sk_nchains ex_sk.
Proof. eexists. split; [reflexivity|]. split; reflexivity. Qed.

(** ** C64 *)
Lemma run_chain_heap s h X y r c s' h' : run_chain s h X y r = Ok (c, s', h') -> sk_heap s' h = h' /\ (forall h0, sk_heap s' h0 = h').
Proof.
  unfold run_chain. destruct (construct_model s h X y) as [s1| |]; try discriminate. cbn [rbind]. destruct (sk_model s1) as [m|]; try discriminate.
  destruct (sk_data s1) as [d|]; try discriminate. destruct (samples _ _ _ _ _ _ _) as [[[c1 m1] r1]| |]; try discriminate. cbn [rbind]. intros [= _ <- <-]. auto.
Qed.
Lemma run_here_heap X y : forall n s h rs cs s' h', heap_ok h -> (forall h0, sk_heap s h0 = h) -> run_here n s h X y rs = Ok (cs, s', h') -> heap_ok h' /\ forall h0, sk_heap s' h0 = h'.
Proof.
  induction n as [|n IH]; intros s h rs cs s' h' W Hs; cbn [run_here]; [now intros [= _ <- <-]|]. destruct rs as [|r rs]; try discriminate.
  destruct (run_chain s h X y r) as [[[c s1] h1]| |] eqn:E; try discriminate. cbn [rbind].
  destruct (run_here n s1 h1 X y rs) as [[[cs' s2] h2]| |] eqn:E2; try discriminate. cbn [rbind]. intros [= _ <- <-].
  eapply IH; [|apply (run_chain_heap _ _ _ _ _ _ _ _ E)|exact E2]. apply (run_chain_grows _ _ _ _ _ _ _ _ E). auto.
Qed.
Lemma store_heap s es s' h0 : store_chains s es = Ok s' -> sk_heap s' h0 = sk_heap s h0.
Proof. unfold store_chains. destruct (combine_chains es) as [[[ms ps] acs]| |]; try discriminate. cbn [rbind]. now intros [= <-]. Qed.
Lemma fit_heap b s h X y rs s' h0 : heap_ok h -> fit b s h X y rs = Ok s' -> heap_ok (sk_heap s' h0).
Proof.
  intros W. unfold fit. destruct (construct_model s h X y) as [s1| |] eqn:E; try discriminate. cbn [rbind]. destruct (sk_model s1) as [m|] eqn:Em; try discriminate.
  assert (Wm : heap_ok (m_heap m)) by (apply (construct_grows _ _ _ _ _ _ E Em); auto). assert (Hs1 : forall h1, sk_heap s1 h1 = m_heap m) by (intros; unfold sk_heap; now rewrite Em).
  destruct b.
  - destruct (run_processes _ rs) as [es| |]; try discriminate. cbn [rbind]. intros H. rewrite (store_heap _ _ _ h0 H), Hs1. auto.
  - destruct (run_here _ s1 (m_heap m) X y rs) as [[[cs s2] h2]| |] eqn:E2; try discriminate. cbn [rbind]. intros H. rewrite (store_heap _ _ _ h0 H).
    destruct (run_here_heap _ _ _ _ _ _ _ _ _ Wm Hs1 E2) as [A ->]. auto.
Qed.
Lemma same_settings_trans s1 s2 s3 : same_settings s1 s2 -> same_settings s2 s3 -> same_settings s1 s3.
Proof. unfold same_settings. intuition congruence. Qed.
Lemma same_settings_refl s : same_settings s s.
Proof. unfold same_settings. tauto. Qed.
Lemma fit_settings b s h X y rs s' : no_nan X -> length y = length (mx_rows X) -> fit b s h X y rs = Ok s' -> same_settings s s'.
Proof.
  intros Hn Hl Hf. destruct (fit_spec _ _ _ _ _ _ _ Hn Hl Hf) as (d&m&es&_&_&_&_&Hset&_). apply settings_fields in Hset. unfold same_settings. tauto.
Qed.
Lemma fit_again b s s1 h h1 X y rs m : heap_ok h -> heap_ok h1 -> same_settings s s1 -> fit b s1 h1 X y rs = Ok m ->
  exists m0, fit b s h X y rs = Ok m0 /\ follows (fun v => v) (fun X' => X') m0 m.
Proof.
  intros W W1 Hs Hf.
  pose proof (fit_follow idc ltac:(auto) ltac:(auto) ltac:(auto) ltac:(auto) ltac:(auto) idr eq_refl 1 ltac:(ring) X y y
    (convert_recode idc X y) (fun v => v) (fun d v _ => units_id d v) b b s s1 h h1 rs W W1 Hs) as H.
  rewrite tX_idc, trgs_1 in H. cbv beta in H. rewrite Hf in H. destruct (fit b s h X y rs) as [m0| |]; try contradiction. eauto.
Qed.
Lemma rmse_follows m m' X y e : follows (fun v => v) (fun X' => X') m m' -> sk_rmse m' X y = Ok e -> sk_rmse m X y = Ok e.
Proof.
  intros (_&H&_). specialize (H X). unfold sk_rmse, rmse_with, l2_with, residuals_with. destruct (sk_predict m' (Some X)) as [v'| |]; try discriminate.
  destruct (sk_predict m (Some X)) as [v| |]; try contradiction. cbn [same_outcome] in H. subst v'. rewrite map_id. auto.
Qed.
Lemma take_rows_spec X ix X' : take_rows X ix = Ok X' -> X' = Mx (mx_ncols X) (map (fun i => nth i (mx_rows X) []) ix) /\ forall i, In i ix -> (i < length (mx_rows X))%nat.
Proof. unfold take_rows. destruct (forallb _ ix) eqn:E; [|discriminate]. intros [= <-]. split; auto. apply forallb_lt. auto. Qed.
Lemma take_values_spec y ix y' : take_values y ix = Ok y' -> y' = map (fun i => nth i y 0) ix.
Proof. unfold take_values. destruct (forallb _ ix); [|discriminate]. now intros [= <-]. Qed.
(** the rows and the targets with the given numbers *)
Definition rows_of (X : matrix) (ix : list nat) : matrix := Mx (mx_ncols X) (map (fun i => nth i (mx_rows X) []) ix).
Definition targets_of (y : list R) (ix : list nat) : list R := map (fun i => nth i y 0) ix.
Lemma rows_of_no_nan X ix : no_nan X -> (forall i, In i ix -> (i < length (mx_rows X))%nat) -> no_nan (rows_of X ix).
Proof. unfold no_nan, rows_of. simpl. intros H Hi r v Hr. apply in_map_iff in Hr as (i&<-&Hin). apply H. apply nth_In. auto. Qed.
(** The errors reported for the original data: one per fold, each that of an estimator with the caller's settings
    fitted to that fold's training rows, on that fold's test rows.  What happened in earlier folds has no effect. *)
Theorem C64_original_errors : forall b s h X y folds es, heap_ok h -> no_nan X -> original_rmses b s h X y folds = Ok es ->
  Forall2 (fun f e => let '(train, test, rs) := f in
    exists m, fit b s h (rows_of X train) (targets_of y train) rs = Ok m /\ sk_rmse m (rows_of X test) (targets_of y test) = Ok e) folds es.
Proof.
  intros b s h X y folds es W Hn. cut (forall folds es s1 h1, heap_ok h1 -> same_settings s s1 -> original_rmses b s1 h1 X y folds = Ok es ->
    Forall2 (fun f e => let '(train, test, rs) := f in
    exists m, fit b s h (rows_of X train) (targets_of y train) rs = Ok m /\ sk_rmse m (rows_of X test) (targets_of y test) = Ok e) folds es).
  { intros H E. apply (H _ _ _ _ W (same_settings_refl s) E). }
  clear folds es. induction folds as [|[[train test] rs] folds IH]; intros es s1 h1 W1 Hs; cbn [original_rmses]; [intros [= <-]; constructor|].
  destruct (take_rows X train) as [X1| |] eqn:E1; try discriminate. cbn [rbind]. destruct (take_values y train) as [y1| |] eqn:E2; try discriminate. cbn [rbind].
  destruct (fit b s1 h1 X1 y1 rs) as [s2| |] eqn:Ef; try discriminate. cbn [rbind]. destruct (take_rows X test) as [X2| |] eqn:E3; try discriminate. cbn [rbind].
  destruct (take_values y test) as [y2| |] eqn:E4; try discriminate. cbn [rbind]. destruct (sk_rmse s2 X2 y2) as [e| |] eqn:Er; try discriminate. cbn [rbind].
  destruct (original_rmses b s2 (sk_heap s2 h1) X y folds) as [es'| |] eqn:Eo; try discriminate. cbn [rbind]. intros [= <-].
  destruct (take_rows_spec _ _ _ E1) as [-> Hi]. destruct (take_rows_spec _ _ _ E3) as [-> _]. apply take_values_spec in E2, E4. subst y1 y2.
  constructor.
  - destruct (fit_again b s s1 h h1 _ _ rs s2 W W1 Hs Ef) as (m&Em&Hm). exists m. split; [exact Em|]. exact (rmse_follows _ _ _ _ _ Hm Er).
  - apply (IH _ s2 (sk_heap s2 h1)); auto.
    + eapply fit_heap; eauto.
    + eapply same_settings_trans; [exact Hs|]. eapply fit_settings; [| |exact Ef]; [apply (rows_of_no_nan X train); auto|]. simpl. now rewrite !map_length.
Qed.
Print Assumptions C64_original_errors.
Lemma ex_rmse b s h rs m ix : fit b s h mx_X mx_y rs = Ok m -> sk_nchains s = 2%nat -> sk_nsamples s = 5%nat -> sk_thin s = TInv 2 1 ->
  (forall i, In i ix -> (i < 3)%nat) -> exists e, sk_rmse m (rows_of mx_X ix) (targets_of mx_y ix) = Ok e.
Proof.
  intros Hf Hc Hsn Ht Hi. destruct (C50_one_in_k b s h mx_X mx_y rs m 2 mx_no_nan eq_refl Hf Ht ltac:(lia)) as (ss&Hss&Hlen). rewrite Hc, Hsn in Hlen.
  destruct (C50_mean_of_samples b s h mx_X mx_y rs m (rows_of mx_X ix) mx_no_nan eq_refl Hf (le_n _)) as (lo&hi&ss'&ps&_&Hss'&_&_&_&H). rewrite Hss in Hss'. injection Hss' as <-.
  destruct H as (v&Hv&Hl&_); [intros ->; discriminate|]. unfold sk_rmse, rmse_with, l2_with, residuals_with. rewrite Hv. cbn [rbind].
  unfold vop. unfold rows_of in Hl. cbn [mx_rows] in Hl. rewrite map_length in Hl. unfold targets_of. rewrite map_length, Hl, Nat.eqb_refl. cbn [rbind]. eauto.
Qed.
Example C64_original_case : forall b, exists rs es, length es = 2%nat /\ original_rmses b ex_sk ex_empty mx_X mx_y [([0; 1; 2]%nat, [0; 2]%nat, rs); ([0; 1; 2]%nat, [1]%nat, rs)] = Ok es.
Proof.
  intros b. destruct (ex_fit b) as (rs&s1&_&E1).
  pose proof (C73_refit b b ex_sk ex_empty mx_X mx_y rs s1 ex_empty (sk_heap s1 ex_empty) mx_X mx_y rs ex_heap_ok (fit_heap _ _ _ _ _ _ _ _ ex_heap_ok E1) mx_no_nan eq_refl E1) as B.
  rewrite E1 in B. destruct (fit b s1 (sk_heap s1 ex_empty) mx_X mx_y rs) as [s2| |] eqn:E2; try contradiction. clear B.
  destruct (ex_rmse b ex_sk ex_empty rs s1 [0; 2]%nat E1 eq_refl eq_refl eq_refl ltac:(intros i [<-|[<-|[]]]; lia)) as (e1&R1).
  destruct (fit_settings b ex_sk ex_empty mx_X mx_y rs s1 mx_no_nan eq_refl E1) as (_&S1&S2&_&S3&_).
  destruct (ex_rmse b s1 (sk_heap s1 ex_empty) rs s2 [1]%nat E2 S1 S2 S3 ltac:(intros i [<-|[]]; lia)) as (e2&R2).
  exists rs, [e1; e2]. split; [reflexivity|]. cbn [original_rmses].
  change (take_rows mx_X [0; 1; 2]%nat) with (Ok mx_X). change (take_values mx_y [0; 1; 2]%nat) with (Ok mx_y). cbn [rbind]. rewrite E1. cbn [rbind].
  change (take_rows mx_X [0; 2]%nat) with (Ok (rows_of mx_X [0; 2]%nat)). change (take_values mx_y [0; 2]%nat) with (Ok (targets_of mx_y [0; 2]%nat)). cbn [rbind]. rewrite R1. cbn [rbind].
  rewrite E2. cbn [rbind]. change (take_rows mx_X [1]%nat) with (Ok (rows_of mx_X [1]%nat)). change (take_values mx_y [1]%nat) with (Ok (targets_of mx_y [1]%nat)). cbn [rbind]. rewrite R2. reflexivity.
Qed.
