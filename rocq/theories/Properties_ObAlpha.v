(** Property C78 with the oblivious tree sampler: see /verif/properties.jsonl. *)
From Coq Require Import Reals Lra Lia ZArith Permutation.
From Verif Require Import Base Fl Ext MData MSplit MTree MSampler MHist MTreeHist MModel MModelHist MSklearn MDiag MOblivious MObModel MObSklearn Spec SpecTree SpecSampler SpecModel SpecSklearn SpecOblivious SpecObModel SpecObSklearn SpecDiag SpecAlpha.
From Verif Require Import LFl LList PData PSplit PDataProps PCond PTree PPred PTreeHist PModel PModel7 PModel8 PSklearn PSklearn2 PSklearn3 POblivious POblivious2 PObModel PObModel2 PObModel3 PObModel4 PObModel5 PObSklearn PObSklearn2 PAlpha PObAlpha
  Properties_Model Properties_Model2 Properties_Sklearn Properties_Alpha Properties_ObModel Properties_ObSklearn.
Local Open Scope R_scope.

(** A step that finds only single leaves leaves only single leaves, and accepts nothing. *)
Theorem C78_oblivious_no_growth : forall X y nrm h0 sigma p os m r d acts m' r', no_nan X -> forbids_growth p ->
  ob_model_reached X y nrm h0 sigma p os m -> Forall (fun t => length (tr_nodes t) = 1%nat) (m_trees m) -> nonneg_draws r -> ob_gibbs_step m r = Ok (d, acts, m', r') ->
  map tr_nodes (m_trees m') = map tr_nodes (m_trees m) /\ (forall k x, In (k, x) d -> x = 0).
Proof.
  intros X y nrm h0 sigma p os m r d acts m' r' Hn Ha Hr Hst Hu Hg. destruct (ob_model_reached_spec _ _ _ _ _ _ _ _ Hn Hr) as (e&H&_&_&Hp).
  exact (ob_gibbs_sterile _ _ _ _ _ _ _ _ _ Hn H (proj1 (udraws_nonneg r) Hu) Hst ltac:(unfold sterile; now rewrite Hp) Hg).
Qed.
Print Assumptions C78_oblivious_no_growth.
Lemma all_udraws rs : Forall nonneg_draws rs -> Forall udraws rs.
Proof. apply Forall_impl. intros r. apply udraws_nonneg. Qed.
Lemma forall2_right_in {A B} (P : A -> B -> Prop) l l' : Forall2 P l l' -> forall a, In a l -> exists b, In b l' /\ P a b.
Proof. induction 1 as [|a b l l' H _ IH]; intros c Hc; [destruct Hc|]. destruct Hc as [<-|Hc]; [exists b; simpl; auto|]. destruct (IH c Hc) as (b'&?&?). exists b'. simpl. auto. Qed.
(** All samples consist of single leaves ... *)
Theorem C78_oblivious_single_leaves : forall b s h X y rs s', no_nan X -> length y = length (mx_rows X) -> forbids_growth (sk_par s) -> Forall nonneg_draws rs ->
  ob_fit b s h X y rs = Ok s' ->
  exists ss, sk_samples s' = Some ss /\ forall st t, In st ss -> In t (sm_trees (snd st)) -> length (tr_nodes t) = 1%nat.
Proof.
  intros b s h X y rs s' Hn Hl Ha Hu Hf. apply all_udraws in Hu.
  destruct (ob_fit_spec _ _ _ _ _ _ _ Hn Hl Hu Hf) as (d&m&es&_&_&_&_&_&_&_&_&HR&Es&_).
  eexists. split; [exact Es|]. intros st t Hst Ht. apply in_flat_map in Hst as (e&He&Hst). apply in_map_iff in Hst as (sm&<-&Hsm). simpl in Ht.
  destruct (forall2_right_in _ _ _ HR e He) as (r&Hr&Hc). assert (Hur : udraws r) by (rewrite Forall_forall in Hu; apply Hu; rewrite <- (firstn_skipn (sk_nchains s) rs); apply in_app_iff; auto).
  destruct (ob_chain_flat _ _ _ _ _ Hn Hl Hur Ha Hc) as [F _]. rewrite Forall_forall in F. specialize (F sm Hsm). unfold PObAlpha.flat in F. rewrite Forall_forall in F. auto.
Qed.
Print Assumptions C78_oblivious_single_leaves.
Lemma same_flat_r h ts h' ts' : same_conditions h ts h' ts' -> Forall (fun t => length (tr_nodes t) = 1%nat) ts -> Forall (fun t => length (tr_nodes t) = 1%nat) ts'.
Proof. induction 1 as [|t t' ts ts' H _ IH]; intros F; constructor; inversion F; subst; auto. rewrite <- (PModel7.Forall2_length _ _ _ H). auto. Qed.
(** ... the predictions are the same number for all rows without NaN and -inf ... *)
Theorem C78_oblivious_constant_predictions : forall b s h X y rs s' X' v i j, no_nan X -> length y = length (mx_rows X) -> forbids_growth (sk_par s) -> Forall nonneg_draws rs ->
  ob_fit b s h X y rs = Ok s' -> (mx_ncols X <= mx_ncols X')%nat -> sk_predict s' (Some X') = Ok v ->
  (i < length (mx_rows X'))%nat -> row_clean (mx_ncols X) (nth i (mx_rows X') []) = true ->
  (j < length (mx_rows X'))%nat -> row_clean (mx_ncols X) (nth j (mx_rows X') []) = true -> nth i v 0 = nth j v 0.
Proof.
  intros b s h X y rs s' X' v i j Hn Hl Ha Hu Hf Hc Hv Hi Ci Hj Cj.
  destruct (C89_mean_of_samples b s h X y rs s' X' Hn Hl Hu Hf Hc) as (lo&hi&ss&ps&_&Es&Hsay&_&H0&H1).
  assert (Hss : ss <> []) by (intros ->; rewrite H0 in Hv by auto; discriminate). destruct (H1 Hss) as (v'&Hv'&_&Hnth). rewrite Hv in Hv'. injection Hv' as <-.
  destruct (Hnth i Hi) as [-> _]. destruct (Hnth j Hj) as [-> _]. f_equal. clear H0 H1 Hnth Hv.
  apply all_udraws in Hu. destruct (ob_fit_spec _ _ _ _ _ _ _ Hn Hl Hu Hf) as (d&m&es&_&_&_&_&_&_&_&_&HR&Es'&_). rewrite Es in Es'. injection Es' as ->.
  apply map_ext_in. intros p Hp. f_equal.
  assert (G : exists st, In st (flat_map (fun e : extract => map (fun sm => (fst e, sm)) (ch_models (snd e))) es) /\ sample_predict (fst st) (snd st) X' = Ok p).
  { exact (in_right _ _ _ Hsay p Hp). }
  destruct G as (st&Hst&Ep). apply in_flat_map in Hst as (e&He&Hst). apply in_map_iff in Hst as (sm&<-&Hsm). cbn [fst snd] in Ep.
  destruct (forall2_right_in _ _ _ HR e He) as (r&Hr&Hch). assert (Hur : udraws r) by (rewrite Forall_forall in Hu; apply Hu; rewrite <- (firstn_skipn (sk_nchains s) rs); apply in_app_iff; auto).
  destruct (ob_chain_flat _ _ _ _ _ Hn Hl Hur Ha Hch) as [F _]. rewrite Forall_forall in F. specialize (F sm Hsm).
  destruct Hch as (hs&m0&m'&r'&kept&_&_&_&(F1&F2&_)&_). destruct (forall2_in_l _ _ _ F2 sm Hsm) as (st&Hk&(_&Hsc&Hpr)).
  rewrite Forall_forall in F1. destruct (F1 st Hk) as (e0&Hei&_). rewrite Hpr in Ep.
  eapply (ob_stump_const X _ e0 (snd st) X'); eauto. eapply same_flat_r; [exact Hsc|exact F].
Qed.
Print Assumptions C78_oblivious_constant_predictions.
(** ... and the acceptance rates shown are all zero. *)
Theorem C78_oblivious_acceptance_zero : forall b s h X y rs s' xs, no_nan X -> length y = length (mx_rows X) -> forbids_growth (sk_par s) -> Forall nonneg_draws rs ->
  ob_fit b s h X y rs = Ok s' -> plot_tree_mutation_acceptance_rate s' = Ok xs -> forall x, In x xs -> x = 0.
Proof.
  intros b s h X y rs s' xs Hn Hl Ha Hu Hf. apply all_udraws in Hu. destruct (ob_fit_spec _ _ _ _ _ _ _ Hn Hl Hu Hf) as (d&m&es&_&_&_&_&_&_&_&_&HR&_&_&Ea).
  unfold plot_tree_mutation_acceptance_rate. rewrite Ea.
  assert (F : Forall PObAlpha.no_moves (flat_map (fun e : extract => ch_accept (snd e)) es)).
  { apply Forall_forall. intros q Hq. apply in_flat_map in Hq as (e&He&Hq). destruct (forall2_right_in _ _ _ HR e He) as (r&Hr&Hch).
    assert (Hur : udraws r) by (rewrite Forall_forall in Hu; apply Hu; rewrite <- (firstn_skipn (sk_nchains s) rs); apply in_app_iff; auto).
    destruct (ob_chain_flat _ _ _ _ _ Hn Hl Hur Ha Hch) as [_ F]. rewrite Forall_forall in F. auto. }
  clear Ea. revert xs. induction F as [|q qs Hq _ IH]; intros xs; cbn [trace_rates]; [intros [= <-] x []|].
  destruct (trace_get q) as [w| |] eqn:Eg; try discriminate. cbn [rbind]. destruct (trace_rates qs) as [ws| |] eqn:Er; try discriminate. cbn [rbind].
  intros [= <-] x [<-|Hx]; [|exact (IH ws eq_refl x Hx)]. clear - Hq Eg. induction q as [|[k x] q IH]; [discriminate|]. cbn [trace_get] in Eg.
  assert (Hq' : PObAlpha.no_moves q) by (intros k' x' Hin; apply (Hq k' x'); simpl; auto). destruct k; first [exact (IH Hq' Eg)|injection Eg as <-; apply (Hq KyTree x); simpl; auto].
Qed.
Print Assumptions C78_oblivious_acceptance_zero.
(** alpha = 2: the oblivious fit succeeds and predicts one number for three rows that differ *)
Example C78_oblivious_case : forall b, exists rs s' v, Forall nonneg_draws rs /\ ob_fit b al_sk ex_empty mx_X mx_y rs = Ok s' /\ sk_predict s' (Some mx_X) = Ok v /\ length v = 3%nat /\ nth 0 v 0 = nth 2 v 0.
Proof.
  intros b.
  destruct (C89_fit_possible b al_sk ex_empty mx_X mx_y 1 1) as (rs&s'&Hu&_&Hf); try reflexivity; try exact mx_no_nan; try exact mx_sane; try discriminate; try (simpl; lia).
  { exists 1, 2. simpl. repeat split; auto. lra. }
  destruct (C89_mean_of_samples b al_sk _ mx_X mx_y rs s' mx_X mx_no_nan eq_refl Hu Hf (le_n _)) as (lo&hi&ss&ps&_&Es&_&_&_&H1).
  destruct (C89_count b al_sk _ mx_X mx_y rs s' 1 1 1 1 mx_no_nan eq_refl Hu Hf eq_refl) as (ss'&Es'&L); try lia; auto. rewrite Es in Es'. injection Es' as <-. vm_compute in L.
  destruct H1 as (v&Hv&Lv&_); [intros ->; discriminate|]. exists rs, s', v. split; auto. split; auto. split; auto. split; auto.
  apply (C78_oblivious_constant_predictions b al_sk ex_empty mx_X mx_y rs s' mx_X v 0 2 mx_no_nan eq_refl ltac:(left; simpl; lra) Hu Hf (le_n _) Hv); simpl; try lia; reflexivity.
Qed.
