(** Properties C77 and C78: see /verif/properties.jsonl. *)
From Coq Require Import Reals Lra Lia ZArith Permutation.
From Verif Require Import Base Fl Ext MData MSplit MTree MSampler MHist MTreeHist MModel MModelHist MSklearn MDiag Spec SpecTree SpecSampler SpecModel SpecSklearn SpecFeatures SpecInvariance SpecDiag SpecAlpha.
From Verif Require Import LFl LList PData PSplit PDataProps PCond PTree PPred PTreeHist PModel PModel2 PModel4 PModel5 PModel7 PModel8 PModel10 PModel11 PModel12 PSklearn PSklearn2 PSklearn3 PFeatures PDiag PAlpha
  Properties_Model Properties_Model2 Properties_Sklearn Properties_Invariance Properties_Diag.
Local Open Scope R_scope.

(** ** C77 *)
(** some draws make the fit succeed *)
Definition can_fit (bk : backend) (s : sklearn) (h : heap) (X : matrix) (y : list R) : Prop := exists rs s', length rs = sk_nchains s /\ fit bk s h X y rs = Ok s'.
(** the training data given as a list of rows with their targets *)
Definition can_fit_rows (bk : backend) (s : sklearn) (h : heap) (n : nat) (ds : list (row * R)) : Prop := can_fit bk s h (Mx n (map fst ds)) (map snd ds).
Definition rows_no_nan (n : nat) (ds : list (row * R)) : Prop := forall d v, In d ds -> (v < n)%nat -> cell (fst d) v <> FNaN.
Definition asks_for_work (s : sklearn) : Prop :=
  sane_params (sk_par s) /\ (0 < pa_limit (sk_par s))%nat /\ (0 < sk_nchains s)%nat /\ (0 < sk_nburn s + sk_nsamples s)%nat /\
  exists num den, sk_thin s = TInv num den /\ num <> 0%Z.
Lemma rows_no_nan_mx n ds : rows_no_nan n ds -> no_nan (Mx n (map fst ds)).
Proof. intros H r v Hr Hv. simpl in *. apply in_map_iff in Hr as (d&<-&Hd). auto. Qed.
(** Exactly the data with a column that is not constant on the rows after the first can be fitted. *)
Theorem C77_criterion : forall bk s h n ds, rows_no_nan n ds -> asks_for_work s -> (exists a b, In a (map snd ds) /\ In b (map snd ds) /\ a <> b) ->
  (can_fit_rows bk s h n ds <->
   exists v d1 d2, (v < n)%nat /\ In d1 (tl ds) /\ In d2 (tl ds) /\ cell (fst d1) v <> cell (fst d2) v).
Proof.
  intros bk s h n ds Hn (Hp&Hlim&Hc&Hk&num&den&Ht&Hz) Hy. assert (L : length (map snd ds) = length (mx_rows (Mx n (map fst ds)))) by (simpl; now rewrite !map_length).
  pose proof (rows_no_nan_mx _ _ Hn) as Hn'.
  assert (V : varies (Mx n (map fst ds)) <-> exists v d1 d2, (v < n)%nat /\ In d1 (tl ds) /\ In d2 (tl ds) /\ cell (fst d1) v <> cell (fst d2) v).
  { unfold varies, value_in. simpl mx_ncols. simpl mx_rows. destruct ds as [|d ds]; [simpl; split; [intros (v&i&j&_&Hi&_); lia|intros (v&d1&_&_&[]&_)]|].
    cbn [tl map length]. rewrite map_length. split.
    - intros (v&i&j&Hv&Hi&Hj&Hd). destruct i as [|i], j as [|j]; try lia. cbn [nth] in Hd.
      rewrite !(nth_indep _ [] (fst d)), !map_nth in Hd by (rewrite map_length; lia).
      exists v, (nth i ds d), (nth j ds d). split; [auto|]. split; [apply nth_In; lia|]. split; [apply nth_In; lia|auto].
    - intros (v&d1&d2&Hv&H1&H2&Hd). apply In_nth with (d := d) in H1 as (i&Hi&E1), H2 as (j&Hj&E2). exists v, (S i), (S j).
      split; auto. split; [lia|]. split; [lia|]. cbn [nth]. rewrite !(nth_indep _ [] (fst d)), !map_nth by (rewrite map_length; lia). congruence. }
  rewrite <- V. split.
  - intros (rs&s'&_&Hf). destruct (offers_varies (Mx n (map fst ds))) as [_ _].
    destruct (Classical_Prop.classic (varies (Mx n (map fst ds)))) as [|Hv]; auto. exfalso. revert Hf. apply C66_constant_fit_stuck; auto.
  - intros Hv. apply (C66_fit_possible bk s h _ _ num den); auto.
Qed.
Print Assumptions C77_criterion.
(** Reordering the rows after the first does not matter. *)
Theorem C77_first_row_kept : forall bk s h n d ds ds', rows_no_nan n (d :: ds) -> asks_for_work s ->
  (exists a b, In a (map snd (d :: ds)) /\ In b (map snd (d :: ds)) /\ a <> b) ->
  Permutation ds ds' -> can_fit_rows bk s h n (d :: ds) -> can_fit_rows bk s h n (d :: ds').
Proof.
  intros bk s h n d ds ds' Hn Hs (a&b&Ha&Hb&Hab) HP Hf.
  assert (Hn' : rows_no_nan n (d :: ds')) by (intros q v [<-|Hq] Hv; apply Hn; simpl; auto; right; apply Permutation_in with ds'; auto; now symmetry).
  apply C77_criterion; auto.
  - exists a, b. assert (HP' : Permutation (map snd (d :: ds)) (map snd (d :: ds'))) by (apply Permutation_map; now constructor).
    split; [eapply Permutation_in; eauto|]. split; [eapply Permutation_in; eauto|auto].
  - apply C77_criterion in Hf; [|auto|auto|eauto]. destruct Hf as (v&d1&d2&Hv&H1&H2&Hd). exists v, d1, d2. cbn [tl] in *.
    split; auto. split; [eapply Permutation_in; eauto|]. split; [eapply Permutation_in; eauto|auto].
Qed.
Print Assumptions C77_first_row_kept.
(** Which row comes first does: three rows that can be fitted in one order and not in another. *)
Definition ox_data : list (row * R) := [([fz 2], 5); ([fz 1], 7); ([fz 2], 9)].
Definition ox_data' : list (row * R) := [([fz 1], 7); ([fz 2], 5); ([fz 2], 9)].
Lemma ex_asks : asks_for_work ex_sk.
Proof. split; [exact mx_sane|]. split; [simpl; lia|]. split; [simpl; lia|]. split; [simpl; lia|]. exists 2%Z, 1%positive. split; [reflexivity|discriminate]. Qed.
Lemma ox_no_nan ds : (forall d, In d ds -> In d ox_data) -> rows_no_nan 1 ds.
Proof. intros H d v Hd Hv. assert (v = 0%nat) as -> by lia. apply H in Hd. simpl in Hd. destruct Hd as [<-|[<-|[<-|[]]]]; discriminate. Qed.
Theorem C77_row_order_refuted : exists s n ds ds', asks_for_work s /\ rows_no_nan n ds /\ Permutation ds ds' /\
  (forall bk h, can_fit_rows bk s h n ds) /\ (forall bk h, ~ can_fit_rows bk s h n ds').
Proof.
  exists ex_sk, 1%nat, ox_data, ox_data'. split; [exact ex_asks|]. split; [apply ox_no_nan; auto|]. split; [apply perm_swap|]. split; intros bk h.
  - apply C77_criterion; [apply ox_no_nan; auto|exact ex_asks| |].
    + exists 5, 7. simpl. split; auto. split; auto. lra.
    + exists 0%nat, ([fz 1], 7), ([fz 2], 9). simpl. split; auto. split; auto. split; auto. unfold cell. simpl. discriminate.
  - intros Hf. apply C77_criterion in Hf; [|apply ox_no_nan; simpl; tauto|exact ex_asks|exists 5, 7; simpl; split; auto; split; auto; lra].
    destruct Hf as (v&d1&d2&Hv&H1&H2&Hd). simpl in H1, H2. assert (v = 0%nat) as -> by lia. apply Hd.
    destruct H1 as [<-|[<-|[]]], H2 as [<-|[<-|[]]]; reflexivity.
Qed.
Print Assumptions C77_row_order_refuted.

(** ** C78 *)
(** Whatever the trees' targets and the draws: a step that finds only single leaves leaves only single leaves, and accepts nothing. *)
Theorem C78_no_growth : forall X y nrm h0 sigma p os m r d acts m' r', no_nan X -> forbids_growth p ->
  model_reached X y nrm h0 sigma p os m -> Forall (fun t => length (tr_nodes t) = 1%nat) (m_trees m) -> gibbs_step m r = Ok (d, acts, m', r') ->
  map tr_nodes (m_trees m') = map tr_nodes (m_trees m) /\ (forall k x, In (k, x) d -> x = 0).
Proof.
  intros X y nrm h0 sigma p os m r d acts m' r' Hn Ha Hr Hst Hg. destruct (model_reached_spec _ _ _ _ _ _ _ _ Hn Hr) as (As&e&H&_&Hl&Hp).
  assert (Hs : sterile (m_par m)) by (rewrite Hp; exact Ha).
  pose proof (gibbs_sterile _ _ _ _ _ _ _ _ _ _ Hn H Hst Hs Hg) as Hsh. split; auto. intros k x Hin.
  destruct (C45_rates _ _ _ _ _ _ _ _ _ _ _ _ _ Hn Hr Hg) as (acc&_&Hacc&->&_). destruct (Nat.eqb_spec (pa_ntrees p) 0) as [|Hz]; [destruct Hin|].
  destruct Hin as [E|[]]. injection E as <- <-. destruct acc as [|k acc]; [simpl; unfold Rdiv; ring|]. exfalso.
  destruct (proj1 (Hacc k) (or_introl eq_refl)) as [_ Hne]. apply Hne. rewrite <- !nth_error_map. unfold shape in Hsh. now rewrite Hsh.
Qed.
Print Assumptions C78_no_growth.

Definition flat (s : sample) : Prop := Forall (fun t => length (tr_nodes t) = 1%nat) (sm_trees s).
Definition no_moves (d : list (skey * R)) : Prop := forall k x, In (k, x) d -> x = 0.
Lemma same_flat h ts h' ts' : same_conditions h ts h' ts' -> Forall (fun t => length (tr_nodes t) = 1%nat) ts' -> Forall (fun t => length (tr_nodes t) = 1%nat) ts.
Proof.
  induction 1 as [|t t' ts ts' H _ IH]; intros F; constructor; inversion F; subst; auto. rewrite (PModel7.Forall2_length _ _ _ H). auto.
Qed.
Lemma flat_step X y nrm h0 p os m r d acts m1 r1 : no_nan X -> forbids_growth p -> model_reached X y nrm h0 1 p os m -> stumps m ->
  gibbs_step m r = Ok (d, acts, m1, r1) -> model_reached X y nrm h0 1 p (os ++ [GStep r]) m1 /\ stumps m1 /\ no_moves d.
Proof.
  intros Hn Ha Hr Hst Eg. destruct (C78_no_growth _ _ _ _ _ _ _ _ _ _ _ _ _ Hn Ha Hr Hst Eg) as [E Hd].
  split; [eapply reached_app; [exact Hr|exact I|]; cbn [model_do]; rewrite Eg; reflexivity|]. split; auto. eapply stumps_shape; eauto.
Qed.
Lemma iter_flat X y nrm h0 p os m ss num den sp sa r c m' r' : no_nan X -> forbids_growth p -> model_reached X y nrm h0 1 p os m -> stumps m ->
  sample_iter ss num den sp sa m r = Ok (c, m', r') ->
  (exists os', model_reached X y nrm h0 1 p os' m') /\ stumps m' /\ Forall flat (ch_models c) /\ Forall no_moves (ch_accept c).
Proof.
  intros Hn Ha Hr Hs. unfold sample_iter. destruct (gibbs_step m r) as [[[[d acts] m1] r1]| |] eqn:Eg; try discriminate. cbn [rbind].
  destruct (flat_step _ _ _ _ _ _ _ _ _ _ _ _ Hn Ha Hr Hs Eg) as (R1&S1&D).
  destruct (num =? 0)%Z; [discriminate|]. destruct (keeps_sample ss num den).
  2: { intros [= <- <- <-]. split; eauto. repeat (split; [auto; constructor|]). simpl. constructor. }
  assert (P2 : forall ps m2, (if sp then let! (v, m2) := model_predict m1 in Ok ([v], m2) else Ok ([], m1)) = Ok (ps, m2) ->
    (exists os', model_reached X y nrm h0 1 p os' m2) /\ stumps m2).
  { intros ps m2. destruct sp; [|intros [= <- <-]; eauto]. destruct (model_predict m1) as [[v m2']| |] eqn:Ep; try discriminate. cbn [rbind]. intros [= <- <-].
    split; [eexists; eapply (reached_app _ _ _ _ _ _ _ _ GPredict); [exact R1|exact I|]; cbn [model_do]; rewrite Ep; reflexivity|].
    destruct (model_reached_spec _ _ _ _ _ _ _ _ Hn R1) as (As&e&H&_). destruct (model_predict_spec _ _ _ _ _ Hn H) as (v'&m2''&Ep'&_&_&_&Hsm&Hlk&_).
    assert (m2'' = m2') as -> by congruence. eapply stumps_shape; [|exact S1]. apply lkeeps_shape; auto. apply Hsm. }
  destruct (if sp then _ else _) as [[ps m2]| |] eqn:E2; try discriminate. cbn [rbind]. destruct (P2 _ _ eq_refl) as ((os2&R2)&S2).
  destruct (deep_copy_model m2) as [[sm m3]| |] eqn:E3; try discriminate. cbn [rbind]. intros [= <- <- <-]. cbn [ch_models ch_accept].
  destruct (model_reached_spec _ _ _ _ _ _ _ _ Hn R2) as (As&e&H&_). destruct (deep_copy_model_spec _ _ _ _ _ _ H) as (sm'&m3'&E3'&_&_&_&_&_&Ht&_&Hsc&_).
  rewrite E3 in E3'. assert (sm' = sm /\ m3' = m3) as [-> ->] by (split; congruence).
  split; [eexists; eapply (reached_app _ _ _ _ _ _ _ _ GStore); [exact R2|exact I|]; cbn [model_do]; rewrite E3; reflexivity|].
  split; [unfold stumps; now rewrite Ht|]. split; [constructor; auto; eapply same_flat; eauto|]. destruct sa; repeat constructor; auto.
Qed.
Lemma loop_flat X y nrm h0 p num den sp sa : no_nan X -> forbids_growth p -> forall todo ss os m r c m' r', model_reached X y nrm h0 1 p os m -> stumps m ->
  sample_loop ss todo num den sp sa m r = Ok (c, m', r') -> Forall flat (ch_models c) /\ Forall no_moves (ch_accept c).
Proof.
  intros Hn Ha. induction todo as [|todo IH]; intros ss os m r c m' r' Hr Hs; cbn [sample_loop]; [intros [= <- <- <-]; simpl; auto|].
  destruct (sample_iter ss num den sp sa m r) as [[[c1 m1] r1]| |] eqn:E1; try discriminate. cbn [rbind].
  destruct (iter_flat _ _ _ _ _ _ _ _ _ _ _ _ _ _ _ _ Hn Ha Hr Hs E1) as ((os1&R1)&S1&A1&B1).
  destruct (sample_loop (S ss) todo num den sp sa m1 r1) as [[[c2 m2] r2]| |] eqn:E2; try discriminate. cbn [rbind]. intros [= <- <- <-].
  destruct (IH _ _ _ _ _ _ _ R1 S1 E2) as (A2&B2). unfold ch_app. cbn [ch_models ch_accept]. rewrite !Forall_app. auto.
Qed.
Lemma burn_flat X y nrm h0 p : no_nan X -> forbids_growth p -> forall n os m r m' r', model_reached X y nrm h0 1 p os m -> stumps m -> burn n m r = Ok (m', r') ->
  (exists os', model_reached X y nrm h0 1 p os' m') /\ stumps m'.
Proof.
  intros Hn Ha. induction n as [|n IH]; intros os m r m' r' Hr Hs; cbn [burn]; [intros [= <- <-]; eauto|].
  destruct (gibbs_step m r) as [[[[d acts] m1] r1]| |] eqn:Eg; try discriminate. cbn [rbind].
  destruct (flat_step _ _ _ _ _ _ _ _ _ _ _ _ Hn Ha Hr Hs Eg) as (R1&S1&_). eauto.
Qed.
Lemma chain_flat s X y e r : no_nan X -> length y = length (mx_rows X) -> forbids_growth (sk_par s) -> chain_ran s X y e r ->
  Forall flat (ch_models (snd e)) /\ Forall no_moves (ch_accept (snd e)).
Proof.
  intros Hn Hl Ha (hs&m&m'&r'&kept&Hm&Hs&_).
  assert (R0 : model_reached X y true hs 1 (sk_par s) [] m) by (split; auto; split; [constructor|]; exists m; auto).
  assert (S0 : stumps m).
  { destruct (start_model_spec _ _ _ _ _ _ _ Hl Hm) as (_&Ht&_). unfold stumps. rewrite Ht. apply Forall_forall. intros t Hin. apply in_map_iff in Hin as (q&<-&_). reflexivity. }
  unfold samples in Hs. destruct (burn _ m r) as [[m1 r1]| |] eqn:Eb; try discriminate. cbn [rbind] in Hs.
  destruct (burn_flat _ _ _ _ _ Hn Ha _ _ _ _ _ _ R0 S0 Eb) as ((os1&R1)&S1). destruct (sk_thin s) as [|num den]; [discriminate|].
  eapply loop_flat; eauto.
Qed.
Lemma single_path st : length (paths [] st) = 1%nat -> exists v, st = SLeaf v.
Proof. destruct st as [v|v x l r]; simpl; eauto. rewrite app_length. destruct l, r; simpl; lia. Qed.
Lemma flat_leaves n e ts : consists_of n e ts -> flat (snd e) -> forall st, In st ts -> exists v, st = SLeaf v.
Proof.
  intros (H&_) F. unfold flat in F. revert H F. generalize (sm_trees (snd e)). intros l. induction 1 as [|t st l ts HP _ IH]; intros F st' Hin; [destruct Hin|].
  inversion F; subst. destruct Hin as [<-|Hin]; auto. apply single_path. apply Permutation_length in HP. rewrite !map_length in HP. congruence.
Qed.
Lemma in_right {A B} (P : A -> B -> Prop) l l' : Forall2 P l l' -> forall b, In b l' -> exists a, In a l /\ P a b.
Proof. induction 1 as [|a b l l' H _ IH]; intros c Hc; [destruct Hc|]. destruct Hc as [<-|Hc]; [exists a; simpl; auto|]. destruct (IH c Hc) as (a'&?&?). exists a'. simpl. auto. Qed.
(** An estimator with such settings keeps single leaves in all samples ... *)
Theorem C78_single_leaves : forall b s h X y rs s', no_nan X -> length y = length (mx_rows X) -> forbids_growth (sk_par s) -> fit b s h X y rs = Ok s' ->
  exists tss, holds_trees (mx_ncols X) s' tss /\ Forall (fun ts => length ts = pa_ntrees (sk_par s)) tss /\ forall ts st, In ts tss -> In st ts -> exists v, st = SLeaf v.
Proof.
  intros b s h X y rs s' Hn Hl Ha Hf. destruct (fit_consists _ _ _ _ _ _ _ Hn Hl Hf) as (tss&(ss&Es&HF)&Hk). exists tss. split; [exists ss; auto|]. split; auto.
  destruct (fit_spec _ _ _ _ _ _ _ Hn Hl Hf) as (d&m&es&_&_&_&_&_&_&_&_&HR&Es'&_). rewrite Es in Es'. injection Es' as ->.
  intros ts st Hts.
  assert (G : exists e, In e (all_samples es) /\ consists_of (mx_ncols X) e ts).
  { exact (in_right _ _ _ HF ts Hts). }
  destruct G as (e&He&Hc). eapply flat_leaves; [exact Hc|]. unfold all_samples in He. apply in_flat_map in He as (x&Hx&He). apply in_map_iff in He as (sm&<-&Hsm). simpl.
  destruct (forall2_right _ _ _ HR x Hx) as (r&Hr). destruct (chain_flat _ _ _ _ _ Hn Hl Ha Hr) as [F _]. rewrite Forall_forall in F. auto.
Qed.
Print Assumptions C78_single_leaves.
(** ... predicts the same number for all rows ... *)
Theorem C78_constant_predictions : forall b s h X y rs s' X' v i j, no_nan X -> length y = length (mx_rows X) -> forbids_growth (sk_par s) -> fit b s h X y rs = Ok s' ->
  (mx_ncols X <= mx_ncols X')%nat -> sk_predict s' (Some X') = Ok v ->
  (i < length (mx_rows X'))%nat -> row_clean (mx_ncols X) (nth i (mx_rows X') []) = true ->
  (j < length (mx_rows X'))%nat -> row_clean (mx_ncols X) (nth j (mx_rows X') []) = true -> nth i v 0 = nth j v 0.
Proof.
  intros b s h X y rs s' X' v i j Hn Hl Ha Hf Hc Hv Hi Ci Hj Cj. destruct (C78_single_leaves _ _ _ _ _ _ _ Hn Hl Ha Hf) as (tss&(ss&Es&HF)&_&Hleaf).
  destruct (C50_mean_of_samples b s h X y rs s' X' Hn Hl Hf Hc) as (lo&hi&ss'&ps&_&Es'&Hsay&_&H0&H1). rewrite Es in Es'. injection Es' as <-.
  assert (Hss : ss <> []) by (intros ->; rewrite H0 in Hv by auto; discriminate). destruct (H1 Hss) as (v'&Hv'&_&Hnth). rewrite Hv in Hv'. injection Hv' as <-.
  destruct (Hnth i Hi) as [-> _]. destruct (Hnth j Hj) as [-> _]. f_equal. clear H0 H1 Hnth Hss Es Hv Hf. revert ps Hsay.
  induction HF as [|e ts l tss H HF IH]; intros ps Hsay; inversion Hsay as [|? p ? ps' Hp Hsay']; subst; auto. cbn [map]. f_equal.
  - destruct H as (_&_&_&H). destruct (H X' Hc) as (p'&Hp'&_&Hw). rewrite Hp in Hp'. injection Hp' as <-. rewrite (Hw i Hi Ci), (Hw j Hj Cj). do 2 f_equal.
    apply map_ext_in. intros st Hin. destruct (Hleaf ts st (or_introl eq_refl) Hin) as (w&->). reflexivity.
  - apply IH; auto. intros ts' st Hts. apply Hleaf. simpl. auto.
Qed.
Print Assumptions C78_constant_predictions.
(** ... and shows an acceptance rate of zero throughout. *)
Theorem C78_acceptance_zero : forall b s h X y rs s' xs, no_nan X -> length y = length (mx_rows X) -> forbids_growth (sk_par s) -> fit b s h X y rs = Ok s' ->
  plot_tree_mutation_acceptance_rate s' = Ok xs -> forall x, In x xs -> x = 0.
Proof.
  intros b s h X y rs s' xs Hn Hl Ha Hf. destruct (fit_spec _ _ _ _ _ _ _ Hn Hl Hf) as (d&m&es&_&_&_&_&_&_&_&_&HR&_&_&Ea).
  unfold plot_tree_mutation_acceptance_rate. rewrite Ea.
  assert (F : Forall no_moves (flat_map (fun e : extract => ch_accept (snd e)) es)).
  { apply Forall_forall. intros q Hq. apply in_flat_map in Hq as (e&He&Hq). destruct (forall2_right _ _ _ HR e He) as (r&Hr).
    destruct (chain_flat _ _ _ _ _ Hn Hl Ha Hr) as [_ F]. rewrite Forall_forall in F. auto. }
  clear Ea. revert xs. induction F as [|q qs Hq _ IH]; intros xs; cbn [trace_rates]; [intros [= <-] x []|].
  destruct (trace_get q) as [w| |] eqn:Eg; try discriminate. cbn [rbind]. destruct (trace_rates qs) as [ws| |] eqn:Er; try discriminate. cbn [rbind].
  intros [= <-] x [<-|Hx]; [|exact (IH ws eq_refl x Hx)]. clear - Hq Eg. induction q as [|[k x] q IH]; [discriminate|]. cbn [trace_get] in Eg.
  assert (Hq' : no_moves q) by (intros k' x' Hin; apply (Hq k' x'); simpl; auto). destruct k; first [exact (IH Hq' Eg)|injection Eg as <-; apply (Hq KyTree x); simpl; auto].
Qed.
Print Assumptions C78_acceptance_zero.
(** alpha = 2, three rows that differ: the fit succeeds, without a warning, and predicts one number *)
Definition al_sk : sklearn := new_sklearn (Pa (pa_ntrees mx_p) 2 (pa_beta mx_p) (pa_k mx_p) (pa_siga mx_p) (pa_sigb mx_p) (pa_pgrow mx_p) (pa_pprune mx_p) (pa_limit mx_p)) 2 5 2 (TInv 1 1) true true.
Example C78_case : forall b, exists rs s' v, fit b al_sk ex_empty mx_X mx_y rs = Ok s' /\ sk_predict s' (Some mx_X) = Ok v /\ length v = 3%nat /\ nth 0 v 0 = nth 2 v 0.
Proof.
  intros b.
  assert (H : exists rs s', length rs = sk_nchains al_sk /\ fit b al_sk ex_empty mx_X mx_y rs = Ok s').
  { apply (C66_fit_possible b al_sk ex_empty mx_X mx_y 1 1); try reflexivity; try exact mx_no_nan; try exact mx_varies; try exact mx_sane; try discriminate; try (simpl; lia).
    exists 1, 2. simpl. repeat split; auto. lra. }
  destruct H as (rs&s'&_&Hf). destruct (C50_mean_of_samples b al_sk _ mx_X mx_y rs s' mx_X mx_no_nan eq_refl Hf (le_n _)) as (lo&hi&ss&ps&_&Es&_&_&_&H1).
  destruct (C50_one_in_k b al_sk _ mx_X mx_y rs s' 1 mx_no_nan eq_refl Hf eq_refl ltac:(lia)) as (ss'&Es'&L). rewrite Es in Es'. injection Es' as <-. vm_compute in L.
  destruct H1 as (v&Hv&Lv&_); [intros ->; discriminate|]. exists rs, s', v. split; auto. split; auto. split; auto.
  apply (C78_constant_predictions b al_sk ex_empty mx_X mx_y rs s' mx_X v 0 2 mx_no_nan eq_refl ltac:(left; simpl; lra) Hf (le_n _) Hv); simpl; try lia; reflexivity.
Qed.
(** p_grow = 1 and p_prune = 0 is refused no more than alpha = 2 is, nor is alpha = 1 with beta = 0 *)
Example C78_others : forbids_growth (Pa 1 (/ 2) 2 2 1 1 1 0 1000) /\ forbids_growth (Pa 1 1 0 2 1 1 (/ 2) (/ 2) 1000) /\
  forbids_growth (Pa 1 (3 / 4) (- 1) 2 1 1 (/ 2) (/ 2) 1000) /\ ~ forbids_growth (Pa 200 (95 / 100) 2 2 1 1 (/ 2) (/ 2) 1000).
Proof.
  unfold forbids_growth. cbn [pa_alpha pa_beta pa_pprune]. split; [auto|]. split; [right; left; rewrite Ropp_0, Rpower_O by lra; lra|]. split.
  - right. left. replace (- - 1) with 1 by ring. rewrite Rpower_1 by lra. lra.
  - intros [H|[H|H]]; try lra. assert (E : Rpower 2 2 = 4) by (replace (Rpower 2 2) with (Rpower 2 (INR 2)) by (f_equal; simpl; lra); rewrite Rpower_pow by lra; simpl; lra). rewrite Rpower_Ropp, E in H. lra.
Qed.
