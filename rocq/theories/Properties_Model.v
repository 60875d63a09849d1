(** Properties C29-C31 and C33: backfitting, interrupted passes, new models, sigma. *)
From Coq Require Import Reals Lra Permutation.
From Verif Require Import Base Fl Ext MData MSplit MTree MSampler MHist MTreeHist MModel MModelHist Spec SpecTree SpecSampler SpecModel LFl LList
  PData PSplit PDataProps PCond PTree PPred PTreeHist PTreeProps PTreeProps2 PSampler PSampler2 PSampler3
  PModel PModel2 PModel3 PModel4 PModel5 PModel6 PModel7 PModel8 PModel9.
Local Open Scope R_scope.

(** A model of two trees on three rows, for the examples. *)
Definition mx_X : matrix := Mx 1 [[fz 1]; [fz 2]; [fz 3]].
Definition mx_y : list R := [1; 2; 6].
Definition mx_p : params := Pa 2 (95/100) 2 2 1 1 (/2) (/2) 20.
(** both trees are grown once and given leaf values *)
Definition mx_os : list model_op :=
  [GPass [[TGrow 0 0 (fz 1); TSetValue 2 3; TSetValue 3 4]; [TGrow 1 0 (fz 2); TSetValue 5 5]]; GPredict].
Definition get {A} (d : A) (r : res A) : A := match r with Ok a => a | _ => d end.
Definition okb {A} (r : res A) : bool := match r with Ok _ => true | _ => false end.
Lemma okb_get {A} (d : A) r : okb r = true -> r = Ok (get d r).
Proof. now destruct r. Qed.
Definition mx_0 : model := Md (Hp 0 (fun _ => None)) [] (Dt (make_covmat mx_X [] (PI 0 true) None None) (Tg None [] false None None)) None 0 mx_p.
Definition mx_start : res model := start_model mx_X mx_y false (Hp 0 (fun _ => None)) 1 mx_p.
Definition mx_m : model := get mx_0 (model_run (get mx_0 mx_start) mx_os).
Lemma mx_no_nan : no_nan mx_X.
Proof. intros r v Hr Hv. simpl in Hr, Hv. destruct v as [|v]; [|lia]. repeat (destruct Hr as [<-|Hr]; [discriminate|]); destruct Hr. Qed.
Lemma mx_reached : model_reached mx_X mx_y false (Hp 0 (fun _ => None)) 1 mx_p mx_os mx_m /\ Forall completes mx_os.
Proof.
  split; [|repeat constructor]. split; [reflexivity|]. split; [repeat constructor; discriminate|].
  exists (get mx_0 mx_start). split; apply okb_get; vm_compute; reflexivity.
Qed.

(** ** C29 *)
(** Every state met has a definite meaning: the predictions of the trees exist and are unique. *)
Theorem C29_trees_say : forall X y normalize h0 sigma p os m, no_nan X -> model_reached X y normalize h0 sigma p os m ->
  exists vs, trees_say m X vs /\ (forall vs', trees_say m X vs' -> vs' = vs) /\ length vs = pa_ntrees p.
Proof.
  intros X y nrm h0 sigma p os m Hn Hr. destruct (model_reached_spec _ _ _ _ _ _ _ _ Hn Hr) as (As&e&H&_&Hl&_).
  eexists. split; [eapply trees_say_inv; eauto|]. split; [intros vs' Hv; eapply trees_say_unique; eauto|].
  rewrite map_length, (ms_len _ _ _ _ _ _ (mi_st _ _ _ _ _ _ H)). exact Hl.
Qed.
Print Assumptions C29_trees_say.
(** After any history of completed Gibbs steps, passes, predictions and copies the running prediction is the
    sum of the trees' current predictions. *)
Theorem C29_running_prediction : forall X y normalize h0 sigma p os m pr, no_nan X ->
  model_reached X y normalize h0 sigma p os m -> Forall completes os -> m_pred m = Some pr ->
  length pr = length (mx_rows X) /\
  forall vs, trees_say m X vs -> forall i, (i < length (mx_rows X))%nat -> nth i pr 0 = total vs i.
Proof.
  intros X y nrm h0 sigma p os m pr Hn Hr Hc Hp. destruct (model_reached_spec _ _ _ _ _ _ _ _ Hn Hr) as (As&e&H&He&_).
  pose proof (minv_drift _ _ _ _ _ H) as Hd. unfold drift in Hd. rewrite Hp in Hd. destruct Hd as [L Hd]. split; auto.
  intros vs Hv i Hi. rewrite (Hd vs Hv i Hi), (He Hc i). lra.
Qed.
Print Assumptions C29_running_prediction.
(** During a Gibbs step, whenever a tree is handed out (before its own update, and between its leaf draws),
    its target is y minus the predictions of all other trees. *)
Theorem C29_gibbs_targets : forall X y normalize h0 sigma p os m n produced r m1 pc j, no_nan X ->
  model_reached X y normalize h0 sigma p os m -> Forall completes os ->
  half_step n produced m r = Ok (m1, pc) -> open_of pc = Some j ->
  fits_residual m1 X (start_target y normalize) j (fun _ => 0).
Proof.
  intros X y nrm h0 sigma p os m n b r m1 pc j Hn Hr Hc Hh Hj. destruct (model_reached_spec _ _ _ _ _ _ _ _ Hn Hr) as (As&e&H&He&_).
  destruct (half_step_spec _ _ _ _ _ _ _ _ _ _ Hn H Hh) as (As'&H'&_). rewrite Hj in H'.
  eapply fits_ext; [|eapply minv_target; exact H']. intros i _. now rewrite He.
Qed.
Print Assumptions C29_gibbs_targets.
(** The same for any other consumer of refreshed_trees(). *)
Theorem C29_pass_targets : forall X y normalize h0 sigma p os m acts os' m1, no_nan X ->
  model_reached X y normalize h0 sigma p os m -> Forall completes os ->
  (length acts < pa_ntrees p)%nat -> Forall (Forall visit_op) acts -> Forall visit_op os' ->
  broken_pass m acts os' = Ok m1 -> fits_residual m1 X (start_target y normalize) (length acts) (fun _ => 0).
Proof.
  intros X y nrm h0 sigma p os m acts os' m1 Hn Hr Hc Hl Hv Hvo Hb. destruct (model_reached_spec _ _ _ _ _ _ _ _ Hn Hr) as (As&e&H&He&Hlen&_).
  destruct (broken_pass_spec _ _ _ _ _ _ _ _ Hn H Hv Hvo ltac:(rewrite Hlen; exact Hl) Hb) as (As'&H'&_).
  eapply fits_ext; [|eapply minv_target; exact H']. intros i _. now rewrite He.
Qed.
Print Assumptions C29_pass_targets.
Example C29_case : model_reached mx_X mx_y false (Hp 0 (fun _ => None)) 1 mx_p mx_os mx_m /\ Forall completes mx_os /\
  map (fun t => length (tr_nodes t)) (m_trees mx_m) = [3; 3]%nat /\ (exists pr, m_pred mx_m = Some pr) /\
  (exists m1, half_step 0 true mx_m (Rng [] [] [] [] []) = Ok (m1, GTree 0)) /\
  (exists m1, broken_pass mx_m [[]] [TPrune 7] = Ok m1).
Proof.
  split; [apply mx_reached|]. split; [apply mx_reached|]. split; [vm_compute; reflexivity|].
  split; [eexists; vm_compute; reflexivity|]. split; eexists; vm_compute; reflexivity.
Qed.

(** ** C30 *)
(** What is missing from the running prediction after a pass was abandoned while tree j was handed out: the
    prediction of tree j at that moment, on top of what was missing before. *)
Theorem C30_abandoned_step : forall X y normalize h0 sigma p os m d n produced r m1 pc, no_nan X ->
  model_reached X y normalize h0 sigma p os m -> drift m X d -> half_step n produced m r = Ok (m1, pc) ->
  match open_of pc with
  | Some j => forall vs, trees_say m1 X vs -> drift m1 X (fun i => d i + nth i (nth j vs []) 0)
  | None => drift m1 X d
  end.
Proof.
  intros X y nrm h0 sigma p os m d n b r m1 pc Hn Hr Hd Hh. destruct (model_reached_spec _ _ _ _ _ _ _ _ Hn Hr) as (As&e&H&_).
  pose proof (drift_minv _ _ _ _ _ _ H Hd) as Ede. destruct (half_step_spec _ _ _ _ _ _ _ _ _ _ Hn H Hh) as (As'&H'&_).
  destruct (open_of pc) as [j|].
  - intros vs Hv. eapply drift_ext; [|eapply minv_abandon_drift; eauto]. intros i Hi. simpl. now rewrite Ede.
  - eapply drift_ext; [|eapply minv_drift; eauto]. auto.
Qed.
Print Assumptions C30_abandoned_step.
Theorem C30_abandoned_pass : forall X y normalize h0 sigma p os m d acts os' m1, no_nan X ->
  model_reached X y normalize h0 sigma p os m -> drift m X d ->
  (length acts < pa_ntrees p)%nat -> Forall (Forall visit_op) acts -> Forall visit_op os' -> broken_pass m acts os' = Ok m1 ->
  forall vs, trees_say m1 X vs -> drift m1 X (fun i => d i + nth i (nth (length acts) vs []) 0).
Proof.
  intros X y nrm h0 sigma p os m d acts os' m1 Hn Hr Hd Hl Hv Hvo Hb. destruct (model_reached_spec _ _ _ _ _ _ _ _ Hn Hr) as (As&e&H&_&Hlen&_).
  pose proof (drift_minv _ _ _ _ _ _ H Hd) as Ede.
  destruct (broken_pass_spec _ _ _ _ _ _ _ _ Hn H Hv Hvo ltac:(rewrite Hlen; exact Hl) Hb) as (As'&H'&_).
  intros vs Hvs. eapply drift_ext; [|eapply minv_abandon_drift; eauto]. intros i Hi. simpl. now rewrite Ede.
Qed.
Print Assumptions C30_abandoned_pass.
(** No later completed history repairs it ... *)
Theorem C30_forever : forall X y normalize h0 sigma p os m d later m1, no_nan X ->
  model_reached X y normalize h0 sigma p os m -> drift m X d ->
  Forall (sane_model_op (pa_ntrees p)) later -> Forall completes later -> model_run m later = Ok m1 -> drift m1 X d.
Proof.
  intros X y nrm h0 sigma p os m d later m1 Hn Hr Hd Hs Hc Hrun. destruct (model_reached_spec _ _ _ _ _ _ _ _ Hn Hr) as (As&e&H&_&Hlen&_).
  pose proof (drift_minv _ _ _ _ _ _ H Hd) as Ede. rewrite <- Hlen in Hs.
  destruct (model_run_spec _ _ Hn _ _ _ _ _ H Hs Hrun) as (As'&e'&H'&_&He'&_). rewrite (He' Hc) in H'.
  eapply drift_ext; [|eapply minv_drift; eauto]. auto.
Qed.
Print Assumptions C30_forever.
(** ... and every tree handed out later is fitted to a target that is off by it. *)
Theorem C30_targets : forall X y normalize h0 sigma p os m d n produced r m1 pc j, no_nan X ->
  model_reached X y normalize h0 sigma p os m -> drift m X d ->
  half_step n produced m r = Ok (m1, pc) -> open_of pc = Some j -> fits_residual m1 X (start_target y normalize) j d.
Proof.
  intros X y nrm h0 sigma p os m d n b r m1 pc j Hn Hr Hd Hh Hj. destruct (model_reached_spec _ _ _ _ _ _ _ _ Hn Hr) as (As&e&H&_).
  pose proof (drift_minv _ _ _ _ _ _ H Hd) as Ede. destruct (half_step_spec _ _ _ _ _ _ _ _ _ _ Hn H Hh) as (As'&H'&_). rewrite Hj in H'.
  eapply fits_ext; [|eapply minv_target; exact H']. auto.
Qed.
Print Assumptions C30_targets.
(** Completed histories have no drift; and every reached state has one. *)
Theorem C30_drift_exists : forall X y normalize h0 sigma p os m, no_nan X -> model_reached X y normalize h0 sigma p os m ->
  exists d, drift m X d /\ (Forall completes os -> forall i, d i = 0).
Proof.
  intros X y nrm h0 sigma p os m Hn Hr. destruct (model_reached_spec _ _ _ _ _ _ _ _ Hn Hr) as (As&e&H&He&_).
  exists e. split; [eapply minv_drift; eauto|auto].
Qed.
Print Assumptions C30_drift_exists.
(** The intended property (the running prediction is always the sum of the trees) is refuted.  [shown]: the
    first value of the tree that is handed out when the step is abandoned. *)
Definition shown (r : res (model * gpc)) : option R :=
  match r with
  | Ok (m, GTree j) =>
      match nth_error (m_trees m) j with
      | Some t => match tree_predict (m_heap m) t with Ok (v, _) => Some (nth 0 v 0) | _ => None end
      | None => None
      end
  | _ => None
  end.
Lemma model_run_app : forall os m m1 o m2, model_run m os = Ok m1 -> model_do m1 o = Ok m2 -> model_run m (os ++ [o]) = Ok m2.
Proof.
  induction os as [|o' os IH]; intros m m1 o m2; cbn [model_run app].
  - intros E; injection E as ->. intros ->. reflexivity.
  - destruct (model_do m o') as [m'| |]; try discriminate. cbn [rbind]. intros H1 H2. eapply IH; eauto.
Qed.
Lemma reached_app X y nrm h0 sigma p os m o m1 : model_reached X y nrm h0 sigma p os m -> sane_model_op (pa_ntrees p) o ->
  model_do m o = Ok m1 -> model_reached X y nrm h0 sigma p (os ++ [o]) m1.
Proof.
  intros (L&S&m0&Hm0&Hrun) Ho Hd. split; auto. split; [apply Forall_app; split; auto|]. exists m0. split; auto.
  eapply model_run_app; eauto.
Qed.
Lemma refuted_by X y p os m r x : no_nan X -> (0 < length (mx_rows X))%nat -> model_reached X y false (Hp 0 (fun _ => None)) 1 p os m ->
  Forall completes os -> shown (half_step 0 true m r) = Some x -> x <> 0 ->
  exists os1 m1 pr vs, model_reached X y false (Hp 0 (fun _ => None)) 1 p os1 m1 /\ m_pred m1 = Some pr /\ trees_say m1 X vs /\
    nth 0 pr 0 <> total vs 0.
Proof.
  intros Hn Hpos Hr Hc Hs Hx. destruct (half_step 0 true m r) as [[m1 [|j|j rest|]]| |] eqn:Eh; simpl in Hs; try discriminate.
  destruct (nth_error (m_trees m1) j) as [t|] eqn:Et; [|discriminate].
  destruct (tree_predict (m_heap m1) t) as [[v t']| |] eqn:Ep; try discriminate. injection Hs as Ev.
  destruct (model_reached_spec _ _ _ _ _ _ _ _ Hn Hr) as (As&e&H&He&_).
  destruct (half_step_spec _ _ _ _ _ _ _ _ _ _ Hn H Eh) as (As'&H'&_). simpl in H'.
  pose proof (mi_st _ _ _ _ _ _ H') as Hst.
  destruct (nth_error_both _ As' j t (eq_sym (ms_len _ _ _ _ _ _ Hst)) Et) as (a&Ha).
  rewrite (mst_ready _ _ _ _ _ _ _ _ _ Hn Hst Et Ha) in Ep. injection Ep as Ep _.
  destruct (m_pred m1) as [pr|] eqn:Epr; [|destruct (mi_none _ _ _ _ _ _ H' Epr); discriminate].
  pose proof (trees_say_inv _ _ _ _ _ _ H') as Hv.
  exists (os ++ [GHalf 0 true r]), m1, pr, (map (insample (m_heap m1) X) As'). split; [|split; [auto|split; [auto|]]].
  - eapply reached_app; [exact Hr|exact I|]. cbn [model_do]. rewrite Eh. reflexivity.
  - destruct (mi_pred _ _ _ _ _ _ H' pr Epr) as [_ N]. rewrite N by auto. rewrite total_col, He by auto.
    simpl. rewrite (col_nth _ _ _ _ _ _ Ha), Ep, Ev. lra.
Qed.
Theorem C30_refuted : exists X y p os m pr vs, no_nan X /\
  model_reached X y false (Hp 0 (fun _ => None)) 1 p os m /\ m_pred m = Some pr /\ trees_say m X vs /\
  nth 0 pr 0 <> total vs 0.
Proof.
  exists mx_X, mx_y, mx_p. destruct mx_reached as [Hr Hc].
  assert (Hs : shown (half_step 0 true mx_m (Rng [] [] [] [] [])) = Some 3) by (vm_compute; reflexivity).
  destruct (refuted_by _ _ _ _ _ _ _ mx_no_nan ltac:(simpl; lia) Hr Hc Hs ltac:(lra)) as (os1&m1&pr&vs&H1&H2&H3&H4).
  exists os1, m1, pr, vs. split; [exact mx_no_nan|]. auto.
Qed.
Print Assumptions C30_refuted.
Definition shown_all (r : res (model * gpc)) : option (list R) :=
  match r with
  | Ok (m, GTree 0) =>
      match nth_error (m_trees m) 0 with
      | Some t => match tree_predict (m_heap m) t with Ok (v, _) => Some v | _ => None end
      | None => None
      end
  | _ => None
  end.
Lemma case_by X y p os m r v : no_nan X -> model_reached X y false (Hp 0 (fun _ => None)) 1 p os m ->
  Forall completes os -> shown_all (half_step 0 true m r) = Some v -> drift m X (fun _ => 0) /\
  exists m1, half_step 0 true m r = Ok (m1, GTree 0) /\ drift m1 X (fun i => nth i v 0).
Proof.
  intros Hn Hr Hc Hs.
  destruct (C30_drift_exists _ _ _ _ _ _ _ _ Hn Hr) as (d&Hd&Hd0). specialize (Hd0 Hc).
  assert (Hz : drift m X (fun _ => 0)) by (eapply drift_ext; [|exact Hd]; intros; symmetry; apply Hd0).
  split; [exact Hz|].
  destruct (half_step 0 true m r) as [[m1 [|[|j]|j rest|]]| |] eqn:Eh; try discriminate Hs.
  exists m1. split; [reflexivity|]. cbn [shown_all] in Hs.
  pose proof (C30_abandoned_step _ _ _ _ _ _ _ _ _ _ _ _ _ _ Hn Hr Hz Eh) as Hd1. cbn [open_of] in Hd1.
  destruct (model_reached_spec _ _ _ _ _ _ _ _ Hn Hr) as (As&e&H&He&_).
  destruct (half_step_spec _ _ _ _ _ _ _ _ _ _ Hn H Eh) as (As'&H'&_). cbn [open_of] in H'.
  pose proof (mi_st _ _ _ _ _ _ H') as Hst.
  destruct (nth_error (m_trees m1) 0) as [t|] eqn:Et; [|discriminate Hs].
  destruct (nth_error_both _ As' 0%nat t (eq_sym (ms_len _ _ _ _ _ _ Hst)) Et) as (a&Ha).
  rewrite (mst_ready _ _ _ _ _ _ _ _ _ Hn Hst Et Ha) in Hs. injection Hs as Hs.
  eapply drift_ext; [|apply Hd1; apply (trees_say_inv _ _ _ _ _ _ H')].
  intros i Hi. cbv beta. rewrite nth_vs_col by (apply nth_error_Some; congruence). rewrite (col_nth _ _ _ _ _ _ Ha), Hs. lra.
Qed.
Example C30_case : model_reached mx_X mx_y false (Hp 0 (fun _ => None)) 1 mx_p mx_os mx_m /\ drift mx_m mx_X (fun _ => 0) /\
  (exists m1, half_step 0 true mx_m (Rng [] [] [] [] []) = Ok (m1, GTree 0) /\ drift m1 mx_X (fun i => nth i [3; 4; 4] 0)).
Proof.
  destruct mx_reached as [Hr Hc]. split; [exact Hr|].
  assert (Hs : shown_all (half_step 0 true mx_m (Rng [] [] [] [] [])) = Some [3; 4; 4]) by (vm_compute; reflexivity).
  exact (case_by _ _ _ _ _ _ _ mx_no_nan Hr Hc Hs).
Qed.

(** ** C31 *)
(** For every data set with as many targets as rows: the new model has n_trees trees of one leaf of value 0
    (and depth 0), it predicts 0 on every training row ... *)
Theorem C31_predicts_zero : forall X y normalize h0 sigma p m, no_nan X -> length y = length (mx_rows X) ->
  start_model X y normalize h0 sigma p = Ok m ->
  length (m_trees m) = pa_ntrees p /\
  (forall t, In t (m_trees m) -> exists q s, tr_nodes t = [q] /\ h_get (m_heap m) q = Some (Nd (KLeaf 0) s 0)) /\
  (exists m', model_predict m = Ok (repeat 0 (length (mx_rows X)), m')).
Proof.
  intros X y nrm h0 sigma p m Hn Hl Hm. destruct (start_model_spec _ _ _ _ _ _ _ Hl Hm) as (H&Ht&Hq&_).
  split; [rewrite Ht, map_length, seq_length; auto|]. split.
  - intros t Hin. rewrite Ht in Hin. apply in_map_iff in Hin as (q&<-&Hin). destruct (Hq q Hin) as (s&E&_).
    exists q, (SFull s). auto.
  - destruct (model_predict_spec _ _ _ _ _ Hn H) as (v&m'&E&Lv&Nv&_). exists m'. rewrite E. repeat f_equal.
    apply nth_ext with (d := 0) (d' := 0); [now rewrite repeat_length|]. intros i Hi. rewrite Lv in Hi. rewrite nth_repeat, Nv by auto.
    unfold col. rewrite map_map. assert (Hz : forall q, In q (seq (h_next h0) (pa_ntrees p)) -> nth i (insample (m_heap m) X (ALeaf q)) 0 = 0).
    { intros q Hin. destruct (Hq q Hin) as (s&E'&_). rewrite insample_nth by auto. simpl. unfold hvalue, leaf_value. now rewrite E'. }
    revert Hz. generalize (seq (h_next h0) (pa_ntrees p)). unfold rsum. induction l as [|q l IH]; intros Hz; simpl; auto.
    rewrite (Hz q) by (simpl; auto). rewrite IH by (intros; apply Hz; simpl; auto). lra.
Qed.
Print Assumptions C31_predicts_zero.
(** ... and its leaves hold no target: summed_y() and unnormalized_y raise TypeError. *)
Theorem C31_no_target : forall X y normalize h0 sigma p m t q, no_nan X -> length y = length (mx_rows X) ->
  start_model X y normalize h0 sigma p = Ok m -> In t (m_trees m) -> In q (tr_nodes t) ->
  (exists d, node_data (m_heap m) q = Some d /\ t_y (d_y d) = None /\ unnormalized_y (d_y d) = Raise ETypeError) /\ node_sum (m_heap m) q = Raise ETypeError.
Proof.
  intros X y nrm h0 sigma p m t q Hn Hl Hm Hin Hqt. destruct (start_model_spec _ _ _ _ _ _ _ Hl Hm) as (H&Ht&Hq&_).
  rewrite Ht in Hin. apply in_map_iff in Hin as (q'&<-&Hin). destruct Hqt as [<-|[]]. destruct (Hq q' Hin) as (s&E&Hs).
  assert (Hd : node_data (m_heap m) q' = Some (sp_data s)) by (unfold node_data, node_split; now rewrite E).
  assert (Hy : t_y (d_y (sp_data s)) = None) by apply (si_t _ _ _ _ Hs).
  split; [exists (sp_data s); split; auto; split; auto; unfold unnormalized_y; now rewrite Hy|]. unfold node_sum. rewrite Hd. unfold summed_y.
  destruct (t_fresh (d_y (sp_data s))) eqn:Ef; [|now rewrite Hy].
  destruct (tv_sum _ _ _ (si_t _ _ _ _ Hs) Ef) as (y0&E0&_). discriminate E0.
Qed.
Print Assumptions C31_no_target.
Example C31_case : length mx_y = length (mx_rows mx_X) /\ start_model mx_X mx_y false (Hp 0 (fun _ => None)) 1 mx_p = Ok (get mx_0 mx_start) /\
  map tr_nodes (m_trees (get mx_0 mx_start)) = [[0]; [1]]%nat.
Proof. split; [reflexivity|]. split; [apply okb_get|]; vm_compute; reflexivity. Qed.

(** ** C33 *)
(** In every state in which the sigma step is run (also in the middle of histories with abandoned passes): with
    SSE computed from what the trees predict now, the gamma draw is made with shape a + n/2 and scale
    1/(b + SSE/2), both positive; a positive draw g gives a positive sigma with sigma^2 = 1/g and changes
    nothing else. *)
Definition sse (y : list R) (vs : list (list R)) : R :=
  rsum (map (fun i => (nth i y 0 - total vs i) * (nth i y 0 - total vs i)) (seq 0 (length y))).
Lemma sse_rsum y vs l : length l = length y -> (forall i, (i < length y)%nat -> nth i l 0 = nth i y 0 - total vs i) ->
  rsum (map (fun x => x * x) l) = sse y vs.
Proof.
  intros Hl H. unfold sse. f_equal. apply nth_ext with (d := 0) (d' := 0); rewrite !map_length, ?seq_length; auto.
  intros i Hi. rewrite nth_map_in with (d := 0) by auto. rewrite nth_map_in with (d := 0%nat) by (rewrite seq_length; lia).
  rewrite seq_nth by lia. simpl. rewrite H by lia. reflexivity.
Qed.
Lemma cached_says h X : forall ts As vs, length As = length ts -> Forall2 (tree_says h X) ts vs ->
  Forall2 (tree_says h X) (map2 (cached h X) ts As) vs.
Proof.
  intros ts As vs Hl H. revert As Hl. induction H as [|t v ts vs (root&ids&s&H1&H2&H3) H IH]; intros [|a As] Hl; try discriminate Hl; constructor.
  - exists root, ids, s. auto.
  - apply IH. simpl in Hl. lia.
Qed.
Theorem C33_sigma_draw : forall X y normalize h0 sigma p os m vs r g gs, no_nan X ->
  model_reached X y normalize h0 sigma p os m -> trees_say m X vs ->
  0 < pa_siga p -> 0 < pa_sigb p -> rg_gamma r = g :: gs ->
  let ty := start_target y normalize in
  let shape := pa_siga p + INR (length y) / 2 in
  let scale := / (pa_sigb p + sse ty vs / 2) in
  0 < shape /\ 0 < scale /\
  (0 < g shape scale -> exists m', sigma_step m r = Ok (m', rng_set_gamma r gs) /\
     0 < m_sigma m' /\ m_sigma m' * m_sigma m' = / g shape scale /\
     trees_say m' X vs /\ map tr_nodes (m_trees m') = map tr_nodes (m_trees m) /\ m_heap m' = m_heap m /\ m_pred m' = m_pred m) /\
  (g shape scale <= 0 -> exists e, sigma_step m r = Raise e).
Proof.
  intros X y nrm h0 sigma p os m vs r g gs Hn Hr Hv Ha Hb Hg ty shape scale.
  destruct (model_reached_spec _ _ _ _ _ _ _ _ Hn Hr) as (As&e&H&_&_&Hp). destruct Hr as (Hl&_).
  destruct (sigma_step_exact _ _ _ _ _ r Hn H ltac:(rewrite Hp; exact Ha) ltac:(rewrite Hp; exact Hb)) as (rs&m1&L&N&T1&T2&T3&T4&T5&E).
  cbv zeta in E. rewrite Hp, Hg in E. fold ty in N.
  assert (Hty : length ty = length (mx_rows X)) by apply (mi_ylen _ _ _ _ _ _ H).
  rewrite (sse_rsum ty vs rs) in E; [|congruence|].
  2:{ intros i Hi. rewrite Hty in Hi. rewrite N by auto. now rewrite (trees_say_unique _ _ _ _ _ _ _ H Hv), total_col. }
  assert (Hq : 0 <= sse ty vs). { unfold sse. rewrite <- (map_map (fun i => nth i ty 0 - total vs i) (fun x => x * x)). apply sq_sum_pos. }
  rewrite <- Hl in E. replace (pa_sigb p + / 2 * sse ty vs) with (pa_sigb p + sse ty vs / 2) in E by lra.
  fold shape in E. fold scale in E. pose proof (pos_INR (length y)) as Hpos.
  split; [unfold shape; lra|]. split; [apply Rinv_0_lt_compat; lra|]. split.
  - intros Hgp. unfold sigma_value in E. rewrite rsign_pos in E by auto.
    exists (m_set_sigma m1 (/ sqrt (g shape scale))). split; [exact E|]. simpl.
    pose proof (sqrt_lt_R0 _ Hgp) as Hs. split; [now apply Rinv_0_lt_compat|].
    split; [rewrite <- Rinv_mult, sqrt_sqrt by lra; reflexivity|].
    assert (Hl' : length As = length (m_trees m)) by apply (ms_len _ _ _ _ _ _ (mi_st _ _ _ _ _ _ H)).
    split; [|split; [|auto]].
    + unfold trees_say. simpl. rewrite T1, T2. apply cached_says; auto.
    + rewrite T1. apply nth_error_ext_eq. intros k. rewrite !nth_error_map, map2_error by auto.
      destruct (nth_error (m_trees m) k) eqn:Ek; auto. destruct (nth_error_both _ As k _ (eq_sym Hl') Ek) as (a&->). reflexivity.
  - intros Hgn. unfold sigma_value in E. destruct (Req_dec (g shape scale) 0) as [Hz|Hz].
    + rewrite Hz, rsign_zero in E. eauto.
    + rewrite rsign_neg in E by lra. eauto.
Qed.
Print Assumptions C33_sigma_draw.
(** Inside a Gibbs step too: the state in which the sigma step runs is one of those. *)
Theorem C33_in_step : forall X y normalize h0 sigma p os m n r m1 pc,
  model_reached X y normalize h0 sigma p os m -> half_step n true m r = Ok (m1, pc) ->
  exists os1, model_reached X y normalize h0 sigma p os1 m1.
Proof.
  intros X y nrm h0 sigma p os m n r m1 pc Hr Hh. exists (os ++ [GHalf n true r]). eapply reached_app; [exact Hr|exact I|].
  cbn [model_do]. rewrite Hh. reflexivity.
Qed.
Print Assumptions C33_in_step.
(** a draw of 4 gives sigma^2 = 1/4 *)
Example C33_case : exists m', sigma_step mx_m (Rng [] [] [] [] [fun _ _ => 4]) = Ok (m', Rng [] [] [] [] []) /\ m_sigma m' * m_sigma m' = / 4.
Proof.
  destruct mx_reached as [Hr _]. destruct (C29_trees_say _ _ _ _ _ _ _ _ mx_no_nan Hr) as (vs&Hv&_).
  destruct (C33_sigma_draw _ _ _ _ _ _ _ _ vs (Rng [] [] [] [] [fun _ _ => 4]) (fun _ _ => 4) [] mx_no_nan Hr Hv
    ltac:(unfold mx_p, pa_siga; lra) ltac:(unfold mx_p, pa_sigb; lra) eq_refl) as (_&_&H&_).
  destruct (H ltac:(lra)) as (m'&E&_&E2&_). exists m'. split; [exact E|exact E2].
Qed.
