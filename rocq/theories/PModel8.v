(** Invariants of models: histories, and the vocabulary of the properties. *)
From Coq Require Import Reals Lra Permutation.
From Verif Require Import Base Fl Ext MData MSplit MTree MSampler MHist MTreeHist MModel MModelHist Spec SpecTree SpecSampler SpecModel LFl LList
  PData PSplit PDataProps PCond PTree PPred PTreeHist PTreeProps PTreeProps2 PSampler PSampler2 PSampler3
  PModel PModel2 PModel3 PModel4 PModel5 PModel6 PModel7.

Lemma aok_depth h X oy a : forall cs d j k s d', aok h X oy cs d a -> In j (aids a) -> h_get h j = Some (Nd k s d') ->
  d <= d' /\ (d' = d -> j = aroot a).
Proof.
  induction a as [i|i v x l IHl r IHr]; intros cs d j k s d'; simpl.
  - intros (w&s0&E&_) [<-|[]] Ej. rewrite E in Ej. injection Ej as _ _ <-. auto.
  - intros ((s0&E&_)&_&_&Hl&Hr) [<-|Hj] Ej; [rewrite E in Ej; injection Ej as _ _ <-; auto|].
    apply in_app_iff in Hj as [Hj|Hj].
    + destruct (IHl _ _ _ _ _ _ Hl Hj Ej). split; lia.
    + destruct (IHr _ _ _ _ _ _ Hr Hj Ej). split; lia.
Qed.
Lemma unfolds_det h : forall i d ids s, unfolds h i d ids s -> forall ids' s', unfolds h i d ids' s' -> s' = s.
Proof.
  induction 1; intros ids' s' H'; inversion H'; subst; try congruence.
  all: repeat match goal with E1 : h_get _ ?i = _, E2 : h_get _ ?i = _ |- _ => rewrite E1 in E2; injection E2; intros; subst; clear E2 end;
    try congruence.
  match goal with E1 : dec_most_recent _ ?i = _, E2 : dec_most_recent _ ?i = _ |- _ => rewrite E1 in E2; injection E2; intros; subst end.
  f_equal; eauto.
Qed.
Lemma unfolds_root h i d ids s : unfolds h i d ids s -> In i ids /\ exists k sp, h_get h i = Some (Nd k sp d).
Proof. intros H; inversion H; subst; simpl; eauto. Qed.
Lemma tree_says_inv h X oy t a : tree_inv h X oy t a -> tree_says h X t (insample h X a).
Proof.
  intros H. exists (aroot a), (aids a), (astree h a). split; [eapply aok_unfolds; apply H|]. split; [apply H|]. split; [apply H|reflexivity].
Qed.
Lemma tree_says_unique h X oy t a v : tree_inv h X oy t a -> tree_says h X t v -> v = insample h X a.
Proof.
  intros H (root&ids&s&Hu&Hp&_&->). destruct (unfolds_root _ _ _ _ _ Hu) as (Hin&k&sp&E).
  assert (Hin' : In root (aids a)). { eapply Permutation_in; [|exact Hin]. eapply perm_trans; [symmetry; exact Hp|apply H]. }
  destruct (aok_depth _ _ _ _ _ _ _ _ _ _ (ti_ok _ _ _ _ _ H) Hin' E) as [_ Hr]. rewrite (Hr eq_refl) in Hu.
  pose proof (unfolds_det _ _ _ _ _ (aok_unfolds _ _ _ _ _ _ (ti_ok _ _ _ _ _ H)) _ _ Hu) as ->. reflexivity.
Qed.
Lemma trees_say_inv X y op e m As : minv X y op e m As -> trees_say m X (map (insample (m_heap m) X) As).
Proof.
  intros H. pose proof (mi_st _ _ _ _ _ _ H) as Hs. unfold trees_say.
  assert (Hl := ms_len _ _ _ _ _ _ Hs).
  assert (Ht : forall j t a, nth_error (m_trees m) j = Some t -> nth_error As j = Some a -> tree_says (m_heap m) X t (insample (m_heap m) X a)).
  { intros j t a H1 H2. destruct (ms_tree _ _ _ _ _ _ Hs _ _ _ H1 H2) as (oy&Hi&_). eapply tree_says_inv; eauto. }
  clear H Hs. revert As Hl Ht. generalize (m_trees m). induction l as [|t ts IH]; intros [|a As] Hl Ht; try discriminate; constructor.
  - apply (Ht 0); reflexivity.
  - apply IH; [simpl in Hl; lia|]. intros j t0 a0 H1 H2. apply (Ht (S j)); auto.
Qed.
Lemma trees_say_unique X y op e m As vs : minv X y op e m As -> trees_say m X vs -> vs = map (insample (m_heap m) X) As.
Proof.
  intros H. pose proof (mi_st _ _ _ _ _ _ H) as Hs. unfold trees_say.
  assert (Hl := ms_len _ _ _ _ _ _ Hs).
  assert (Ht : forall j t a v, nth_error (m_trees m) j = Some t -> nth_error As j = Some a -> tree_says (m_heap m) X t v -> v = insample (m_heap m) X a).
  { intros j t a v H1 H2. destruct (ms_tree _ _ _ _ _ _ Hs _ _ _ H1 H2) as (oy&Hi&_). eapply tree_says_unique; eauto. }
  clear H Hs. revert As Hl Ht vs. generalize (m_trees m). induction l as [|t ts IH]; intros [|a As] Hl Ht vs HF; try discriminate; inversion HF; subst; auto.
  simpl. f_equal; [apply (Ht 0 t a); auto|]. apply IH; auto. intros j t0 a0 v0 E1 E2. apply (Ht (S j) t0 a0); auto.
Qed.
Lemma total_col h X As i : total (map (insample h X) As) i = rsum (col h X As i).
Proof. apply rsum_col. Qed.
Lemma others_col h X As i j : j < length As -> total (others j (map (insample h X) As)) i = (rsum (col h X As i) - nth j (col h X As i) 0)%R.
Proof.
  intros Hj. unfold total. rewrite map_others. rewrite rsum_others.
  - unfold col. now rewrite map_map.
  - now rewrite !map_length.
Qed.
Lemma nth_vs_col h X As i j : j < length As -> nth i (nth j (map (insample h X) As) []) 0%R = nth j (col h X As i) 0%R.
Proof.
  intros Hj. destruct (nth_error As j) as [a|] eqn:Ha; [|apply nth_error_None in Ha; lia].
  rewrite (col_nth _ _ _ _ _ _ Ha). f_equal. apply nth_error_nth. now rewrite nth_error_map, Ha.
Qed.

(** what one call does *)
Lemma model_do_spec X y e m As o m' : no_nan X -> minv X y None e m As -> sane_model_op (length (m_trees m)) o -> model_do m o = Ok m' ->
  exists As' e', minv X y None e' m' As' /\ same m m' /\ (completes o -> e' = e) /\
    (sampler_op o -> Forall (filled X []) As -> Forall (filled X []) As').
Proof.
  intros Hn H Hs. destruct o as [r|acts| | |n b r|acts os]; cbn [model_do sane_model_op completes] in *.
  - unfold gibbs_step. destruct (drive _ m _ GStart r) as [[[[log acts] m1] r1]| |] eqn:Ed; try discriminate. cbn [rbind]. intros E; injection E as <-.
    destruct (drive_spec X y e Hn _ m (Fr None None) GStart As r _ _ _ _ H Ed) as (As'&H'&_&Hsm&Hfl&_). exists As', e. auto.
  - destruct Hs as [Hl Hv]. intros Hp. destruct (pass_spec _ _ _ _ _ _ _ Hn H Hv ltac:(lia) Hp) as (As'&H'&Hsm&_). exists As', e. simpl. tauto.
  - destruct (model_predict_spec _ _ _ _ _ Hn H) as (v&m1&->&_&_&H'&Hsm&_). cbn [rbind]. intros E; injection E as <-. exists As, e. auto.
  - destruct (deep_copy_model_spec _ _ _ _ _ _ H) as (s&m1&->&H'&Hsm&_). cbn [rbind]. intros E; injection E as <-. exists As, e. auto.
  - destruct (half_step n b m r) as [[m1 pc]| |] eqn:Eh; try discriminate. cbn [rbind]. intros E; injection E as <-.
    destruct (half_step_spec _ _ _ _ _ _ _ _ _ _ Hn H Eh) as (As'&H'&Hsm&Hfl). destruct (open_of pc) as [j|].
    + apply minv_abandon in H'. exists As'. eexists. split; [exact H'|]. split; [auto|split; [tauto|auto]].
    + exists As', e. auto.
  - destruct Hs as (Hl&Hv&Hvo). intros Hp. destruct (broken_pass_spec _ _ _ _ _ _ _ _ Hn H Hv Hvo Hl Hp) as (As'&H'&Hsm).
    apply minv_abandon in H'. exists As'. eexists. split; [exact H'|]. simpl. split; [auto|tauto].
Qed.
Lemma model_run_spec X y : no_nan X -> forall os e m As m', minv X y None e m As -> Forall (sane_model_op (length (m_trees m))) os ->
  model_run m os = Ok m' -> exists As' e', minv X y None e' m' As' /\ same m m' /\ (Forall completes os -> e' = e) /\
    (Forall sampler_op os -> Forall (filled X []) As -> Forall (filled X []) As').
Proof.
  intros Hn. induction os as [|o os IH]; intros e m As m' H Hs; cbn [model_run].
  - intros E; injection E as <-. exists As, e. split; auto. split; auto using same_refl.
  - inversion Hs; subst. destruct (model_do m o) as [m1| |] eqn:Ed; try discriminate. cbn [rbind].
    destruct (model_do_spec _ _ _ _ _ _ _ Hn H H2 Ed) as (As1&e1&H1&Hsm1&He1&Hf1). intros Hr.
    destruct (IH e1 m1 As1 m' H1) as (As'&e'&H'&Hsm'&He'&Hf'); auto; [destruct Hsm1 as (->&_); auto|].
    exists As', e'. split; auto. split; [eapply same_trans; eauto|]. split.
    + intros Hc. inversion Hc; subst. rewrite He' by auto. auto.
    + intros Hc Hf. inversion Hc; subst. auto.
Qed.
Lemma model_reached_spec X y nrm h0 sigma p os m : no_nan X -> model_reached X y nrm h0 sigma p os m ->
  exists As e, minv X (start_target y nrm) None e m As /\ (Forall completes os -> forall i, e i = 0%R) /\ length (m_trees m) = pa_ntrees p /\ m_par m = p.
Proof.
  intros Hn (Hl&Hs&m0&Hm0&Hr). destruct (start_model_spec _ _ _ _ _ _ _ Hl Hm0) as (H0&Ht&_&_&_&Hp&_).
  assert (Hlen : length (m_trees m0) = pa_ntrees p) by (rewrite Ht, map_length, seq_length; auto).
  rewrite <- Hlen in Hs. destruct (model_run_spec _ _ Hn _ _ _ _ _ H0 Hs Hr) as (As&e&H&Hsm&He&_).
  exists As, e. split; auto. destruct Hsm as (L&_&P&_). split; [|split; congruence]. intros Hc i. now rewrite He.
Qed.
