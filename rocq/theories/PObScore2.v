(** Lemmas behind Properties_ObScore.v: histories and stretches *)
From Coq Require Import Reals Lra Permutation.
From Verif Require Import Base Fl Ext MData MSplit MTree MSampler MHist MTreeHist MOblivious Spec SpecTree SpecSampler SpecScore SpecOblivious SpecObScore LFl LList
  PData PSplit PDataProps PCond PTree PPred PTreeHist PTreeProps PTreeProps2 PSampler PSampler2 PModel7 PDiag PScore POblivious POblivious2 POblivious3 POblivious4 POblivious5 PObScore.
Local Open Scope R_scope.

Lemma ob_grow_scd h X oy t k o idx ms h1 idx1 h2 t2 : no_nan X -> oinv h X oy t k o ->
  ob_grow_mutations h t idx = Ok (ms, h1, idx1) -> mutate_all h1 t ms = Ok (h2, t2) -> (forall j, In j (leaf_nodes h t) -> scorable X h j) -> oscd X [] o ->
  exists o2, oinv h2 X oy t2 (S k) o2 /\ oscd X [] o2.
Proof.
  intros Hn H E Em Hsc Hd. destruct (ob_grow_ok _ _ _ _ _ _ _ _ _ _ Hn H E) as (H1&_&Hold&ps&h3&t3&->&Hes&_&HB&Em'&H2&_). rewrite Em in Em'. injection Em' as <- <-.
  exists (ogrow (newtree ps) o). split; auto. apply (oscd_grow X (newtree ps) (newtree_twig ps) o [] 0%nat); auto. intros i ci di Hi.
  destruct (ogr_ok _ _ _ _ _ _ _ _ _ (oi_ok _ _ _ _ _ _ H) Hi) as (w&s&Es&Hs). apply (scorable_sco X oy h i (KLeaf w) s di ci Hn Es Hs). apply Hsc.
  apply (leaf_ogr _ _ _ _ _ _ _ H). eauto.
Qed.
Lemma ob_prune_scd h X oy t k o ms h1 h2 t2 : oinv h X oy t k o -> ob_prune_mutations h t = Ok (ms, h1) -> mutate_all h1 t ms = Ok (h2, t2) -> oscd X [] o ->
  exists o2, oinv h2 X oy t2 (pred k) o2 /\ oscd X [] o2.
Proof.
  intros H E Em Hd. destruct (ob_prune_ok _ _ _ _ _ _ H) as (ps&h1'&h3&t3&E'&_&_&_&_&_&Em'&H2&_). rewrite E in E'. injection E' as -> <-. rewrite Em in Em'. injection Em' as <- <-.
  eauto using oscd_prune.
Qed.
Lemma oscd_scorable h X oy t k o : no_nan X -> oinv h X oy t k o -> oscd X [] o -> forall j, In j (decision_nodes h t) -> scorable X h j.
Proof.
  intros Hn H Hd j Hj. apply (Permutation_in _ (odec_nodes_perm _ _ _ _ _ _ H)) in Hj. destruct (odec_oreg o [] 0%nat j Hj) as (q&l&r&cs&d&Hr).
  pose proof (oscd_oreg _ _ _ _ _ _ _ Hd Hr) as (A&_). pose proof (oreg_ok _ _ _ _ _ _ _ _ _ (oi_ok _ _ _ _ _ _ H) Hr) as ((s&E&Hs)&_). simpl in E.
  eapply scorable_sco; eauto.
Qed.
Lemma prunable_dec h t j : In j (prunable_decision_nodes h t) -> In j (decision_nodes h t).
Proof. unfold prunable_decision_nodes. rewrite filter_In. tauto. Qed.
Lemma accepted_scorable h X oy t k o sigma p r ms h1 r1 idx idx' : no_nan X -> oinv h X oy t k o -> ob_sample h t sigma p r = Ok (Some ms, h1, r1) ->
  ob_grow_mutations h t idx = Ok (ms, h1, idx') -> forall j, In j (leaf_nodes h t) -> scorable X h j.
Proof.
  intros Hn H E Eg j Hj. unfold scorable. destruct (is_splittable h j) eqn:Es; auto. right.
  destruct (ob_grow_ok _ _ _ _ _ _ _ _ _ _ Hn H Eg) as (_&_&_&ps&h3&t3&->&Hes&_). rewrite <- Hes in Hj. pose proof Hj as Hj'. apply in_map_iff in Hj as (en&<-&Hen).
  rewrite Hes in Hj'. apply (accepted_leaf h X oy t k o sigma p r (map g_mut ps) h1 r1 Hn H E (en_e en) (g_mut en)); auto; [now apply in_map|split; reflexivity].
Qed.
(** a step, whatever its parameters *)
Lemma ob_step_scd h X oy t k o sigma p r om h1 t1 r1 : no_nan X -> oinv h X oy t k o -> oscd X [] o -> ob_step h t sigma p r = Ok (om, h1, t1, r1) ->
  exists k1 o1, oinv h1 X oy t1 k1 o1 /\ oscd X [] o1.
Proof.
  intros Hn H Hd. unfold ob_step. destruct (ob_sample h t sigma p r) as [[[om' h'] r']| |] eqn:E; try discriminate. cbn [rbind].
  destruct (ob_sample_ok _ _ _ _ _ _ _ _ _ _ _ _ Hn H E) as (A&B&C&D). destruct om' as [ms|].
  - destruct (mutate_all h' t ms) as [[h2 t2]| |] eqn:Em; try discriminate. cbn [rbind]. intros Q; injection Q as <- <- <- <-.
    destruct (D ms eq_refl) as [(idx&idx'&Eg)|Ep].
    + destruct (ob_grow_scd _ _ _ _ _ _ _ _ _ _ _ _ Hn H Eg Em (accepted_scorable _ _ _ _ _ _ _ _ _ _ _ _ _ _ Hn H E Eg) Hd) as (o2&G). eauto.
    + destruct (ob_prune_scd _ _ _ _ _ _ _ _ _ _ H Ep Em Hd) as (o2&G). eauto.
  - intros Q; injection Q as <- <- <- <-. eauto.
Qed.
Definition ob_y_after (y : list R) (op : ob_op) : list R := match op with OUpdateY y1 => y1 | _ => y end.
Lemma ob_do_scd h X y t k o op h' t' : no_nan X -> oinv h X (Some y) t k o -> oscd X [] o -> sane_ob (length (mx_rows X)) op -> sampled_op op -> ob_do h t op = Ok (h', t') ->
  exists k' o', oinv h' X (Some (ob_y_after y op)) t' k' o' /\ oscd X [] o'.
Proof.
  intros Hnan H Hd Hs Hg. destruct op as [idx| |[] idx|i w|y1| |sigma p r]; simpl.
  - destruct Hg.
  - destruct (ob_prune_mutations h t) as [[ms h1]| |] eqn:E; try discriminate. cbn [rbind]. intros Em. destruct (ob_prune_scd _ _ _ _ _ _ _ _ _ _ H E Em Hd) as (o2&G). eauto.
  - destruct (ob_grow_mutations h t idx) as [[[ms h1] idx1]| |] eqn:E; try discriminate. cbn [rbind]. intros Em; injection Em as <- <-.
    destruct (ob_grow_ok _ _ _ _ _ _ _ _ _ _ Hnan H E) as (A&_). eauto.
  - destruct (ob_prune_ok _ _ _ _ _ _ H) as (ps&h4&h3&t3&E2&A&_). rewrite E2. cbn [rbind]. intros Q; injection Q as <- <-. eauto.
  - destruct (existsb (Nat.eqb i) (leaf_nodes h t)); [|discriminate]. intros Q; injection Q as <- <-. exists k, o. split; auto. apply set_value_oinv; auto.
  - destruct (update_y_oinv _ _ _ _ _ _ (Some y1) H) as (h2&E&A); [intros y' Q; injection Q as <-; exact Hs|]. rewrite E. intros Q; injection Q as <- <-. eauto.
  - unfold tree_predict. destruct (if tr_fresh t then _ else _) as [[b|]| |]; try discriminate. cbn [rbind]. intros Q; injection Q as <- <-. exists k, o. split; auto. constructor; simpl; apply H.
  - destruct (ob_step h t sigma p r) as [[[[om h1] t1] r1]| |] eqn:E; try discriminate. cbn [rbind]. intros Q; injection Q as <- <-. eapply ob_step_scd; eauto.
Qed.
Lemma last_ob_target_cons y op os : last_ob_target y (op :: os) = last_ob_target (ob_y_after y op) os.
Proof. destruct op; reflexivity. Qed.
Lemma ob_run_scd X os : no_nan X -> forall h y t k o h' t', oinv h X (Some y) t k o -> oscd X [] o -> Forall (sane_ob (length (mx_rows X))) os -> Forall sampled_op os ->
  ob_run h t os = Ok (h', t') -> exists k' o', oinv h' X (Some (last_ob_target y os)) t' k' o' /\ oscd X [] o'.
Proof.
  intros Hnan. induction os as [|op os IH]; intros h y t k o h' t' H Hd Hs Hg.
  - simpl. intros Q; injection Q as <- <-. eauto.
  - rewrite last_ob_target_cons. simpl. inversion Hs; subst. inversion Hg; subst. destruct (ob_do h t op) as [[h1 t1]| |] eqn:E; try discriminate. cbn [rbind]. intros Q.
    destruct (ob_do_scd _ _ _ _ _ _ _ _ _ Hnan H Hd H2 H4 E) as (k1&o1&G&Hd1). eapply IH; eauto.
Qed.
Lemma ob_reached_scd X y nrm h0 os h t : no_nan X -> ob_reached X y nrm h0 os h t -> Forall sampled_op os ->
  exists k o, oinv h X (Some (last_ob_target (start_target y nrm) os)) t k o /\ oscd X [] o.
Proof.
  intros Hn (Hl&Hs&s&E&R) Hg. rewrite Hl in Hs. eapply ob_run_scd; [exact Hn|apply start_oinv; eauto|exact I|exact Hs|exact Hg|exact R].
Qed.
(** the target, also after unconditional grows *)
Lemma ob_do_target h X y t k o op h' t' : no_nan X -> oinv h X (Some y) t k o -> sane_ob (length (mx_rows X)) op -> ob_do h t op = Ok (h', t') ->
  exists k' o', oinv h' X (Some (ob_y_after y op)) t' k' o'.
Proof.
  intros Hnan H Hs. destruct op as [idx| |[] idx|i w|y1| |sigma p r]; simpl.
  - destruct (ob_grow_mutations h t idx) as [[[ms h1] idx1]| |] eqn:E; try discriminate. cbn [rbind]. intros Em.
    destruct (ob_grow_ok _ _ _ _ _ _ _ _ _ _ Hnan H E) as (_&_&_&ps&h3&t3&_&_&_&_&Q3&Q4&_). rewrite Em in Q3. injection Q3 as <- <-. eauto.
  - destruct (ob_prune_ok _ _ _ _ _ _ H) as (ps&h4&h3&t3&E2&_&_&_&_&_&Q3&Q4&_). rewrite E2. cbn [rbind]. rewrite Q3. intros Q; injection Q as <- <-. eauto.
  - destruct (ob_grow_mutations h t idx) as [[[ms h1] idx1]| |] eqn:E; try discriminate. cbn [rbind]. intros Em; injection Em as <- <-.
    destruct (ob_grow_ok _ _ _ _ _ _ _ _ _ _ Hnan H E) as (A&_). eauto.
  - destruct (ob_prune_ok _ _ _ _ _ _ H) as (ps&h4&h3&t3&E2&A&_). rewrite E2. cbn [rbind]. intros Q; injection Q as <- <-. eauto.
  - destruct (existsb (Nat.eqb i) (leaf_nodes h t)); [|discriminate]. intros Q; injection Q as <- <-. exists k, o. apply set_value_oinv; auto.
  - destruct (update_y_oinv _ _ _ _ _ _ (Some y1) H) as (h2&E&A); [intros y' Q; injection Q as <-; exact Hs|]. rewrite E. intros Q; injection Q as <- <-. eauto.
  - unfold tree_predict. destruct (if tr_fresh t then _ else _) as [[b|]| |]; try discriminate. cbn [rbind]. intros Q; injection Q as <- <-. exists k, o. constructor; simpl; apply H.
  - destruct (ob_step h t sigma p r) as [[[[om h1] t1] r1]| |] eqn:E; try discriminate. cbn [rbind]. intros Q; injection Q as <- <-.
    pose proof (ob_step_ok _ _ _ _ _ _ _ _ _ _ _ _ _ Hnan H E) as G. destruct om as [ms|].
    + destruct G as [(ps&o1&_&_&G)|(ps&o1&_&_&G)]; eauto.
    + destruct G as (->&G&_). eauto.
Qed.
Lemma ob_reached_target X y nrm h0 os h t : no_nan X -> ob_reached X y nrm h0 os h t ->
  exists k o, oinv h X (Some (last_ob_target (start_target y nrm) os)) t k o.
Proof.
  intros Hn (Hl&Hs&s&E&R). rewrite Hl in Hs.
  assert (H0 : exists k o, oinv (fst (start_tree h0 s)) X (Some (start_target y nrm)) (snd (start_tree h0 s)) k o) by (exists 0%nat, (OLeaf (h_next h0)); apply start_oinv; auto).
  revert Hs R H0. generalize (fst (start_tree h0 s)) (snd (start_tree h0 s)) (start_target y nrm). clear E Hl.
  induction os as [|op os IH]; intros h1 t1 y1 Hs R (k&o&H).
  - simpl in R. injection R as <- <-. simpl. eauto.
  - rewrite last_ob_target_cons. simpl in R. inversion Hs; subst. destruct (ob_do h1 t1 op) as [[h2 t2]| |] eqn:E; try discriminate. cbn [rbind] in R.
    eapply IH; eauto. eapply ob_do_target; eauto.
Qed.

(** ** a step at good parameters *)
Lemma ob_step_score h X Y t k o sigma p r om h1 t1 r1 : no_nan X -> mx_rows X <> [] -> oinv h X (Some Y) t k o -> oscd X [] o -> 0 < sigma -> good p ->
  Forall (fun u => 0 <= u) (rg_unif r) -> ob_step h t sigma p r = Ok (om, h1, t1, r1) ->
  match om with
  | None => t1 = t /\ oinv h1 X (Some Y) t1 k o
  | Some _ => exists k1 o1, oinv h1 X (Some Y) t1 k1 o1 /\ oscd X [] o1 /\ osc X Y sigma p [] 0 o < osc X Y sigma p [] 0 o1 /\ (k1 <= S k)%nat
  end.
Proof.
  intros Hn Hne H Hd Hs Hp Hu. unfold ob_step. destruct (ob_sample h t sigma p r) as [[[om' h'] r']| |] eqn:E; try discriminate. cbn [rbind].
  destruct (ob_sample_ok _ _ _ _ _ _ _ _ _ _ _ _ Hn H E) as (A&B&C&D). destruct om' as [ms|].
  2:{ intros Q; injection Q as <- <- <- <-. auto. }
  destruct (mutate_all h' t ms) as [[h2 t2]| |] eqn:Em; try discriminate. cbn [rbind]. intros Q; injection Q as <- <- <- <-.
  destruct (ob_sample_accepts _ _ _ _ _ _ _ _ E) as (x&u&Er&Ea&Hin). pose proof (proj1 (Forall_forall _ _) Hu u Hin) as Hu0. cbv beta in Hu0.
  assert (Hl : forall l, x = XFin l -> 0 < l).
  { intros l ->. unfold accepts, xltb in Ea. match type of Ea with context [Rlt_dec ?a ?b] => destruct (Rlt_dec a b) end; [lra|discriminate]. }
  destruct (D ms eq_refl) as [(idx&idx'&Eg)|Ep].
  - destruct (ob_grow_score _ _ _ _ _ _ _ _ _ _ _ _ sigma p Hn Hne H Eg Em (accepted_scorable _ _ _ _ _ _ _ _ _ _ _ _ _ _ Hn H E Eg) Hp Hs) as (o2&H2&Hd2&Er2).
    exists (S k), o2. split; auto. split; auto. rewrite Er in Er2. injection Er2 as ->. specialize (Hl _ eq_refl). split; [lra|lia].
  - destruct k as [|k].
    + exfalso. destruct (ob_prune_ok _ _ _ _ _ _ H) as (ps&h4&h3&t3&E2&_&_&_&Hes&_). rewrite Ep in E2. injection E2 as -> _.
      pose proof (prunable_perm _ _ _ _ _ _ H) as P. rewrite (opr_zero _ _ _ (oi_full _ _ _ _ _ _ H)) in P. rewrite <- Hes in P. apply Permutation_sym, Permutation_nil in P.
      destruct ps; [|discriminate]. simpl in Er. injection Er as <-. specialize (Hl 0 eq_refl). lra.
    + destruct (ob_prune_score _ _ _ _ _ _ _ _ _ _ sigma p Hn Hne H ltac:(lia) Ep Em) as (o2&H2&Hd2&Er2); auto.
      { intros j Hj. eapply oscd_scorable; eauto. now apply prunable_dec. }
      exists k, o2. split; auto. split; auto. rewrite Er in Er2. injection Er2 as ->. specialize (Hl _ eq_refl). split; [lra|lia].
Qed.
Lemma quiet_oinv h X Y t k o op h1 t1 : no_nan X -> oinv h X (Some Y) t k o -> quiet_op op -> ob_do h t op = Ok (h1, t1) -> oinv h1 X (Some Y) t1 k o.
Proof.
  intros Hnan H Hg. destruct op as [idx| |[] idx|i w|y1| |sigma p r]; simpl; try destruct Hg.
  - destruct (ob_grow_mutations h t idx) as [[[ms h2] idx1]| |] eqn:E; try discriminate. cbn [rbind]. intros Em; injection Em as <- <-.
    destruct (ob_grow_ok _ _ _ _ _ _ _ _ _ _ Hnan H E) as (A&_). eauto.
  - destruct (ob_prune_ok _ _ _ _ _ _ H) as (ps&h4&h3&t3&E2&A&_). rewrite E2. cbn [rbind]. intros Q; injection Q as <- <-. eauto.
  - destruct (existsb (Nat.eqb i) (leaf_nodes h t)); [|discriminate]. intros Q; injection Q as <- <-. apply set_value_oinv; auto.
  - unfold tree_predict. destruct (if tr_fresh t then _ else _) as [[b|]| |]; try discriminate. cbn [rbind]. intros Q; injection Q as <- <-. constructor; simpl; apply H.
Qed.
Lemma ob_stretch_spec X Y sigma p h t n h2 t2 : no_nan X -> mx_rows X <> [] -> 0 < sigma -> good p -> ob_stretch sigma p h t n h2 t2 ->
  forall k o, oinv h X (Some Y) t k o -> oscd X [] o ->
  exists k2 o2, oinv h2 X (Some Y) t2 k2 o2 /\ oscd X [] o2 /\ osc X Y sigma p [] 0 o <= osc X Y sigma p [] 0 o2 /\
    ((0 < n)%nat -> osc X Y sigma p [] 0 o < osc X Y sigma p [] 0 o2) /\ (n = 0%nat -> o2 = o) /\ (k2 <= k + n)%nat.
Proof.
  intros Hn Hne Hs Hp. induction 1 as [h t|h t op h1 t1 n h2 t2 Hq E _ IH|h t r h1 t1 r1 n h2 t2 Hu E _ IH|h t r ms h1 t1 r1 n h2 t2 Hu E _ IH]; intros k o H Hd.
  - exists k, o. split; auto. split; auto. split; [lra|]. split; [lia|]. split; [auto|lia].
  - eapply IH; eauto using quiet_oinv.
  - destruct (ob_step_score _ _ _ _ _ _ _ _ _ _ _ _ _ Hn Hne H Hd Hs Hp Hu E) as (->&H1). eauto.
  - destruct (ob_step_score _ _ _ _ _ _ _ _ _ _ _ _ _ Hn Hne H Hd Hs Hp Hu E) as (k1&o1&H1&Hd1&Hlt&Hk1). destruct (IH _ _ H1 Hd1) as (k2&o2&H2&Hd2&Hle&_&_&Hk2).
    exists k2, o2. split; auto. split; auto. split; [lra|]. split; [intros; lra|]. split; [discriminate|lia].
Qed.
Lemma steps_stretch sigma p rs : forall h t h2 t2, (forall r, In r rs -> Forall (fun u => 0 <= u) (rg_unif r)) ->
  ob_run h t (map (OStep sigma p) rs) = Ok (h2, t2) -> exists n, ob_stretch sigma p h t n h2 t2.
Proof.
  induction rs as [|r rs IH]; intros h t h2 t2 Hu; simpl.
  - intros Q; injection Q as <- <-. exists 0%nat. constructor.
  - destruct (ob_step h t sigma p r) as [[[[om h1] t1] r1]| |] eqn:E; try discriminate. cbn [rbind]. intros Q.
    destruct (IH h1 t1 h2 t2) as (n&G); [intros; apply Hu; simpl; auto|exact Q|].
    destruct om as [ms|]; [exists (S n); eapply os_accept|exists n; eapply os_reject]; eauto; apply Hu; simpl; auto.
Qed.
