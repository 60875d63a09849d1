(** The tree sampler of bartpy/samplers/oblivioustrees with one more constant column (see PCol.v). *)
From Coq Require Import Reals FunctionalExtensionality.
From Verif Require Import Base Fl Ext MData MSplit MTree MSampler MModel MSklearn MOblivious MObModel MObSklearn SpecInvariance SpecColumn LFl LList PHeap PRel PCol.
Local Open Scope R_scope.

Section ColOb.
Local Open Scope nat_scope.
Variables (k : nat) (cs : list fl) (X0 : matrix).
Hypothesis Hfit : fits_in k cs X0.
Hypothesis Hflat : flat_from_second cs.
Hypothesis Hcols : mx_ncols X0 <> 0.
Local Notation X1 := (with_column k cs X0).
Local Notation iv := (iv k).
Local Notation wfc := (wfc X0).
Local Notation wfd := (wfd X0).
Local Notation wfh := (wfh X0).
Local Notation wfm := (wfm X0).
Local Notation tcm := (tcm k cs X0).
Local Notation tsc := (tsc k).
Local Notation tns := (tns k cs X0).
Local Notation tnd := (tnd k cs X0).
Local Notation th := (th k cs X0).
Local Notation tmd := (tmd k cs X0).
Local Notation tdt := (tdt k cs X0).
Local Notation tsk := (tsk k cs X0).
Local Notation tp1 := (tp1 k cs X0).
Local Notation tp2 := (tp2 k cs X0).
Local Notation tp3 := (tp3 k cs X0).
Local Notation tp4 := (tp4 k cs X0).
Local Notation tq1 := (tq1 k cs X0).
Local Notation tq2 := (tq2 k cs X0).
Local Notation tq3 := (tq3 k cs X0).
Local Notation tq4 := (tq4 k cs X0).

Lemma choose_map l d : l <> [] -> choose 0 (map iv l) d = iv (choose 0 l d).
Proof.
  intros N. unfold choose. rewrite map_length. assert (d mod length l < length l) by (apply Nat.mod_upper_bound; now destruct l).
  rewrite (nth_indep _ 0 (iv 0)) by now rewrite map_length. apply map_nth.
Qed.
Lemma random_variable_tr c d : wfc c -> random_splittable_variable (tcm c) d = rmap iv (random_splittable_variable c d).
Proof.
  intros W. unfold random_splittable_variable. rewrite one_splittable_tr, splittable_tr by auto. rewrite (one_splittable_eq c) by (eapply wf_split; eauto).
  destruct (fst (splittable_variables c)) as [|v l] eqn:E; auto. cbn [length Nat.ltb]. change (0 <? S (length l)) with true. cbn iota. cbn [rmap]. f_equal. apply choose_map. discriminate.
Qed.
Lemma ob_split_condition_tr c idx : wfc c ->
  ob_sample_split_condition (tcm c) idx = rmap (fun ccd => (tsc (fst (fst ccd)), tsc (snd (fst ccd)), snd ccd)) (ob_sample_split_condition c idx).
Proof.
  intros W. unfold ob_sample_split_condition. destruct idx as [|d idx]; rewrite random_variable_tr by auto.
  - destruct (random_splittable_variable c 0); reflexivity.
  - destruct (random_splittable_variable c d) as [v| |]; cbn [rbind rmap]; auto. rewrite random_splittable_value_tr by auto. destruct (random_splittable_value c v idx) as [[x idx2]| |]; reflexivity.
Qed.
Lemma ob_split_node_tr h i idx : wfh h -> ob_split_node (th h) i idx = rmap tp3 (ob_split_node h i idx) /\ (forall a h' b, ob_split_node h i idx = Ok (a, h', b) -> wfh h').
Proof.
  intros W. unfold ob_split_node. rewrite is_splittable_tr by auto. destruct (is_splittable h i).
  - rewrite node_data_tr. destruct (node_data h i) as [d|] eqn:Ed; cbn [option_map]; try (split; auto; discriminate). eapply node_data_wf in Ed; eauto.
    change (d_X (tdt d)) with (tcm (d_X d)). rewrite ob_split_condition_tr by auto. destruct (ob_sample_split_condition (d_X d) idx) as [[[c0 c1] idx1]| |]; cbn [rbind rmap fst snd]; try (split; auto; discriminate).
    destruct (split_node_tr k cs X0 Hfit h i c0 c1 W) as [E V]. rewrite E. destruct (split_node h i c0 c1) as [[p h1]| |]; cbn [rbind rmap]; split; auto; try discriminate. intros a h' b [= _ <- _]. eauto.
  - rewrite th_get. destruct (h_get h i) as [[kd s d]|] eqn:Eg; cbn [option_map]; try (split; auto; discriminate).
    assert (Wn : forall kd' d', wfn X0 (Nd kd' s d')) by (intros; exact (W _ _ Eg)).
    assert (F : forall h kd d, h_alloc (th h) (Nd kd (tns s) d) = (h_next h, th (snd (h_alloc h (Nd kd s d))))) by (intros h0 kd0 d0; exact (th_alloc k cs X0 h0 (Nd kd0 s d0))).
    unfold PCol.tnd. cbn [nd_kind nd_split nd_depth]. split.
    + rewrite F. cbn beta iota. rewrite F. cbn beta iota. rewrite F. reflexivity.
    + destruct (h_alloc h _) as [l h1] eqn:E1. destruct (h_alloc h1 _) as [r h2] eqn:E2. destruct (h_alloc h2 _) as [q h3] eqn:E3. intros a h' b [= _ <- _].
      apply (f_equal snd) in E1, E2, E3. cbn [snd] in E1, E2, E3. rewrite <- E3, <- E2, <- E1. repeat apply wfh_alloc; auto.
Qed.
Lemma ob_grows_tr : forall ids h idx, wfh h -> ob_grows (th h) ids idx = rmap tp3 (ob_grows h ids idx) /\ (forall a h' b, ob_grows h ids idx = Ok (a, h', b) -> wfh h').
Proof.
  induction ids as [|i ids IH]; intros h idx W; cbn [ob_grows]; [split; auto; now intros a h' b [= _ <- _]|].
  destruct (ob_split_node_tr h i idx W) as [E V]. rewrite E. destruct (ob_split_node h i idx) as [[[p h1] idx1]| |]; cbn [rbind rmap PCol.tp3 fst snd]; try (split; auto; discriminate).
  rewrite grow_mutation_tr. destruct (grow_mutation h1 i p) as [m| |]; cbn [rbind]; try (split; auto; discriminate).
  destruct (IH h1 idx1 (V _ _ _ eq_refl)) as [E2 V2]. rewrite E2. destruct (ob_grows h1 ids idx1) as [[[ms h2] idx2]| |]; cbn [rbind rmap PCol.tp3 fst snd]; split; auto; try discriminate. intros a h' b [= _ <- _]. eauto.
Qed.
Lemma ob_prunes_tr : forall ids h, wfh h -> ob_prunes (th h) ids = rmap tp2 (ob_prunes h ids) /\ (forall a h', ob_prunes h ids = Ok (a, h') -> wfh h').
Proof.
  induction ids as [|i ids IH]; intros h W; cbn [ob_prunes]; [split; auto; now intros a h' [= _ <-]|].
  rewrite th_get. destruct (h_get h i) as [a|] eqn:Eg; cbn [option_map]; try (split; auto; discriminate).
  pose proof (th_alloc k cs X0 h (Nd (KLeaf 0) (nd_split a) (nd_depth a))) as E. unfold PCol.tnd in E at 1. cbn [nd_kind nd_split nd_depth] in E. unfold PCol.tnd; cbn [nd_split nd_depth]. rewrite E.
  destruct (h_alloc h _) as [u h1] eqn:Ea. cbn [fst snd]. rewrite prune_mutation_tr. assert (W1 : wfh h1) by (apply (f_equal snd) in Ea; cbn [snd] in Ea; rewrite <- Ea; apply wfh_alloc; auto; exact (W _ _ Eg)).
  assert (u = h_next h) as <- by (now apply (f_equal fst) in Ea). destruct (prune_mutation h1 i u) as [m| |]; cbn [rbind]; try (split; auto; discriminate).
  destruct (IH h1 W1) as [E2 V2]. rewrite E2. destruct (ob_prunes h1 ids) as [[ms h2]| |]; cbn [rbind rmap PCol.tp2 fst snd]; split; auto; try discriminate. intros a' h' [= _ <-]. eauto.
Qed.
Lemma ob_propose_tr h t : wfh h -> forall limit r, ob_propose limit (th h) t r = rmap tp3 (ob_propose limit h t r) /\ (forall a h' b, ob_propose limit h t r = Ok (a, h', b) -> wfh h').
Proof.
  intros W. induction limit as [|lim IH]; intros r; cbn [ob_propose]; try (split; auto; discriminate). destruct (rg_method r) as [|b bs]; try (split; auto; discriminate).
  assert (G : forall idx, ob_grow_mutations (th h) t idx = rmap tp3 (ob_grow_mutations h t idx) /\ (forall a h' b, ob_grow_mutations h t idx = Ok (a, h', b) -> wfh h'))
    by (intros idx; unfold ob_grow_mutations; rewrite leaf_nodes_tr; now apply ob_grows_tr).
  assert (P : (let! (ms, h1) := ob_prune_mutations (th h) t in Ok (ms, h1, rg_index r)) = rmap tp3 (let! (ms, h1) := ob_prune_mutations h t in Ok (ms, h1, rg_index r)) /\
              (forall a h' b, (let! (ms, h1) := ob_prune_mutations h t in Ok (ms, h1, rg_index r)) = Ok (a, h', b) -> wfh h')).
  { unfold ob_prune_mutations. rewrite prunable_decision_nodes_tr. destruct (ob_prunes_tr (prunable_decision_nodes h t) h W) as [E V]. rewrite E.
    destruct (ob_prunes h (prunable_decision_nodes h t)) as [[ms h1]| |]; cbn [rbind rmap]; split; auto; try discriminate. intros a h' c [= _ <- _]. eauto. }
  assert (E : (if b then ob_grow_mutations (th h) t (rg_index r) else let! (ms, h1) := ob_prune_mutations (th h) t in Ok (ms, h1, rg_index r)) =
              rmap tp3 (if b then ob_grow_mutations h t (rg_index r) else let! (ms, h1) := ob_prune_mutations h t in Ok (ms, h1, rg_index r)))
    by (destruct b; [apply G|apply P]).
  assert (V : forall a h' c, (if b then ob_grow_mutations h t (rg_index r) else let! (ms, h1) := ob_prune_mutations h t in Ok (ms, h1, rg_index r)) = Ok (a, h', c) -> wfh h')
    by (destruct b; [apply G|apply P]).
  rewrite E. clear E G P. destruct (if b then ob_grow_mutations h t _ else _) as [[[m h1] idx]|e|]; cbn [rmap PCol.tp3 fst snd].
  - split; auto. intros a h' c [= _ <- _]. eauto.
  - destruct e; try (split; auto; discriminate); apply IH.
  - split; auto; discriminate.
Qed.
Lemma ob_log_split_tr h e u : wfh h -> ob_log_split (th h) e u = ob_log_split h e u.
Proof.
  intros W. unfold ob_log_split. rewrite dec_most_recent_tr. destruct (dec_most_recent h u) as [s|]; cbn [option_map]; auto. rewrite node_data_tr.
  destruct (node_data h e) as [d|] eqn:Ed; cbn [option_map]; auto. eapply node_data_wf in Ed; eauto. change (d_X (tdt d)) with (tcm (d_X d)). apply rbind_fst. now apply proportion_tr.
Qed.
Lemma ob_log_ratio_tr h m s p : wfh h -> ob_log_ratio (th h) m s p = ob_log_ratio h m s p.
Proof.
  intros W. unfold ob_log_ratio, ob_log_transition, ob_log_prune_transition, ob_log_grow_transition, ob_log_tree, ob_log_tree_grow, ob_log_tree_prune.
  rewrite log_likihood_ratio_tr, !grow_mutation_tr, !ob_log_split_tr, !node_depth_tr, !get_children_tr by auto.
  match goal with |- rbind ?a ?f = rbind ?a ?g => destruct a; cbn [rbind]; auto end. destruct (log_likihood_ratio h m s p); cbn [rbind]; auto. f_equal.
  destruct (mu_kind m); auto.
  - destruct (node_depth h (mu_existing m)); cbn [rbind]; auto. destruct (get_children h (mu_updated m)) as [[l r]| |]; cbn [rbind]; auto. now rewrite !node_depth_tr.
  - destruct (node_depth h (mu_updated m)); cbn [rbind]; auto. destruct (get_children h (mu_existing m)) as [[l r]| |]; cbn [rbind]; auto. now rewrite !node_depth_tr.
Qed.
Lemma ob_ratio_tr h s p : wfh h -> forall ms acc, ob_ratio_from acc (th h) ms s p = ob_ratio_from acc h ms s p.
Proof. intros W. induction ms as [|m ms IH]; intros acc; auto. cbn [ob_ratio_from]. rewrite ob_log_ratio_tr by auto. destruct (ob_log_ratio h m s p); cbn [rbind]; auto. Qed.
Lemma mutate_all_tr : forall ms h t, mutate_all (th h) t ms = rmap tp1 (mutate_all h t ms).
Proof. induction ms as [|m ms IH]; intros h t; auto. cbn [mutate_all]. rewrite mutate_tr. destruct (mutate h t m) as [[h1 t1] [e|]]; auto. Qed.
Lemma mutate_all_wf : forall ms h t h' t', wfh h -> mutate_all h t ms = Ok (h', t') -> wfh h'.
Proof.
  induction ms as [|m ms IH]; intros h t h' t' W; cbn [mutate_all]; [now intros [= <- _]|]. destruct (mutate h t m) as [[h1 t1] [e|]] eqn:E; [discriminate|]. intros E2. apply (IH h1 t1 h' t'); auto. eapply mutate_wf; eauto.
Qed.
Lemma ob_step_tr h t s p r : wfh h -> ob_step (th h) t s p r = rmap tp4 (ob_step h t s p r) /\ (forall a h' b c, ob_step h t s p r = Ok (a, h', b, c) -> wfh h').
Proof.
  intros W. unfold ob_step, ob_sample, ob_ratio. destruct (ob_propose_tr h t W (pa_limit p) r) as [E W1]. rewrite E. destruct (ob_propose (pa_limit p) h t r) as [[[ms h1] r1]| |]; cbn [rbind rmap PCol.tp3 fst snd]; try (split; auto; discriminate).
  specialize (W1 _ _ _ eq_refl). rewrite ob_ratio_tr by auto. destruct (ob_ratio_from _ h1 ms s p) as [q| |]; cbn [rbind]; try (split; auto; discriminate).
  destruct (rg_unif r1) as [|u us]; cbn [rbind]; try (split; auto; discriminate). destruct (accepts u q); [|split; auto; now intros a h' b c [= _ <- _ _]].
  rewrite mutate_all_tr. destruct (mutate_all h1 t ms) as [[h2 t2]| |] eqn:Em; cbn [rbind rmap]; split; auto; try discriminate. intros a h' b c [= _ <- _ _]. eapply mutate_all_wf; eauto.
Qed.
Lemma ob_call_tr m fr thk r : wfm m -> ob_call (tmd m) fr thk r = rmap tq3 (ob_call m fr thk r) /\ (forall a m' b, ob_call m fr thk r = Ok (a, m', b) -> wfm m').
Proof.
  intros W. destruct thk; try now apply call_tr. cbn [ob_call].
  destruct (fr_tree fr) as [j|]; try (split; auto; discriminate). change (m_trees (tmd m)) with (m_trees m). destruct (nth_error (m_trees m) j) as [t|]; try (split; auto; discriminate).
  change (m_heap (tmd m)) with (th (m_heap m)). change (m_sigma (tmd m)) with (m_sigma m). change (m_par (tmd m)) with (m_par m).
  destruct (ob_step_tr (m_heap m) t (m_sigma m) (m_par m) r W) as [E V]. rewrite E. destruct (ob_step (m_heap m) t (m_sigma m) (m_par m) r) as [[[[om h1] t1] r1]| |]; cbn [rbind rmap PCol.tp4 fst snd]; split; auto; try discriminate.
  intros a m' b [= _ <- _]. unfold PCol.wfm. simpl. eauto.
Qed.
Lemma ob_drive_tr : forall fuel m fr pc r, wfm m -> ob_drive fuel (tmd m) fr pc r = rmap tq3 (ob_drive fuel m fr pc r) /\ (forall a m' b, ob_drive fuel m fr pc r = Ok (a, m', b) -> wfm m').
Proof.
  induction fuel as [|f IH]; intros m fr pc r W; cbn [ob_drive]; try (split; auto; discriminate). rewrite gen_next_tr.
  destruct (gen_next m fr pc) as [[[[y pc1] fr1] m1]| |] eqn:E1; cbn [rbind rmap PCol.tq4 fst snd]; try (split; auto; discriminate). eapply gen_next_wf in E1; eauto.
  destruct y as [[ky thk]|]; [|split; auto; now intros a m' b [= _ <- _]].
  destruct (ob_call_tr m1 fr1 thk r E1) as [E2 V2]. rewrite E2. destruct (ob_call m1 fr1 thk r) as [[[[result ac] m2] r1]| |]; cbn [rbind rmap PCol.tq3 fst snd]; try (split; auto; discriminate).
  destruct (IH m2 fr1 pc1 r1 (V2 _ _ _ eq_refl)) as [E3 V3]. rewrite E3. destruct (ob_drive f m2 fr1 pc1 r1) as [[[[log acts] m3] r2]| |]; cbn [rbind rmap PCol.tq3 fst snd]; split; auto; try discriminate.
  intros a m' b [= _ <- _]. eauto.
Qed.
Lemma ob_gibbs_step_tr m r : wfm m -> ob_gibbs_step (tmd m) r = rmap tq3 (ob_gibbs_step m r) /\ (forall a m' b, ob_gibbs_step m r = Ok (a, m', b) -> wfm m').
Proof.
  intros W. unfold ob_gibbs_step. change (ob_drive_fuel (tmd m)) with (ob_drive_fuel m). destruct (ob_drive_tr (ob_drive_fuel m) m (Fr None None) GStart r W) as [E V]. rewrite E.
  destruct (ob_drive (ob_drive_fuel m) m (Fr None None) GStart r) as [[[[log acts] m1] r1]| |]; cbn [rbind rmap PCol.tq3 fst snd]; split; auto; try discriminate. intros a m' b [= _ <- _]. eauto.
Qed.
Lemma ob_burn_tr : forall b m r, wfm m -> ob_burn b (tmd m) r = rmap tq1 (ob_burn b m r) /\ (forall m' r', ob_burn b m r = Ok (m', r') -> wfm m').
Proof.
  induction b as [|b IH]; intros m r W; cbn [ob_burn]; [split; auto; now intros m' r' [= <- _]|]. destruct (ob_gibbs_step_tr m r W) as [E V]. rewrite E.
  destruct (ob_gibbs_step m r) as [[[[dd acts] m1] r1]| |]; cbn [rbind rmap PCol.tq3 fst snd]; try (split; auto; discriminate). apply IH. eauto.
Qed.
Lemma ob_sample_iter_tr ss num den sp sa m r : wfm m -> ob_sample_iter ss num den sp sa (tmd m) r = rmap tq3 (ob_sample_iter ss num den sp sa m r) /\
  (forall a m' b, ob_sample_iter ss num den sp sa m r = Ok (a, m', b) -> wfm m').
Proof.
  intros W. unfold ob_sample_iter. destruct (ob_gibbs_step_tr m r W) as [E V]. rewrite E. destruct (ob_gibbs_step m r) as [[[[dd acts] m1] r1]| |]; cbn [rbind rmap PCol.tq3 fst snd]; try (split; auto; discriminate).
  specialize (V _ _ _ eq_refl). destruct (num =? 0)%Z; try (split; auto; discriminate). destruct (keeps_sample ss num den); [|split; auto; now intros a m' b [= _ <- _]].
  assert (F : (if sp then let! (v, m2) := model_predict (tmd m1) in Ok ([v], m2) else Ok ([], tmd m1)) = rmap tq2 (if sp then let! (v, m2) := model_predict m1 in Ok ([v], m2) else Ok ([], m1)))
    by (destruct sp; auto; rewrite model_predict_tr; destruct (model_predict m1) as [[v m2]| |]; reflexivity).
  rewrite F. clear F. destruct (if sp then let! (v, m2) := model_predict m1 in Ok ([v], m2) else Ok ([], m1)) as [[ps m2]| |] eqn:Ep; cbn [rbind rmap PCol.tq2 fst snd]; try (split; auto; discriminate).
  assert (W2 : wfm m2).
  { destruct sp; [|now injection Ep as _ <-]. destruct (model_predict m1) as [[v m2']| |] eqn:E3; try discriminate. injection Ep as _ <-. eapply model_predict_wf; eauto. }
  destruct (deep_copy_model_tr k cs X0 m2 W2) as [E4 V4]. rewrite E4. destruct (deep_copy_model m2) as [[s m3]| |]; cbn [rbind rmap PCol.tq2 fst snd]; split; auto; try discriminate. intros a m' b [= _ <- _]. eauto.
Qed.
Lemma ob_sample_loop_tr num den sp sa : forall todo ss m r, wfm m -> ob_sample_loop ss todo num den sp sa (tmd m) r = rmap tq3 (ob_sample_loop ss todo num den sp sa m r) /\
  (forall a m' b, ob_sample_loop ss todo num den sp sa m r = Ok (a, m', b) -> wfm m').
Proof.
  induction todo as [|todo IH]; intros ss m r W; cbn [ob_sample_loop]; [split; auto; now intros a m' b [= _ <- _]|].
  destruct (ob_sample_iter_tr ss num den sp sa m r W) as [E V]. rewrite E. destruct (ob_sample_iter ss num den sp sa m r) as [[[c m1] r1]| |]; cbn [rbind rmap PCol.tq3 fst snd]; try (split; auto; discriminate).
  destruct (IH (S ss) m1 r1 (V _ _ _ eq_refl)) as [E2 V2]. rewrite E2. destruct (ob_sample_loop (S ss) todo num den sp sa m1 r1) as [[[c' m2] r2]| |]; cbn [rbind rmap PCol.tq3 fst snd]; split; auto; try discriminate.
  intros a m' b [= _ <- _]. eauto.
Qed.
Lemma ob_samples_tr m ns nb thn sp sa r : wfm m -> ob_samples (tmd m) ns nb thn sp sa r = rmap tq3 (ob_samples m ns nb thn sp sa r).
Proof.
  intros W. unfold ob_samples. destruct (ob_burn_tr nb m r W) as [E V]. rewrite E. destruct (ob_burn nb m r) as [[m1 r1]| |]; cbn [rbind rmap PCol.tq1 fst snd]; auto.
  destruct thn as [|num den]; auto. apply ob_sample_loop_tr. eauto.
Qed.
Lemma ob_run_chain_tr s h y r : wfh h -> ob_run_chain (tsk s) (th h) X1 y r = rmap (fun p => (fst (fst p), tsk (snd (fst p)), th (snd p))) (ob_run_chain s h X0 y r).
Proof.
  intros W. unfold ob_run_chain. destruct (construct_tr k cs X0 Hfit Hcols s h y W) as [E V]. rewrite E. destruct (construct_model s h X0 y) as [s1| |]; cbn [rbind rmap]; auto. destruct (V _ eq_refl) as [[V1 V2] _].
  cbn [PCol.tsk sk_model sk_data sk_nsamples sk_nburn sk_thin sk_store_preds sk_store_accept]. destruct (sk_model s1) as [m|]; cbn [option_map]; auto. destruct (sk_data s1) as [d|]; cbn [option_map]; auto.
  rewrite (ob_samples_tr m (sk_nsamples s) (sk_nburn s) (sk_thin s) (sk_store_preds s) (sk_store_accept s) r (V2 _ eq_refl)).
  destruct (ob_samples m _ _ _ _ _ r) as [[[c m1] r1]| |]; reflexivity.
Qed.
Lemma ob_run_processes_tr s h y : wfh h -> forall nc rs, ob_run_processes (repeat (tsk s, th h, X1, y) nc) rs = rmap (map (fun e => (th (fst e), snd e))) (ob_run_processes (repeat (s, h, X0, y) nc) rs).
Proof.
  intros W. induction nc as [|nc IH]; intros rs; auto. cbn [repeat ob_run_processes]. destruct rs as [|r rs]; auto. rewrite ob_run_chain_tr by auto.
  destruct (ob_run_chain s h X0 y r) as [[[c s1] h1]| |]; cbn [rbind rmap fst snd]; auto. rewrite IH. destruct (ob_run_processes (repeat (s, h, X0, y) nc) rs); reflexivity.
Qed.
Lemma ob_fit_tr s y rs : ob_fit Processes (tsk s) h_empty X1 y rs = rmap tsk (ob_fit Processes s h_empty X0 y rs).
Proof.
  assert (W : wfh h_empty) by (intros j a; discriminate). change h_empty with (th h_empty) at 1. unfold ob_fit. destruct (construct_tr k cs X0 Hfit Hcols s h_empty y W) as [E V].
  rewrite E. destruct (construct_model s h_empty X0 y) as [s1| |]; cbn [rbind rmap]; auto. destruct (V _ eq_refl) as [[V1 V2] _].
  change (sk_model (tsk s1)) with (option_map tmd (sk_model s1)). change (sk_nchains (tsk s1)) with (sk_nchains s1). destruct (sk_model s1) as [m|] eqn:Em; cbn [option_map]; auto.
  change (m_heap (tmd m)) with (th (m_heap m)). rewrite ob_run_processes_tr by (apply V2; auto).
  destruct (ob_run_processes (repeat (s1, m_heap m, X0, y) (sk_nchains s1)) rs) as [es| |]; cbn [rbind rmap]; auto. apply store_chains_tr.
Qed.
End ColOb.
