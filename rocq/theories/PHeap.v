(** Addresses of objects: every operation only adds objects at fresh addresses, no address beyond the last
    allocated one is ever used, and the node objects of stored samples are allocated ones. *)
From Coq Require Import Reals.
From Verif Require Import Base Fl Ext MData MSplit MTree MSampler MModel MSklearn SpecInvariance LList.

Definition grows (h h' : heap) : Prop := h_next h <= h_next h' /\ (heap_ok h -> heap_ok h').
Lemma grows_refl h : grows h h.
Proof. split; auto. Qed.
Lemma grows_trans h1 h2 h3 : grows h1 h2 -> grows h2 h3 -> grows h1 h3.
Proof. intros [A B] [C D]. split; auto. lia. Qed.
Lemma grows_set h i n n0 : h_get h i = Some n0 -> grows h (h_set h i n).
Proof.
  intros E. split; simpl; auto. intros W j Hj. simpl in *. destruct (Nat.eqb_spec j i) as [->|]; auto. rewrite (W i Hj) in E. discriminate.
Qed.
Lemma grows_alloc h n : grows h (snd (h_alloc h n)).
Proof.
  split; simpl; [lia|]. intros W j Hj. simpl in *. destruct (Nat.eqb_spec j (h_next h)); [lia|]. apply W. lia.
Qed.
#[local] Hint Resolve grows_refl grows_alloc : core.

Ltac inv_ok := match goal with
  | |- rbind ?m _ = Ok _ -> _ => let E := fresh "E" in destruct m as [?p| |] eqn:E; [cbn [rbind]|discriminate|discriminate]
  end; repeat match goal with p : (_ * _)%type |- _ => destruct p end.

Lemma node_update_grows : forall f h i y h', node_update_y f h i y = Ok h' -> grows h h'.
Proof.
  induction f as [|f IH]; intros h i y h'; cbn [node_update_y]; [discriminate|]. destruct (h_get h i) as [n|] eqn:E; [|discriminate].
  destruct (set_node_y n y) as [n'|]; [|discriminate]. pose proof (grows_set h i n' n E) as G. destruct (nd_kind n) as [v|l r]; [now intros [= <-]|].
  inv_ok. intros E2. apply IH in E0. apply IH in E2. eauto using grows_trans.
Qed.
Lemma nodes_update_grows f y : forall ids h h', nodes_update_y f h ids y = Ok h' -> grows h h'.
Proof.
  induction ids as [|i ids IH]; intros h h'; cbn [nodes_update_y]; [now intros [= <-]|]. inv_ok. intros E2.
  apply node_update_grows in E. apply IH in E2. eauto using grows_trans.
Qed.
Lemma tree_update_grows h t y h' t' : tree_update_y h t y = Ok (h', t') -> grows h h'.
Proof. unfold tree_update_y. inv_ok. intros [= <- _]. eapply nodes_update_grows; eauto. Qed.
Lemma set_value_grows h i v : grows h (set_value h i v).
Proof. unfold set_value. destruct (h_get h i) as [[[w|? ?] s d]|] eqn:E; auto. eapply grows_set; eauto. Qed.
Lemma split_node_grows h i c0 c1 p h' : split_node h i c0 c1 = Ok (p, h') -> grows h h'.
Proof.
  unfold split_node. destruct (h_get h i) as [[k [s|c] d]|]; try discriminate. inv_ok.
  destruct (h_alloc h _) as [l h1] eqn:E1. destruct (h_alloc h1 _) as [r h2] eqn:E2. destruct (h_alloc h2 _) as [q h3] eqn:E3. intros [= <- <-].
  apply (f_equal snd) in E1, E2, E3. simpl in E1, E2, E3. subst. eapply grows_trans; [apply grows_alloc|]. eapply grows_trans; apply grows_alloc.
Qed.
Lemma relink_grows e u : forall ids h, grows h (relink h ids e u).
Proof.
  induction ids as [|i ids IH]; intros h; cbn [relink]; auto. destruct (h_get h i) as [n|] eqn:E; auto. eapply grows_trans; [eapply grows_set; eauto|apply IH].
Qed.
Lemma mutate_grows h t m h' t' e : mutate h t m = (h', t', e) -> grows h h'.
Proof.
  unfold mutate. destruct (mu_kind m).
  - destruct (remove_first _ _); [|now intros [= <- _ _]]. destruct (left_child h (mu_updated m)), (right_child h (mu_updated m)); intros [= <- _ _]; auto using relink_grows.
  - destruct (remove_first _ _); [|now intros [= <- _ _]]. destruct (remove_id _ _); [|now intros [= <- _ _]].
    destruct (remove_id _ _); [|now intros [= <- _ _]]. intros [= <- _ _]. apply relink_grows.
  - intros [= <- _ _]. apply relink_grows.
Qed.
Lemma sample_grow_grows h t idx m h' idx' : sample_grow_mutation h t idx = Ok (m, h', idx') -> grows h h'.
Proof.
  unfold sample_grow_mutation, sample_split_node. inv_ok. destruct (node_data h n) as [d|]; [|discriminate].
  destruct (sample_split_condition (d_X d) l) as [[[c0 c1] idx1]| |]; try discriminate. cbn [rbind].
  destruct (split_node h n c0 c1) as [[q h1]| |] eqn:E1; try discriminate. cbn [rbind]. inv_ok. intros [= <- <- <-]. eapply split_node_grows; eauto.
Qed.
Lemma sample_prune_grows h t idx m h' idx' : sample_prune_mutation h t idx = Ok (m, h', idx') -> grows h h'.
Proof.
  unfold sample_prune_mutation. inv_ok. destruct (h_get h n) as [nd|]; [|discriminate]. destruct (h_alloc h _) as [u h1] eqn:E1. inv_ok. intros [= <- <- <-].
  apply (f_equal snd) in E1. simpl in E1. subst. apply grows_alloc.
Qed.
Lemma propose_grows h t : forall k r m h' r', propose k h t r = Ok (m, h', r') -> grows h h'.
Proof.
  induction k as [|k IH]; intros r m h' r'; cbn [propose]; [discriminate|]. destruct (rg_method r) as [|b bs]; [discriminate|].
  destruct (if b then _ else _) as [[[m1 h1] idx]|e|] eqn:E; try discriminate.
  - intros [= <- <- <-]. destruct b; eauto using sample_grow_grows, sample_prune_grows.
  - destruct e; try discriminate; apply IH.
Qed.
Lemma tree_step_grows h t s p r om h' t' r' : tree_step h t s p r = Ok (om, h', t', r') -> grows h h'.
Proof.
  unfold tree_step, tree_sample. destruct (propose _ h t r) as [[[m h1] r1]| |] eqn:E; try discriminate. cbn [rbind]. apply propose_grows in E.
  destruct (log_probability_ratio h1 t m s p); try discriminate. cbn [rbind]. destruct (rg_unif r1); try discriminate. cbn [rbind].
  destruct (accepts _ _); [|now intros [= _ <- _ _]]. destruct (mutate h1 t m) as [[h2 t2] [e|]] eqn:E2; try discriminate. intros [= _ <- _ _].
  apply mutate_grows in E2. eauto using grows_trans.
Qed.
Lemma leaf_step_grows h i s p r h' r' : leaf_step h i s p r = Ok (h', r') -> grows h h'.
Proof.
  unfold leaf_step. inv_ok. inv_ok. destruct (rg_norm r); try discriminate. destruct (leaf_sample _ _ _ _ _); try discriminate. intros [= <- _]. apply set_value_grows.
Qed.
Lemma deep_copy_nodes_grows : forall ids h js h', deep_copy_nodes h ids = Ok (js, h') -> grows h h' /\ Forall (fun j => j < h_next h') js.
Proof.
  induction ids as [|i ids IH]; intros h js h'; cbn [deep_copy_nodes]; [now intros [= <- <-]|].
  unfold deep_copy_node. destruct (h_get h i) as [[k [s|c] d]|]; try discriminate. cbn [rbind]. destruct (h_alloc h _) as [j h1] eqn:E1.
  destruct (deep_copy_nodes h1 ids) as [[js1 h2]| |] eqn:E2; try discriminate. cbn [rbind]. intros [= <- <-].
  apply IH in E2. destruct E2 as [G F]. assert (G1 : grows h h1) by (apply (f_equal snd) in E1; simpl in E1; subst; apply grows_alloc).
  split; eauto using grows_trans. constructor; auto. apply (f_equal (fun p => (fst p, h_next (snd p)))) in E1. simpl in E1. injection E1 as <- N. destruct G. lia.
Qed.
Definition tree_below (h : heap) (t : tree) : Prop := Forall (fun j => j < h_next h) (tr_nodes t).
Lemma tree_below_grows h h' t : grows h h' -> tree_below h t -> tree_below h' t.
Proof. intros [G _] B. eapply Forall_impl; [|exact B]. simpl. intros. lia. Qed.
Lemma copy_trees_grows : forall ts h ts' h', copy_trees h ts = Ok (ts', h') -> grows h h' /\ Forall (tree_below h') ts'.
Proof.
  induction ts as [|t ts IH]; intros h ts' h'; cbn [copy_trees]; [now intros [= <- <-]|].
  unfold deep_copy_tree. destruct (deep_copy_nodes h (tr_nodes t)) as [[js h1]| |] eqn:E1; try discriminate. cbn [rbind].
  destruct (copy_trees h1 ts) as [[ts1 h2]| |] eqn:E2; try discriminate. cbn [rbind]. intros [= <- <-].
  apply IH in E2. destruct E2 as [G F]. apply deep_copy_nodes_grows in E1. destruct E1 as [G1 F1]. split; eauto using grows_trans.
  constructor; auto. eapply tree_below_grows; eauto.
Qed.
Definition sample_below (h : heap) (s : sample) : Prop := Forall (tree_below h) (sm_trees s).
Lemma sample_below_grows h h' s : grows h h' -> sample_below h s -> sample_below h' s.
Proof. intros G B. eapply Forall_impl; [|exact B]. eauto using tree_below_grows. Qed.

Lemma model_predict_heap m v m' : model_predict m = Ok (v, m') -> m_heap m' = m_heap m.
Proof. unfold model_predict. inv_ok. inv_ok. now intros [= _ <-]. Qed.
Lemma rt_start_grows m m' : rt_start m = Ok m' -> grows (m_heap m) (m_heap m').
Proof.
  unfold rt_start. destruct (m_pred m); [now intros [= <-]|]. inv_ok. intros [= <-]. simpl. apply model_predict_heap in E. now rewrite E.
Qed.
Lemma rt_open_grows m j m' : rt_open m j = Ok m' -> grows (m_heap m) (m_heap m').
Proof.
  unfold rt_open. destruct (nth_error (m_trees m) j); [|discriminate]. destruct (m_pred m); [|discriminate]. inv_ok. inv_ok. inv_ok. inv_ok. inv_ok. intros [= <-].
  eapply tree_update_grows; eauto.
Qed.
Lemma rt_close_grows m j m' : rt_close m j = Ok m' -> grows (m_heap m) (m_heap m').
Proof.
  unfold rt_close. destruct (nth_error (m_trees m) j); [|discriminate]. destruct (m_pred m); [|discriminate]. inv_ok. inv_ok. intros [= <-]. apply grows_refl.
Qed.
Lemma gen_tree_grows m fr j y pc fr' m' : gen_tree m fr j = Ok (y, pc, fr', m') -> grows (m_heap m) (m_heap m').
Proof. unfold gen_tree. destruct (_ <? _); [|now intros [= _ _ _ <-]]. inv_ok. intros [= _ _ _ <-]. eapply rt_open_grows; eauto. Qed.
Lemma gen_leaves_grows m fr j rest y pc fr' m' : gen_leaves m fr j rest = Ok (y, pc, fr', m') -> grows (m_heap m) (m_heap m').
Proof.
  unfold gen_leaves. destruct rest; [|now intros [= _ _ _ <-]]. inv_ok. intros E2. apply rt_close_grows in E. apply gen_tree_grows in E2. eauto using grows_trans.
Qed.
Lemma gen_next_grows m fr pc y pc' fr' m' : gen_next m fr pc = Ok (y, pc', fr', m') -> grows (m_heap m) (m_heap m').
Proof.
  destruct pc; cbn [gen_next].
  - inv_ok. intros E2. apply rt_start_grows in E. apply gen_tree_grows in E2. eauto using grows_trans.
  - destruct (nth_error (m_trees m) j); [|discriminate]. apply gen_leaves_grows.
  - apply gen_leaves_grows.
  - now intros [= _ _ _ <-].
Qed.
Lemma sigma_step_grows m r m' r' : sigma_step m r = Ok (m', r') -> grows (m_heap m) (m_heap m').
Proof.
  unfold sigma_step, residuals. destruct (data_values (m_data m)) as [y| |]; cbn [rbind]; try discriminate.
  destruct (model_predict m) as [[v m1]| |] eqn:E; cbn [rbind]; try discriminate. destruct (vop Rminus y v); cbn [rbind]; try discriminate.
  destruct (Req_EM_T _ _); try discriminate. destruct (Rlt_dec _ _); try discriminate. destruct (Rlt_dec _ _); try discriminate.
  destruct (rg_gamma r); try discriminate. destruct (sigma_value _); try discriminate. intros [= <- _]. simpl. apply model_predict_heap in E. now rewrite E.
Qed.
Lemma call_grows m fr k r b a m' r' : call m fr k r = Ok (b, a, m', r') -> grows (m_heap m) (m_heap m').
Proof.
  destruct k; cbn [call].
  - destruct (fr_tree fr); [|discriminate]. destruct (nth_error (m_trees m) n); [|discriminate]. inv_ok. intros [= _ _ <- _]. eapply tree_step_grows; eauto.
  - destruct (fr_leaf fr); [|discriminate]. inv_ok. intros [= _ _ <- _]. eapply leaf_step_grows; eauto.
  - inv_ok. intros [= _ _ <- _]. eapply sigma_step_grows; eauto.
Qed.
Lemma drive_grows : forall f m fr pc r log acts m' r', drive f m fr pc r = Ok (log, acts, m', r') -> grows (m_heap m) (m_heap m').
Proof.
  induction f as [|f IH]; intros m fr pc r log acts m' r'; cbn [drive]; [discriminate|].
  destruct (gen_next m fr pc) as [[[[y pc1] fr1] m1]| |] eqn:E; try discriminate. cbn [rbind]. apply gen_next_grows in E.
  destruct y as [[k th]|]; [|now intros [= _ _ <- _]].
  destruct (call m1 fr1 th r) as [[[[b a] m2] r1]| |] eqn:E2; try discriminate. cbn [rbind]. apply call_grows in E2.
  destruct (drive f m2 fr1 pc1 r1) as [[[[log1 acts1] m3] r2]| |] eqn:E3; try discriminate. cbn [rbind]. apply IH in E3. intros [= _ _ <- _]. eauto using grows_trans.
Qed.
Lemma gibbs_grows m r d acts m' r' : gibbs_step m r = Ok (d, acts, m', r') -> grows (m_heap m) (m_heap m').
Proof.
  unfold gibbs_step. destruct (drive _ _ _ _ _) as [[[[log acts1] m3] r2]| |] eqn:E; try discriminate. cbn [rbind]. intros [= _ _ <- _]. eapply drive_grows; eauto.
Qed.
Lemma burn_grows : forall n m r m' r', burn n m r = Ok (m', r') -> grows (m_heap m) (m_heap m').
Proof.
  induction n as [|n IH]; intros m r m' r'; cbn [burn]; [now intros [= <- _]|].
  destruct (gibbs_step m r) as [[[[d acts1] m3] r2]| |] eqn:E; try discriminate. cbn [rbind]. intros E2. apply gibbs_grows in E. apply IH in E2. eauto using grows_trans.
Qed.
Lemma sample_iter_grows ss num den sp sa m r c m' r' : sample_iter ss num den sp sa m r = Ok (c, m', r') ->
  grows (m_heap m) (m_heap m') /\ Forall (sample_below (m_heap m')) (ch_models c).
Proof.
  unfold sample_iter. destruct (gibbs_step m r) as [[[[d acts1] m1] r1]| |] eqn:E; try discriminate. cbn [rbind]. apply gibbs_grows in E.
  destruct (num =? 0)%Z; try discriminate. destruct (keeps_sample ss num den); [|intros [= <- <- _]; simpl; auto].
  destruct (if sp then _ else _) as [[ps m2]| |] eqn:E2; try discriminate. cbn [rbind].
  assert (H2 : m_heap m2 = m_heap m1).
  { destruct sp; [|now injection E2 as _ <-]. destruct (model_predict m1) as [[v m2']| |] eqn:E3; try discriminate. cbn [rbind] in E2.
    injection E2 as _ <-. eapply model_predict_heap; eauto. }
  unfold deep_copy_model. destruct (copy_trees (m_heap m2) (m_trees m2)) as [[ts h]| |] eqn:E3; try discriminate. cbn [rbind]. intros [= <- <- _].
  apply copy_trees_grows in E3. rewrite H2 in E3. destruct E3 as [G F]. simpl. split; eauto using grows_trans.
Qed.
Lemma sample_loop_grows num den sp sa : forall todo ss m r c m' r', sample_loop ss todo num den sp sa m r = Ok (c, m', r') ->
  grows (m_heap m) (m_heap m') /\ Forall (sample_below (m_heap m')) (ch_models c).
Proof.
  induction todo as [|n IH]; intros ss m r c m' r'; cbn [sample_loop]; [intros [= <- <- _]; simpl; auto|].
  destruct (sample_iter ss num den sp sa m r) as [[[c1 m1] r1]| |] eqn:E; try discriminate. cbn [rbind]. apply sample_iter_grows in E. destruct E as [G F].
  destruct (sample_loop (S ss) n num den sp sa m1 r1) as [[[c2 m2] r2]| |] eqn:E2; try discriminate. cbn [rbind]. apply IH in E2. destruct E2 as [G2 F2].
  intros [= <- <- _]. split; eauto using grows_trans. simpl. apply Forall_app. split; auto. eapply Forall_impl; [|exact F]. intros s. now apply sample_below_grows.
Qed.
Lemma samples_grows m ns nb th sp sa r c m' r' : samples m ns nb th sp sa r = Ok (c, m', r') ->
  grows (m_heap m) (m_heap m') /\ Forall (sample_below (m_heap m')) (ch_models c).
Proof.
  unfold samples. destruct (burn nb m r) as [[m1 r1]| |] eqn:E; try discriminate. cbn [rbind]. apply burn_grows in E. destruct th; try discriminate.
  intros E2. apply sample_loop_grows in E2. destruct E2. split; eauto using grows_trans.
Qed.
Lemma new_trees_grows d : forall n h h' ts, new_trees n h d = Ok (h', ts) -> grows h h'.
Proof.
  induction n as [|n IH]; intros h h' ts; cbn [new_trees]; [now intros [= <- _]|]. destruct (make_split d) as [s| |]; try discriminate. cbn [rbind].
  destruct (h_alloc h _) as [i h1] eqn:E1. destruct (new_trees n h1 d) as [[h2 ts2]| |] eqn:E2; try discriminate. cbn [rbind]. intros [= <- _]. apply IH in E2.
  assert (G : grows h h1) by (replace h1 with (snd (h_alloc h (Nd (KLeaf 0%R) (SFull s) 0))) by (now rewrite E1); auto). eauto using grows_trans.
Qed.
Lemma init_targets_grows y : forall ts h h' ts', init_targets h ts y = Ok (h', ts') -> grows h h'.
Proof.
  induction ts as [|t ts IH]; intros h h' ts'; cbn [init_targets]; [now intros [= <- _]|].
  destruct (tree_update_y h t (Some y)) as [[h1 t1]| |] eqn:E1; try discriminate. cbn [rbind].
  destruct (tree_update_y h1 t1 None) as [[h2 t2]| |] eqn:E2; try discriminate. cbn [rbind].
  destruct (init_targets h2 ts y) as [[h3 ts3]| |] eqn:E3; try discriminate. cbn [rbind]. intros [= <- _].
  apply tree_update_grows in E1. apply tree_update_grows in E2. apply IH in E3. eauto using grows_trans.
Qed.
Lemma make_model_grows h d s p m : make_model h d s p = Ok m -> grows h (m_heap m).
Proof.
  unfold make_model, initialize_trees. destruct (new_trees _ h d) as [[h1 ts]| |] eqn:E1; try discriminate. cbn [rbind]. apply new_trees_grows in E1.
  destruct ts as [|t ts]; [cbn [rbind]; now intros [= <-]|]. destruct (data_values d); try discriminate. cbn [rbind].
  destruct (init_targets h1 (t :: ts) _) as [[h2 ts2]| |] eqn:E2; try discriminate. cbn [rbind]. intros [= <-]. apply init_targets_grows in E2. simpl. eauto using grows_trans.
Qed.
Lemma construct_grows s h X y s' m : construct_model s h X y = Ok s' -> sk_model s' = Some m -> grows h (m_heap m).
Proof.
  unfold construct_model. destruct (_ || _); try discriminate. destruct (convert_to_data X y) as [d| |]; try discriminate. cbn [rbind].
  destruct (normalizing_scale (d_y d)); try discriminate. cbn [rbind]. destruct (make_model h d 1%R (sk_par s)) as [m1| |] eqn:E; try discriminate. cbn [rbind].
  intros [= <-]. simpl. intros [= <-]. eapply make_model_grows; eauto.
Qed.
Lemma run_chain_grows s h X y r c s' h' : run_chain s h X y r = Ok (c, s', h') -> grows h h' /\ Forall (sample_below h') (ch_models c).
Proof.
  unfold run_chain. destruct (construct_model s h X y) as [s1| |] eqn:E; try discriminate. cbn [rbind]. destruct (sk_model s1) as [m|] eqn:Em; try discriminate.
  destruct (sk_data s1) as [d|]; try discriminate. destruct (samples _ _ _ _ _ _ _) as [[[c1 m1] r1]| |] eqn:E2; try discriminate. cbn [rbind]. intros [= <- _ <-].
  apply samples_grows in E2. destruct E2 as [G F]. split; auto. pose proof (construct_grows _ _ _ _ _ _ E Em). eauto using grows_trans.
Qed.
