(** Every child link of every node object leads to an allocated address, and every operation keeps it so. *)
From Coq Require Import Reals.
From Verif Require Import Base Fl Ext MData MSplit MTree MSampler MModel MSklearn SpecInvariance LList PHeap.

Definition kids_below (h : heap) (n : tnode) : Prop :=
  match nd_kind n with KLeaf _ => True | KDec l r => l < h_next h /\ r < h_next h end.
Definition closed (h : heap) : Prop := forall i n, h_get h i = Some n -> kids_below h n.
Definition tight (h h' : heap) : Prop := h_next h <= h_next h' /\ (closed h -> closed h').
Lemma tight_refl h : tight h h.
Proof. split; auto. Qed.
Lemma tight_trans h1 h2 h3 : tight h1 h2 -> tight h2 h3 -> tight h1 h3.
Proof. intros [A B] [C D]. split; auto. lia. Qed.
Lemma tight_set h i n : (closed h -> kids_below h n) -> tight h (h_set h i n).
Proof.
  intros K. split; simpl; auto. intros C j n1. simpl. destruct (Nat.eqb_spec j i) as [->|].
  - intros [= <-]. exact (K C).
  - apply C.
Qed.
Lemma tight_alloc h n : (closed h -> kids_below h n) -> tight h (snd (h_alloc h n)).
Proof.
  assert (U : forall n, kids_below h n -> kids_below (snd (h_alloc h n)) n).
  { intros n0. unfold kids_below. simpl. destruct (nd_kind n0); auto. lia. }
  intros K. split; simpl; [lia|]. intros C j n1. simpl. destruct (Nat.eqb_spec j (h_next h)) as [->|].
  - intros [= <-]. exact (U _ (K C)).
  - intros E. specialize (C _ _ E). apply U in C. exact C.
Qed.
#[local] Hint Resolve tight_refl : core.

Lemma node_update_tight : forall f h i y h', node_update_y f h i y = Ok h' -> tight h h'.
Proof.
  induction f as [|f IH]; intros h i y h'; cbn [node_update_y]; [discriminate|]. destruct (h_get h i) as [n|] eqn:E; [|discriminate].
  destruct (set_node_y n y) as [n'|] eqn:Es; [|discriminate].
  assert (G : tight h (h_set h i n')).
  { apply tight_set. intros C. specialize (C _ _ E). unfold set_node_y in Es. destruct (nd_split n); [|discriminate]. injection Es as <-. exact C. }
  destruct (nd_kind n) as [v|l r]; [now intros [= <-]|].
  inv_ok. intros E2. apply IH in E0. apply IH in E2. eauto using tight_trans.
Qed.
Lemma nodes_update_tight f y : forall ids h h', nodes_update_y f h ids y = Ok h' -> tight h h'.
Proof.
  induction ids as [|i ids IH]; intros h h'; cbn [nodes_update_y]; [now intros [= <-]|]. inv_ok. intros E2.
  apply node_update_tight in E. apply IH in E2. eauto using tight_trans.
Qed.
Lemma tree_update_tight h t y h' t' : tree_update_y h t y = Ok (h', t') -> tight h h'.
Proof. unfold tree_update_y. inv_ok. intros [= <- _]. eapply nodes_update_tight; eauto. Qed.
Lemma set_value_tight h i v : tight h (set_value h i v).
Proof. unfold set_value. destruct (h_get h i) as [[[w|? ?] s d]|] eqn:E; auto. apply tight_set. intros C. exact I. Qed.
Lemma split_node_tight h i c0 c1 p h' : split_node h i c0 c1 = Ok (p, h') -> tight h h' /\ p < h_next h'.
Proof.
  unfold split_node. destruct (h_get h i) as [[k [s|c] d]|]; try discriminate. inv_ok.
  destruct (h_alloc h _) as [l h1] eqn:E1. destruct (h_alloc h1 _) as [r h2] eqn:E2. destruct (h_alloc h2 _) as [q h3] eqn:E3. intros [= <- <-].
  split.
  - pose proof (f_equal fst E1) as L1. pose proof (f_equal fst E2) as L2. apply (f_equal snd) in E1, E2, E3. cbn [snd] in E1, E2, E3. simpl in L1, L2.
    apply tight_trans with h1; [|apply tight_trans with h2; [|rewrite <- E3; apply tight_alloc]].
    + rewrite <- E1. apply tight_alloc. intros _. exact I.
    + rewrite <- E2. apply tight_alloc. intros _. exact I.
    + intros _. unfold kids_below. cbn [nd_kind]. subst l r. rewrite <- E2, <- E1. simpl. lia.
  - injection E3 as <- <-. simpl. lia.
Qed.
Lemma relink_tight e u : forall ids h, u < h_next h -> tight h (relink h ids e u).
Proof.
  induction ids as [|i ids IH]; intros h Hu; cbn [relink]; auto. destruct (h_get h i) as [n|] eqn:E; auto.
  eapply tight_trans; [apply tight_set|apply IH; auto]. intros C. specialize (C _ _ E). unfold kids_below, relink_node in *.
  destruct (nd_kind n) as [v|l r] eqn:Ek; [now rewrite Ek|]. cbn [nd_kind]. destruct (Nat.eqb l e), (Nat.eqb r e); lia.
Qed.
Lemma mutate_tight h t m h' t' e : mu_updated m < h_next h -> mutate h t m = (h', t', e) -> tight h h'.
Proof.
  intros Hu. unfold mutate. destruct (mu_kind m).
  - destruct (remove_first _ _); [|now intros [= <- _ _]]. destruct (left_child h (mu_updated m)), (right_child h (mu_updated m)); intros [= <- _ _]; auto using relink_tight.
  - destruct (remove_first _ _); [|now intros [= <- _ _]]. destruct (remove_id _ _); [|now intros [= <- _ _]].
    destruct (remove_id _ _); [|now intros [= <- _ _]]. intros [= <- _ _]. now apply relink_tight.
  - intros [= <- _ _]. now apply relink_tight.
Qed.
Lemma grow_updated h e u m : grow_mutation h e u = Ok m -> mu_updated m = u.
Proof. unfold grow_mutation. destruct (negb _); [discriminate|]. now intros E; injection E as <-. Qed.
Lemma prune_updated h e u m : prune_mutation h e u = Ok m -> mu_updated m = u.
Proof. unfold prune_mutation. destruct (_ || _); [discriminate|]. now intros E; injection E as <-. Qed.
Lemma sample_grow_tight h t idx m h' idx' : sample_grow_mutation h t idx = Ok (m, h', idx') -> tight h h' /\ mu_updated m < h_next h'.
Proof.
  unfold sample_grow_mutation, sample_split_node. inv_ok. destruct (node_data h n) as [d|]; [|discriminate].
  destruct (sample_split_condition (d_X d) l) as [[[c0 c1] idx1]| |]; try discriminate. cbn [rbind].
  destruct (split_node h n c0 c1) as [[q h1]| |] eqn:E1; try discriminate. cbn [rbind].
  destruct (grow_mutation h1 n q) as [m1| |] eqn:E2; try discriminate. cbn [rbind]. intros [= <- <- <-]. apply split_node_tight in E1.
  apply grow_updated in E2. now rewrite E2.
Qed.
Lemma sample_prune_tight h t idx m h' idx' : sample_prune_mutation h t idx = Ok (m, h', idx') -> tight h h' /\ mu_updated m < h_next h'.
Proof.
  unfold sample_prune_mutation. inv_ok. destruct (h_get h n) as [nd|]; [|discriminate]. destruct (h_alloc h _) as [u h1] eqn:E1.
  destruct (prune_mutation h1 n u) as [m1| |] eqn:E2; try discriminate. cbn [rbind]. intros [= <- <- <-].
  apply prune_updated in E2. rewrite E2. split.
  - apply (f_equal snd) in E1. cbn [snd] in E1. rewrite <- E1. apply tight_alloc. intros _. exact I.
  - injection E1 as <- <-. simpl. lia.
Qed.
Lemma propose_tight h t : forall k r m h' r', propose k h t r = Ok (m, h', r') -> tight h h' /\ mu_updated m < h_next h'.
Proof.
  induction k as [|k IH]; intros r m h' r'; cbn [propose]; [discriminate|]. destruct (rg_method r) as [|b bs]; [discriminate|].
  destruct (if b then _ else _) as [[[m1 h1] idx]|e|] eqn:E; try discriminate.
  - intros [= <- <- <-]. destruct b; eauto using sample_grow_tight, sample_prune_tight.
  - destruct e; try discriminate; apply IH.
Qed.
Lemma tree_step_tight h t s p r om h' t' r' : tree_step h t s p r = Ok (om, h', t', r') -> tight h h'.
Proof.
  unfold tree_step, tree_sample. destruct (propose _ h t r) as [[[m h1] r1]| |] eqn:E; try discriminate. cbn [rbind]. apply propose_tight in E. destruct E as [E Hu].
  destruct (log_probability_ratio h1 t m s p); try discriminate. cbn [rbind]. destruct (rg_unif r1); try discriminate. cbn [rbind].
  destruct (accepts _ _); [|now intros [= _ <- _ _]]. destruct (mutate h1 t m) as [[h2 t2] [e|]] eqn:E2; try discriminate. intros [= _ <- _ _].
  apply mutate_tight in E2; eauto using tight_trans.
Qed.
Lemma leaf_step_tight h i s p r h' r' : leaf_step h i s p r = Ok (h', r') -> tight h h'.
Proof.
  unfold leaf_step. inv_ok. inv_ok. destruct (rg_norm r); try discriminate. destruct (leaf_sample _ _ _ _ _); try discriminate. intros [= <- _]. apply set_value_tight.
Qed.
Lemma deep_copy_nodes_tight : forall ids h js h', deep_copy_nodes h ids = Ok (js, h') -> tight h h'.
Proof.
  induction ids as [|i ids IH]; intros h js h'; cbn [deep_copy_nodes]; [now intros [= <- <-]|].
  unfold deep_copy_node. destruct (h_get h i) as [[k [s|c] d]|] eqn:E; try discriminate. cbn [rbind]. destruct (h_alloc h _) as [j h1] eqn:E1.
  destruct (deep_copy_nodes h1 ids) as [[js1 h2]| |] eqn:E2; try discriminate. cbn [rbind]. intros [= <- <-].
  apply IH in E2. apply (f_equal snd) in E1. cbn [snd] in E1. eapply tight_trans; [|exact E2]. rewrite <- E1. apply tight_alloc.
  intros C. exact (C _ _ E).
Qed.
Lemma copy_trees_tight : forall ts h ts' h', copy_trees h ts = Ok (ts', h') -> tight h h'.
Proof.
  induction ts as [|t ts IH]; intros h ts' h'; cbn [copy_trees]; [now intros [= <- <-]|].
  unfold deep_copy_tree. destruct (deep_copy_nodes h (tr_nodes t)) as [[js h1]| |] eqn:E1; try discriminate. cbn [rbind].
  destruct (copy_trees h1 ts) as [[ts1 h2]| |] eqn:E2; try discriminate. cbn [rbind]. intros [= <- <-].
  apply IH in E2. apply deep_copy_nodes_tight in E1. eauto using tight_trans.
Qed.
Lemma deep_copy_model_tight m s m' : deep_copy_model m = Ok (s, m') -> tight (m_heap m) (m_heap m').
Proof. unfold deep_copy_model. inv_ok. intros [= _ <-]. simpl. eapply copy_trees_tight; eauto. Qed.

Lemma rt_start_tight m m' : rt_start m = Ok m' -> tight (m_heap m) (m_heap m').
Proof.
  unfold rt_start. destruct (m_pred m); [now intros [= <-]|]. inv_ok. intros [= <-]. simpl. apply model_predict_heap in E. now rewrite E.
Qed.
Lemma rt_open_tight m j m' : rt_open m j = Ok m' -> tight (m_heap m) (m_heap m').
Proof.
  unfold rt_open. destruct (nth_error (m_trees m) j); [|discriminate]. destruct (m_pred m); [|discriminate]. inv_ok. inv_ok. inv_ok. inv_ok. inv_ok. intros [= <-].
  eapply tree_update_tight; eauto.
Qed.
Lemma rt_close_tight m j m' : rt_close m j = Ok m' -> tight (m_heap m) (m_heap m').
Proof.
  unfold rt_close. destruct (nth_error (m_trees m) j); [|discriminate]. destruct (m_pred m); [|discriminate]. inv_ok. inv_ok. intros [= <-]. apply tight_refl.
Qed.
Lemma gen_tree_tight m fr j y pc fr' m' : gen_tree m fr j = Ok (y, pc, fr', m') -> tight (m_heap m) (m_heap m').
Proof. unfold gen_tree. destruct (_ <? _); [|now intros [= _ _ _ <-]]. inv_ok. intros [= _ _ _ <-]. eapply rt_open_tight; eauto. Qed.
Lemma gen_leaves_tight m fr j rest y pc fr' m' : gen_leaves m fr j rest = Ok (y, pc, fr', m') -> tight (m_heap m) (m_heap m').
Proof.
  unfold gen_leaves. destruct rest; [|now intros [= _ _ _ <-]]. inv_ok. intros E2. apply rt_close_tight in E. apply gen_tree_tight in E2. eauto using tight_trans.
Qed.
Lemma gen_next_tight m fr pc y pc' fr' m' : gen_next m fr pc = Ok (y, pc', fr', m') -> tight (m_heap m) (m_heap m').
Proof.
  destruct pc; cbn [gen_next].
  - inv_ok. intros E2. apply rt_start_tight in E. apply gen_tree_tight in E2. eauto using tight_trans.
  - destruct (nth_error (m_trees m) j); [|discriminate]. apply gen_leaves_tight.
  - apply gen_leaves_tight.
  - now intros [= _ _ _ <-].
Qed.
Lemma sigma_step_heap m r m' r' : sigma_step m r = Ok (m', r') -> m_heap m' = m_heap m.
Proof.
  unfold sigma_step, residuals. destruct (data_values (m_data m)) as [y| |]; cbn [rbind]; try discriminate.
  destruct (model_predict m) as [[v m1]| |] eqn:E; cbn [rbind]; try discriminate. destruct (vop Rminus y v); cbn [rbind]; try discriminate.
  destruct (Req_EM_T _ _); try discriminate. destruct (Rlt_dec _ _); try discriminate. destruct (Rlt_dec _ _); try discriminate.
  destruct (rg_gamma r); try discriminate. destruct (sigma_value _); try discriminate. intros [= <- _]. simpl. now apply model_predict_heap in E.
Qed.
Lemma call_tight m fr k r b a m' r' : call m fr k r = Ok (b, a, m', r') -> tight (m_heap m) (m_heap m').
Proof.
  destruct k; cbn [call].
  - destruct (fr_tree fr); [|discriminate]. destruct (nth_error (m_trees m) n); [|discriminate]. inv_ok. intros [= _ _ <- _]. eapply tree_step_tight; eauto.
  - destruct (fr_leaf fr); [|discriminate]. inv_ok. intros [= _ _ <- _]. eapply leaf_step_tight; eauto.
  - inv_ok. intros [= _ _ <- _]. apply sigma_step_heap in E. now rewrite E.
Qed.
Lemma drive_tight : forall f m fr pc r log acts m' r', drive f m fr pc r = Ok (log, acts, m', r') -> tight (m_heap m) (m_heap m').
Proof.
  induction f as [|f IH]; intros m fr pc r log acts m' r'; cbn [drive]; [discriminate|].
  destruct (gen_next m fr pc) as [[[[y pc1] fr1] m1]| |] eqn:E; try discriminate. cbn [rbind]. apply gen_next_tight in E.
  destruct y as [[k th]|]; [|now intros [= _ _ <- _]].
  destruct (call m1 fr1 th r) as [[[[b a] m2] r1]| |] eqn:E2; try discriminate. cbn [rbind]. apply call_tight in E2.
  destruct (drive f m2 fr1 pc1 r1) as [[[[log1 acts1] m3] r2]| |] eqn:E3; try discriminate. cbn [rbind]. apply IH in E3. intros [= _ _ <- _]. eauto using tight_trans.
Qed.
Lemma gibbs_tight m r d acts m' r' : gibbs_step m r = Ok (d, acts, m', r') -> tight (m_heap m) (m_heap m').
Proof.
  unfold gibbs_step. destruct (drive _ _ _ _ _) as [[[[log acts1] m3] r2]| |] eqn:E; try discriminate. cbn [rbind]. intros [= _ _ <- _]. eapply drive_tight; eauto.
Qed.
Lemma new_trees_tight d : forall n h h' ts, new_trees n h d = Ok (h', ts) -> tight h h'.
Proof.
  induction n as [|n IH]; intros h h' ts; cbn [new_trees]; [now intros [= <- <-]|]. inv_ok. destruct (h_alloc h _) as [i h1] eqn:E1. inv_ok. intros [= <- _].
  apply IH in E0. apply (f_equal snd) in E1. cbn [snd] in E1. eapply tight_trans; [|exact E0]. rewrite <- E1. apply tight_alloc. intros _. exact I.
Qed.
Lemma init_targets_tight y : forall ts h h' ts', init_targets h ts y = Ok (h', ts') -> tight h h'.
Proof.
  induction ts as [|t ts IH]; intros h h' ts'; cbn [init_targets]; [now intros [= <- <-]|]. inv_ok. inv_ok. inv_ok. intros [= <- _].
  apply tree_update_tight in E, E0. apply IH in E1. eauto using tight_trans.
Qed.
Lemma make_model_tight h d s p m : make_model h d s p = Ok m -> tight h (m_heap m).
Proof.
  unfold make_model, initialize_trees. destruct (new_trees _ h d) as [[h1 ts]| |] eqn:E; try discriminate. cbn [rbind]. apply new_trees_tight in E.
  destruct ts as [|t ts]; [cbn [rbind]; now intros [= <-]|]. destruct (data_values d); try discriminate. cbn [rbind].
  destruct (init_targets h1 _ _) as [[h2 ts2]| |] eqn:E2; try discriminate. cbn [rbind]. intros [= <-]. apply init_targets_tight in E2. simpl. eauto using tight_trans.
Qed.
