(** The tree sampler of bartpy/samplers/oblivioustrees under the change of representation of PRel.v. *)
From Coq Require Import Reals Lra FunctionalExtensionality.
From Verif Require Import Base Fl Ext MData MSplit MTree MSampler MModel MSklearn MOblivious MObModel MObSklearn LFl LList PHeap PRel.
Local Open Scope R_scope.
#[local] Hint Resolve grows_refl grows_alloc : core.

(** ** addresses *)
Lemma alloc3_grows h a b c l h1 r h2 p h3 : h_alloc h a = (l, h1) -> h_alloc h1 b = (r, h2) -> h_alloc h2 c = (p, h3) -> grows h h3.
Proof.
  intros E1 E2 E3. apply (f_equal snd) in E1, E2, E3. cbn [snd] in E1, E2, E3. subst.
  eapply grows_trans; [apply grows_alloc|]. eapply grows_trans; apply grows_alloc.
Qed.
Lemma ob_split_node_grows h i idx p h' idx' : ob_split_node h i idx = Ok (p, h', idx') -> grows h h'.
Proof.
  unfold ob_split_node. destruct (is_splittable h i).
  - destruct (node_data h i) as [d|]; [|discriminate]. destruct (ob_sample_split_condition _ _) as [[[c0 c1] i1]| |]; try discriminate. cbn [rbind].
    destruct (split_node h i c0 c1) as [[q h1]| |] eqn:E; try discriminate. cbn [rbind]. intros [= <- <- <-]. eapply split_node_grows; eauto.
  - destruct (h_get h i) as [[k s d]|]; [|discriminate]. destruct (h_alloc h _) as [l h1] eqn:E1. destruct (h_alloc h1 _) as [r h2] eqn:E2.
    destruct (h_alloc h2 _) as [q h3] eqn:E3. intros [= <- <- <-]. eapply alloc3_grows; eauto.
Qed.
Lemma ob_grows_grows : forall ids h idx ms h' idx', ob_grows h ids idx = Ok (ms, h', idx') -> grows h h'.
Proof.
  induction ids as [|i ids IH]; intros h idx ms h' idx'; cbn [ob_grows]; [now intros [= <- <- <-]|].
  destruct (ob_split_node h i idx) as [[[p h1] idx1]| |] eqn:E; try discriminate. cbn [rbind]. destruct (grow_mutation h1 i p); try discriminate. cbn [rbind].
  destruct (ob_grows h1 ids idx1) as [[[ms1 h2] idx2]| |] eqn:E2; try discriminate. cbn [rbind]. intros [= <- <- <-].
  apply ob_split_node_grows in E. apply IH in E2. eauto using grows_trans.
Qed.
Lemma ob_prunes_grows : forall ids h ms h', ob_prunes h ids = Ok (ms, h') -> grows h h'.
Proof.
  induction ids as [|i ids IH]; intros h ms h'; cbn [ob_prunes]; [now intros [= <- <-]|].
  destruct (h_get h i) as [n|]; [|discriminate]. destruct (h_alloc h _) as [u h1] eqn:E. destruct (prune_mutation h1 i u); try discriminate. cbn [rbind].
  destruct (ob_prunes h1 ids) as [[ms1 h2]| |] eqn:E2; try discriminate. cbn [rbind]. intros [= <- <-]. apply IH in E2.
  apply (f_equal snd) in E. cbn [snd] in E. subst h1. eapply grows_trans; [apply grows_alloc|exact E2].
Qed.
Lemma ob_propose_grows h t : forall k r ms h' r', ob_propose k h t r = Ok (ms, h', r') -> grows h h'.
Proof.
  induction k as [|k IH]; intros r ms h' r'; cbn [ob_propose]; [discriminate|]. destruct (rg_method r) as [|b bs]; [discriminate|].
  destruct (if b then _ else _) as [[[ms1 h1] idx]|e|] eqn:E; [|destruct e; try discriminate; apply IH|discriminate].
  intros [= <- <- <-]. destruct b.
  - eapply ob_grows_grows; eauto.
  - destruct (ob_prune_mutations h t) as [[ms2 h2]| |] eqn:E2; try discriminate. cbn [rbind] in E. injection E as <- <- <-. eapply ob_prunes_grows; eauto.
Qed.
Lemma mutate_all_grows : forall ms h t h' t', mutate_all h t ms = Ok (h', t') -> grows h h'.
Proof.
  induction ms as [|m ms IH]; intros h t h' t'; cbn [mutate_all]; [now intros [= <- <-]|].
  destruct (mutate h t m) as [[h1 t1] [e|]] eqn:E; [discriminate|]. intros E2. apply IH in E2. apply mutate_grows in E. eauto using grows_trans.
Qed.
Lemma ob_step_grows h t s p r om h' t' r' : ob_step h t s p r = Ok (om, h', t', r') -> grows h h'.
Proof.
  unfold ob_step, ob_sample. destruct (ob_propose _ h t r) as [[[ms h1] r1]| |] eqn:E; try discriminate. cbn [rbind]. apply ob_propose_grows in E.
  destruct (ob_ratio h1 ms s p) as [q| |]; try discriminate. cbn [rbind]. destruct (rg_unif r1) as [|u us]; try discriminate. cbn [rbind].
  destruct (accepts u q); [|now intros [= _ <- _ _]]. destruct (mutate_all h1 t ms) as [[h2 t2]| |] eqn:E2; try discriminate. cbn [rbind].
  intros [= _ <- _ _]. apply mutate_all_grows in E2. eauto using grows_trans.
Qed.
Lemma ob_call_grows m fr k r b a m' r' : ob_call m fr k r = Ok (b, a, m', r') -> grows (m_heap m) (m_heap m').
Proof.
  destruct k; cbn [ob_call]; try apply call_grows. destruct (fr_tree fr) as [j|]; [|discriminate]. destruct (nth_error (m_trees m) j); [|discriminate].
  destruct (ob_step _ _ _ _ _) as [[[[om h1] t1] r1]| |] eqn:E; try discriminate. cbn [rbind]. intros [= _ _ <- _]. eapply ob_step_grows; eauto.
Qed.
Lemma ob_drive_grows : forall f m fr pc r log acts m' r', ob_drive f m fr pc r = Ok (log, acts, m', r') -> grows (m_heap m) (m_heap m').
Proof.
  induction f as [|f IH]; intros m fr pc r log acts m' r'; cbn [ob_drive]; [discriminate|].
  destruct (gen_next m fr pc) as [[[[y pc1] fr1] m1]| |] eqn:E; try discriminate. cbn [rbind]. apply gen_next_grows in E.
  destruct y as [[k th]|]; [|now intros [= _ _ <- _]].
  destruct (ob_call m1 fr1 th r) as [[[[b a] m2] r1]| |] eqn:E2; try discriminate. cbn [rbind]. apply ob_call_grows in E2.
  destruct (ob_drive f m2 fr1 pc1 r1) as [[[[log1 acts1] m3] r2]| |] eqn:E3; try discriminate. cbn [rbind]. apply IH in E3. intros [= _ _ <- _]. eauto using grows_trans.
Qed.
Lemma ob_gibbs_grows m r d acts m' r' : ob_gibbs_step m r = Ok (d, acts, m', r') -> grows (m_heap m) (m_heap m').
Proof.
  unfold ob_gibbs_step. destruct (ob_drive _ _ _ _ _) as [[[[log acts1] m3] r2]| |] eqn:E; try discriminate. cbn [rbind]. intros [= _ _ <- _]. eapply ob_drive_grows; eauto.
Qed.
Lemma ob_burn_grows : forall n m r m' r', ob_burn n m r = Ok (m', r') -> grows (m_heap m) (m_heap m').
Proof.
  induction n as [|n IH]; intros m r m' r'; cbn [ob_burn]; [now intros [= <- _]|].
  destruct (ob_gibbs_step m r) as [[[[d acts1] m3] r2]| |] eqn:E; try discriminate. cbn [rbind]. intros E2. apply ob_gibbs_grows in E. apply IH in E2. eauto using grows_trans.
Qed.
Lemma ob_sample_iter_grows ss num den sp sa m r c m' r' : ob_sample_iter ss num den sp sa m r = Ok (c, m', r') ->
  grows (m_heap m) (m_heap m') /\ Forall (sample_below (m_heap m')) (ch_models c).
Proof.
  unfold ob_sample_iter. destruct (ob_gibbs_step m r) as [[[[d acts1] m1] r1]| |] eqn:E; try discriminate. cbn [rbind]. apply ob_gibbs_grows in E.
  destruct (num =? 0)%Z; try discriminate. destruct (keeps_sample ss num den); [|intros [= <- <- _]; simpl; auto].
  destruct (if sp then _ else _) as [[ps m2]| |] eqn:E2; try discriminate. cbn [rbind].
  assert (H2 : m_heap m2 = m_heap m1).
  { destruct sp; [|now injection E2 as _ <-]. destruct (model_predict m1) as [[v m2']| |] eqn:E3; try discriminate. cbn [rbind] in E2.
    injection E2 as _ <-. eapply model_predict_heap; eauto. }
  unfold deep_copy_model. destruct (copy_trees (m_heap m2) (m_trees m2)) as [[ts h]| |] eqn:E3; try discriminate. cbn [rbind]. intros [= <- <- _].
  apply copy_trees_grows in E3. rewrite H2 in E3. destruct E3 as [G F]. simpl. split; eauto using grows_trans.
Qed.
Lemma ob_sample_loop_grows num den sp sa : forall todo ss m r c m' r', ob_sample_loop ss todo num den sp sa m r = Ok (c, m', r') ->
  grows (m_heap m) (m_heap m') /\ Forall (sample_below (m_heap m')) (ch_models c).
Proof.
  induction todo as [|n IH]; intros ss m r c m' r'; cbn [ob_sample_loop]; [intros [= <- <- _]; simpl; auto|].
  destruct (ob_sample_iter ss num den sp sa m r) as [[[c1 m1] r1]| |] eqn:E; try discriminate. cbn [rbind]. apply ob_sample_iter_grows in E. destruct E as [G F].
  destruct (ob_sample_loop (S ss) n num den sp sa m1 r1) as [[[c2 m2] r2]| |] eqn:E2; try discriminate. cbn [rbind]. apply IH in E2. destruct E2 as [G2 F2].
  intros [= <- <- _]. split; eauto using grows_trans. simpl. apply Forall_app. split; auto. eapply Forall_impl; [|exact F]. intros s. now apply sample_below_grows.
Qed.
Lemma ob_samples_grows m ns nb th sp sa r c m' r' : ob_samples m ns nb th sp sa r = Ok (c, m', r') ->
  grows (m_heap m) (m_heap m') /\ Forall (sample_below (m_heap m')) (ch_models c).
Proof.
  unfold ob_samples. destruct (ob_burn nb m r) as [[m1 r1]| |] eqn:E; try discriminate. cbn [rbind]. apply ob_burn_grows in E. destruct th; try discriminate.
  intros E2. apply ob_sample_loop_grows in E2. destruct E2. split; eauto using grows_trans.
Qed.
Lemma ob_run_chain_grows s h X y r c s' h' : ob_run_chain s h X y r = Ok (c, s', h') -> grows h h' /\ Forall (sample_below h') (ch_models c).
Proof.
  unfold ob_run_chain. destruct (construct_model s h X y) as [s1| |] eqn:E; try discriminate. cbn [rbind]. destruct (sk_model s1) as [m|] eqn:Em; try discriminate.
  destruct (sk_data s1) as [d|]; try discriminate. destruct (ob_samples _ _ _ _ _ _ _) as [[[c1 m1] r1]| |] eqn:E2; try discriminate. cbn [rbind]. intros [= <- _ <-].
  apply ob_samples_grows in E2. destruct E2 as [G F]. split; auto. pose proof (construct_grows _ _ _ _ _ _ E Em). eauto using grows_trans.
Qed.

Section Tr.
Variable phi : nat -> fl -> fl.
Hypothesis phi_nan : forall v, phi v FNaN = FNaN.
Hypothesis phi_ninf : forall v, phi v FNInf = FNInf.
Hypothesis phi_pinf : forall v, phi v FPInf = FPInf.
Hypothesis phi_lt : forall v a b, flt (phi v a) (phi v b) = flt a b.
Hypothesis phi_eq : forall v a b, feqb (phi v a) (phi v b) = feqb a b.
Variable rho : option (R * R) -> option (R * R).
Hypothesis rho_none : rho None = None.
Variable sg : R.
Hypothesis sg_sq : sg * sg = 1.
Variable n0 : nat.
Variable dl : nat.
Variable g : nat -> option tnode.
Local Notation tsc := (PRel.tsc phi sg).
Local Notation tdt := (PRel.tdt phi rho sg).
Local Notation tcm := (PRel.tcm phi).
Local Notation ti := (PRel.ti n0 dl).
Local Notation th := (PRel.th phi rho sg n0 dl g).
Local Notation tnd := (PRel.tnd phi rho sg n0 dl).
Local Notation ttr := (PRel.ttr sg n0 dl).
Local Notation tmu := (PRel.tmu n0 dl).
Local Notation trg := (PRel.trg sg).
Local Notation tmd := (PRel.tmd phi rho sg n0 dl g).
Local Notation tnhd := (PRel.tnhd phi rho sg n0 dl g).
Local Ltac tr L := rewrite L by (assumption || auto).

Lemma random_variable_tr c d : random_splittable_variable (tcm c) d = random_splittable_variable c d.
Proof.
  unfold random_splittable_variable, is_at_least_one_splittable_variable. tr splittable_variables_tr. cbn [fst snd].
  change (mx_ncols (cm_X (tcm c))) with (mx_ncols (cm_X c)). change (cm_split (tcm c)) with (cm_split c).
  destruct (splittable_variables c) as [vs c']. cbn [fst snd]. destruct (existsb _ _); reflexivity.
Qed.
Definition tccd (p : scond * scond * list nat) := (tsc (fst (fst p)), tsc (snd (fst p)), snd p).
Lemma ob_condition_tr c idx : ob_sample_split_condition (tcm c) idx = rmap tccd (ob_sample_split_condition c idx).
Proof.
  unfold ob_sample_split_condition. destruct idx as [|k idx1]; rewrite random_variable_tr.
  - destruct (random_splittable_variable c 0); reflexivity.
  - destruct (random_splittable_variable c k) as [v| |]; cbn [rbind]; auto. tr random_splittable_value_tr.
    destruct (random_splittable_value c v idx1) as [[x idx2]| |]; reflexivity.
Qed.
Lemma ob_split_node_tr h i idx : (n0 <= h_next h)%nat -> ob_split_node (th h) (ti i) idx = rmap tnhd (ob_split_node h i idx).
Proof.
  intros L. unfold ob_split_node. tr is_splittable_tr. destruct (is_splittable h i).
  - rewrite node_data_tr. destruct (node_data h i) as [d|]; cbn [option_map]; auto. change (d_X (tdt d)) with (tcm (d_X d)). rewrite ob_condition_tr.
    destruct (ob_sample_split_condition (d_X d) idx) as [[[c0 c1] idx1]| |]; cbn [rbind rmap tccd fst snd]; auto. tr split_node_tr.
    destruct (split_node h i c0 c1) as [[p h1]| |]; reflexivity.
  - rewrite th_get. destruct (h_get h i) as [[k s d]|]; cbn [option_map]; auto. unfold PRel.tnd at 1. cbn [nd_split nd_depth].
    assert (A : forall h k s d, (n0 <= h_next h)%nat -> h_alloc (th h) (Nd (PRel.tk sg n0 dl k) (PRel.tns phi rho sg s) d) =
      (ti (fst (h_alloc h (Nd k s d))), th (snd (h_alloc h (Nd k s d))))) by (intros; rewrite <- th_alloc by auto; reflexivity).
    assert (G : forall h n, (n0 <= h_next h)%nat -> (n0 <= h_next (snd (h_alloc h n)))%nat) by (intros; eapply le_grows; [apply grows_alloc|auto]).
    assert (A0 : forall h s d, (n0 <= h_next h)%nat -> h_alloc (th h) (Nd (KLeaf 0) (PRel.tns phi rho sg s) d) =
      (ti (fst (h_alloc h (Nd (KLeaf 0) s d))), th (snd (h_alloc h (Nd (KLeaf 0) s d))))).
    { intros. rewrite <- A by auto. cbn [PRel.tk]. now rewrite sv_0. }
    rewrite A0 by auto. pose proof (G h (Nd (KLeaf 0) s (d + 1)) L) as L1. destruct (h_alloc h (Nd (KLeaf 0) s (d + 1))) as [l h1]. cbn [fst snd] in *.
    rewrite A0 by auto. pose proof (G h1 (Nd (KLeaf 0) s (d + 1)) L1) as L2. destruct (h_alloc h1 (Nd (KLeaf 0) s (d + 1))) as [r h2]. cbn [fst snd] in *.
    change (KDec (ti l) (ti r)) with (PRel.tk sg n0 dl (KDec l r)). rewrite A by auto. destruct (h_alloc h2 (Nd (KDec l r) s d)) as [p h3]. reflexivity.
Qed.
Definition tmshd {A} (p : list mutation * heap * A) := (map tmu (fst (fst p)), th (snd (fst p)), snd p).
Lemma ob_grows_tr : forall ids h idx, (n0 <= h_next h)%nat -> ob_grows (th h) (map ti ids) idx = rmap tmshd (ob_grows h ids idx).
Proof.
  induction ids as [|i ids IH]; intros h idx L; auto. cbn [ob_grows map]. rewrite ob_split_node_tr by auto.
  destruct (ob_split_node h i idx) as [[[p h1] idx1]| |] eqn:E; cbn [rbind rmap PRel.tnhd fst snd]; auto. rewrite grow_mutation_tr.
  destruct (grow_mutation h1 i p) as [m| |]; cbn [rbind rmap]; auto. rewrite IH by (eapply le_grows; [eapply ob_split_node_grows|]; eauto).
  destruct (ob_grows h1 ids idx1) as [[[ms h2] idx2]| |]; reflexivity.
Qed.
Definition tmsh (p : list mutation * heap) := (map tmu (fst p), th (snd p)).
Lemma ob_prunes_tr : forall ids h, (n0 <= h_next h)%nat -> ob_prunes (th h) (map ti ids) = rmap tmsh (ob_prunes h ids).
Proof.
  induction ids as [|i ids IH]; intros h L; auto. cbn [ob_prunes map]. rewrite th_get. destruct (h_get h i) as [n|]; cbn [option_map]; auto.
  pose proof (th_alloc phi rho sg n0 dl g h (Nd (KLeaf 0) (nd_split n) (nd_depth n)) L) as E. unfold PRel.tnd in E at 1. cbn [nd_kind nd_split nd_depth PRel.tk] in E.
  rewrite sv_0 in E. unfold PRel.tnd; cbn [nd_split nd_depth]. rewrite E.
  assert (L1 : (n0 <= h_next (snd (h_alloc h (Nd (KLeaf 0) (nd_split n) (nd_depth n)))))%nat) by (eapply le_grows; [apply grows_alloc|auto]).
  destruct (h_alloc h _) as [u h1]. cbn [fst snd] in *. rewrite prune_mutation_tr. destruct (prune_mutation h1 i u) as [m| |]; cbn [rbind rmap]; auto.
  rewrite IH by auto. destruct (ob_prunes h1 ids) as [[ms h2]| |]; reflexivity.
Qed.
Definition tmshr (p : list mutation * heap * rng) := (map tmu (fst (fst p)), th (snd (fst p)), trg (snd p)).
Lemma ob_propose_tr h t : (n0 <= h_next h)%nat -> forall limit r, ob_propose limit (th h) (ttr t) (trg r) = rmap tmshr (ob_propose limit h t r).
Proof.
  intros L. induction limit as [|k IH]; intros r; auto. cbn [ob_propose]. change (rg_method (trg r)) with (rg_method r). change (rg_index (trg r)) with (rg_index r).
  destruct (rg_method r) as [|b bs]; auto.
  replace (if b then ob_grow_mutations (th h) (ttr t) (rg_index r) else let! (ms, h1) := ob_prune_mutations (th h) (ttr t) in Ok (ms, h1, rg_index r))
    with (rmap tmshd (if b then ob_grow_mutations h t (rg_index r) else let! (ms, h1) := ob_prune_mutations h t in Ok (ms, h1, rg_index r))).
  - destruct (if b then _ else _) as [[[m h1] idx]|e|]; cbn [rmap tmshd fst snd]; auto. destruct e; auto; apply (IH (rng_set_method r bs)).
  - unfold ob_grow_mutations, ob_prune_mutations. destruct b.
    + rewrite leaf_nodes_tr. now rewrite ob_grows_tr.
    + rewrite prunable_decision_nodes_tr. rewrite ob_prunes_tr by auto. destruct (ob_prunes h _) as [[ms h1]| |]; reflexivity.
Qed.
Lemma ob_log_split_tr h e u : ob_log_split (th h) (ti e) (ti u) = ob_log_split h e u.
Proof.
  unfold ob_log_split. rewrite dec_most_recent_tr. destruct (dec_most_recent h u) as [s|]; cbn [option_map]; auto.
  rewrite node_data_tr. destruct (node_data h e) as [d|]; cbn [option_map]; auto.
  change (d_X (tdt d)) with (tcm (d_X d)). change (sc_var (tsc s)) with (sc_var s). change (sc_val (tsc s)) with (phi (sc_var s) (sc_val s)). tr proportion_tr.
  destruct (proportion_of_value_in_variable (d_X d) (sc_var s) (sc_val s)) as [[q c2]| |]; reflexivity.
Qed.
Lemma ob_log_transition_tr h m p : ob_log_transition (th h) (tmu m) p = ob_log_transition h m p.
Proof.
  unfold ob_log_transition, ob_log_prune_transition, ob_log_grow_transition. destruct m as [k e u]. cbn [PRel.tmu mu_kind mu_existing mu_updated].
  rewrite !ob_log_split_tr, grow_mutation_tr. destruct k; auto. destruct (grow_mutation h u e); reflexivity.
Qed.
Lemma ob_log_tree_tr h m p : ob_log_tree (th h) (tmu m) p = ob_log_tree h m p.
Proof.
  unfold ob_log_tree, ob_log_tree_grow, ob_log_tree_prune. destruct m as [k e u]. cbn [PRel.tmu mu_kind mu_existing mu_updated]. destruct k; auto.
  - rewrite !node_depth_tr, get_children_tr. destruct (node_depth h e); cbn [rbind]; auto. destruct (get_children h u) as [[l r]| |]; cbn [rbind rmap fst snd]; auto.
    now rewrite !node_depth_tr, ob_log_split_tr.
  - rewrite !node_depth_tr, get_children_tr. destruct (node_depth h u); cbn [rbind]; auto. destruct (get_children h e) as [[l r]| |]; cbn [rbind rmap fst snd]; auto.
    rewrite !node_depth_tr, ob_log_split_tr, grow_mutation_tr. destruct (node_depth h l); cbn [rbind]; auto. destruct (node_depth h e); cbn [rbind]; auto.
    destruct (grow_mutation h u e); reflexivity.
Qed.
Lemma ob_log_ratio_tr h m s p : ob_log_ratio (th h) (tmu m) s p = ob_log_ratio h m s p.
Proof. unfold ob_log_ratio. rewrite ob_log_transition_tr, ob_log_tree_tr. tr log_likihood_ratio_tr. reflexivity. Qed.
Lemma ob_ratio_tr h s p : forall ms acc, ob_ratio_from acc (th h) (map tmu ms) s p = ob_ratio_from acc h ms s p.
Proof.
  induction ms as [|m ms IH]; intros acc; auto. cbn [ob_ratio_from map]. rewrite ob_log_ratio_tr. destruct (ob_log_ratio h m s p); cbn [rbind]; auto.
Qed.
Lemma mutate_all_tr : forall ms h t, mutate_all (th h) (ttr t) (map tmu ms) = rmap (fun p => (th (fst p), ttr (snd p))) (mutate_all h t ms).
Proof.
  induction ms as [|m ms IH]; intros h t; auto. cbn [mutate_all map]. rewrite mutate_tr. destruct (mutate h t m) as [[h1 t1] [e|]]; auto.
Qed.
Definition tobstep (p : option (list mutation) * heap * tree * rng) :=
  (option_map (map tmu) (fst (fst (fst p))), th (snd (fst (fst p))), ttr (snd (fst p)), trg (snd p)).
Lemma ob_step_tr h t s p r : (n0 <= h_next h)%nat -> ob_step (th h) (ttr t) s p (trg r) = rmap tobstep (ob_step h t s p r).
Proof.
  intros L. unfold ob_step, ob_sample. rewrite ob_propose_tr by auto. destruct (ob_propose (pa_limit p) h t r) as [[[ms h1] r1]| |]; cbn [rbind rmap tmshr fst snd]; auto.
  unfold ob_ratio. rewrite ob_ratio_tr. destruct (ob_ratio_from (XFin 0) h1 ms s p) as [q| |]; cbn [rbind]; auto.
  change (rg_unif (trg r1)) with (rg_unif r1). destruct (rg_unif r1) as [|u us]; cbn [rbind]; auto.
  destruct (accepts u q); auto. rewrite mutate_all_tr. destruct (mutate_all h1 t ms) as [[h2 t2]| |]; reflexivity.
Qed.
Local Notation tfr := (PRel.tfr n0 dl).
Local Notation tpc := (PRel.tpc n0 dl).
Local Notation tcall := (PRel.tcall phi rho sg n0 dl g).
Local Notation tdrive := (PRel.tdrive phi rho sg n0 dl g).
Lemma ob_call_tr m fr k r : (n0 <= h_next (m_heap m))%nat -> ob_call (tmd m) (tfr fr) k (trg r) = rmap tcall (ob_call m fr k r).
Proof.
  intros L. destruct k; cbn [ob_call]; try (tr call_tr; reflexivity).
  change (fr_tree (tfr fr)) with (fr_tree fr). destruct (fr_tree fr) as [j|]; auto. rewrite nth_trees_tr.
  destruct (nth_error (m_trees m) j) as [t|]; cbn [option_map]; auto. change (m_heap (tmd m)) with (th (m_heap m)).
  change (m_sigma (tmd m)) with (m_sigma m). change (m_par (tmd m)) with (m_par m). rewrite ob_step_tr by auto.
  destruct (ob_step (m_heap m) t (m_sigma m) (m_par m) r) as [[[[om h1] t1] r1]| |]; cbn [rbind rmap tobstep fst snd]; auto.
  change (m_trees (tmd m)) with (map ttr (m_trees m)). rewrite set_nth_map. now destruct om.
Qed.
Lemma ob_drive_tr : forall fuel m fr pc r, (n0 <= h_next (m_heap m))%nat -> ob_drive fuel (tmd m) (tfr fr) (tpc pc) (trg r) = rmap tdrive (ob_drive fuel m fr pc r).
Proof.
  induction fuel as [|f IH]; intros m fr pc r L; auto. cbn [ob_drive]. rewrite gen_next_tr.
  destruct (gen_next m fr pc) as [[[[y pc1] fr1] m1]| |] eqn:Eg; cbn [rbind rmap PRel.tgen fst snd]; auto. destruct y as [[k th0]|]; auto.
  pose proof (le_grows _ _ _ (gen_next_grows _ _ _ _ _ _ _ Eg) L) as L1.
  rewrite ob_call_tr by auto. destruct (ob_call m1 fr1 th0 r) as [[[[b a] m2] r1]| |] eqn:Ec; cbn [rbind rmap PRel.tcall fst snd]; auto. rewrite IH by (eapply le_grows; [eapply ob_call_grows|]; eauto).
  destruct (ob_drive f m2 fr1 pc1 r1) as [[[[log acts] m3] r2]| |]; reflexivity.
Qed.
Lemma ob_drive_fuel_tr m : ob_drive_fuel (tmd m) = ob_drive_fuel m.
Proof.
  unfold ob_drive_fuel. change (m_trees (tmd m)) with (map ttr (m_trees m)). f_equal. induction (m_trees m) as [|t ts IH]; auto. cbn [map fold_right].
  rewrite IH. unfold PRel.ttr. cbn [tr_nodes]. now rewrite map_length.
Qed.
Lemma ob_gibbs_step_tr m r : (n0 <= h_next (m_heap m))%nat -> ob_gibbs_step (tmd m) (trg r) = rmap tdrive (ob_gibbs_step m r).
Proof.
  intros L. unfold ob_gibbs_step. rewrite ob_drive_fuel_tr. change (Fr None None) with (tfr (Fr None None)) at 1. change GStart with (tpc GStart) at 1. rewrite ob_drive_tr by auto.
  destruct (ob_drive (ob_drive_fuel m) m (Fr None None) GStart r) as [[[[log acts] m1] r1]| |]; reflexivity.
Qed.
Local Notation tmr := (PRel.tmr phi rho sg n0 dl g).
Local Notation tcmr := (PRel.tcmr phi rho sg n0 dl g).
Lemma ob_burn_tr : forall n m r, (n0 <= h_next (m_heap m))%nat -> ob_burn n (tmd m) (trg r) = rmap tmr (ob_burn n m r).
Proof.
  induction n as [|n IH]; intros m r L; auto. cbn [ob_burn]. rewrite ob_gibbs_step_tr by auto.
  destruct (ob_gibbs_step m r) as [[[[d acts] m1] r1]| |] eqn:E; cbn [rbind rmap PRel.tdrive fst snd]; auto. apply IH. eapply le_grows; [eapply ob_gibbs_grows|]; eauto.
Qed.
Lemma ob_sample_iter_tr ss num den sp sa m r : (n0 <= h_next (m_heap m))%nat -> ob_sample_iter ss num den sp sa (tmd m) (trg r) = rmap tcmr (ob_sample_iter ss num den sp sa m r).
Proof.
  intros L. unfold ob_sample_iter. rewrite ob_gibbs_step_tr by auto. destruct (ob_gibbs_step m r) as [[[[d acts] m1] r1]| |] eqn:E; cbn [rbind rmap PRel.tdrive fst snd]; auto.
  pose proof (le_grows _ _ _ (ob_gibbs_grows _ _ _ _ _ _ E) L) as L1. destruct (num =? 0)%Z; auto. destruct (keeps_sample ss num den); auto. destruct sp.
  - rewrite model_predict_tr. destruct (model_predict m1) as [[v m2]| |] eqn:Ep; cbn [rbind rmap PRel.tvm fst snd]; auto. rewrite deep_copy_model_tr by (rewrite (model_predict_heap _ _ _ Ep); auto).
    destruct (deep_copy_model m2) as [[s m3]| |]; cbn [rbind rmap PRel.tsmm fst snd]; auto.
  - cbn [rbind]. rewrite deep_copy_model_tr by auto. destruct (deep_copy_model m1) as [[s m3]| |]; cbn [rbind rmap PRel.tsmm fst snd]; auto.
Qed.
Lemma ob_sample_loop_tr num den sp sa : forall todo ss m r, (n0 <= h_next (m_heap m))%nat -> ob_sample_loop ss todo num den sp sa (tmd m) (trg r) = rmap tcmr (ob_sample_loop ss todo num den sp sa m r).
Proof.
  induction todo as [|n IH]; intros ss m r L; auto. cbn [ob_sample_loop]. rewrite ob_sample_iter_tr by auto.
  destruct (ob_sample_iter ss num den sp sa m r) as [[[c m1] r1]| |] eqn:E; cbn [rbind rmap PRel.tcmr fst snd]; auto. rewrite IH by (destruct (ob_sample_iter_grows _ _ _ _ _ _ _ _ _ _ E) as [G _]; eapply le_grows; eauto).
  destruct (ob_sample_loop (S ss) n num den sp sa m1 r1) as [[[c' m2] r2]| |]; cbn [rbind rmap PRel.tcmr fst snd]; auto. now rewrite ch_app_tr.
Qed.
Lemma ob_samples_tr m ns nb thn sp sa r : (n0 <= h_next (m_heap m))%nat -> ob_samples (tmd m) ns nb thn sp sa (trg r) = rmap tcmr (ob_samples m ns nb thn sp sa r).
Proof.
  intros L. unfold ob_samples. rewrite ob_burn_tr by auto. destruct (ob_burn nb m r) as [[m1 r1]| |] eqn:E; cbn [rbind rmap PRel.tmr fst snd]; auto. destruct thn; auto. apply ob_sample_loop_tr. eapply le_grows; [eapply ob_burn_grows|]; eauto.
Qed.
End Tr.
