(** Invariants of models: the generator of Gibbs steps. *)
From Coq Require Import Reals Lra Permutation.
From Verif Require Import Base Fl Ext MData MSplit MTree MSampler MHist MTreeHist MModel MModelHist Spec SpecTree SpecSampler SpecModel LFl LList
  PData PSplit PDataProps PCond PTree PPred PTreeHist PTreeProps PTreeProps2 PSampler PSampler2 PSampler3 PModel PModel2 PModel3.

(** a step of the tree sampler is one of the calls; so is the sampling of a leaf *)
Lemma tree_step_op h t sigma p r om h1 t1 r1 : tree_step h t sigma p r = Ok (om, h1, t1, r1) ->
  exists o, visit_op o /\ proposed_op o /\ tree_do h t o = Ok (h1, t1).
Proof.
  unfold tree_step, tree_sample. destruct (propose (pa_limit p) h t r) as [[[m h2] r2]| |] eqn:Ep; try discriminate. cbn [rbind].
  destruct (log_probability_ratio h2 t m sigma p) as [L| |]; try discriminate. cbn [rbind].
  destruct (rg_unif r2) as [|u us]; try discriminate. cbn [rbind].
  apply propose_cases in Ep as [(idx'&E&_)|(idx'&E&_)]; destruct (accepts u L).
  - destruct (mutate h2 t m) as [[h3 t3] [x|]] eqn:Em; intros E'; try discriminate. injection E' as _ <- <- _.
    exists (TSampleGrow (rg_index r)). split; [exact I|]. split; [exact I|]. cbn [tree_do]. rewrite E. cbn [rbind]. now rewrite Em.
  - intros E'. injection E' as _ <- <- _. exists (TDiscardGrow (rg_index r)). split; [exact I|]. split; [exact I|]. cbn [tree_do]. now rewrite E.
  - destruct (mutate h2 t m) as [[h3 t3] [x|]] eqn:Em; intros E'; try discriminate. injection E' as _ <- <- _.
    exists (TSamplePrune (rg_index r)). split; [exact I|]. split; [exact I|]. cbn [tree_do]. rewrite E. cbn [rbind]. now rewrite Em.
  - intros E'. injection E' as _ <- <- _. exists (TDiscardPrune (rg_index r)). split; [exact I|]. split; [exact I|]. cbn [tree_do]. now rewrite E.
Qed.
Lemma leaf_step_op h t i sigma p r h1 r1 : In i (leaf_nodes h t) -> leaf_step h i sigma p r = Ok (h1, r1) ->
  exists w, tree_do h t (TSetValue i w) = Ok (h1, t) /\ h1 = set_value h i w.
Proof.
  intros Hi. unfold leaf_step. destruct (node_n h i) as [n| |]; try discriminate. cbn [rbind].
  destruct (node_sum h i) as [s| |]; try discriminate. cbn [rbind]. destruct (rg_norm r) as [|z zs]; try discriminate.
  destruct (leaf_sample n s sigma p z); try discriminate. intros E. injection E as <- _. eexists. cbn [tree_do]. split; [|reflexivity].
  replace (existsb (Nat.eqb i) (leaf_nodes h t)) with true; auto. symmetry. apply existsb_exists. exists i. split; auto. apply Nat.eqb_refl.
Qed.
Lemma set_value_leaf h i w q : is_leaf (set_value h i w) q = is_leaf h q.
Proof.
  unfold is_leaf. rewrite set_value_get. destruct (h_get h q) as [[[v|l r] s d]|]; try reflexivity.
Qed.
Lemma set_value_leaves h i w t : leaf_nodes (set_value h i w) t = leaf_nodes h t.
Proof. apply leaf_nodes_ext; auto. intros. apply set_value_leaf. Qed.

(** ** sampling sigma *)
Definition sq_sum (l : list R) : R := rsum (map (fun x => x * x)%R l).
Lemma sigma_step_spec X y e m As r m' r' : no_nan X -> minv X y None e m As -> sigma_step m r = Ok (m', r') ->
  minv X y None e m' As /\ same m m' /\ (forall k, lkeeps k m m') /\ m_heap m' = m_heap m /\ m_pred m' = m_pred m.
Proof.
  intros Hn H. unfold sigma_step, residuals, data_values. rewrite (mi_y _ _ _ _ _ _ H). cbn [rbind].
  destruct (model_predict_spec _ _ _ _ _ Hn H) as (v&m1&->&Lv&Nv&H1&Hsm&Hlk&E1&E2&E3&E4). cbn [rbind].
  destruct (vop_sum Rminus y v _ (mi_ylen _ _ _ _ _ _ H) Lv) as (d&->&Ld&Nd). cbn [rbind].
  destruct (Req_EM_T _ _); [discriminate|]. destruct (Rlt_dec _ _); [discriminate|]. destruct (Rlt_dec _ _); [discriminate|].
  destruct (rg_gamma r) as [|g gs]; [discriminate|]. destruct (sigma_value _); try discriminate. intros E. injection E as <- <-.
  split; [|split; [|split; [exact Hlk|split; [exact E3|exact E1]]]].
  - destruct H1. split; simpl; auto.
  - destruct Hsm as (A&B&C&D). exact (conj A (conj B (conj C D))).
Qed.

(** ** the generator *)
Definition ginv (X : matrix) (y : list R) (e : nat -> R) (m : model) (fr : frame) (pc : gpc) (As : list atree) : Prop :=
  match pc with
  | GStart => minv X y None e m As
  | GSigma => minv X y None e m As /\ m_pred m <> None
  | GTree j => minv X y (Some j) e m As /\ fr_tree fr = Some j
  | GLeaf j rest => minv X y (Some j) e m As /\ fr_tree fr = Some j /\
      exists t i, nth_error (m_trees m) j = Some t /\ fr_leaf fr = Some i /\ In i (leaf_nodes (m_heap m) t) /\ incl rest (leaf_nodes (m_heap m) t)
  end.
Definition yields (pc : gpc) : skey * thunk :=
  match pc with GTree _ => (KyTree, ThTree) | GLeaf _ _ => (KyNode, ThLeaf) | _ => (KyNode, ThSigma) end.
(** what is to come *)
Definition succ_pc (n j : nat) : gpc := if j <? n then GTree j else GSigma.
Lemma gen_tree_spec X y e m fr j As : no_nan X -> minv X y None e m As -> m_pred m <> None ->
  exists fr' m', gen_tree m fr j = Ok (Some (yields (succ_pc (length (m_trees m)) j)), succ_pc (length (m_trees m)) j, fr', m') /\
    ginv X y e m' fr' (succ_pc (length (m_trees m)) j) As /\ same m m' /\ (forall k, lkeeps k m m') /\ m_sigma m' = m_sigma m.
Proof.
  intros Hn H Hp. unfold gen_tree, succ_pc. destruct (Nat.ltb_spec j (length (m_trees m))) as [Hj|Hj].
  - destruct (rt_open_spec _ _ _ _ _ _ Hn H Hj Hp) as (m1&tg&t1&->&H1&Hsm&Hlk&Es&Et&_). cbn [rbind].
    eexists. eexists. split; [reflexivity|]. simpl. auto.
  - eexists. eexists. split; [reflexivity|]. simpl. auto 6 using same_refl, lkeeps_refl.
Qed.
Lemma gen_leaves_spec X y e m fr j rest t As : no_nan X -> minv X y (Some j) e m As -> fr_tree fr = Some j ->
  nth_error (m_trees m) j = Some t -> incl rest (leaf_nodes (m_heap m) t) ->
  let pc' := match rest with i :: rest' => GLeaf j rest' | [] => succ_pc (length (m_trees m)) (S j) end in
  exists fr' m', gen_leaves m fr j rest = Ok (Some (yields pc'), pc', fr', m') /\
    (forall i rest', rest = i :: rest' -> fr_leaf fr' = Some i) /\
    ginv X y e m' fr' pc' As /\ same m m' /\ (forall k, lkeeps k m m') /\ m_sigma m' = m_sigma m.
Proof.
  intros Hn H Hf Ht Hr. destruct rest as [|i rest]; intros pc'; unfold gen_leaves; subst pc'.
  - destruct (rt_close_spec _ _ _ _ _ _ Hn H) as (m1&->&H1&Hsm&Hlk&Es&_&Hp). cbn [rbind].
    destruct (gen_tree_spec _ _ _ _ fr (S j) _ Hn H1 Hp) as (fr'&m'&->&Hg&Hsm'&Hlk'&Es').
    replace (length (m_trees m1)) with (length (m_trees m)) in * by (symmetry; apply Hsm).
    exists fr', m'. split; auto. split; [discriminate|]. split; auto. split; [eapply same_trans; eauto|]. split; [|congruence].
    intros k. eapply lkeeps_trans; eauto.
  - eexists. exists m. split; [reflexivity|]. split; [intros ? ? [= <- <-]; reflexivity|]. split.
    + simpl. split; auto. split; auto. exists t, i. split; auto. split; auto. split; [apply Hr; simpl; auto|]. intros q Hq. apply Hr; simpl; auto.
    + auto using same_refl, lkeeps_refl.
Qed.
(** one step of the generator *)
Definition pc_next (m : model) (pc : gpc) : gpc :=
  match pc with
  | GStart => succ_pc (length (m_trees m)) 0
  | GTree j => match nth_error (m_trees m) j with
               | Some t => match leaf_nodes (m_heap m) t with i :: rest => GLeaf j rest | [] => succ_pc (length (m_trees m)) (S j) end
               | None => GSigma end
  | GLeaf j (i :: rest) => GLeaf j rest
  | GLeaf j [] => succ_pc (length (m_trees m)) (S j)
  | GSigma => GSigma
  end.
Definition leaf_next (m : model) (pc : gpc) : option nat :=
  match pc with
  | GTree j => match nth_error (m_trees m) j with
               | Some t => hd_error (leaf_nodes (m_heap m) t) | None => None end
  | GLeaf j (i :: rest) => Some i
  | _ => None end.
Lemma gen_next_spec X y e m fr pc As : no_nan X -> ginv X y e m fr pc As -> pc <> GSigma ->
  exists fr' m', gen_next m fr pc = Ok (Some (yields (pc_next m pc)), pc_next m pc, fr', m') /\
    (forall i, leaf_next m pc = Some i -> fr_leaf fr' = Some i) /\
    ginv X y e m' fr' (pc_next m pc) As /\ same m m' /\ (forall k, lkeeps k m m') /\ m_sigma m' = m_sigma m.
Proof.
  intros Hn Hg Hpc. destruct pc as [|j|j rest|]; simpl in Hg; [| | |congruence].
  - unfold gen_next. destruct (rt_start_spec _ _ _ _ _ Hn Hg) as (m1&->&H1&Hsm&Hlk&Es&_&pr&Hp). cbn [rbind].
    destruct (gen_tree_spec _ _ _ _ fr 0 _ Hn H1) as (fr'&m'&->&Hg'&Hsm'&Hlk'&Es'); [congruence|].
    simpl. replace (length (m_trees m1)) with (length (m_trees m)) in * by (symmetry; apply Hsm).
    exists fr', m'. split; auto. split; [discriminate|]. split; auto. split; [eapply same_trans; eauto|]. split; [|congruence].
    intros k. eapply lkeeps_trans; eauto.
  - destruct Hg as [H Hf]. pose proof (mi_st _ _ _ _ _ _ H) as Hs. pose proof (ms_op _ _ _ _ _ _ Hs _ eq_refl) as Hj.
    rewrite (ms_len _ _ _ _ _ _ Hs) in Hj. simpl. destruct (nth_error (m_trees m) j) as [t|] eqn:Et; [|apply nth_error_None in Et; lia].
    destruct (gen_leaves_spec _ _ _ _ fr _ (leaf_nodes (m_heap m) t) _ _ Hn H Hf Et (incl_refl _)) as (fr'&m'&E&Hfr&Hrest).
    exists fr', m'. split; [exact E|]. split; [|exact Hrest].
    intros i Hi. destruct (leaf_nodes (m_heap m) t) as [|i' r'] eqn:El; [discriminate|]. injection Hi as <-. eapply Hfr; reflexivity.
  - destruct Hg as (H&Hf&t&i&Et&Hi&Hin&Hr). simpl.
    destruct (gen_leaves_spec _ _ _ _ fr _ rest _ _ Hn H Hf Et Hr) as (fr'&m'&E&Hfr&Hrest).
    exists fr', m'. split; [destruct rest; exact E|]. split; [|destruct rest; exact Hrest].
    intros i' Hi'. destruct rest; [discriminate|]. injection Hi' as <-. eapply Hfr; reflexivity.
Qed.
(** calling the lambda just produced *)
Lemma call_spec X y e m fr pc As r b a m' r' : no_nan X -> ginv X y e m fr pc As -> pc <> GStart ->
  call m fr (snd (yields pc)) r = Ok (b, a, m', r') ->
  exists As', ginv X y e m' fr pc As' /\ same m m' /\ (Forall (filled X []) As -> Forall (filled X []) As') /\
    match pc with
    | GTree j => a = DoTree j /\ forall k, k <> j -> lkeeps k m m'
    | GLeaf _ _ => (exists i, fr_leaf fr = Some i /\ a = DoLeaf i) /\ forall k, lkeeps k m m'
    | _ => a = DoSigma /\ forall k, lkeeps k m m'
    end.
Proof.
  intros Hn Hg Hpc. destruct pc as [|j|j rest|]; simpl in Hg; [congruence|..]; simpl yields; simpl snd; unfold call.
  - destruct Hg as [H Hf]. rewrite Hf. destruct (nth_error (m_trees m) j) as [t|] eqn:Et; [|discriminate].
    destruct (tree_step _ t _ _ r) as [[[[om h1] t1] r1]| |] eqn:Es; try discriminate. cbn [rbind]. intros E. injection E as _ <- <- _.
    apply tree_step_op in Es as (o&Hv&Hpo&Hd). destruct (visit_minv _ _ _ _ _ _ _ _ _ _ Hn H Et Hv Hd) as (a'&H'&Hsm&Hlk&Hfl).
    exists (set_nth j a' As). simpl. auto.
  - destruct Hg as (H&Hf&t&i&Et&Hi&Hin&Hr). rewrite Hi. destruct (leaf_step _ i _ _ r) as [[h1 r1]| |] eqn:Es; try discriminate.
    cbn [rbind]. intros E. injection E as _ <- <- _.
    destruct (leaf_step_op _ t _ _ _ _ _ _ Hin Es) as (w&Hd&Eh).
    destruct (visit_minv _ _ _ _ _ _ _ (TSetValue i w) _ _ Hn H Et I Hd) as (a'&H'&Hsm&Hlk&Hfl). rewrite (set_nth_same _ _ _ Et) in *.
    exists (set_nth j a' As). simpl. split; [|split; [exact Hsm|split; [apply Hfl; exact I|split; [eauto|]]]].
    + split; auto. split; auto. exists t, i. rewrite Eh, set_value_leaves. auto.
    + intros k. destruct (Nat.eq_dec k j) as [->|Hk]; [|now apply Hlk]. intros t0 Ht0. exists t0. simpl. split; auto. split; auto.
      rewrite Eh. apply set_value_leaves.
  - destruct Hg as [H Hp]. destruct (sigma_step m r) as [[m1 r1]| |] eqn:Es; try discriminate. cbn [rbind]. intros E. injection E as _ <- <- _.
    destruct (sigma_step_spec _ _ _ _ _ _ _ _ Hn H Es) as (H'&Hsm&Hlk&_&Ep). exists As. simpl. rewrite Ep. auto.
Qed.
