(** Invariants of models: the steps of a pass over the trees. *)
From Coq Require Import Reals Lra Permutation.
From Verif Require Import Base Fl Ext MData MSplit MTree MSampler MHist MTreeHist MModel MModelHist Spec SpecTree SpecSampler SpecModel LFl LList
  PData PSplit PDataProps PCond PTree PPred PTreeHist PTreeProps PTreeProps2 PSampler PSampler2 PSampler3 PModel.

Definition live (m : model) (k : nat) : Prop := exists t, In t (m_trees m) /\ In k (tr_nodes t).
(** objects outside the trees are left alone and never become part of a tree *)
Definition mkeeps (m m' : model) : Prop :=
  h_next (m_heap m) <= h_next (m_heap m') /\
  forall k, k < h_next (m_heap m) -> ~ live m k -> h_get (m_heap m') k = h_get (m_heap m) k /\ ~ live m' k.
Definition same (m m' : model) : Prop :=
  length (m_trees m') = length (m_trees m) /\ m_data m' = m_data m /\ m_par m' = m_par m /\ mkeeps m m'.
(** tree number [k] keeps its nodes and its leaves *)
Definition lkeeps (k : nat) (m m' : model) : Prop :=
  forall t, nth_error (m_trees m) k = Some t -> exists t', nth_error (m_trees m') k = Some t' /\
    tr_nodes t' = tr_nodes t /\ leaf_nodes (m_heap m') t' = leaf_nodes (m_heap m) t.
Lemma mkeeps_refl m m' : m_heap m' = m_heap m -> (forall k, live m' k -> live m k) -> mkeeps m m'.
Proof. intros E H. unfold mkeeps. rewrite E. split; [lia|]. intros k _ Hk. split; auto. Qed.
Lemma mkeeps_trans a b c : mkeeps a b -> mkeeps b c -> mkeeps a c.
Proof.
  intros (H1&H2) (H3&H4). split; [lia|]. intros k Hk Hl. destruct (H2 k Hk Hl) as [E L].
  destruct (H4 k) as [E' L']; auto; [lia|]. split; congruence.
Qed.
Lemma same_trans a b c : same a b -> same b c -> same a c.
Proof. intros (A1&A2&A3&A4) (B1&B2&B3&B4). unfold same. split; [congruence|]. split; [congruence|]. split; [congruence|]. eapply mkeeps_trans; eauto. Qed.
Lemma same_refl m : same m m.
Proof. unfold same, mkeeps. repeat split; auto. Qed.
Lemma lkeeps_refl k m : lkeeps k m m.
Proof. intros t Ht. eauto. Qed.
Lemma lkeeps_trans k a b c : lkeeps k a b -> lkeeps k b c -> lkeeps k a c.
Proof.
  intros H1 H2 t Ht. destruct (H1 t Ht) as (t1&Ht1&N1&L1). destruct (H2 t1 Ht1) as (t2&Ht2&N2&L2).
  exists t2. repeat split; congruence.
Qed.
Lemma in_set_nth {A} j (x y : A) l : In y (set_nth j x l) -> y = x \/ In y l.
Proof. revert j; induction l as [|z l IH]; intros [|j]; simpl; auto; intros [->|H]; auto. apply IH in H as [?|?]; auto. Qed.
Lemma leaf_nodes_ext h h' t t' : tr_nodes t' = tr_nodes t -> (forall q, In q (tr_nodes t) -> is_leaf h' q = is_leaf h q) ->
  leaf_nodes h' t' = leaf_nodes h t.
Proof. intros E H. unfold leaf_nodes. rewrite E. apply filter_ext_in. auto. Qed.
Lemma is_leaf_ext h h' q : h_get h' q = h_get h q -> is_leaf h' q = is_leaf h q.
Proof. unfold is_leaf. now intros ->. Qed.

Lemma upd_keeps X op np m As j t a h' t' pr : mst X op np (m_heap m) (m_trees m) As ->
  nth_error (m_trees m) j = Some t -> nth_error As j = Some a -> stays (m_heap m) t h' t' ->
  let m' := Md h' (set_nth j t' (m_trees m)) (m_data m) pr (m_sigma m) (m_par m) in
  same m m' /\ forall k, k <> j -> lkeeps k m m'.
Proof.
  intros H Ht Ha Hst m'. split.
  - unfold same; simpl. rewrite set_nth_length. repeat split; auto; [apply Hst|destruct Hst as (S1&S2&S3)..].
    + apply S2; auto. intros Hin. apply H1. exists t. split; auto. eapply nth_error_In; eauto.
    + intros (t1&Hin&Hk). simpl in Hin. apply in_set_nth in Hin as [->|Hin].
      * apply S3 in Hk as [Hk|Hk]; [|simpl in *; lia]. apply H1. exists t. split; auto. eapply nth_error_In; eauto.
      * apply H1. exists t1. auto.
  - intros k Hk tk Htk. simpl. rewrite set_nth_error. destruct (Nat.eqb_spec k j); [congruence|].
    exists tk. split; auto. split; auto. apply leaf_nodes_ext; auto. intros q Hq. apply is_leaf_ext.
    destruct (nth_error_both _ As k tk (eq_sym (ms_len _ _ _ _ _ _ H)) Htk) as (b&Hb).
    apply (others_frame X op np _ _ As j t a h' t' k tk b H Ht Ha Hst Hk Htk Hb).
    destruct (ms_tree _ _ _ _ _ _ H _ _ _ Htk Hb) as (o&Hi&_). now apply (ti_in _ _ _ _ _ _ Hi).
Qed.

(** ** predict() *)
Definition cached (h : heap) (X : matrix) (t : tree) (a : atree) : tree := Tr (tr_nodes t) true (Some (insample h X a)).
Lemma map2_error {A B C} (f : A -> B -> C) : forall l l' k, length l' = length l ->
  nth_error (map2 f l l') k = match nth_error l k, nth_error l' k with Some x, Some y => Some (f x y) | _, _ => None end.
Proof.
  induction l as [|x l IH]; intros [|y l'] [|k] H; simpl in *; try discriminate; auto.
Qed.
Lemma map2_length {A B C} (f : A -> B -> C) : forall l l', length l' = length l -> length (map2 f l l') = length l.
Proof. induction l as [|x l IH]; intros [|y l'] H; simpl in *; try discriminate; auto. Qed.
Lemma predict_all_spec h X : forall ts As, length As = length ts ->
  (forall k t a, nth_error ts k = Some t -> nth_error As k = Some a -> tree_predict h t = Ok (insample h X a, cached h X t a)) ->
  predict_all h ts = Ok (map (insample h X) As, map2 (cached h X) ts As).
Proof.
  induction ts as [|t ts IH]; intros [|a As] Hl H; simpl in *; try discriminate; auto.
  rewrite (H 0 t a) by auto. cbn [rbind]. rewrite (IH As); [reflexivity|lia|]. intros k. apply (H (S k)).
Qed.
Lemma vsum_spec n vs : (forall v, In v vs -> length v = n) -> exists s, vsum n vs = Ok s /\ length s = n /\
  forall i, i < n -> nth i s 0%R = rsum (map (fun v => nth i v 0%R) vs).
Proof.
  induction vs as [|v vs IH]; intros H; simpl.
  - exists (repeat 0%R n). rewrite repeat_length. split; auto. split; auto. intros i Hi. now rewrite nth_repeat.
  - destruct IH as (s&->&Hs&Hn); [simpl in *; auto|]. cbn [rbind].
    assert (Hv : length v = n) by (apply H; simpl; auto).
    destruct (vop_sum Rplus v s n Hv Hs) as (c&Hc&Hcl&Hcn). exists c. split; auto. split; auto.
    intros i Hi. rewrite Hcn, Hn by auto. reflexivity.
Qed.
Lemma mst_ready X op np h ts As k t a : no_nan X -> mst X op np h ts As -> nth_error ts k = Some t -> nth_error As k = Some a ->
  tree_predict h t = Ok (insample h X a, cached h X t a).
Proof.
  intros Hn H Ht Ha. destruct (ms_tree _ _ _ _ _ _ H _ _ _ Ht Ha) as (oy&Hi&_).
  apply (predict_ready h X oy t a Hn Hi).
  - intros Hf. apply (ms_cache _ _ _ _ _ _ H _ _ _ Ht Ha Hf).
  - destruct (ms_buf _ _ _ _ _ _ H _ _ _ Ht Ha) as [?|(?&_&?)]; auto.
Qed.
Lemma mst_cached X np np' h ts As : mst X None np h ts As -> mst X None np' h (map2 (cached h X) ts As) As.
Proof.
  intros H. pose proof (ms_len _ _ _ _ _ _ H) as Hl.
  assert (Hnth : forall k t a, nth_error (map2 (cached h X) ts As) k = Some t -> nth_error As k = Some a ->
    exists t0, nth_error ts k = Some t0 /\ t = cached h X t0 a).
  { intros k t a. rewrite map2_error by auto. intros E Ha. rewrite Ha in E. destruct (nth_error ts k) as [t0|]; [|discriminate].
    injection E as <-. eauto. }
  split.
  - now rewrite map2_length.
  - intros j t a Ht Ha. destruct (Hnth _ _ _ Ht Ha) as (t0&Ht0&->).
    destruct (ms_tree _ _ _ _ _ _ H _ _ _ Ht0 Ha) as (oy&Hi&_). exists oy. split; [|discriminate]. now apply tree_inv_cache.
  - apply H.
  - intros j t a Ht Ha _. destruct (Hnth _ _ _ Ht Ha) as (t0&Ht0&->). split; [reflexivity|discriminate].
  - intros j t a Ht Ha. destruct (Hnth _ _ _ Ht Ha) as (t0&Ht0&->). left. eexists. split; [reflexivity|apply insample_length].
  - discriminate.
Qed.
Lemma cached_live h X ts As m m' k : length As = length ts -> m_trees m = ts -> m_trees m' = map2 (cached h X) ts As -> live m' k -> live m k.
Proof.
  intros Hl E1 E2 (t&Hin&Hk). rewrite E2 in Hin. apply In_nth_error in Hin as (q&Hq). rewrite map2_error in Hq by auto.
  destruct (nth_error ts q) as [t0|] eqn:Et; [|discriminate]. destruct (nth_error As q) as [a|]; [|discriminate].
  injection Hq as <-. exists t0. split; [rewrite E1; eapply nth_error_In; eauto|exact Hk].
Qed.
Lemma lkeeps_cached h X m m' As k : length As = length (m_trees m) -> m_heap m' = m_heap m ->
  m_trees m' = map2 (cached h X) (m_trees m) As -> lkeeps k m m'.
Proof.
  intros Hl E1 E2 t Ht. rewrite E2, map2_error by auto. rewrite Ht.
  destruct (nth_error_both _ As k t (eq_sym Hl) Ht) as (a&Ha). rewrite Ha. eexists. split; [reflexivity|]. split; [reflexivity|].
  apply leaf_nodes_ext; auto. intros q _. now rewrite E1.
Qed.
Lemma rsum_col h X As i : rsum (map (fun v => nth i v 0%R) (map (insample h X) As)) = rsum (col h X As i).
Proof. unfold col. now rewrite map_map. Qed.
Lemma model_predict_spec X y e m As : no_nan X -> minv X y None e m As ->
  exists v m', model_predict m = Ok (v, m') /\ length v = length (mx_rows X) /\
    (forall i, i < length (mx_rows X) -> nth i v 0%R = rsum (col (m_heap m) X As i)) /\
    minv X y None e m' As /\ same m m' /\ (forall k, lkeeps k m m') /\ m_pred m' = m_pred m /\ m_sigma m' = m_sigma m /\ m_heap m' = m_heap m /\
    m_trees m' = map2 (cached (m_heap m) X) (m_trees m) As.
Proof.
  intros Hn H. pose proof (mi_st _ _ _ _ _ _ H) as Hs. pose proof (ms_len _ _ _ _ _ _ Hs) as Hl.
  unfold model_predict. rewrite (predict_all_spec _ X _ As Hl (fun k t a => mst_ready X None _ _ _ _ k t a Hn Hs)). cbn [rbind].
  rewrite (mi_mask _ _ _ _ _ _ H).
  destruct (vsum_spec (length (mx_rows X)) (map (insample (m_heap m) X) As)) as (v&Ev&Lv&Nv).
  { intros w Hw. apply in_map_iff in Hw as (a&<-&_). apply insample_length. }
  rewrite Ev. cbn [rbind]. exists v. eexists. split; [reflexivity|]. split; auto.
  split; [intros i Hi; now rewrite Nv, rsum_col|].
  split; [destruct H; split; simpl; auto; try discriminate; eapply mst_cached; eauto|].
  split; [unfold same; simpl; rewrite map2_length by auto; repeat split; auto;
    intros HL; apply H1; refine (cached_live (m_heap m) X (m_trees m) As m _ k Hl eq_refl _ HL); reflexivity|].
  split; [|auto]. intros k. eapply lkeeps_cached; eauto; reflexivity.
Qed.
(** ** starting a pass *)
Lemma rt_start_spec X y e m As : no_nan X -> minv X y None e m As ->
  exists m', rt_start m = Ok m' /\ minv X y None e m' As /\ same m m' /\ (forall k, lkeeps k m m') /\ m_sigma m' = m_sigma m /\ m_heap m' = m_heap m /\
    exists pr, m_pred m' = Some pr.
Proof.
  intros Hn H. unfold rt_start. destruct (m_pred m) as [pr|] eqn:Ep.
  - exists m. split; auto. split; auto. split; [unfold same; repeat split; auto|]. split; [intros k t Ht; eauto|]. eauto 6.
  - destruct (model_predict_spec _ _ _ _ _ Hn H) as (v&m'&->&Lv&Nv&H'&Hsm&Hlk&E1&E2&E3&E4). cbn [rbind].
    eexists. split; [reflexivity|]. destruct (mi_none _ _ _ _ _ _ H Ep) as [_ He].
    split; [|simpl; split; [|split; [exact Hlk|split; [auto|split; eauto]]]].
    + destruct H' as [A B C D E F G T]. split; simpl; auto; try discriminate.
      * rewrite E3, E4. apply (mst_cached X (m_pred m = None)), H.
      * intros pr [= <-]. split; auto. intros i Hi. rewrite Nv, He, E3 by auto. simpl. lra.
    + exact Hsm.
Qed.
