(** Invariants of models: opening, visiting and closing a tree of a pass. *)
From Coq Require Import Reals Lra Permutation.
From Verif Require Import Base Fl Ext MData MSplit MTree MSampler MHist MTreeHist MModel MModelHist Spec SpecTree SpecSampler SpecModel LFl LList
  PData PSplit PDataProps PCond PTree PPred PTreeHist PTreeProps PTreeProps2 PSampler PSampler2 PSampler3 PModel PModel2.

Lemma astree_values h h' a : (forall j, In j (aids a) -> hvalue h' j = hvalue h j) -> astree h' a = astree h a.
Proof.
  induction a as [i|i v x l IHl r IHr]; simpl; intros He.
  - f_equal. auto.
  - f_equal; [apply IHl|apply IHr]; intros; apply He; right; apply in_app_iff; auto.
Qed.
Lemma y_set_value h h' y j : h_get h' j = y_set y (h_get h j) -> hvalue h' j = hvalue h j.
Proof. unfold hvalue, leaf_value. intros ->. destruct (h_get h j) as [[k [s|c] d]|]; reflexivity. Qed.
Lemma y_set_leaf h h' y j : h_get h' j = y_set y (h_get h j) -> is_leaf h' j = is_leaf h j.
Proof. unfold is_leaf. intros ->. destruct (h_get h j) as [[k [s|c] d]|]; reflexivity. Qed.
Lemma set_nth_id {A} (l : list A) j x : nth_error l j = Some x -> set_nth j x l = l.
Proof. apply set_nth_same. Qed.
Lemma col_same h X As i j a : nth_error As j = Some a -> set_nth j (nth i (insample h X a) 0%R) (col h X As i) = col h X As i.
Proof. intros H. apply set_nth_same. unfold col. rewrite nth_error_map, H. reflexivity. Qed.

(** ** opening *)
Lemma rt_open_spec X y e m As j : no_nan X -> minv X y None e m As -> j < length (m_trees m) -> m_pred m <> None ->
  exists m' target t', rt_open m j = Ok m' /\ minv X y (Some j) e m' As /\ same m m' /\ (forall k, lkeeps k m m') /\ m_sigma m' = m_sigma m /\
    nth_error (m_trees m') j = Some t' /\ tr_fresh t' = false /\ has_target (m_heap m') t' target /\ length target = length (mx_rows X) /\
    (forall i, i < length (mx_rows X) ->
      nth i target 0%R = (nth i y 0 - (rsum (col (m_heap m) X As i) - nth j (col (m_heap m) X As i) 0) + e i)%R) /\
    (forall i, i < length (mx_rows X) -> col (m_heap m') X As i = col (m_heap m) X As i) /\ m_pred m' <> None.
Proof.
  intros Hn H Hj Hp. pose proof (mi_st _ _ _ _ _ _ H) as Hs. pose proof (ms_len _ _ _ _ _ _ Hs) as Hl.
  destruct (nth_error (m_trees m) j) as [t|] eqn:Et; [|apply nth_error_None in Et; lia].
  destruct (nth_error_both _ As j t (eq_sym Hl) Et) as (a&Ha).
  destruct (m_pred m) as [pr|] eqn:Ep; [|congruence].
  destruct (mi_pred _ _ _ _ _ _ H pr Ep) as [Lpr Npr].
  unfold rt_open. rewrite Et, Ep, (mst_ready _ _ _ _ _ _ _ _ _ Hn Hs Et Ha). cbn [rbind].
  destruct (vop_sum Rminus pr (insample (m_heap m) X a) _ Lpr (insample_length _ _ _)) as (pr1&->&Lpr1&Npr1). cbn [rbind].
  unfold data_values. rewrite (mi_y _ _ _ _ _ _ H). cbn [rbind].
  destruct (vop_sum Rminus y pr1 _ (mi_ylen _ _ _ _ _ _ H) Lpr1) as (tg&->&Ltg&Ntg). cbn [rbind].
  destruct (ms_tree _ _ _ _ _ _ Hs _ _ _ Et Ha) as (oy&Hi&_).
  destruct (update_y_step (m_heap m) X oy (cached (m_heap m) X t a) a (Some tg)) as (h1&E1&N1&G1&I1);
    [now apply tree_inv_cache|now intros y' [= <-]|].
  rewrite E1. cbn [rbind]. set (t2 := Tr (tr_nodes (cached (m_heap m) X t a)) false (tr_pred (cached (m_heap m) X t a))).
  assert (Hst : stays (m_heap m) t h1 t2).
  { split; [lia|]. split; [|auto]. intros q Hq Hnq. rewrite G1. apply mem_not in Hnq. simpl. now rewrite Hnq. }
  assert (Hins : insample h1 X a = insample (m_heap m) X a).
  { unfold insample. rewrite (astree_values (m_heap m) h1); auto. intros q Hq. apply (y_set_value _ _ (Some tg)). rewrite G1.
    apply (ti_in _ _ _ _ _ _ Hi) in Hq. apply mem_in in Hq. simpl. now rewrite Hq. }
  destruct (mst_upd X None (Some j) _ (Some pr1 = None) _ _ As j t a h1 t2 a (Some tg) Hs Et Ha Hst I1) as [Hs' Hcol]; auto; try discriminate.
  - intros k Hk [= <-]. congruence.
  - left. simpl. eexists. split; [reflexivity|]. apply insample_length.
  - rewrite (set_nth_same j a As Ha) in Hs', Hcol.
    destruct (upd_keeps X None _ m As j t a h1 t2 (Some pr1) Hs Et Ha Hst) as [Hsm Hlk].
    assert (Hc : forall i, col h1 X As i = col (m_heap m) X As i) by (intros i; rewrite Hcol, Hins; now apply col_same).
    exists (m_set_pred (m_set_trees m h1 (set_nth j t2 (m_trees m))) (Some pr1)), tg, t2. split; [reflexivity|].
    split; [|split; [exact Hsm|split; [|split; [reflexivity|]]]].
    + destruct H. split; simpl; auto; try discriminate.
      * intros pr' [= <-]. split; auto. intros i Hi0. rewrite Hc, (col_nth _ _ _ _ _ _ Ha), Npr1, Npr by auto. simpl. lra.
      * intros j' [= <-]. exists t2, a, tg. rewrite set_nth_error, Nat.eqb_refl, Et. split; [auto|]. split; [auto|]. split; [auto|]. split; [auto|].
        intros pr' [= <-]. auto.
    + intros k. destruct (Nat.eq_dec k j) as [->|Hk]; [|now apply Hlk]. intros t0 Ht0. rewrite Et in Ht0. injection Ht0 as <-.
      simpl. rewrite set_nth_error, Nat.eqb_refl, Et. exists t2. split; auto. split; auto. apply leaf_nodes_ext; auto.
      intros q Hq. apply (y_set_leaf _ _ (Some tg)). rewrite G1. apply mem_in in Hq. simpl. now rewrite Hq.
    + simpl. rewrite set_nth_error, Nat.eqb_refl, Et. split; auto. split; auto. split; [|split; [auto|split; [|split; [auto|discriminate]]]].
      * intros q Hq. apply (ti_in _ _ _ _ _ _ I1) in Hq.
        destruct (ti_node _ _ _ _ [] 0 q (ti_ok _ _ _ _ _ I1) Hq) as (k&s&d&cs&Eg&Hsv).
        exists s. unfold node_split. rewrite Eg. split; auto. apply (si_t _ _ _ _ Hsv).
      * intros i Hi0. rewrite Ntg, Npr1, Npr, (col_nth _ _ _ _ _ _ Ha) by auto. simpl. lra.
Qed.

(** ** closing *)
Lemma rt_close_spec X y e m As j : no_nan X -> minv X y (Some j) e m As ->
  exists m', rt_close m j = Ok m' /\ minv X y None e m' As /\ same m m' /\ (forall k, lkeeps k m m') /\ m_sigma m' = m_sigma m /\
    m_heap m' = m_heap m /\ m_pred m' <> None.
Proof.
  intros Hn H. pose proof (mi_st _ _ _ _ _ _ H) as Hs. pose proof (ms_len _ _ _ _ _ _ Hs) as Hl.
  pose proof (ms_op _ _ _ _ _ _ Hs _ eq_refl) as Hj. rewrite Hl in Hj.
  destruct (nth_error (m_trees m) j) as [t|] eqn:Et; [|apply nth_error_None in Et; lia].
  destruct (nth_error_both _ As j t (eq_sym Hl) Et) as (a&Ha).
  destruct (m_pred m) as [pr|] eqn:Ep; [|destruct (mi_none _ _ _ _ _ _ H Ep); discriminate].
  destruct (mi_pred _ _ _ _ _ _ H pr Ep) as [Lpr Npr].
  unfold rt_close. rewrite Et, Ep, (mst_ready _ _ _ _ _ _ _ _ _ Hn Hs Et Ha). cbn [rbind].
  destruct (vop_sum Rplus pr (insample (m_heap m) X a) _ Lpr (insample_length _ _ _)) as (pr1&->&Lpr1&Npr1). cbn [rbind].
  destruct (ms_tree _ _ _ _ _ _ Hs _ _ _ Et Ha) as (oy&Hi&_).
  assert (Hst : stays (m_heap m) t (m_heap m) (cached (m_heap m) X t a)) by apply stays_refl.
  destruct (mst_upd X (Some j) None _ (Some pr1 = None) _ _ As j t a _ (cached (m_heap m) X t a) a oy Hs Et Ha Hst) as [Hs' Hcol];
    auto; try discriminate; try congruence.
  - now apply tree_inv_cache.
  - simpl. split; [reflexivity|discriminate].
  - left. simpl. eexists. split; [reflexivity|]. apply insample_length.
  - rewrite (set_nth_same j a As Ha) in Hs', Hcol.
    destruct (upd_keeps X (Some j) _ m As j t a _ _ (Some pr1) Hs Et Ha Hst) as [Hsm Hlk].
    eexists. split; [reflexivity|]. split; [|split; [exact Hsm|split; [|split; [reflexivity|split; [reflexivity|discriminate]]]]].
    + destruct H. split; simpl; auto; try discriminate. intros pr' [= <-]. split; auto. intros i Hi0.
      rewrite Npr1, Npr by auto. simpl. rewrite (col_nth _ _ _ _ _ _ Ha). lra.
    + intros k. destruct (Nat.eq_dec k j) as [->|Hk]; [|now apply Hlk]. intros t0 Ht0. rewrite Et in Ht0. injection Ht0 as <-.
      simpl. rewrite set_nth_error, Nat.eqb_refl, Et. eexists. split; [reflexivity|]. split; reflexivity.
Qed.

(** ** a pass given up while tree [j] is handed out *)
Lemma minv_abandon X y e m As j : minv X y (Some j) e m As ->
  minv X y None (fun i => e i + nth j (col (m_heap m) X As i) 0)%R m As.
Proof.
  intros [A B C D E F G T]. split; auto.
  - destruct A as [A1 A2 A3 A4 A5 A6]. split; auto; try discriminate.
    + intros k t a Ht Ha. destruct (A2 k t a Ht Ha) as (oy&Hi&_). exists oy. split; auto. discriminate.
    + intros k t a Ht Ha Hf. destruct (A4 k t a Ht Ha Hf). split; auto. discriminate.
  - intros pr Hp. destruct (B pr Hp) as [B1 B2]. split; auto. intros i Hi. rewrite B2 by auto. simpl. lra.
  - intros Hp. destruct (C Hp). discriminate.
  - discriminate.
Qed.

(** ** calls on the tree handed out *)
Lemma visit_facts n y o : visit_op o -> sane_tree_op n o /\ no_predict o /\ y_after y o = y.
Proof. destruct o; simpl; try tauto. Qed.
Lemma stays_trans h t h1 t1 h2 t2 : stays h t h1 t1 -> stays h1 t1 h2 t2 -> stays h t h2 t2.
Proof.
  intros (A1&A2&A3) (B1&B2&B3). split; [lia|]. split.
  - intros j Hj Hnj. rewrite B2; [auto|lia|]. intros Hin. apply A3 in Hin as [?|?]; [auto|lia].
  - intros j Hj. apply B3 in Hj as [Hj|Hj]; [apply A3 in Hj as [?|?]; auto|right; lia].
Qed.
Lemma visit_fresh h t o h' t' : visit_op o -> tree_do h t o = Ok (h', t') -> tr_fresh t = false -> tr_fresh t' = false.
Proof.
  intros Hv Hd Hf.
  assert (Hm : forall h1 m, done (mutate h1 t m) = Ok (h', t') -> tr_fresh t' = false).
  { intros h1 m. unfold mutate. destruct (mu_kind m).
    - destruct (remove_first (mu_existing m) (tr_nodes t)); [|discriminate].
      destruct (left_child h1 (mu_updated m)); [|discriminate].
      destruct (right_child h1 (mu_updated m)); [|discriminate]. intros E; injection E as <- <-; auto.
    - destruct (remove_first (mu_existing m) (tr_nodes t)) as [l1|]; [|discriminate].
      destruct (remove_id (left_child h1 (mu_existing m)) l1) as [l2|]; [|discriminate].
      destruct (remove_id (right_child h1 (mu_existing m)) l2) as [l3|]; [|discriminate].
      intros E; injection E as <- <-; auto.
    - intros E; injection E as <- <-; auto. }
  revert Hd. destruct o as [i v x|i|idx|idx|idx|idx|i w|y0|]; cbn [visit_op tree_do] in *; try tauto.
  - destruct (split_node _ _ _ _) as [[p h1]| |]; try discriminate. cbn [rbind].
    destruct (grow_mutation h1 i p) as [m| |]; try discriminate. cbn [rbind]. eauto.
  - destruct (h_get h i); try discriminate. unfold h_alloc.
    destruct (prune_mutation _ _ _) as [m| |]; try discriminate. cbn [rbind]. eauto.
  - destruct (sample_grow_mutation h t idx) as [[[m h1] idx']| |]; try discriminate. cbn [rbind]. eauto.
  - destruct (sample_prune_mutation h t idx) as [[[m h1] idx']| |]; try discriminate. cbn [rbind]. eauto.
  - destruct (sample_grow_mutation h t idx) as [[[m h1] idx']| |]; try discriminate. cbn [rbind]. intros E; injection E as <- <-; auto.
  - destruct (sample_prune_mutation h t idx) as [[[m h1] idx']| |]; try discriminate. cbn [rbind]. intros E; injection E as <- <-; auto.
  - destruct (existsb _ _); try discriminate. intros E; injection E as <- <-; auto.
Qed.
Lemma visit_minv X y e m As j t o h1 t1 : no_nan X -> minv X y (Some j) e m As -> nth_error (m_trees m) j = Some t ->
  visit_op o -> tree_do (m_heap m) t o = Ok (h1, t1) ->
  let m' := m_set_trees m h1 (set_nth j t1 (m_trees m)) in
  exists a', minv X y (Some j) e m' (set_nth j a' As) /\ same m m' /\ (forall k, k <> j -> lkeeps k m m') /\
    (proposed_op o -> Forall (filled X []) As -> Forall (filled X []) (set_nth j a' As)).
Proof.
  intros Hn H Et Hv Hd m'. pose proof (mi_st _ _ _ _ _ _ H) as Hs. pose proof (ms_len _ _ _ _ _ _ Hs) as Hl.
  destruct (nth_error_both _ As j t (eq_sym Hl) Et) as (a&Ha).
  destruct (mi_target _ _ _ _ _ _ H j eq_refl) as (t0&a0&ty&Et0&Ha0&Hi&Lty&Nty).
  rewrite Et in Et0. injection Et0 as <-. rewrite Ha in Ha0. injection Ha0 as <-.
  destruct (visit_facts (length (mx_rows X)) ty o Hv) as (V1&V2&V3).
  destruct (tree_do_inv _ _ _ _ _ _ _ _ Hn Hi V1 Hd) as (a'&Hi'&Hst&Hfil). rewrite V3 in Hi'.
  assert (Hf : tr_fresh t = false).
  { destruct (tr_fresh t) eqn:Ef; auto. destruct (ms_cache _ _ _ _ _ _ Hs _ _ _ Et Ha Ef). congruence. }
  assert (Hpr : m_pred m <> None) by (intros E; destruct (mi_none _ _ _ _ _ _ H E); discriminate).
  destruct (mst_upd X (Some j) (Some j) _ (m_pred m = None) _ _ As j t a h1 t1 a' (Some ty) Hs Et Ha Hst Hi') as [Hs' Hcol];
    auto; try discriminate.
  - rewrite (visit_fresh _ _ _ _ _ Hv Hd Hf). discriminate.
  - left. rewrite (no_predict_step _ _ _ _ _ V2 Hd). destruct (ms_buf _ _ _ _ _ _ Hs _ _ _ Et Ha) as [?|(_&E&_)]; auto. congruence.
  - exists a'. destruct (upd_keeps X (Some j) _ m As j t a h1 t1 (m_pred m) Hs Et Ha Hst) as [Hsm Hlk].
    split; [|split; [exact Hsm|split; [exact Hlk|]]].
    2: { intros Hp Hf0. apply Forall_forall. intros b Hb. apply in_set_nth in Hb as [->|Hb].
         - apply Hfil; auto. eapply Forall_forall; [exact Hf0|]. eapply nth_error_In; eauto.
         - eapply Forall_forall; [exact Hf0|exact Hb]. }
    assert (Hlt : j < length As) by (apply nth_error_Some; congruence).
    destruct H as [A B C D E F G T]. split; simpl; auto.
    2: { intros j' [= <-]. exists t1, a', ty. rewrite !set_nth_error, Nat.eqb_refl, Et, Ha. auto. }
    intros pr Hp. destruct (B pr Hp) as [B1 B2]. split; auto. intros i Hi0.
    rewrite B2, Hcol, rsum_set_nth by (rewrite ?col_length; auto). simpl. rewrite nth_set_nth by (rewrite col_length; auto). lra.
Qed.
