(** Invariants of models sampled with the oblivious tree sampler: one tree, and the trees of a model. *)
From Coq Require Import Reals Lra Permutation.
From Verif Require Import Base Fl Ext MData MSplit MTree MSampler MHist MTreeHist MModel MModelHist MOblivious MObModel Spec SpecTree SpecSampler SpecModel SpecOblivious LFl LList
  PData PSplit PDataProps PCond PTree PPred PTreeHist PTreeProps PTreeProps2 PSampler PSampler2 PSampler3 PModel PModel2 PModel3 PModel4 PModel5 POblivious POblivious2 POblivious3 POblivious4.

(** ** what a tree predicts for the training rows *)
Definition oshow (h : heap) (n : nat) (t : tree) : list R :=
  match predict_loop h None (leaf_nodes h t) (Some (repeat 0%R n)) with Ok (Some v) => v | _ => [] end.
Lemma lastval_fun P v L x : lastval P v L x -> forall x', lastval P v L x' -> x' = x.
Proof.
  intros (L1&j&L2&->&Pj&Hno&Hv) x' (M1&j'&M2&E&Pj'&Hno'&Hv'). enough (j' = j) by (subst; congruence).
  clear -E Pj Pj' Hno Hno'. revert M1 E. induction L1 as [|z L1 IH]; intros [|z' M1] E; simpl in E; injection E as E1 E2; subst.
  - reflexivity.
  - exfalso. apply (Hno j'); auto. apply in_elt.
  - exfalso. apply (Hno' j); auto. apply in_elt.
  - eauto.
Qed.
Lemma oinv_leaves h X oy t k o : oinv h X oy t k o -> leaf_nodes h t <> [].
Proof.
  intros H E. pose proof (oleaf_nodes_perm _ _ _ _ _ _ H) as P. rewrite E in P. apply Permutation_nil in P.
  pose proof (full_count _ _ (oi_full _ _ _ _ _ _ H)) as [F _]. rewrite P in F. simpl in F. pose proof (Nat.pow_nonzero 2 k). lia.
Qed.
Lemma ocover h X oy t k o i : no_nan X -> oinv h X oy t k o -> i < length (mx_rows X) -> exists j, In j (leaf_nodes h t) /\ leaf_holds h j i.
Proof.
  intros Hn H Hi. destruct (ogr_cover h X oy o (nth i (mx_rows X) []) Hn) with (cs := @nil rule) (d := 0%nat) as (j&cj&dj&A&B); [apply nth_In; auto|apply H|reflexivity|].
  exists j. split; [apply (leaf_ogr _ _ _ _ _ _ _ H); eauto|]. apply (ogr_holds _ _ _ _ _ _ _ _ _ i H A). auto.
Qed.
(** whatever was in the buffer *)
Lemma oloop h X oy t k o n0 b : no_nan X -> oinv h X oy t k o -> length b = length (mx_rows X) ->
  exists v, predict_loop h n0 (leaf_nodes h t) (Some b) = Ok (Some v) /\ length v = length (mx_rows X) /\
    forall i, i < length (mx_rows X) -> lastval (fun j => leaf_holds h j i) (leaf_value h) (leaf_nodes h t) (nth i v 0%R).
Proof.
  intros Hn H Hb. destruct (opredict_loop _ _ _ _ _ _ n0 H (leaf_nodes h t) b (incl_refl _) Hb) as (v&E&L&G). exists v. split; auto. split; auto.
  intros i Hi. destruct (G i Hi) as [A|[A _]]; auto. destruct (ocover _ _ _ _ _ _ _ Hn H Hi) as (j&Hj&Hh). exfalso. apply (A j); auto.
Qed.
Lemma oshow_spec h X oy t k o : no_nan X -> oinv h X oy t k o -> length (oshow h (length (mx_rows X)) t) = length (mx_rows X) /\
  forall i, i < length (mx_rows X) -> lastval (fun j => leaf_holds h j i) (leaf_value h) (leaf_nodes h t) (nth i (oshow h (length (mx_rows X)) t) 0%R).
Proof.
  intros Hn H. destruct (oloop h X oy t k o None (repeat 0%R (length (mx_rows X))) Hn H (repeat_length _ _)) as (v&E&L&G).
  unfold oshow. rewrite E. auto.
Qed.
Lemma oloop_show h X oy t k o n0 b : no_nan X -> oinv h X oy t k o -> length b = length (mx_rows X) ->
  predict_loop h n0 (leaf_nodes h t) (Some b) = Ok (Some (oshow h (length (mx_rows X)) t)).
Proof.
  intros Hn H Hb. destruct (oloop _ _ _ _ _ _ n0 b Hn H Hb) as (v&E&L&G). destruct (oshow_spec _ _ _ _ _ _ Hn H) as [L' G']. rewrite E. do 2 f_equal.
  apply list_ext_nth; [congruence|]. intros i Hi. rewrite L in Hi. eapply lastval_fun; [apply G'|apply G]; auto.
Qed.
Definition ocached (h : heap) (n : nat) (t : tree) : tree := Tr (tr_nodes t) true (Some (oshow h n t)).
Lemma opredict_ready h X oy t k o : no_nan X -> oinv h X oy t k o ->
  (tr_fresh t = true -> tr_pred t = Some (oshow h (length (mx_rows X)) t)) ->
  ((exists b, tr_pred t = Some b /\ length b = length (mx_rows X)) \/ (tr_pred t = None /\ exists i, tr_nodes t = [i])) ->
  tree_predict h t = Ok (oshow h (length (mx_rows X)) t, ocached h (length (mx_rows X)) t).
Proof.
  intros Hn H Hc Hb. unfold tree_predict. destruct (tr_fresh t) eqn:Ef; [rewrite Hc by auto; reflexivity|].
  destruct Hb as [(b&->&Lb)|(->&i&Ei)].
  - rewrite (oloop_show _ _ _ _ _ _ _ _ Hn H Lb). reflexivity.
  - pose proof (oinv_leaves _ _ _ _ _ _ H) as Hne.
    assert (El : leaf_nodes h t = [i]).
    { unfold leaf_nodes in *. rewrite Ei in *. simpl in *. destruct (is_leaf h i); congruence. }
    assert (Hi : In i (leaf_nodes h t)) by (rewrite El; simpl; auto).
    apply (leaf_ogr _ _ _ _ _ _ _ H) in Hi as (ci&di&Hi).
    destruct (ogr_ok _ _ _ _ _ _ _ _ _ (oi_ok _ _ _ _ _ _ H) Hi) as (w&s&E&Hs).
    rewrite Ei. cbn [hd_error].
    pose proof (oloop_show _ _ _ _ _ _ (Some i) (repeat 0%R (length (mx_rows X))) Hn H (repeat_length _ _)) as Hl.
    rewrite El in *. cbn [predict_loop rbind] in *. unfold node_data, node_split. rewrite E in *.
    assert (Hci : ci = []).
    { destruct o as [q|q c l r]; [destruct Hi as [Q|[]]; congruence|]. exfalso.
      pose proof (oi_nodup _ _ _ _ _ _ H) as Nd. 
      assert (A : In q (tr_nodes t)) by (apply (oi_same _ _ _ _ _ _ H); simpl; auto).
      assert (B : In (oroot l) (tr_nodes t)) by (apply (oi_same _ _ _ _ _ _ H); simpl; right; apply in_app_iff; left; apply oroot_in).
      rewrite Ei in A, B. destruct A as [<-|[]], B as [B|[]]. simpl in Nd. inversion Nd; subst. apply H2. apply in_app_iff. left. apply oroot_in. }
    subst ci. rewrite (cvd_n _ (si_c _ _ _ _ Hs)), (si_mask _ _ _ _ Hs).
    assert (Em : count_false (mask_of X []) = length (mx_rows X)) by (unfold mask_of; clear; induction (mx_rows X); simpl; auto).
    rewrite Em. replace (Z.of_nat (length (mx_rows X)) <? 0)%Z with false by (symmetry; apply Z.ltb_ge; lia). rewrite Nat2Z.id. cbn [rbind] in *.
    match goal with |- context[if negb ?c then _ else _] => destruct (negb c) end; [discriminate|]. injection Hl as Hl. cbn [rbind]. unfold ocached. now rewrite <- Hl, Ei.
Qed.
(** it depends on the nodes of the tree only, and not on the targets *)
Lemma predict_loop_ext h h' n0 L : forall b, (forall q, In q L -> h_get h' q = h_get h q) -> predict_loop h' n0 L (Some b) = predict_loop h n0 L (Some b).
Proof.
  induction L as [|q L IH]; intros b He; simpl; auto. rewrite He by (simpl; auto).
  destruct (h_get h q) as [[[w|] [s|c] d]|]; auto. destruct (negb _); auto. apply IH. intros; apply He; simpl; auto.
Qed.
Lemma predict_loop_y h h' y n0 L : forall b, (forall q, In q L -> h_get h' q = y_set y (h_get h q)) -> predict_loop h' n0 L (Some b) = predict_loop h n0 L (Some b).
Proof.
  induction L as [|q L IH]; intros b He; simpl; auto. rewrite He by (simpl; auto).
  destruct (h_get h q) as [[[w|] [s|c] d]|]; auto. simpl. unfold split_condition_in, d_mask. simpl.
  match goal with |- (if ?c then _ else _) = _ => destruct c end; auto. apply IH. intros; apply He; simpl; auto.
Qed.
Lemma leaf_in h t q : In q (leaf_nodes h t) -> In q (tr_nodes t).
Proof. unfold leaf_nodes. intros A. now apply filter_In in A. Qed.
Lemma oshow_ext h h' n t t' : tr_nodes t' = tr_nodes t -> (forall q, In q (tr_nodes t) -> h_get h' q = h_get h q) -> oshow h' n t' = oshow h n t.
Proof.
  intros E He. unfold oshow. rewrite (leaf_nodes_ext h h' t t' E) by (intros q Hq; apply is_leaf_ext; auto).
  rewrite (predict_loop_ext h h'); auto. intros q Hq. apply He, (leaf_in _ _ _ Hq).
Qed.
Lemma oshow_y h h' y n t t' : tr_nodes t' = tr_nodes t -> (forall q, In q (tr_nodes t) -> h_get h' q = y_set y (h_get h q)) -> oshow h' n t' = oshow h n t.
Proof.
  intros E He. unfold oshow. rewrite (leaf_nodes_ext h h' t t' E) by (intros q Hq; eapply y_set_leaf; apply He; auto).
  rewrite (predict_loop_y h h' y); auto. intros q Hq. apply He, (leaf_in _ _ _ Hq).
Qed.
Lemma update_y_full h X oy t k o y : oinv h X oy t k o -> (forall y', y = Some y' -> length y' = length (mx_rows X)) ->
  exists h', tree_update_y h t y = Ok (h', Tr (tr_nodes t) false (tr_pred t)) /\ oinv h' X y (Tr (tr_nodes t) false (tr_pred t)) k o /\
    h_next h' = h_next h /\ (forall j, In j (tr_nodes t) -> h_get h' j = y_set y (h_get h j)) /\ forall j, ~ In j (tr_nodes t) -> h_get h' j = h_get h j.
Proof.
  intros H Hy. unfold tree_update_y.
  destruct (onodes_update_y_spec X oy y o h (S (length (tr_nodes t))) (oi_ok _ _ _ _ _ _ H) (oi_nodup _ _ _ _ _ _ H)) with (ids := tr_nodes t) (h := h)
    as (h'&T&E&N&I&J&G); auto.
  - assert (length (oids o) <= length (tr_nodes t)) by (apply NoDup_incl_length; [apply H|intros j Hj; now apply (oi_same _ _ _ _ _ _ H)]). pose proof (oheight_le o). lia.
  - intros j Hj. now apply (oi_same _ _ _ _ _ _ H).
  - assert (Gi : forall j, In j (tr_nodes t) -> h_get h' j = y_set y (h_get h j)).
    { intros j Hj. rewrite G. replace (mem j T) with true; auto. symmetry. apply mem_in, I. auto. }
    exists h'. rewrite E. simpl. split; auto. split; [|split; [auto|split; [auto|]]].
    + constructor; simpl; try apply H.
      * eapply update_y_ook; eauto; [|apply H]. intros j Hj. apply Gi. now apply (oi_same _ _ _ _ _ _ H).
      * rewrite N. apply H.
    + intros j Hj. rewrite G. replace (mem j T) with false; auto. symmetry. apply mem_not. intros A. apply Hj. apply (oi_same _ _ _ _ _ _ H). auto.
Qed.
Lemma oinv_heap h h' X oy t k o : oinv h X oy t k o -> h_next h <= h_next h' -> (forall q, In q (tr_nodes t) -> h_get h' q = h_get h q) -> oinv h' X oy t k o.
Proof.
  intros H Hle He. constructor; try apply H.
  - eapply ook_ext; [|apply H]. intros j Hj. apply He. now apply (oi_same _ _ _ _ _ _ H).
  - intros j Hj. apply (oi_below _ _ _ _ _ _ H) in Hj. lia.
Qed.
Lemma oinv_tree h X oy t t' k o : oinv h X oy t k o -> tr_nodes t' = tr_nodes t -> oinv h X oy t' k o.
Proof. intros H E. constructor; rewrite ?E; apply H. Qed.
Lemma onodes_below h X oy t k o q : oinv h X oy t k o -> In q (tr_nodes t) -> q < h_next h.
Proof. intros H Hq. apply (oi_below _ _ _ _ _ _ H). now apply (oi_same _ _ _ _ _ _ H). Qed.
(** sizes *)
Lemma oinv_size h X oy t k o : oinv h X oy t k o -> S (length (tr_nodes t)) = 2 ^ S k.
Proof.
  intros H. assert (P : Permutation (tr_nodes t) (oids o)) by (apply NoDup_Permutation; apply H).
  rewrite (Permutation_length P), (Permutation_length (oids_perm o)), app_length.
  destruct (full_count _ _ (oi_full _ _ _ _ _ _ H)) as [A B]. simpl. lia.
Qed.

(** ** a step of the tree sampler *)
Lemma ob_step_full h X oy t k o sigma p r om h1 t1 r1 : no_nan X -> oinv h X oy t k o -> ob_step h t sigma p r = Ok (om, h1, t1, r1) ->
  exists k1 o1, oinv h1 X oy t1 k1 o1 /\ stays h t h1 t1 /\ tr_pred t1 = tr_pred t /\ (tr_fresh t = false -> tr_fresh t1 = false) /\
    match om with
    | None => t1 = t /\ k1 = k /\ forall j, j < h_next h -> h_get h1 j = h_get h j
    | Some ms => (Forall2 grow_of (leaf_nodes h t) ms /\ k1 = S k) \/ (Forall2 prune_of (prunable_decision_nodes h t) ms /\ k1 = pred k /\ (ms = [] -> t1 = t))
    end.
Proof.
  intros Hnan H. unfold ob_step. destruct (ob_sample h t sigma p r) as [[[om' h'] r']| |] eqn:E; try discriminate. cbn [rbind].
  destruct (ob_sample_ok _ _ _ _ _ _ _ _ _ _ _ _ Hnan H E) as (A&B&C&D).
  assert (F2 : forall (f : entry -> mutation) (P : nat -> mutation -> Prop) ps, (forall en, P (en_e en) (f en)) -> Forall2 P (map en_e ps) (map f ps)) by (intros f P ps Hf; induction ps; simpl; constructor; auto).
  destruct om' as [ms|].
  - destruct (mutate_all h' t ms) as [[h2 t2]| |] eqn:Em; try discriminate. cbn [rbind]. intros Q; injection Q as <- <- <- <-.
    destruct (D ms eq_refl) as [(idx&idx'&Eg)|Ep].
    + destruct (ob_grow_ok _ _ _ _ _ _ _ _ _ _ Hnan H Eg) as (_&_&_&ps&h3&t3&Q1&Q2&_&_&Q3&Q4&Q5&Q6&Q7). rewrite Em in Q3. injection Q3 as <- <-.
      eexists. eexists. split; [exact Q4|]. split; auto. split; auto. split; auto. left. split; auto. rewrite Q1, <- Q2. apply F2. intros en; split; reflexivity.
    + destruct (ob_prune_ok _ _ _ _ _ _ H) as (ps&h4&h3&t3&E2&_&_&_&Q2&_&Q3&Q4&Q5&Q6&Q7&Q8). rewrite Ep in E2. injection E2 as -> <-. rewrite Em in Q3. injection Q3 as <- <-.
      eexists. eexists. split; [exact Q4|]. split; auto. split; auto. split.
      * intros Hf. destruct ps as [|en ps]; [rewrite Q8; auto|apply Q6; discriminate].
      * right. split; [rewrite <- Q2; apply F2; intros en; split; reflexivity|]. split; auto. intros Q. apply Q8. destruct ps; [auto|discriminate].
  - intros Q; injection Q as <- <- <- <-. exists k, o. split; auto. split; [split; [lia|split; auto]|]. auto.
Qed.

(** ** the trees of a model *)
Record emst (X : matrix) (op : option nat) (np : Prop) (h : heap) (ts : list tree) : Prop := {
  es_tree : forall j t, nth_error ts j = Some t -> exists oy k o, oinv h X oy t k o /\ (op = Some j -> oy <> None);
  es_disj : forall i j t u q, nth_error ts i = Some t -> nth_error ts j = Some u -> In q (tr_nodes t) -> In q (tr_nodes u) -> i = j;
  es_cache : forall j t, nth_error ts j = Some t -> tr_fresh t = true -> tr_pred t = Some (oshow h (length (mx_rows X)) t) /\ op <> Some j;
  es_buf : forall j t, nth_error ts j = Some t ->
    (exists b, tr_pred t = Some b /\ length b = length (mx_rows X)) \/ (tr_pred t = None /\ np /\ exists i, tr_nodes t = [i]);
  es_op : forall j, op = Some j -> j < length ts }.
(** the trees' predictions for row [i] *)
Definition ecol (h : heap) (n : nat) (ts : list tree) (i : nat) : list R := map (fun t => nth i (oshow h n t) 0%R) ts.
Record einv (X : matrix) (y : list R) (op : option nat) (e : nat -> R) (m : model) : Prop := {
  ei_st : emst X op (m_pred m = None) (m_heap m) (m_trees m);
  ei_pred : forall pr, m_pred m = Some pr -> length pr = length (mx_rows X) /\
    forall i, i < length (mx_rows X) -> nth i pr 0%R = (rsum (ecol (m_heap m) (length (mx_rows X)) (m_trees m) i) - own op (ecol (m_heap m) (length (mx_rows X)) (m_trees m) i) - e i)%R;
  ei_none : m_pred m = None -> op = None /\ forall i, e i = 0%R;
  ei_y : t_y (d_y (m_data m)) = Some y;
  ei_ylen : length y = length (mx_rows X);
  ei_mask : length (d_mask (m_data m)) = length (mx_rows X);
  ei_n : pz (cm_nobsv (d_X (m_data m))) = Z.of_nat (length (mx_rows X));
  ei_target : forall j, op = Some j -> exists t k o ty, nth_error (m_trees m) j = Some t /\
    oinv (m_heap m) X (Some ty) t k o /\ length ty = length (mx_rows X) /\
    forall pr, m_pred m = Some pr -> forall i, i < length (mx_rows X) -> nth i ty 0%R = (nth i y 0 - nth i pr 0)%R }.
Lemma ecol_length h n ts i : length (ecol h n ts i) = length ts.
Proof. apply map_length. Qed.
Lemma ecol_nth h n ts i j t : nth_error ts j = Some t -> nth j (ecol h n ts i) 0%R = nth i (oshow h n t) 0%R.
Proof. intros H. apply nth_error_nth. unfold ecol. now apply nth_error_map_some with (f := fun t => nth i (oshow h n t) 0%R). Qed.
Lemma eshow_length X op np h ts j t : no_nan X -> emst X op np h ts -> nth_error ts j = Some t -> length (oshow h (length (mx_rows X)) t) = length (mx_rows X).
Proof. intros Hn H Ht. destruct (es_tree _ _ _ _ _ H _ _ Ht) as (oy&k&o&Hi&_). apply (oshow_spec _ _ _ _ _ _ Hn Hi). Qed.

(** one tree replaced *)
Lemma eothers X op np h ts j t h' t' q tq : emst X op np h ts -> nth_error ts j = Some t -> stays h t h' t' -> q <> j -> nth_error ts q = Some tq ->
  forall z, In z (tr_nodes tq) -> h_get h' z = h_get h z.
Proof.
  intros H Ht (S1&S2&S3) Hq Htq z Hz. destruct (es_tree _ _ _ _ _ H _ _ Htq) as (oy&k&o&Hi&_).
  apply S2; [eapply onodes_below; eauto|]. intros Hin. apply Hq. exact (es_disj _ _ _ _ _ H _ _ _ _ _ Htq Ht Hz Hin).
Qed.
Lemma emst_upd X op op' (np np' : Prop) h ts j t h' t' oy' k' o' :
  emst X op np h ts -> nth_error ts j = Some t -> stays h t h' t' -> oinv h' X oy' t' k' o' -> (op' = Some j -> oy' <> None) ->
  (forall q, q <> j -> op' = Some q -> op = Some q) -> (np -> np') ->
  (tr_fresh t' = true -> tr_pred t' = Some (oshow h' (length (mx_rows X)) t') /\ op' <> Some j) ->
  ((exists b, tr_pred t' = Some b /\ length b = length (mx_rows X)) \/ (tr_pred t' = None /\ np' /\ exists i, tr_nodes t' = [i])) ->
  emst X op' np' h' (set_nth j t' ts) /\
  (forall i, ecol h' (length (mx_rows X)) (set_nth j t' ts) i = set_nth j (nth i (oshow h' (length (mx_rows X)) t') 0%R) (ecol h (length (mx_rows X)) ts i)).
Proof.
  intros H Ht Hst Hi Hoy Hop Hnp Hc Hb.
  assert (Hj : j < length ts) by (apply nth_error_Some; congruence).
  assert (Hins : forall q tq, q <> j -> nth_error ts q = Some tq -> oshow h' (length (mx_rows X)) tq = oshow h (length (mx_rows X)) tq).
  { intros q tq Hq Htq. apply oshow_ext; auto. intros z Hz. exact (eothers X op np h ts j t h' t' q tq H Ht Hst Hq Htq z Hz). }
  destruct (es_tree _ _ _ _ _ H _ _ Ht) as (oy&k&o&Hia&_).
  split; [split|].
  - intros q tq. rewrite set_nth_error. destruct (Nat.eqb_spec q j) as [->|Hq].
    + rewrite Ht. intros [= <-]. eauto.
    + intros Htq. destruct (es_tree _ _ _ _ _ H _ _ Htq) as (oq&kq&bq&Hiq&Ho). exists oq, kq, bq. split; [|intros E; apply Ho; auto].
      apply (oinv_heap h h' _ _ _ _ _ Hiq); [apply Hst|]. exact (eothers X op np h ts j t h' t' q tq H Ht Hst Hq Htq).
  - intros k1 k2 t1 t2 q. rewrite !set_nth_error.
    assert (Hnew : forall a ta, a <> j -> nth_error ts a = Some ta -> In q (tr_nodes t') -> In q (tr_nodes ta) -> False).
    { intros a ta Ha Hta Hq1 Hq2. destruct Hst as (S1&S2&S3). apply S3 in Hq1 as [Hq1|Hq1].
      - apply Ha. exact (es_disj _ _ _ _ _ H _ _ _ _ _ Hta Ht Hq2 Hq1).
      - destruct (es_tree _ _ _ _ _ H _ _ Hta) as (oq&kq&bq&Hiq&_). pose proof (onodes_below _ _ _ _ _ _ _ Hiq Hq2). lia. }
    destruct (Nat.eqb_spec k1 j) as [->|Hk1], (Nat.eqb_spec k2 j) as [->|Hk2]; rewrite ?Ht; auto.
    + intros [= <-] H2 Q1 Q2. exfalso. eauto.
    + intros H1 [= <-] Q1 Q2. exfalso. eauto.
    + intros H1 H2 Q1 Q2. exact (es_disj _ _ _ _ _ H _ _ _ _ _ H1 H2 Q1 Q2).
  - intros q tq. rewrite set_nth_error. destruct (Nat.eqb_spec q j) as [->|Hq].
    + rewrite Ht. intros [= <-]. auto.
    + intros Htq Hf. destruct (es_cache _ _ _ _ _ H _ _ Htq Hf) as [E1 E2]. rewrite (Hins q tq) by auto. split; auto.
  - intros q tq. rewrite set_nth_error. destruct (Nat.eqb_spec q j) as [->|Hq].
    + rewrite Ht. intros [= <-]. auto.
    + intros Htq. destruct (es_buf _ _ _ _ _ H _ _ Htq) as [?|(?&?&?)]; auto.
  - intros q E. rewrite set_nth_length. destruct (Nat.eq_dec q j) as [->|Hq]; auto. apply (es_op _ _ _ _ _ H). auto.
  - intros i. unfold ecol. rewrite map_set_nth. apply nth_error_ext_eq. intros q. rewrite !set_nth_error.
    destruct (Nat.eqb_spec q j) as [->|Hq]; [now rewrite !nth_error_map, Ht|].
    rewrite !nth_error_map. destruct (nth_error ts q) as [b|] eqn:E; auto. simpl. now rewrite (Hins q b).
Qed.
Lemma eupd_keeps X op np m j t h' t' pr : emst X op np (m_heap m) (m_trees m) -> nth_error (m_trees m) j = Some t -> stays (m_heap m) t h' t' ->
  let m' := Md h' (set_nth j t' (m_trees m)) (m_data m) pr (m_sigma m) (m_par m) in
  same m m' /\ forall k, k <> j -> lkeeps k m m'.
Proof.
  intros H Ht Hst m'. split.
  - unfold same; simpl. rewrite set_nth_length. repeat split; auto; [apply Hst|destruct Hst as (S1&S2&S3)..].
    + apply S2; auto. intros Hin. apply H1. exists t. split; auto. eapply nth_error_In; eauto.
    + intros (t1&Hin&Hk). simpl in Hin. apply in_set_nth in Hin as [->|Hin].
      * apply S3 in Hk as [Hk|Hk]; [|simpl in *; lia]. apply H1. exists t. split; auto. eapply nth_error_In; eauto.
      * apply H1. exists t1. auto.
  - intros k Hk tk Htk. simpl. rewrite set_nth_error. destruct (Nat.eqb_spec k j); [congruence|].
    exists tk. split; auto. split; auto. apply leaf_nodes_ext; auto. intros q Hq. apply is_leaf_ext.
    exact (eothers X op np _ _ j t h' t' k tk H Ht Hst Hk Htk q Hq).
Qed.

(** ** predict() *)
Lemma emst_ready X op np h ts k t : no_nan X -> emst X op np h ts -> nth_error ts k = Some t ->
  tree_predict h t = Ok (oshow h (length (mx_rows X)) t, ocached h (length (mx_rows X)) t).
Proof.
  intros Hn H Ht. destruct (es_tree _ _ _ _ _ H _ _ Ht) as (oy&q&o&Hi&_).
  apply (opredict_ready h X oy t q o Hn Hi).
  - intros Hf. apply (es_cache _ _ _ _ _ H _ _ Ht Hf).
  - destruct (es_buf _ _ _ _ _ H _ _ Ht) as [?|(?&_&?)]; auto.
Qed.
Lemma epredict_all h n : forall ts, (forall k t, nth_error ts k = Some t -> tree_predict h t = Ok (oshow h n t, ocached h n t)) ->
  predict_all h ts = Ok (map (oshow h n) ts, map (ocached h n) ts).
Proof.
  induction ts as [|t ts IH]; intros H; simpl in *; auto.
  rewrite (H 0 t) by auto. cbn [rbind]. rewrite IH; [reflexivity|]. intros k. apply (H (S k)).
Qed.
Lemma oshow_cached h n t : oshow h n (ocached h n t) = oshow h n t.
Proof. reflexivity. Qed.
Lemma emst_cached X np np' h ts : no_nan X -> emst X None np h ts -> emst X None np' h (map (ocached h (length (mx_rows X))) ts).
Proof.
  intros Hn H.
  assert (Hnth : forall k t, nth_error (map (ocached h (length (mx_rows X))) ts) k = Some t -> exists t0, nth_error ts k = Some t0 /\ t = ocached h (length (mx_rows X)) t0).
  { intros k t. rewrite nth_error_map. destruct (nth_error ts k) as [t0|]; [|discriminate]. intros [= <-]. eauto. }
  split.
  - intros j t Ht. destruct (Hnth _ _ Ht) as (t0&Ht0&->). destruct (es_tree _ _ _ _ _ H _ _ Ht0) as (oy&k&o&Hi&_).
    exists oy, k, o. split; [|discriminate]. eapply oinv_tree; eauto.
  - intros i j t u q Ht Hu. destruct (Hnth _ _ Ht) as (t0&Ht0&->). destruct (Hnth _ _ Hu) as (u0&Hu0&->). simpl. apply (es_disj _ _ _ _ _ H _ _ _ _ _ Ht0 Hu0).
  - intros j t Ht _. destruct (Hnth _ _ Ht) as (t0&Ht0&->). split; [reflexivity|discriminate].
  - intros j t Ht. destruct (Hnth _ _ Ht) as (t0&Ht0&->). left. eexists. split; [reflexivity|]. eapply eshow_length; eauto.
  - discriminate.
Qed.
Lemma emodel_predict X y e m : no_nan X -> einv X y None e m ->
  exists v m', model_predict m = Ok (v, m') /\ length v = length (mx_rows X) /\
    (forall i, i < length (mx_rows X) -> nth i v 0%R = rsum (ecol (m_heap m) (length (mx_rows X)) (m_trees m) i)) /\
    einv X y None e m' /\ same m m' /\ (forall k, lkeeps k m m') /\ m_pred m' = m_pred m /\ m_sigma m' = m_sigma m /\ m_heap m' = m_heap m /\
    m_trees m' = map (ocached (m_heap m) (length (mx_rows X))) (m_trees m).
Proof.
  intros Hn H. pose proof (ei_st _ _ _ _ _ H) as Hs.
  unfold model_predict. rewrite (epredict_all _ (length (mx_rows X)) _ (fun k t => emst_ready X None _ _ _ k t Hn Hs)). cbn [rbind].
  rewrite (ei_mask _ _ _ _ _ H).
  destruct (vsum_spec (length (mx_rows X)) (map (oshow (m_heap m) (length (mx_rows X))) (m_trees m))) as (v&Ev&Lv&Nv).
  { intros w Hw. apply in_map_iff in Hw as (a&<-&Ha). apply In_nth_error in Ha as (q&Hq). eapply eshow_length; eauto. }
  rewrite Ev. cbn [rbind]. exists v. eexists. split; [reflexivity|]. split; auto.
  assert (Hec : forall i, ecol (m_heap m) (length (mx_rows X)) (map (ocached (m_heap m) (length (mx_rows X))) (m_trees m)) i = ecol (m_heap m) (length (mx_rows X)) (m_trees m) i).
  { intros i. unfold ecol. rewrite map_map. reflexivity. }
  split; [intros i Hi; rewrite Nv by auto; unfold ecol; now rewrite map_map|].
  split; [|split; [|split; [|auto]]].
  - destruct H. split; simpl; auto; try discriminate.
    + apply (emst_cached X (m_pred m = None)); auto.
    + intros pr Hp. destruct (ei_pred0 pr Hp) as [A B]. split; auto. intros i Hi. rewrite Hec. apply (B i Hi).
  - unfold same; simpl. rewrite map_length. split; auto. split; auto. split; auto. apply mkeeps_refl; auto.
    intros k (t&Hin&Hk). simpl in Hin. apply in_map_iff in Hin as (t0&<-&Hin). exists t0. auto.
  - intros k t Ht. simpl. rewrite nth_error_map, Ht. eexists. split; [reflexivity|]. split; reflexivity.
Qed.
(** ** starting a pass *)
Lemma ert_start X y e m : no_nan X -> einv X y None e m ->
  exists m', rt_start m = Ok m' /\ einv X y None e m' /\ same m m' /\ (forall k, lkeeps k m m') /\ m_sigma m' = m_sigma m /\ m_heap m' = m_heap m /\
    exists pr, m_pred m' = Some pr.
Proof.
  intros Hn H. unfold rt_start. destruct (m_pred m) as [pr|] eqn:Ep.
  - exists m. split; auto. split; auto. split; [unfold same; repeat split; auto|]. split; [intros k t Ht; eauto|]. eauto 6.
  - destruct (emodel_predict _ _ _ _ Hn H) as (v&m'&->&Lv&Nv&H'&Hsm&Hlk&E1&E2&E3&E4). cbn [rbind].
    eexists. split; [reflexivity|]. destruct (ei_none _ _ _ _ _ H Ep) as [_ He].
    split; [|simpl; split; [|split; [exact Hlk|split; [auto|split; eauto]]]].
    + destruct H' as [A B C D E F G T]. split; simpl; auto; try discriminate.
      * rewrite E3, E4. apply (emst_cached X (m_pred m = None)), H. auto.
      * intros pr [= <-]. split; auto. intros i Hi. rewrite Nv, He, E3, E4 by auto. simpl. unfold ecol. rewrite map_map. simpl. change (fun x => nth i (oshow (m_heap m) (length (mx_rows X)) (ocached (m_heap m) (length (mx_rows X)) x)) 0%R) with (fun x => nth i (oshow (m_heap m) (length (mx_rows X)) x) 0%R). lra.
    + exact Hsm.
Qed.
