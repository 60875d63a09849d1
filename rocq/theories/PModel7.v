(** Invariants of models: stored copies, new models, histories. *)
From Coq Require Import Reals Lra Permutation.
From Verif Require Import Base Fl Ext MData MSplit MTree MSampler MHist MTreeHist MModel MModelHist Spec SpecTree SpecSampler SpecModel LFl LList
  PData PSplit PDataProps PCond PTree PPred PTreeHist PTreeProps PTreeProps2 PSampler PSampler2 PSampler3
  PModel PModel2 PModel3 PModel4 PModel5 PModel6.

(** ** copies *)
Lemma Forall2_length {A B} (P : A -> B -> Prop) l l' : Forall2 P l l' -> length l = length l'.
Proof. induction 1; simpl; auto. Qed.
Lemma Forall2_impl_in {A B} (P Q : A -> B -> Prop) l l' : (forall a b, In a l -> In b l' -> P a b -> Q a b) -> Forall2 P l l' -> Forall2 Q l l'.
Proof. intros H HF. induction HF; constructor; [apply H; simpl; auto|apply IHHF; intros; apply H; simpl; auto]. Qed.
Definition copied (h : heap) (i : nat) (h' : heap) (i' : nat) : Prop :=
  exists k s d, h_get h i = Some (Nd k (SFull s) d) /\ h_get h' i' = Some (Nd k (SCond (sp_cc s)) d).
Lemma copied_later h i h' i' h'' : h_get h'' i' = h_get h' i' -> copied h i h' i' -> copied h i h'' i'.
Proof. intros E (k&s&d&H1&H2). exists k, s, d. rewrite E. auto. Qed.
Lemma copied_earlier h0 h i h' i' : h_get h i = h_get h0 i -> copied h i h' i' -> copied h0 i h' i'.
Proof. intros E (k&s&d&H1&H2). exists k, s, d. rewrite <- E. auto. Qed.
Lemma copied_out h h' X : forall l l' buf, Forall2 (fun i i' => copied h i h' i') l l' ->
  out_loop h' X (filter (is_leaf h') l') buf = out_loop h X (filter (is_leaf h) l) buf.
Proof.
  intros l l' buf H. revert buf. induction H as [|i i' l l' (k&s&d&E1&E2) H IH]; intros buf; simpl; auto.
  assert (L1 : is_leaf h i = match k with KLeaf _ => true | _ => false end) by (unfold is_leaf; now rewrite E1).
  assert (L2 : is_leaf h' i' = match k with KLeaf _ => true | _ => false end) by (unfold is_leaf; now rewrite E2).
  rewrite L1, L2. destruct k as [v|a b]; simpl; [|apply IH]. rewrite E1, E2. simpl.
  destruct (cc_condition (sp_cc s) X); simpl; auto.
Qed.
Lemma copied_predict h h' X t t' : Forall2 (fun i i' => copied h i h' i') (tr_nodes t) (tr_nodes t') ->
  tree_predict_out h' t' X = tree_predict_out h t X.
Proof. apply copied_out. Qed.
Lemma deep_copy_nodes_spec : forall ids h, (forall i, In i ids -> i < h_next h /\ exists k s d, h_get h i = Some (Nd k (SFull s) d)) ->
  exists js h', deep_copy_nodes h ids = Ok (js, h') /\ h_next h <= h_next h' /\ (forall q, q < h_next h -> h_get h' q = h_get h q) /\
    (forall q, In q js -> h_next h <= q < h_next h') /\ Forall2 (fun i i' => copied h i h' i') ids js.
Proof.
  induction ids as [|i ids IH]; intros h H; cbn [deep_copy_nodes].
  - exists [], h. split; auto. split; auto. split; auto. split; [simpl; tauto|constructor].
  - destruct (H i) as (Hi&k&s&d&Eg); [simpl; auto|]. unfold deep_copy_node. rewrite Eg. unfold h_alloc at 1. cbn [rbind].
    match goal with |- context [deep_copy_nodes ?h1 ids] => set (h1' := h1) end.
    assert (Hold : forall q, q < h_next h -> h_get h1' q = h_get h q).
    { intros q Hq. subst h1'. simpl. destruct (Nat.eqb_spec q (h_next h)); auto. lia. }
    destruct (IH h1') as (js&h'&->&Hn&Hg&Hr&Hf).
    { intros q Hq. destruct (H q) as (Hq1&Hq2); [simpl; auto|]. rewrite Hold by auto. split; auto. subst h1'. simpl. lia. }
    cbn [rbind]. exists (h_next h :: js), h'. assert (Hn1 : h_next h1' = S (h_next h)) by reflexivity. rewrite Hn1 in *. split; auto. split; [lia|].
    split; [intros q Hq; rewrite Hg, Hold; auto; lia|]. split.
    + intros q [<-|Hq]; [lia|]. apply Hr in Hq. lia.
    + constructor.
      * exists k, s, d. split; auto. rewrite Hg by lia. subst h1'. simpl. now rewrite Nat.eqb_refl.
      * eapply Forall2_impl_in; [|exact Hf]. intros q q' Hq _ Hc. eapply copied_earlier; [|exact Hc]. apply Hold, H. simpl; auto.
Qed.
Lemma copy_trees_spec : forall ts h, (forall t i, In t ts -> In i (tr_nodes t) -> i < h_next h /\ exists k s d, h_get h i = Some (Nd k (SFull s) d)) ->
  exists ts' h', copy_trees h ts = Ok (ts', h') /\ h_next h <= h_next h' /\ (forall q, q < h_next h -> h_get h' q = h_get h q) /\
    (forall t q, In t ts' -> In q (tr_nodes t) -> h_next h <= q < h_next h') /\
    Forall2 (fun t t' => Forall2 (fun i i' => copied h i h' i') (tr_nodes t) (tr_nodes t')) ts ts'.
Proof.
  induction ts as [|t ts IH]; intros h H; cbn [copy_trees].
  - exists [], h. split; auto. split; auto. split; auto. split; [simpl; tauto|constructor].
  - unfold deep_copy_tree. destruct (deep_copy_nodes_spec (tr_nodes t) h) as (js&h1&->&Hn1&Hg1&Hr1&Hf1).
    { intros i Hi. apply (H t); simpl; auto. }
    cbn [rbind]. destruct (IH h1) as (ts'&h'&->&Hn&Hg&Hr&Hf).
    { intros t0 i Ht0 Hi. destruct (H t0 i) as (A&B); simpl; auto. rewrite Hg1 by auto. split; auto. lia. }
    cbn [rbind]. exists (make_tree js :: ts'), h'. split; auto. split; [lia|].
    split; [intros q Hq; rewrite Hg, Hg1; auto; lia|]. split.
    + intros t0 q [<-|Ht0] Hq; [simpl in Hq; apply Hr1 in Hq; lia|]. specialize (Hr _ _ Ht0 Hq). lia.
    + constructor.
      * simpl. eapply Forall2_impl_in; [|exact Hf1]. intros i i' Hi Hi' Hc. eapply copied_later; [|exact Hc]. apply Hg, Hr1, Hi'.
      * eapply Forall2_impl_in; [|exact Hf]. intros t0 t0' Ht0 _ Hc. eapply Forall2_impl_in; [|exact Hc].
        intros i i' Hi _ Hc'. eapply copied_earlier; [|exact Hc']. apply Hg1. apply (H t0 i); simpl; auto.
Qed.
Lemma predict_out_all_ext h h' X : forall ts ts', Forall2 (fun t t' => tree_predict_out h' t' X = tree_predict_out h t X) ts ts' ->
  predict_out_all h' ts' X = predict_out_all h ts X.
Proof. induction 1 as [|t t' ts ts' E H IH]; simpl; auto. now rewrite E, IH. Qed.
Lemma trees_predict_out_ext h h' X ts ts' : Forall2 (fun t t' => tree_predict_out h' t' X = tree_predict_out h t X) ts ts' ->
  trees_predict_out h' ts' X = trees_predict_out h ts X.
Proof. intros H. unfold trees_predict_out. now rewrite (predict_out_all_ext h h' X ts ts'). Qed.
Lemma Forall2_refl_in {A} (R : A -> A -> Prop) l : (forall x, In x l -> R x x) -> Forall2 R l l.
Proof. induction l; intros H; constructor; simpl in *; auto. Qed.
(** heaps agreeing on the nodes *)
Lemma tree_predict_out_frame h h' X t : (forall q, In q (tr_nodes t) -> h_get h' q = h_get h q) -> tree_predict_out h' t X = tree_predict_out h t X.
Proof.
  intros H. unfold tree_predict_out, leaf_nodes. generalize (repeat 0%R (length (mx_rows X))). revert H. generalize (tr_nodes t).
  induction l as [|i l IH]; intros H buf; simpl; auto. 
  assert (Hi : h_get h' i = h_get h i) by (apply H; simpl; auto).
  assert (L : is_leaf h' i = is_leaf h i) by (unfold is_leaf; now rewrite Hi).
  assert (IH' : forall b, out_loop h' X (filter (is_leaf h') l) b = out_loop h X (filter (is_leaf h) l) b) by (intros b; apply IH; intros; apply H; simpl; auto).
  rewrite L. destruct (is_leaf h i); [|apply IH']. simpl. rewrite Hi.
  destruct (h_get h i) as [[[v|a b] s d]|]; auto. destruct (cc_condition (nsplit_cc s) X); simpl; auto.
Qed.
(** the objects a stored sample consists of *)
Definition owns (s : sample) (q : nat) : Prop := exists t, In t (sm_trees s) /\ In q (tr_nodes t).
(** stored: below the allocation pointer and outside the model's trees *)
Definition stored (m : model) (s : sample) : Prop := forall q, owns s q -> q < h_next (m_heap m) /\ ~ live m q.
Lemma stored_later m m' s : mkeeps m m' -> stored m s -> stored m' s /\ forall X, sample_predict (m_heap m') s X = sample_predict (m_heap m) s X.
Proof.
  intros (Hn&Hk) Hs. split.
  - intros q Hq. destruct (Hs q Hq) as [H1 H2]. split; [lia|]. now apply Hk.
  - intros X. unfold sample_predict. apply trees_predict_out_ext. apply Forall2_refl_in. intros t Ht. apply tree_predict_out_frame.
    intros q Hq. destruct (Hs q) as [H1 H2]; [exists t; auto|]. now apply Hk.
Qed.
Lemma minv_nodes X y op e m As t i : minv X y op e m As -> In t (m_trees m) -> In i (tr_nodes t) ->
  i < h_next (m_heap m) /\ exists k s d, h_get (m_heap m) i = Some (Nd k (SFull s) d).
Proof.
  intros H Ht Hi. pose proof (mi_st _ _ _ _ _ _ H) as Hs. apply In_nth_error in Ht as (j&Hj).
  destruct (nth_error_both _ As j t (eq_sym (ms_len _ _ _ _ _ _ Hs)) Hj) as (a&Ha).
  destruct (ms_tree _ _ _ _ _ _ Hs _ _ _ Hj Ha) as (oy&Hinv&_). split; [eapply nodes_below; eauto|].
  apply (ti_in _ _ _ _ _ _ Hinv) in Hi. destruct (ti_node _ _ _ _ [] 0 i (ti_ok _ _ _ _ _ Hinv) Hi) as (k&s&d&cs&E&_). eauto.
Qed.
Lemma minv_heap X y op e m As h' : minv X y op e m As -> h_next (m_heap m) <= h_next h' ->
  (forall q, q < h_next (m_heap m) -> h_get h' q = h_get (m_heap m) q) ->
  minv X y op e (m_set_trees m h' (m_trees m)) As /\ same m (m_set_trees m h' (m_trees m)) /\ forall k, lkeeps k m (m_set_trees m h' (m_trees m)).
Proof.
  intros H Hn Hg. pose proof (mi_st _ _ _ _ _ _ H) as Hs.
  assert (Hids : forall a q, In a As -> In q (aids a) -> h_get h' q = h_get (m_heap m) q).
  { intros a q Ha Hq. apply In_nth_error in Ha as (j&Ha). destruct (nth_error_both _ (m_trees m) j a (ms_len _ _ _ _ _ _ Hs) Ha) as (t&Ht).
    destruct (ms_tree _ _ _ _ _ _ Hs _ _ _ Ht Ha) as (oy&Hinv&_). apply Hg, (ti_below _ _ _ _ _ Hinv), Hq. }
  assert (Hins : forall a, In a As -> insample h' X a = insample (m_heap m) X a).
  { intros a Ha. apply insample_ext. intros q Hq. eapply Hids; eauto. }
  assert (Hcol : forall i, col h' X As i = col (m_heap m) X As i).
  { intros i. unfold col. apply map_ext_in. intros a Ha. now rewrite Hins. }
  split; [|split].
  - destruct H as [A B C D E F G T]. split; simpl; auto.
    + destruct A as [A1 A2 A3 A4 A5 A6]. split; auto.
      * intros j t a Ht Ha. destruct (A2 j t a Ht Ha) as (oy&Hi&Ho). exists oy. split; auto. eapply tree_inv_heap; eauto.
        intros q Hq. eapply Hids; [eapply nth_error_In; eauto|]. now apply (ti_in _ _ _ _ _ _ Hi).
      * intros j t a Ht Ha Hf. rewrite Hins by (eapply nth_error_In; eauto). eauto.
    + intros pr Hp. destruct (B pr Hp) as [B1 B2]. split; auto. intros i Hi. rewrite Hcol. auto.
    + intros j Hj. destruct (T j Hj) as (t&a&ty&Ht&Ha&Hi&Hty). exists t, a, ty. split; [auto|]. split; [auto|]. split; [|auto].
      eapply tree_inv_heap; eauto. intros q Hq. eapply Hids; [eapply nth_error_In; eauto|]. now apply (ti_in _ _ _ _ _ _ Hi).
  - unfold same, mkeeps; simpl. repeat split; auto.
  - intros k t Ht. exists t. simpl. split; auto. split; auto. apply leaf_nodes_ext; auto. intros q Hq. apply is_leaf_ext. apply Hg.
    eapply (minv_nodes X y op e m As t q); eauto. eapply nth_error_In; eauto.
Qed.
Lemma copied_conditions h h' ts ts' : Forall2 (fun t t' => Forall2 (fun i i' => copied h i h' i') (tr_nodes t) (tr_nodes t')) ts ts' ->
  same_conditions h' ts' h ts.
Proof.
  induction 1 as [|t t' ts ts' H _ IH]; constructor; auto. clear IH. induction H as [|i i' l l' (k&s&d&E1&E2) _ IH]; constructor; auto.
  exists (Nd k (SCond (sp_cc s)) d), (Nd k (SFull s) d), (sp_cc s), s. auto 10.
Qed.
Lemma deep_copy_model_spec X y op e m As : minv X y op e m As ->
  exists s m', deep_copy_model m = Ok (s, m') /\ minv X y op e m' As /\ same m m' /\ (forall k, lkeeps k m m') /\ m_pred m' = m_pred m /\
    m_sigma m' = m_sigma m /\ m_trees m' = m_trees m /\ sm_sigma s = m_sigma m /\ same_conditions (m_heap m') (sm_trees s) (m_heap m) (m_trees m) /\ stored m' s /\
    (forall X', sample_predict (m_heap m') s X' = trees_predict_out (m_heap m) (m_trees m) X') /\
    (forall q, q < h_next (m_heap m) -> h_get (m_heap m') q = h_get (m_heap m) q).
Proof.
  intros H. unfold deep_copy_model.
  destruct (copy_trees_spec (m_trees m) (m_heap m)) as (ts'&h'&->&Hn&Hg&Hr&Hf); [intros t i Ht Hi; eapply minv_nodes; eauto|].
  cbn [rbind]. destruct (minv_heap _ _ _ _ _ _ h' H Hn Hg) as (H'&Hsm&Hlk).
  exists (Sm ts' (m_sigma m)), (m_set_trees m h' (m_trees m)). split; [reflexivity|]. split; [exact H'|]. split; [exact Hsm|]. split; [exact Hlk|]. split; [reflexivity|].
  split; [reflexivity|]. split; [reflexivity|]. split; [reflexivity|]. split; [simpl; apply copied_conditions; exact Hf|]. split; [|split; [|exact Hg]].
  - intros q (t&Ht&Hq). simpl in *. specialize (Hr t q Ht Hq). split; [lia|]. intros (t0&Ht0&Hq0). simpl in Ht0.
    destruct (minv_nodes _ _ _ _ _ _ _ _ H Ht0 Hq0). lia.
  - intros X'. simpl. apply trees_predict_out_ext. eapply Forall2_impl_in; [|exact Hf]. intros t t' _ _ Hc. now apply copied_predict.
Qed.

(** ** new models *)
Definition single (h : heap) (X : matrix) (q : nat) : Prop :=
  q < h_next h /\ exists s oy, h_get h q = Some (Nd (KLeaf 0%R) (SFull s) 0) /\ sinv X oy [] s.
Lemma single_inv h X q oy s : q < h_next h -> h_get h q = Some (Nd (KLeaf 0%R) (SFull s) 0) -> sinv X oy [] s ->
  tree_inv h X oy (make_tree [q]) (ALeaf q).
Proof.
  intros Hq E Hs. split; simpl; auto; [eauto|repeat constructor; simpl; tauto|]. intros j [<-|[]]. auto.
Qed.
Lemma new_trees_spec X oy d s : make_split d = Ok s -> sinv X oy [] s -> forall n h,
  exists h', new_trees n h d = Ok (h', map (fun q => make_tree [q]) (seq (h_next h) n)) /\ h_next h' = h_next h + n /\
    (forall q, q < h_next h -> h_get h' q = h_get h q) /\
    (forall q, h_next h <= q < h_next h + n -> h_get h' q = Some (Nd (KLeaf 0%R) (SFull s) 0)).
Proof.
  intros Es Hs. induction n as [|n IH]; intros h; cbn [new_trees].
  - exists h. split; auto. split; [lia|]. split; auto. intros; lia.
  - rewrite Es. cbn [rbind]. unfold h_alloc at 1. cbv iota beta.
    match goal with |- context [new_trees n ?h1 d] => set (h1' := h1) end.
    destruct (IH h1') as (h'&->&Hn&Hold&Hnew). cbn [rbind]. assert (Hn1 : h_next h1' = S (h_next h)) by reflexivity. rewrite Hn1 in *.
    exists h'. split; [reflexivity|]. split; [lia|]. split.
    + intros q Hq. rewrite Hold by lia. subst h1'. simpl. destruct (Nat.eqb_spec q (h_next h)); auto. lia.
    + intros q Hq. destruct (Nat.eq_dec q (h_next h)) as [->|Hq']; [|apply Hnew; lia].
      rewrite Hold by lia. subst h1'. simpl. now rewrite Nat.eqb_refl.
Qed.
(** node [q] after the two update_y calls *)
Lemma init_targets_spec X y' : length y' = length (mx_rows X) -> forall qs h, NoDup qs -> (forall q, In q qs -> single h X q) ->
  exists h', init_targets h (map (fun q => make_tree [q]) qs) y' = Ok (h', map (fun q => make_tree [q]) qs) /\ h_next h' = h_next h /\
    (forall q, ~ In q qs -> h_get h' q = h_get h q) /\
    (forall q, In q qs -> exists s, h_get h' q = Some (Nd (KLeaf 0%R) (SFull s) 0) /\ sinv X None [] s).
Proof.
  intros Hl. induction qs as [|q qs IH]; intros h Hnd Hq; cbn [init_targets map].
  - exists h. split; auto. split; auto. split; auto. simpl; tauto.
  - inversion Hnd; subst. destruct (Hq q) as (Hlt&s&oy&Eg&Hs); [simpl; auto|].
    destruct (update_y_step h X oy (make_tree [q]) (ALeaf q) (Some y')) as (h1&E1&N1&G1&I1); [eapply single_inv; eauto|now intros ? [= <-]|].
    rewrite E1. cbn [rbind].
    destruct (update_y_step h1 X (Some y') (Tr (tr_nodes (make_tree [q])) false (tr_pred (make_tree [q]))) (ALeaf q) None) as (h2&E2&N2&G2&I2); [exact I1|discriminate|].
    rewrite E2. cbn [rbind].
    assert (Hother : forall p, p <> q -> h_get h2 p = h_get h p).
    { intros p Hp. rewrite G2, G1. simpl. destruct (Nat.eqb_spec p q); [congruence|]. reflexivity. }
    destruct (IH h2) as (h'&->&Hn&Hold&Hnew); auto.
    { intros p Hp. assert (p <> q) by (intros ->; auto). destruct (Hq p) as (A&s'&oy'&B&C); [simpl; auto|]. split; [lia|].
      exists s', oy'. rewrite Hother by auto. auto. }
    cbn [rbind]. exists h'. split; [reflexivity|]. split; [lia|]. split.
    + intros p Hp. simpl in Hp. rewrite Hold by tauto. apply Hother. intros ->. tauto.
    + intros p [<-|Hp]; [|auto]. rewrite Hold by auto. destruct (ti_ok _ _ _ _ _ I2) as (w&s2&E&Hs2).
      exists s2. split; auto. rewrite E. rewrite G2, G1 in E. simpl in E. rewrite Nat.eqb_refl, Eg in E. simpl in E. injection E as <- _. reflexivity.
Qed.
Lemma start_data X y normalize d : length y = length (mx_rows X) -> make_data X y None normalize None None None None = Ok d ->
  exists s, make_split d = Ok s /\ sinv X (Some (start_target y normalize)) [] s /\ sp_data s = d.
Proof.
  intros Hl Hd. pose proof (make_split_spec d) as Es. eexists. split; [exact Es|]. split; [|reflexivity].
  assert (Hr : root_split X y normalize = make_split d) by (unfold root_split; rewrite Hd; reflexivity).
  rewrite Es in Hr. unfold start_target. destruct normalize.
  - apply root_sinv_norm in Hr as (ny&E&_&H&_); auto. now rewrite E.
  - now apply root_sinv.
Qed.
Lemma start_model_spec X y normalize h0 sigma p m : length y = length (mx_rows X) -> start_model X y normalize h0 sigma p = Ok m ->
  minv X (start_target y normalize) None (fun _ => 0%R) m (map ALeaf (seq (h_next h0) (pa_ntrees p))) /\
  m_trees m = map (fun q => make_tree [q]) (seq (h_next h0) (pa_ntrees p)) /\
  (forall q, In q (seq (h_next h0) (pa_ntrees p)) -> exists s, h_get (m_heap m) q = Some (Nd (KLeaf 0%R) (SFull s) 0) /\ sinv X None [] s) /\
  (forall q, q < h_next h0 -> h_get (m_heap m) q = h_get h0 q) /\ m_sigma m = sigma /\ m_par m = p /\ m_pred m = None.
Proof.
  intros Hl. unfold start_model. destruct (make_data X y None normalize None None None None) as [d| |] eqn:Ed; try discriminate. cbn [rbind].
  destruct (start_data _ _ _ _ Hl Ed) as (s&Es&Hs&Esd). unfold make_model, initialize_trees.
  destruct (new_trees_spec X _ d s Es Hs (pa_ntrees p) h0) as (h1&->&Hn1&Hold1&Hnew1). cbn [rbind].
  set (qs := seq (h_next h0) (pa_ntrees p)). set (ys := start_target y normalize) in *.
  assert (Hy : t_y (d_y d) = Some ys) by (rewrite <- Esd; apply (si_t _ _ _ _ Hs)).
  assert (Hyl : length ys = length (mx_rows X)).
  { pose proof (tv_len _ _ _ (si_t _ _ _ _ Hs) ys eq_refl) as H. now rewrite mask_of_length in H. }
  assert (Hmask : length (d_mask d) = length (mx_rows X)).
  { unfold d_mask. rewrite <- Esd, (si_mask _ _ _ _ Hs). apply mask_of_length. }
  assert (Hnob : pz (cm_nobsv (d_X d)) = Z.of_nat (length (mx_rows X))).
  { rewrite <- Esd, (cvd_n _ (si_c _ _ _ _ Hs)), (si_mask _ _ _ _ Hs). f_equal. unfold mask_of. clear. induction (mx_rows X); simpl; auto. }
  assert (Hfin : forall h2, h_next h2 = h_next h1 -> (forall q, ~ In q qs -> h_get h2 q = h_get h1 q) ->
    (forall q, In q qs -> exists s, h_get h2 q = Some (Nd (KLeaf 0%R) (SFull s) 0) /\ sinv X None [] s) ->
    Ok (Md h2 (map (fun q => make_tree [q]) qs) d None sigma p) = Ok m ->
    minv X ys None (fun _ => 0%R) m (map ALeaf qs) /\ m_trees m = map (fun q => make_tree [q]) qs /\
    (forall q, In q qs -> exists s, h_get (m_heap m) q = Some (Nd (KLeaf 0%R) (SFull s) 0) /\ sinv X None [] s) /\
    (forall q, q < h_next h0 -> h_get (m_heap m) q = h_get h0 q) /\ m_sigma m = sigma /\ m_par m = p /\ m_pred m = None).
  { intros h2 Hn2 Hold2 Hnew2 [= <-]. simpl. split; [|split; [auto|split; [auto|split; [|auto]]]].
    - assert (Hnth : forall j t a, nth_error (map (fun q => make_tree [q]) qs) j = Some t -> nth_error (map ALeaf qs) j = Some a ->
        exists q, nth_error qs j = Some q /\ t = make_tree [q] /\ a = ALeaf q).
      { intros j t a. rewrite !nth_error_map. destruct (nth_error qs j) as [q|]; [|discriminate]. intros [= <-] [= <-]. eauto. }
      split; simpl; auto; try discriminate. split; try discriminate.
      + now rewrite !map_length.
      + intros j t a Ht Ha. destruct (Hnth _ _ _ Ht Ha) as (q&Hq&->&->). exists None. split; [|discriminate].
        apply nth_error_In in Hq. destruct (Hnew2 q Hq) as (s2&E2&Hs2). eapply single_inv; eauto. apply in_seq in Hq. lia.
      + intros i j a b k. rewrite !nth_error_map. destruct (nth_error qs i) as [q|] eqn:Ei; [|discriminate].
        destruct (nth_error qs j) as [q'|] eqn:Ej; [|discriminate]. intros [= <-] [= <-]. simpl. intros [<-|[]] [<-|[]].
        apply (proj1 (NoDup_nth_error qs) (seq_NoDup _ _)); [apply nth_error_Some; congruence|congruence].
      + intros j t a Ht Ha Hf. destruct (Hnth _ _ _ Ht Ha) as (q&Hq&->&->). discriminate.
      + intros j t a Ht Ha. destruct (Hnth _ _ _ Ht Ha) as (q&Hq&->&->). right. split; auto. split; eauto.
    - intros q Hq. rewrite Hold2, Hold1; auto. intros Hin. apply in_seq in Hin. lia. }
  destruct (map (fun q => make_tree [q]) qs) as [|t0 ts0] eqn:Ets.
  - cbn [rbind]. apply Hfin; auto. destruct qs; [simpl; tauto|discriminate].
  - rewrite <- Ets in Hfin |- *. clear t0 ts0 Ets. unfold data_values. rewrite Hy. cbn [rbind].
    destruct (init_targets_spec X (map (fun v => v / INR (pa_ntrees p))%R ys) ltac:(rewrite map_length; exact Hyl) qs h1 (seq_NoDup _ _)) as (h2&->&Hn2&Hold2&Hnew2).
    { intros q Hq. apply in_seq in Hq. split; [lia|]. exists s, (Some ys). split; [apply Hnew1; lia|auto]. }
    cbn [rbind]. apply Hfin; auto.
Qed.
