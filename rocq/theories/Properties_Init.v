(** Properties C62 and C69: imported sklearn trees and the initializers. *)
From Coq Require Import Reals Lra Permutation ZArith.
From Verif Require Import Base Fl Ext MData MSplit MTree MSampler MHist MTreeHist MModel MModelHist MInit Spec SpecTree SpecSampler SpecModel SpecInit LFl LList
  PData PSplit PDataProps PCond PTree PPred PTreeHist PTreeProps PTreeProps2 PSampler PSampler2 PSampler3 PModel PModel2 PModel3 PModel4 PModel5 PModel6 PModel7
  PInit PInit2 Properties_Tree.

Lemma one_leaf h X oy t a : tree_inv h X oy t a -> length (tr_nodes t) = 1 -> exists i, a = ALeaf i.
Proof.
  intros H Hl. rewrite (Permutation_length (ti_perm _ _ _ _ _ H)) in Hl. destruct a as [i|i v x l r]; eauto.
  simpl in Hl. pose proof (aroot_in l) as Hi. destruct (aids l); [destruct Hi|simpl in Hl; lia].
Qed.

(** ** C62 *)
(** Importing the sklearn tree [T] into a tree that is still one leaf, whatever was done to that leaf before:
    the call succeeds, the result has the shape and the values of [T], and it predicts for every row without
    NaN and -inf what sklearn's own descent of the arrays gives. *)
Theorem C62_import : forall X y nrm h0 os h t T st fuel,
  no_nan X -> tree_reached X y nrm h0 os h t -> length (tr_nodes t) = 1 -> importable X fuel T st ->
  exists h' t', map_sklearn_tree fuel h t T = Ok (h', t') /\
    (exists root ids, unfolds h' root 0 ids st /\ Permutation (tr_nodes t') ids /\ NoDup ids) /\
    forall X', mx_ncols X <= mx_ncols X' ->
      exists v, tree_predict_out h' t' X' = Ok v /\ length v = length (mx_rows X') /\
        forall k, k < length (mx_rows X') -> row_clean (mx_ncols X) (nth k (mx_rows X') []) = true ->
          sk_predicts T (nth k (mx_rows X') []) 0 (nth k v 0%R).
Proof.
  intros X y nrm h0 os h t T st fuel Hn Hr Hl (HT&Hs&Hu&Hf). destruct (tree_reached_inv _ _ _ _ _ _ _ Hn Hr) as (a&H&_).
  destruct (one_leaf _ _ _ _ _ H Hl) as (i&->).
  destruct (map_sklearn_spec _ _ _ _ _ _ _ _ Hn H HT Hs Hu Hf) as (h'&t'&b&E&H'&Es&_).
  exists h', t'. split; auto. split.
  - exists (aroot b), (aids b). rewrite <- Es. split; [eapply aok_unfolds; apply H'|]. split; apply H'.
  - intros X' Hc. eexists. split; [apply (tree_predict_out_spec _ _ _ _ _ _ H' Hc)|]. split; [apply map_length|].
    intros k Hk Hcl. rewrite nth_map_in with (d := []) by auto. unfold out_value. rewrite Hcl, Es.
    destruct HT as (_&_&ids&He&_). eapply encodes_walk; eauto.
Qed.
Print Assumptions C62_import.
(** what sklearn predicts is unique, so the import says exactly the same *)
Theorem C62_sklearn_prediction_unique : forall T w i v v', sk_predicts T w i v -> sk_predicts T w i v' -> v' = v.
Proof. intros. eapply sk_predicts_unique; eauto. Qed.
Print Assumptions C62_sklearn_prediction_unique.
(** In-sample, for a tree that had been asked for a prediction before (as refreshed_trees does). *)
Theorem C62_in_sample : forall X y nrm h0 os h t v0 t0 T st fuel,
  no_nan X -> tree_reached X y nrm h0 os h t -> cache_current os -> length (tr_nodes t) = 1 ->
  tree_predict h t = Ok (v0, t0) -> importable X fuel T st ->
  exists h' t' v t'', map_sklearn_tree fuel h t0 T = Ok (h', t') /\ tree_predict h' t' = Ok (v, t'') /\
    length v = length (mx_rows X) /\
    forall k, k < length (mx_rows X) -> sk_predicts T (nth k (mx_rows X) []) 0 (nth k v 0%R).
Proof.
  intros X y nrm h0 os h t v0 t0 T st fuel Hn Hr Hc Hl Hp (HT&Hs&Hu&Hf). destruct (tree_reached_inv _ _ _ _ _ _ _ Hn Hr) as (a&H&_).
  destruct (one_leaf _ _ _ _ _ H Hl) as (i&->).
  pose proof (cache_current_ok _ _ _ _ _ _ _ Hn Hr Hc) as Hok.
  pose proof (predict_correct _ _ _ _ _ _ _ Hn H Hok Hp) as Ev.
  assert (Et : t0 = Tr (tr_nodes t) true (Some v0)).
  { unfold tree_predict in Hp. destruct (if tr_fresh t then _ else _) as [[p|]| |]; try discriminate. cbn [rbind] in Hp. injection Hp as <- <-. reflexivity. }
  assert (H0 : tree_inv h X (Some (last_tree_target (start_target y nrm) os)) t0 (ALeaf i)) by (rewrite Et; now apply tree_inv_cache).
  destruct (map_sklearn_spec _ _ _ _ _ _ _ _ Hn H0 HT Hs Hu Hf) as (h'&t'&b&E&H'&Es&Hfr&Hpr&_).
  destruct (tree_predict_spec _ _ _ _ _ Hn H' Hfr) as (buf&Eb&Ep). unfold start_buffer in Eb. rewrite Hpr, Et in Eb. simpl in Eb. injection Eb as <-.
  rewrite Ev, insample_length, Nat.eqb_refl in Ep.
  exists h', t'. do 2 eexists. split; auto. split; [exact Ep|]. split; [apply insample_length|].
  intros k Hk. rewrite insample_nth, <- walk_leaf, Es by auto. destruct HT as (_&_&ids&He&_). eapply encodes_walk; eauto.
Qed.
Print Assumptions C62_in_sample.
(** A tree that never predicted: its first prediction sizes its buffer by the first node of its list, so it
    works exactly when that node holds every training row; if it works it is the sklearn prediction. *)
Theorem C62_first_prediction : forall X y nrm h0 os h t T st fuel h' t',
  no_nan X -> tree_reached X y nrm h0 os h t -> Forall no_predict os -> length (tr_nodes t) = 1 -> importable X fuel T st ->
  map_sklearn_tree fuel h t T = Ok (h', t') ->
  exists i0 s0, hd_error (tr_nodes t') = Some i0 /\ node_split h' i0 = Some s0 /\
   ((forall i, i < length (mx_rows X) -> in_node s0 i) /\
      (exists v t'', tree_predict h' t' = Ok (v, t'') /\ forall k, k < length (mx_rows X) -> sk_predicts T (nth k (mx_rows X) []) 0 (nth k v 0%R)) \/
    (exists i, i < length (mx_rows X) /\ ~ in_node s0 i) /\ tree_predict h' t' = Raise EIndexError).
Proof.
  intros X y nrm h0 os h t T st fuel h' t' Hn Hr Hp Hl (HT&Hs&Hu&Hf) E. destruct (tree_reached_inv _ _ _ _ _ _ _ Hn Hr) as (a&H&_).
  destruct (one_leaf _ _ _ _ _ H Hl) as (i&->).
  destruct (map_sklearn_spec _ _ _ _ _ _ _ _ Hn H HT Hs Hu Hf) as (h1&t1&b&E1&H'&Es&Hfr&Hpr&_). rewrite E in E1. injection E1 as <- <-.
  destruct (never_predicted _ _ _ _ _ _ _ Hr Hp) as [_ Hpn]. rewrite Hpn in Hpr.
  destruct (first_predict _ _ _ _ _ Hn H' Hfr Hpr) as (i0&s0&k&d&[(A1&A2&A3&v&t''&A4)|(A1&A2&A3&A4)]); exists i0, s0;
    unfold node_split; rewrite A2; (split; [auto|]); (split; [auto|]); [left|right; auto].
  split; auto. exists v, t''. split; auto. intros k0 Hk. rewrite (predict_correct _ _ _ _ _ _ _ Hn H' ltac:(intros C; congruence) A4).
  rewrite insample_nth, <- walk_leaf, Es by auto. destruct HT as (_&_&ids&He&_). eapply encodes_walk; eauto.
Qed.
Print Assumptions C62_first_prediction.
(** other trees and objects are not touched *)
Theorem C62_other_objects : forall X y nrm h0 os h t T st fuel h' t',
  no_nan X -> tree_reached X y nrm h0 os h t -> length (tr_nodes t) = 1 -> importable X fuel T st ->
  map_sklearn_tree fuel h t T = Ok (h', t') ->
  forall j, j < h_next h -> ~ In j (tr_nodes t) -> h_get h' j = h_get h j /\ ~ In j (tr_nodes t').
Proof.
  intros X y nrm h0 os h t T st fuel h' t' Hn Hr Hl (HT&Hs&Hu&Hf) E j Hj Hjt. destruct (tree_reached_inv _ _ _ _ _ _ _ Hn Hr) as (a&H&_).
  destruct (one_leaf _ _ _ _ _ H Hl) as (i&->).
  destruct (map_sklearn_spec _ _ _ _ _ _ _ _ Hn H HT Hs Hu Hf) as (h1&t1&b&E1&_&_&_&_&S1&S2&S3). rewrite E in E1. injection E1 as <- <-.
  split; auto. intros Hc. apply S3 in Hc as [Hc|Hc]; [tauto|lia].
Qed.
Print Assumptions C62_other_objects.
(** A sklearn tree without splits is not imported: nothing changes, the old leaf value stays. *)
Theorem C62_single_node : forall T v fuel h t i nodes,
  sk_form T (SLeaf v) -> tr_nodes t = i :: nodes -> map_sklearn_tree (S fuel) h t T = Ok (h, t).
Proof.
  intros T v fuel h t i nodes (L1&L2&ids&He&_) Et. inversion He as [? ? z El Er Ev|]; subst.
  unfold map_sklearn_tree. rewrite Et. change 0%Z with (Z.of_nat 0).
  rewrite zput_nat by (rewrite map_length; apply nth_error_Some; congruence). cbn [rbind search].
  rewrite (zat_nat _ _ _ El). cbn [rbind]. rewrite (zat_nat _ _ _ Er). cbn [rbind]. reflexivity.
Qed.
Print Assumptions C62_single_node.
Theorem C62_single_node_refuted : exists X y h t T h' t' v, no_nan X /\ tree_reached X y false h_empty [] h t /\
  sk_form T (SLeaf 5%R) /\ map_sklearn_tree 1 h t T = Ok (h', t') /\ tree_predict_out h' t' X = Ok v /\
  (forall r, In r (mx_rows X) -> row_clean (mx_ncols X) r = true) /\
  ~ sk_predicts T (nth 0 (mx_rows X) []) 0 (nth 0 v 0%R).
Proof.
  exists (Mx 1 [[fz 1]]), [1%R]. do 2 eexists. exists (Skt [(-1)%Z] [(-1)%Z] [0] [fz 0] [5%R]). do 3 eexists.
  split. { intros r v [<-|[]] Hv. destruct v; [discriminate|simpl in Hv; lia]. }
  split. { split; [reflexivity|]. split; [constructor|]. eexists. split; reflexivity. }
  split. { split; [reflexivity|]. split; [reflexivity|]. exists [0]. split; [eapply en_leaf; reflexivity|repeat constructor; simpl; tauto]. }
  split; [reflexivity|]. split; [reflexivity|]. split. { intros r [<-|[]]. reflexivity. }
  intros Hc. assert (Hv : sk_predicts (Skt [(-1)%Z] [(-1)%Z] [0] [fz 0] [5%R]) (nth 0 (mx_rows (Mx 1 [[fz 1]])) []) 0 5%R) by (constructor; reflexivity).
  pose proof (sk_predicts_unique _ _ _ _ Hv _ Hc) as E. simpl in E. revert E. lra.
Qed.
Print Assumptions C62_single_node_refuted.

(** a concrete import: a root split on column 0 at 2, its right child split on column 1 at 7 *)
Definition ix_T : sktree := Skt [1; -1; 3; -1; -1]%Z [2; -1; 4; -1; -1]%Z [0; 0; 1; 0; 0] [fz 2; fz 0; fz 7; fz 0; fz 0] [1; 2; 3; 4; 5]%R.
Definition ix_st : stree := SNode 0 (fz 2) (SLeaf 2) (SNode 1 (fz 7) (SLeaf 4) (SLeaf 5)).
Lemma ix_importable fuel : 2 < fuel -> importable tx_X fuel ix_T ix_st.
Proof.
  intros Hf. split; [|split; [exact I|split; [simpl; repeat split; try lia; discriminate|exact Hf]]].
  split; [reflexivity|]. split; [reflexivity|]. exists [0; 1; 2; 3; 4]. split.
  - change [0; 1; 2; 3; 4] with (0 :: [1] ++ (2 :: [3] ++ [4])).
    apply en_node with (l := 1) (r := 2); try reflexivity; [eapply en_leaf; reflexivity|].
    apply en_node with (l := 3) (r := 4); try reflexivity; eapply en_leaf; reflexivity.
  - repeat constructor; simpl; lia.
Qed.
Fixpoint ssize (s : stree) : nat := match s with SLeaf _ => 1 | SNode _ _ l r => S (ssize l + ssize r) end.
Lemma unfolds_size h i d ids st : unfolds h i d ids st -> length ids = ssize st.
Proof. induction 1; simpl; auto. rewrite app_length. lia. Qed.
Definition ix_0 : heap * tree :=
  match root_split tx_X tx_y false with Ok s => start_tree h_empty s | _ => (h_empty, make_tree []) end.
Example C62_case : tree_reached tx_X tx_y false h_empty [] (fst ix_0) (snd ix_0) /\ length (tr_nodes (snd ix_0)) = 1 /\
  importable tx_X 3 ix_T ix_st /\ cache_current [] /\ sk_predicts ix_T [fz 3; fz 9] 0 5%R /\
  exists h' t', map_sklearn_tree 3 (fst ix_0) (snd ix_0) ix_T = Ok (h', t') /\ length (tr_nodes t') = 5.
Proof.
  split. { split; [reflexivity|]. split; [constructor|]. eexists. split; reflexivity. }
  split; [reflexivity|]. split; [apply ix_importable; lia|]. split; [left; constructor|].
  split. { change 5%R with (walk ix_st [fz 3; fz 9]). destruct (ix_importable 3 ltac:(lia)) as ((_&_&ids&He&_)&_). eapply encodes_walk; eauto. }
  assert (Hr : tree_reached tx_X tx_y false h_empty [] (fst ix_0) (snd ix_0)).
  { split; [reflexivity|]. split; [constructor|]. eexists. split; reflexivity. }
  destruct (C62_import _ _ _ _ _ _ _ _ _ _ tx_no_nan Hr ltac:(reflexivity) (ix_importable 3 ltac:(lia))) as (h'&t'&E&(root&ids&Hu&Hp&_)&_).
  exists h', t'. split; auto. rewrite (Permutation_length Hp). apply (unfolds_size _ _ _ _ _ Hu).
Qed.
(** Importing into every tree of a new model, tree after tree as the initializer does, each sklearn tree chosen
    as a function of the state it is fitted in: the constructor succeeds and the model predicts, at every
    training row, the sum of the imported trees' predictions. *)
Theorem C62_model : forall X y nrm h0 sigma p d m0 fuel fit, no_nan X -> length y = length (mx_rows X) ->
  make_data X y None nrm None None None None = Ok d -> make_model h0 d sigma p = Ok m0 ->
  (forall h t, exists st, importable X fuel (fit h t) st) ->
  exists m Ts v m', make_model_with (fun h t => map_sklearn_tree fuel h t (fit h t)) h0 d sigma p = Ok m /\
    length Ts = pa_ntrees p /\ Forall (fun T => exists h t, T = fit h t) Ts /\
    model_predict m = Ok (v, m') /\ length v = length (mx_rows X) /\
    forall i, i < length (mx_rows X) -> exists ws,
      Forall2 (fun T w => sk_predicts T (nth i (mx_rows X) []) 0 w) Ts ws /\ nth i v 0%R = rsum ws.
Proof.
  intros X y nrm h0 sigma p d m0 fuel fit Hn Hl Hd Hm Hfit.
  assert (Hsm : start_model X y nrm h0 sigma p = Ok m0) by (unfold start_model; rewrite Hd; exact Hm).
  destruct (start_model_spec _ _ _ _ _ _ _ Hl Hsm) as (H&_).
  unfold make_model_with. rewrite Hm. cbn [rbind].
  destruct (rt_start_spec _ _ _ _ _ Hn H) as (m1&->&H1&_&_&_&_&pr&Hp). cbn [rbind].
  pose proof (ms_len _ _ _ _ _ _ (mi_st _ _ _ _ _ _ H1)) as HlA. rewrite map_length, seq_length in HlA. rewrite <- HlA.
  destruct (init_loop X _ _ fuel fit Hn Hfit (pa_ntrees p) 0 m1 _ H1 ltac:(congruence)) as (m&As'&sts&->&H'&_&Ls&Fs&Hc).
  { now rewrite map_length, seq_length. }
  { intros k Hk. rewrite map_length, seq_length in Hk. rewrite nth_error_map.
    destruct (nth_error (seq (h_next h0) (pa_ntrees p)) k) eqn:E; simpl; eauto. apply nth_error_None in E. rewrite seq_length in E. lia. }
  destruct (model_predict_spec _ _ _ _ _ Hn H') as (v&m'&Ev&Lv&Nv&_).
  assert (HTs : exists Ts, Forall2 (fun T st => sk_form T st) Ts sts /\ Forall (fun T => exists h t, T = fit h t) Ts).
  { clear -Fs. induction Fs as [|st sts (h&t&(HT&_)) _ (Ts&F2&F)]; [exists []; auto|]. exists (fit h t :: Ts). split; constructor; eauto. }
  destruct HTs as (Ts&F2&FT). exists m, Ts, v, m'. split; auto. split.
  { rewrite <- Ls. clear -F2. induction F2; simpl; auto. }
  split; auto. split; auto. split; auto. intros i Hi. exists (map (fun st => walk st (nth i (mx_rows X) [])) sts). split.
  - clear -F2. induction F2 as [|T st Ts sts (_&_&ids&He&_) _ IH]; simpl; constructor; auto. eapply encodes_walk; eauto.
  - rewrite Nv, Hc by auto. reflexivity.
Qed.
Print Assumptions C62_model.

(** ** C69 *)
(** SklearnTreeInitializer.initialize_tree reads an attribute that does not exist. *)
Theorem C69_initialize_tree_raises : forall X y nrm h0 os h t, no_nan X -> tree_reached X y nrm h0 os h t ->
  sklearn_initialize_tree h t = Raise EAttributeError.
Proof.
  intros X y nrm h0 os h t Hn Hr. destruct (tree_reached_inv _ _ _ _ _ _ _ Hn Hr) as (a&H&_).
  unfold sklearn_initialize_tree. pose proof (proj2 (ti_in _ _ _ _ _ _ H) (aroot_in a)) as Hi. destruct (tr_nodes t); [destruct Hi|reflexivity].
Qed.
Print Assumptions C69_initialize_tree_raises.
(** It is the default of Model's constructor, which therefore fails whenever there is a tree to initialise. *)
Theorem C69_default_initializer_fails : forall X y nrm h0 sigma p d m0, no_nan X -> length y = length (mx_rows X) ->
  make_data X y None nrm None None None None = Ok d -> make_model h0 d sigma p = Ok m0 -> 0 < pa_ntrees p ->
  make_model_with sklearn_initialize_tree h0 d sigma p = Raise EAttributeError.
Proof.
  intros X y nrm h0 sigma p d m0 Hn Hl Hd Hm Hp.
  assert (Hsm : start_model X y nrm h0 sigma p = Ok m0) by (unfold start_model; rewrite Hd; exact Hm).
  destruct (start_model_spec _ _ _ _ _ _ _ Hl Hsm) as (H&_).
  unfold make_model_with. rewrite Hm. cbn [rbind].
  destruct (rt_start_spec _ _ _ _ _ Hn H) as (m1&->&H1&_&_&_&_&pr&Hpr). cbn [rbind].
  pose proof (ms_len _ _ _ _ _ _ (mi_st _ _ _ _ _ _ H1)) as HlA. rewrite map_length, seq_length in HlA. rewrite <- HlA.
  destruct (pa_ntrees p) as [|n] eqn:En; [lia|]. cbn [initialize_from].
  destruct (rt_open_spec _ _ _ m1 _ 0 Hn H1 ltac:(lia) ltac:(congruence)) as (m2&tg&t'&->&H2&_&_&_&Et&_). cbn [rbind]. rewrite Et.
  destruct (mi_target _ _ _ _ _ _ H2 0 eq_refl) as (t0&a0&ty&Et0&Ha0&Hi&_). rewrite Et in Et0. injection Et0 as <-.
  unfold sklearn_initialize_tree. pose proof (proj2 (ti_in _ _ _ _ _ _ Hi) (aroot_in a0)) as Hin. destruct (tr_nodes t'); [destruct Hin|reflexivity].
Qed.
Print Assumptions C69_default_initializer_fails.
(** The do-nothing base initializer changes no prediction: the new model predicts 0 everywhere, as with none. *)
Theorem C69_base_initializer : forall X y nrm h0 sigma p d m0, no_nan X -> length y = length (mx_rows X) ->
  make_data X y None nrm None None None None = Ok d -> make_model h0 d sigma p = Ok m0 ->
  exists m v m', make_model_with base_initialize_tree h0 d sigma p = Ok m /\ model_predict m = Ok (v, m') /\
    v = repeat 0%R (length (mx_rows X)).
Proof.
  intros X y nrm h0 sigma p d m0 Hn Hl Hd Hm.
  assert (Hsm : start_model X y nrm h0 sigma p = Ok m0) by (unfold start_model; rewrite Hd; exact Hm).
  destruct (start_model_spec _ _ _ _ _ _ _ Hl Hsm) as (H&_&Hleaf&_).
  unfold make_model_with. rewrite Hm. cbn [rbind].
  destruct (rt_start_spec _ _ _ _ _ Hn H) as (m1&->&H1&_&_&_&Eh&pr&Hp). cbn [rbind].
  assert (Hcol : forall i, i < length (mx_rows X) -> rsum (col (m_heap m1) X (map ALeaf (seq (h_next h0) (pa_ntrees p))) i) = 0%R).
  { intros i Hi. unfold col. rewrite Eh, map_map. 
    assert (forall l, incl l (seq (h_next h0) (pa_ntrees p)) -> rsum (map (fun x => nth i (insample (m_heap m0) X (ALeaf x)) 0%R) l) = 0%R) as Hz.
    { induction l as [|q l IH]; intros Hin; [reflexivity|]. unfold rsum in *. simpl. rewrite IH by (intros z Hz; apply Hin; simpl; auto).
      change (nth i (insample (m_heap m0) X (ALeaf q)) 0 + 0 = 0)%R. rewrite insample_nth by auto. simpl.
      destruct (Hleaf q) as (s&Eg&_); [apply Hin; simpl; auto|]. unfold hvalue, leaf_value. rewrite Eg. lra. }
    apply Hz, incl_refl. }
  assert (Hloop : forall todo j m As, minv X (start_target y nrm) None (fun _ => 0%R) m As -> m_pred m <> None -> j + todo = length (m_trees m) ->
    exists m', initialize_from base_initialize_tree j todo m = Ok m' /\ minv X (start_target y nrm) None (fun _ => 0%R) m' As /\
      forall i, i < length (mx_rows X) -> col (m_heap m') X As i = col (m_heap m) X As i).
  { induction todo as [|todo IH]; intros j m As Hi Hpr Hj; cbn [initialize_from]; [eauto|].
    destruct (rt_open_spec _ _ _ m _ j Hn Hi ltac:(lia) Hpr) as (m2&tg&t'&->&H2&Hs2&_&_&Et&_&_&_&_&Hc2&_). cbn [rbind]. rewrite Et.
    unfold base_initialize_tree at 1. cbn [rbind]. rewrite (PModel.set_nth_same _ _ _ Et).
    assert (Em : m_set_trees m2 (m_heap m2) (m_trees m2) = m2) by now destruct m2. rewrite Em.
    destruct (rt_close_spec _ _ _ _ _ _ Hn H2) as (m3&->&H3&Hs3&_&_&Eh3&Hp3). cbn [rbind].
    destruct (IH (S j) m3 As H3 Hp3) as (m'&->&H'&Hc'). { destruct Hs2 as (L2&_), Hs3 as (L3&_). lia. }
    exists m'. split; auto. split; auto. intros i Hi'. rewrite Hc', Eh3, Hc2; auto. }
  destruct (Hloop (length (m_trees m1)) 0 m1 _ H1 ltac:(congruence) eq_refl) as (m&->&H'&Hc).
  destruct (model_predict_spec _ _ _ _ _ Hn H') as (v&m'&Ev&Lv&Nv&_). exists m, v, m'. split; auto. split; auto.
  apply list_ext_nth; [now rewrite repeat_length|]. intros i Hi. rewrite Lv in Hi. rewrite Nv, Hc, Hcol by auto.
  symmetry. clear. generalize (length (mx_rows X)). intros n. revert i. induction n; intros [|i]; simpl; auto.
Qed.
Print Assumptions C69_base_initializer.
(** the hypotheses of the theorems about models: two trees on three rows *)
Example C69_case : exists d m0, make_data (Mx 1 [[fz 1]; [fz 2]; [fz 3]]) [1; 2; 6]%R None false None None None None = Ok d /\
  make_model h_empty d 1 (Pa 2 (95/100) 2 2 1 1 (/2) (/2) 20) = Ok m0.
Proof. do 2 eexists. split; reflexivity. Qed.
