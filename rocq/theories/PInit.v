(** Proofs about MInit.v *)
From Coq Require Import Reals Lra Permutation ZArith.
From Verif Require Import Base Fl Ext MData MSplit MTree MSampler MHist MTreeHist MModel MInit Spec SpecTree SpecInit LFl LList PData PSplit PDataProps PCond PTree PPred PTreeHist PTreeProps.

Lemma put_length {A} (l : list A) : forall i x, length (put l i x) = length l.
Proof. induction l; intros [|i] x; simpl; auto. Qed.
Lemma put_nth {A} (l : list A) : forall i x k, i < length l -> nth_error (put l i x) k = if Nat.eqb k i then Some x else nth_error l k.
Proof.
  induction l as [|y l IH]; intros [|i] x [|k]; simpl; intros H; try lia; auto. apply IH. lia.
Qed.
Lemma zindex_nat n i : i < n -> zindex n (Z.of_nat i) = Some i.
Proof.
  intros H. unfold zindex. destruct (Z.leb_spec 0 (Z.of_nat i)); [|lia]. destruct (Z.ltb_spec (Z.of_nat i) (Z.of_nat n)); [|lia].
  now rewrite Nat2Z.id.
Qed.
Lemma zat_nat {A} (l : list A) i x : nth_error l i = Some x -> zat l (Z.of_nat i) = Ok x.
Proof.
  intros H. unfold zat, at_. rewrite zindex_nat by (apply nth_error_Some; congruence). now rewrite H.
Qed.
Lemma zput_nat {A} (l : list A) i x : i < length l -> zput l (Z.of_nat i) x = Ok (put l i x).
Proof. intros H. unfold zput. now rewrite zindex_nat. Qed.

Lemma astree_leaves h h' a : (forall j, In j (aleafids a) -> hvalue h' j = hvalue h j) -> astree h' a = astree h a.
Proof.
  induction a as [i|i v x l IHl r IHr]; simpl; intros H; [rewrite H; auto|].
  rewrite IHl, IHr; auto; intros; apply H, in_app_iff; auto.
Qed.
Lemma leaf_after_subst i b a j : ~ In i (adecids a) -> In j (aleafids a) -> j <> i -> In j (aleafids (asubst i b a)).
Proof.
  induction a as [k|k v x l IHl r IHr]; simpl; intros Hd Hj Hne.
  - destruct Hj as [<-|[]]. destruct (Nat.eqb_spec k i); [congruence|simpl; auto].
  - destruct (Nat.eqb_spec k i); [tauto|]. simpl. rewrite in_app_iff in *. tauto.
Qed.
Lemma new_leaf_after_subst i b a j : In i (aids a) -> In j (aleafids b) -> In j (aleafids (asubst i b a)).
Proof.
  induction a as [k|k v x l IHl r IHr]; simpl; intros Hi Hj.
  - destruct (Nat.eqb_spec k i); auto. destruct Hi as [->|[]]. congruence.
  - destruct (Nat.eqb_spec k i); auto. simpl. rewrite in_app_iff in *. destruct Hi as [->|[Hi|Hi]]; [congruence|tauto|tauto].
Qed.
Lemma asubst_ids_in i b a j : In j (aids (asubst i b a)) -> In j (aids a) \/ In j (aids b).
Proof.
  induction a as [k|k v x tl IHl tr IHr]; simpl; destruct (Nat.eqb_spec k i); simpl; auto.
  rewrite !in_app_iff. tauto.
Qed.
Lemma asubst_comm l b i B a : ~ In l (aids a) -> asubst l b (asubst i B a) = asubst i (asubst l b B) a.
Proof.
  induction a as [k|k v x tl IHl tr IHr]; simpl; intros Hn.
  - destruct (Nat.eqb_spec k i); simpl; auto. destruct (Nat.eqb_spec k l); [tauto|auto].
  - rewrite in_app_iff in Hn. destruct (Nat.eqb_spec k i); simpl; auto. destruct (Nat.eqb_spec k l); [tauto|].
    rewrite IHl, IHr by tauto. auto.
Qed.
Lemma leaf_not_dec i a : In i (aleafids a) -> NoDup (aids a) -> ~ In i (adecids a).
Proof.
  intros Hi Hn Hd. apply (Permutation_NoDup (aids_perm a)), NoDup_app_disj in Hn as (_&_&Hn). eauto.
Qed.
Lemma asubst_leaf i a : In i (aleafids a) -> NoDup (aids a) -> asubst i (ALeaf i) a = a.
Proof.
  assert (H0 : forall a, ~ In i (adecids a) -> asubst i (ALeaf i) a = a).
  { induction a0 as [k|k v x tl IHl tr IHr]; simpl; intros H; destruct (Nat.eqb_spec k i); try congruence; auto.
    - tauto.
    - rewrite in_app_iff in H. rewrite IHl, IHr by tauto. auto. }
  intros Hi Hn. apply H0. eauto using leaf_not_dec.
Qed.

(** one node of the sklearn tree: the grow step with the children's values set first *)
Lemma import_step h X y t a i f x vl vr : no_nan X -> tree_inv h X (Some y) t a -> In i (aleafids a) ->
  x <> FNaN -> f < mx_ncols X ->
  exists p h1 l r h4 t4, split_node h i (fresh_le f x) (fresh_gt f x) = Ok (p, h1) /\
    left_child h1 p = Some l /\ right_child h1 p = Some r /\
    let h3 := set_value (set_value h1 l vl) r vr in
    grow_mutation h3 i p = Ok (Mu MGrow i p) /\ mutate h3 t (Mu MGrow i p) = (h4, t4, None) /\
    tree_inv h4 X (Some y) t4 (asubst i (ANode p f x (ALeaf l) (ALeaf r)) a) /\
    left_child h4 p = Some l /\ right_child h4 p = Some r /\
    l = h_next h /\ r = S l /\ p = S r /\ h_next h4 = S p /\
    hvalue h4 l = vl /\ hvalue h4 r = vr /\ (forall j, In j (aleafids a) -> j <> i -> hvalue h4 j = hvalue h j) /\
    tr_fresh t4 = false /\ tr_pred t4 = tr_pred t /\
    (forall j, j < h_next h -> ~ In j (tr_nodes t) -> h_get h4 j = h_get h j).
Proof.
  intros Hn H Hi Hx Hf.
  pose proof (Permutation_in _ (Permutation_sym (leaf_nodes_perm _ _ _ _ _ H)) Hi) as Hln.
  destruct (leaf_region _ _ _ _ _ _ H Hln) as (cj&dj&w&s&Hr&Eg&Hs).
  apply filter_In in Hln as [Hit Hil].
  assert (Hib : i < h_next h) by (apply (ti_below _ _ _ _ _ H), (ti_in _ _ _ _ _ _ H), Hit).
  destruct (split_node_total _ _ _ _ _ _ _ _ _ _ Hn Eg Hs Hx Hf Hib) as (p&h1&Esp&_).
  destruct (split_node_spec _ _ _ _ _ _ Esp) as (k&s0&d0&s'&sl&sr&Eg'&Ec&Ep&Hn1&Hold&G1&G2&G3).
  destruct (grow_step _ _ _ _ _ _ _ _ _ _ Hn H Hit Hil Hx Esp) as (_&_&_&l1&Hrem&Hmut&Hinv&Hget).
  set (l := h_next h) in *. set (r := S l) in *. set (l4 := l1 ++ [l; r; p]) in *. set (h2 := relink h1 l4 i p) in *.
  set (h3 := set_value (set_value h1 l vl) r vr).
  assert (Hne : p <> i) by (subst p; lia).
  assert (G3' : h_get h3 p = Some (Nd (KDec l r) (SFull s') d0)).
  { unfold h3. rewrite !set_value_get. subst p. rewrite G3. reflexivity. }
  exists p, h1, l, r, (relink h3 l4 i p), (Tr l4 false (tr_pred t)).
  split; auto. split; [unfold left_child; subst p; now rewrite G3|]. split; [unfold right_child; subst p; now rewrite G3|].
  assert (Hpt : forall j, h_get (relink h3 l4 i p) j = h_get (set_value (set_value h2 l vl) r vr) j).
  { intros j. rewrite relink_get by auto. unfold h3, h2. rewrite !set_value_get, relink_get by auto.
    destruct (h_get h1 j) as [[[v0|a0 b0] s1 d1]|]; simpl; destruct (mem j l4); reflexivity. }
  assert (Hnx : h_next (relink h3 l4 i p) = S p) by (unfold h3; rewrite relink_next, !set_value_next; lia).
  cbv zeta. fold h3. split. { unfold grow_mutation, is_leaf, h3. rewrite !set_value_get, Hold, Eg by auto. reflexivity. }
  split. { unfold mutate. cbn [mu_kind mu_existing mu_updated]. rewrite Hrem. unfold left_child, right_child. rewrite G3'. reflexivity. }
  split. { eapply tree_inv_heap; [apply set_value_inv, set_value_inv, Hinv| |intros; apply Hpt].
           rewrite !set_value_next, Hnx. unfold h2. rewrite relink_next. lia. }
  assert (Gp : h_get (relink h3 l4 i p) p = Some (Nd (KDec l r) (SFull s') d0)).
  { rewrite relink_get, G3' by auto. destruct (mem p l4); auto. unfold relinked, option_map, relink_node. cbn [nd_kind nd_split nd_depth].
    destruct (Nat.eqb_spec l i); [lia|]. destruct (Nat.eqb_spec r i); [lia|]. reflexivity. }
  split; [unfold left_child; now rewrite Gp|]. split; [unfold right_child; now rewrite Gp|].
  split; auto. split; auto. split; auto. split; auto.
  assert (Hleaf : forall j v0 s1 d1, h_get h1 j = Some (Nd (KLeaf v0) s1 d1) -> h_get (relink h3 l4 i p) j =
     Some (Nd (KLeaf (if Nat.eqb j r then vr else if Nat.eqb j l then vl else v0)) s1 d1)).
  { intros j v0 s1 d1 Ej. rewrite relink_get by auto. unfold h3. rewrite !set_value_get, Ej. destruct (mem j l4); reflexivity. }
  split. { unfold hvalue, leaf_value. rewrite (Hleaf _ _ _ _ G1). destruct (Nat.eqb_spec l r); [lia|]. now rewrite Nat.eqb_refl. }
  split. { unfold hvalue, leaf_value. rewrite (Hleaf _ _ _ _ G2). now rewrite Nat.eqb_refl. }
  split. { intros j Hj Hji. pose proof (Permutation_in _ (Permutation_sym (leaf_nodes_perm _ _ _ _ _ H)) Hj) as Hlj.
    destruct (leaf_region _ _ _ _ _ _ H Hlj) as (cj'&dj'&w'&s1&_&Egj&_). apply filter_In in Hlj as [Hlj _].
    assert (Hjb : j < h_next h) by (apply (ti_below _ _ _ _ _ H), (ti_in _ _ _ _ _ _ H), Hlj).
    unfold hvalue, leaf_value. rewrite Egj. rewrite (Hleaf j w' (SFull s1) dj') by (rewrite Hold; auto).
    destruct (Nat.eqb_spec j r); [lia|]. destruct (Nat.eqb_spec j l); [lia|]. reflexivity. }
  split; auto. split; auto.
  intros j Hj Hjt. rewrite relink_get by auto. assert (Hm : mem j l4 = false).
  { apply mem_not. intros Hin. unfold l4 in Hin. apply in_app_iff in Hin as [Hin|Hin].
    - apply Hjt. eapply remove_first_incl; eauto.
    - simpl in Hin. lia. }
  rewrite Hm. unfold h3. rewrite !set_value_get, Hold by auto.
  destruct (h_get h j) as [[[v0|a0 b0] s1 d1]|]; auto.
  destruct (Nat.eqb_spec j r); [lia|]. destruct (Nat.eqb_spec j l); [lia|]. reflexivity.
Qed.

Definition value_ok (h : heap) (i : nat) (s : stree) : Prop := match s with SLeaf v => hvalue h i = v | SNode _ _ _ _ => True end.
Lemma search_spec X y T : no_nan X -> length (sk_right T) = length (sk_left T) -> length (sk_value T) = length (sk_left T) ->
  forall idx ids st, encodes T idx ids st -> NoDup ids -> usable (mx_ncols X) st ->
  forall fuel h t a nodes i, sheight st < fuel -> tree_inv h X (Some y) t a -> In i (aleafids a) ->
    nth_error nodes idx = Some (Some i) -> length nodes = length (sk_left T) -> value_ok h i st ->
  exists h' t' nodes' b, search fuel T (Z.of_nat idx) h t nodes = Ok (h', t', nodes') /\
    tree_inv h' X (Some y) t' (asubst i b a) /\ astree h' b = st /\
    (forall j, In j (aids b) -> j = i \/ h_next h <= j) /\
    (forall j, In j (aleafids a) -> j <> i -> hvalue h' j = hvalue h j) /\
    (forall k, ~ In k ids -> nth_error nodes' k = nth_error nodes k) /\ length nodes' = length nodes /\
    h_next h <= h_next h' /\ tr_pred t' = tr_pred t /\
    (tr_fresh t' = match st with SLeaf _ => tr_fresh t | SNode _ _ _ _ => false end) /\
    (forall j, j < h_next h -> ~ In j (tr_nodes t) -> h_get h' j = h_get h j).
Proof.
  intros Hn HLr HLv. assert (Hin : forall idx ids st, encodes T idx ids st -> In idx ids) by (intros ? ? ? []; simpl; auto).
  assert (Hval : forall idx ids st, encodes T idx ids st -> idx < length (sk_left T)).
  { intros ? ? ? []; apply nth_error_Some; congruence. }
  induction 1 as [idx v z El Er Ev|idx l r f x il ir tl tr El Er Ef Ex Hl IHl Hr IHr]; intros Hnd Hu fuel h t a nodes i Hfu H Hi Hnode Hlen Hv.
  - destruct fuel as [|fuel]; [lia|]. cbn [search]. rewrite (zat_nat _ _ _ El). cbn [rbind]. rewrite (zat_nat _ _ _ Er). cbn [rbind].
    simpl. exists h, t, nodes, (ALeaf i). split; auto. rewrite asubst_leaf by (auto; apply H). split; auto.
    split; [simpl; f_equal; exact Hv|]. split; [simpl; intuition auto|]. split; auto.
    repeat (split; auto).
  - destruct fuel as [|fuel]; [lia|]. cbn [search]. rewrite (zat_nat _ _ _ El). cbn [rbind]. rewrite (zat_nat _ _ _ Er). cbn [rbind].
    destruct (Z.eqb_spec (Z.of_nat l) (-1)); [lia|]. rewrite (zat_nat _ _ _ Hnode). cbn [rbind].
    unfold sk_conditions. rewrite (zat_nat _ _ _ Ef). cbn [rbind]. rewrite (zat_nat _ _ _ Ex). cbn [rbind].
    simpl in Hu. destruct Hu as (Hf&Hx&Hul&Hur). simpl in Hfu.
    inversion Hnd as [|? ? Hni Hnd']; subst. apply NoDup_app_disj in Hnd' as (Hndl&Hndr&Hdis). rewrite in_app_iff in Hni.
    destruct (nth_error (sk_value T) l) as [vl|] eqn:Evl; [|apply nth_error_None in Evl; pose proof (Hval _ _ _ Hl); lia].
    destruct (nth_error (sk_value T) r) as [vr|] eqn:Evr; [|apply nth_error_None in Evr; pose proof (Hval _ _ _ Hr); lia].
    destruct (import_step h X y t a i f x vl vr Hn H Hi Hx Hf) as (p&h1&jl&jr&h4&t4&Esp&El1&Er1&Egm&Emu&H4&El4&Er4&Ejl&Ejr&Ep&Hn4&Vl&Vr&Hold&Hfr&Hpr&Hframe).
    unfold fresh_le, fresh_gt in Esp. rewrite Esp. cbn [rbind]. rewrite El1, Er1, (zat_nat _ _ _ Evl). cbn [rbind]. rewrite (zat_nat _ _ _ Evr). cbn [rbind].
    rewrite Egm. cbn [rbind]. rewrite Emu.
    pose proof (Hval _ _ _ Hl) as Ll. pose proof (Hval _ _ _ Hr) as Lr. assert (Li : idx < length (sk_left T)) by (apply nth_error_Some; congruence).
    rewrite zput_nat by lia. cbn [rbind]. rewrite El4, zput_nat by (rewrite put_length; lia). cbn [rbind].
    rewrite Er4, zput_nat by (rewrite !put_length; lia). cbn [rbind].
    set (n3 := put (put (put nodes idx (Some p)) l (Some jl)) r (Some jr)).
    assert (L3 : length n3 = length nodes) by (unfold n3; now rewrite !put_length).
    assert (N3 : forall k, nth_error n3 k = if Nat.eqb k r then Some (Some jr) else if Nat.eqb k l then Some (Some jl) else if Nat.eqb k idx then Some (Some p) else nth_error nodes k).
    { intros k. unfold n3. rewrite !put_nth by (rewrite ?put_length; lia). auto. }
    assert (Hlr : l <> r). { intros <-. apply (Hdis l); eauto. }
    set (B := ANode p f x (ALeaf jl) (ALeaf jr)) in *. set (a1 := asubst i B a) in *.
    assert (Hia : In i (aids a)) by (apply aids_incl; auto).
    assert (Hna : forall j, h_next h <= j -> ~ In j (aids a)). { intros j Hj Hc. apply (ti_below _ _ _ _ _ H) in Hc. lia. }
    assert (Hjl1 : In jl (aleafids a1)) by (apply new_leaf_after_subst; simpl; auto).
    assert (Hjr1 : In jr (aleafids a1)) by (apply new_leaf_after_subst; simpl; auto).
    assert (Hvl : value_ok h4 jl tl).
    { destruct tl; simpl; auto. inversion Hl; subst. congruence. }
    destruct (IHl Hndl Hul fuel h4 t4 a1 n3 jl ltac:(lia) H4 Hjl1) as (h5&t5&n5&bl&->&H5&S5&B5&V5&K5&L5&X5&P5&F5&R5); auto.
    { rewrite N3. destruct (Nat.eqb_spec l r); [congruence|]. now rewrite Nat.eqb_refl. }
    { congruence. }
    cbn [rbind].
    assert (Hjr5 : In jr (aleafids (asubst jl bl a1))).
    { apply leaf_after_subst; auto; [|lia]. apply leaf_not_dec; auto. apply H4. }
    assert (Hvr : value_ok h5 jr tr).
    { destruct tr; simpl; auto. inversion Hr; subst. rewrite V5 by (auto; lia). congruence. }
    destruct (IHr Hndr Hur fuel h5 t5 (asubst jl bl a1) n5 jr ltac:(lia) H5 Hjr5) as (h6&t6&n6&br&->&H6&S6&B6&V6&K6&L6&X6&P6&F6&R6); auto.
    { rewrite K5 by (intros Hc; apply (Hdis r); eauto). rewrite N3, Nat.eqb_refl. auto. }
    { congruence. }
    assert (Ea : asubst jr br (asubst jl bl a1) = asubst i (ANode p f x bl br) a).
    { assert (Nb : asubst jr br bl = bl).
      { apply asubst_notin. intros Hc. apply B5 in Hc as [Hc|Hc]; lia. }
      unfold a1. rewrite (asubst_comm jl) by (apply Hna; lia). rewrite (asubst_comm jr) by (apply Hna; lia). f_equal.
      unfold B. simpl. destruct (Nat.eqb_spec p jl); [lia|]. simpl. destruct (Nat.eqb_spec p jr); [lia|].
      rewrite Nat.eqb_refl. destruct (Nat.eqb_spec jr jl); [lia|]. simpl. rewrite Nat.eqb_refl. f_equal. exact Nb. }
    exists h6, t6, n6, (ANode p f x bl br). split; auto. split; [rewrite <- Ea; exact H6|].
    assert (Hbl : forall j, In j (aleafids bl) -> In j (aleafids (asubst jl bl a1)) /\ j <> jr).
    { intros j Hj. split.
      - apply new_leaf_after_subst; auto. apply aids_incl; auto.
      - intros ->. assert (Hc : In jr (aids bl)) by (apply aids_incl; auto). apply B5 in Hc as [Hc|Hc]; lia. }
    split. { simpl. f_equal; auto. rewrite <- S5. apply astree_leaves. intros j Hj. apply V6; apply Hbl; auto. }
    split. { simpl. intros j [<-|Hj]; [right; lia|]. apply in_app_iff in Hj as [Hj|Hj]; [apply B5 in Hj|apply B6 in Hj]; right; lia. }
    split. { intros j Hj Hji. assert (j < h_next h) by (apply (ti_below _ _ _ _ _ H), aids_incl; auto).
             assert (Hj1 : In j (aleafids a1)) by (apply leaf_after_subst; auto; apply leaf_not_dec; auto; apply H).
             rewrite V6, V5; auto; try lia. apply leaf_after_subst; auto; [|lia]. apply leaf_not_dec; auto. apply H4. }
    split. { intros k Hk. simpl in Hk. rewrite in_app_iff in Hk. rewrite K6, K5 by tauto. rewrite N3.
             destruct (Nat.eqb_spec k r); [subst; exfalso; apply Hk; eauto|]. destruct (Nat.eqb_spec k l); [subst; exfalso; apply Hk; eauto|].
             destruct (Nat.eqb_spec k idx); [subst; exfalso; apply Hk; auto|auto]. }
    split; [congruence|]. split; [lia|]. split; [congruence|].
    split. { rewrite F6, F5, Hfr. now destruct tr, tl. }
    intros j Hj Hjt.
    assert (Hj4 : ~ In j (tr_nodes t4)).
    { intros Hc. apply (ti_in _ _ _ _ _ _ H4) in Hc. apply asubst_ids_in in Hc as [Hc|Hc].
      - apply Hjt, (ti_in _ _ _ _ _ _ H), Hc.
      - simpl in Hc. lia. }
    rewrite R6, R5, Hframe; auto; try lia.
    intros Hc. apply (ti_in _ _ _ _ _ _ H5) in Hc. apply asubst_ids_in in Hc as [Hc|Hc].
    + apply Hj4, (ti_in _ _ _ _ _ _ H4), Hc.
    + apply B5 in Hc. lia.
Qed.
