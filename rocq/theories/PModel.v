(** Invariants of models. *)
From Coq Require Import Reals Lra Permutation.
From Verif Require Import Base Fl Ext MData MSplit MTree MSampler MHist MTreeHist MModel MModelHist Spec SpecTree SpecModel LFl LList
  PData PSplit PDataProps PCond PTree PPred PTreeHist PTreeProps PTreeProps2.

(** ** lists *)
Lemma vop_nth f a b v : vop f a b = Ok v -> length a = length b /\ length v = length a /\
  forall i, i < length a -> nth i v 0%R = f (nth i a 0%R) (nth i b 0%R).
Proof.
  unfold vop. destruct (Nat.eqb_spec (length a) (length b)) as [E|]; [|discriminate]. intros H; injection H as <-.
  split; auto. clear -E. revert b E; induction a as [|x a IH]; intros [|y b] E; simpl in *; try lia.
  - split; auto. intros; lia.
  - destruct (IH b) as [H1 H2]; [lia|]. split; [lia|]. intros [|i] Hi; auto. apply H2. lia.
Qed.
Lemma vop_ok f a b : length a = length b -> exists v, vop f a b = Ok v.
Proof. intros E. unfold vop. rewrite E, Nat.eqb_refl. eauto. Qed.
Lemma vop_sum f a b n : length a = n -> length b = n -> exists v, vop f a b = Ok v /\ length v = n /\
  forall i, i < n -> nth i v 0%R = f (nth i a 0%R) (nth i b 0%R).
Proof.
  intros Ha Hb. destruct (vop_ok f a b) as (v&Hv); [congruence|]. exists v. destruct (vop_nth _ _ _ _ Hv) as (_&H1&H2).
  split; auto. split; [congruence|]. intros i Hi. apply H2. lia.
Qed.
Lemma set_nth_length {A} j (x : A) l : length (set_nth j x l) = length l.
Proof. revert j; induction l; intros [|j]; simpl; auto. Qed.
Lemma set_nth_error {A} j (x : A) l i : nth_error (set_nth j x l) i =
  if Nat.eqb i j then match nth_error l i with Some _ => Some x | None => None end else nth_error l i.
Proof.
  revert j i; induction l as [|y l IH]; intros [|j] [|i]; simpl; auto.
  all: try (destruct (Nat.eqb i j); reflexivity). all: try now destruct i. all: apply IH.
Qed.
Lemma nth_set_nth j (x : R) l : j < length l -> nth j (set_nth j x l) 0%R = x.
Proof. revert j; induction l; intros [|j]; simpl; intros H; auto; try lia. apply IHl. lia. Qed.
Lemma set_nth_twice {A} j (x y : A) l : set_nth j x (set_nth j y l) = set_nth j x l.
Proof. revert j; induction l; intros [|j]; simpl; auto. now rewrite IHl. Qed.
Lemma set_nth_same {A} j (x : A) l : nth_error l j = Some x -> set_nth j x l = l.
Proof.
  revert j; induction l as [|y l IH]; intros [|j]; simpl; try discriminate; auto.
  - now intros [= ->].
  - intros H. now rewrite IH.
Qed.
Lemma map_set_nth {A B} (f : A -> B) j x l : map f (set_nth j x l) = set_nth j (f x) (map f l).
Proof. revert j; induction l; intros [|j]; simpl; auto. now rewrite IHl. Qed.
Lemma rsum_set_nth j x l : j < length l -> rsum (set_nth j x l) = (rsum l - nth j l 0 + x)%R.
Proof.
  unfold rsum. revert j; induction l as [|y l IH]; intros [|j]; simpl; intros H; try lia.
  - lra.
  - rewrite IH by lia. lra.
Qed.
Lemma rsum_others k (l : list R) : k < length l -> rsum (others k l) = (rsum l - nth k l 0)%R.
Proof.
  unfold others, rsum. revert k; induction l as [|y l IH]; intros [|k] H; simpl in *; try lia.
  - lra.
  - rewrite IH by lia. lra.
Qed.
Lemma map_others {A B} (f : A -> B) k l : map f (others k l) = others k (map f l).
Proof. unfold others. now rewrite map_app, firstn_map, skipn_map. Qed.
Lemma nth_error_map_some {A B} (f : A -> B) l i x : nth_error l i = Some x -> nth_error (map f l) i = Some (f x).
Proof. intros H. rewrite nth_error_map, H. reflexivity. Qed.

Lemma nth_error_ext_eq {A} (l m : list A) : (forall i, nth_error l i = nth_error m i) -> l = m.
Proof.
  revert m; induction l as [|x l IH]; intros [|y m] H; auto; try (specialize (H 0); discriminate).
  f_equal; [specialize (H 0); simpl in H; congruence|]. apply IH. intros i. apply (H (S i)).
Qed.

(** ** the invariant *)
(** The trees [ts] in heap [h] are well formed (with shapes [As]), have no nodes in common, and their cached
    predictions are right; [op] is the tree currently handed out; [np]: no prediction has been made yet. *)
Record mst (X : matrix) (op : option nat) (np : Prop) (h : heap) (ts : list tree) (As : list atree) : Prop := {
  ms_len : length As = length ts;
  ms_tree : forall j t a, nth_error ts j = Some t -> nth_error As j = Some a ->
    exists oy, tree_inv h X oy t a /\ (op = Some j -> oy <> None);
  ms_disj : forall i j a b k, nth_error As i = Some a -> nth_error As j = Some b -> In k (aids a) -> In k (aids b) -> i = j;
  ms_cache : forall j t a, nth_error ts j = Some t -> nth_error As j = Some a ->
    tr_fresh t = true -> tr_pred t = Some (insample h X a) /\ op <> Some j;
  ms_buf : forall j t a, nth_error ts j = Some t -> nth_error As j = Some a ->
    (exists b, tr_pred t = Some b /\ length b = length (mx_rows X)) \/ (tr_pred t = None /\ np /\ exists i, a = ALeaf i);
  ms_op : forall j, op = Some j -> j < length As }.
(** the trees' predictions for row [i] *)
Definition col (h : heap) (X : matrix) (As : list atree) (i : nat) : list R := map (fun a => nth i (insample h X a) 0%R) As.
Definition own (op : option nat) (l : list R) : R := match op with Some j => nth j l 0%R | None => 0%R end.
Record minv (X : matrix) (y : list R) (op : option nat) (e : nat -> R) (m : model) (As : list atree) : Prop := {
  mi_st : mst X op (m_pred m = None) (m_heap m) (m_trees m) As;
  mi_pred : forall pr, m_pred m = Some pr -> length pr = length (mx_rows X) /\
    forall i, i < length (mx_rows X) -> nth i pr 0%R = (rsum (col (m_heap m) X As i) - own op (col (m_heap m) X As i) - e i)%R;
  mi_none : m_pred m = None -> op = None /\ forall i, e i = 0%R;
  mi_y : t_y (d_y (m_data m)) = Some y;
  mi_ylen : length y = length (mx_rows X);
  mi_mask : length (d_mask (m_data m)) = length (mx_rows X);
  mi_n : pz (cm_nobsv (d_X (m_data m))) = Z.of_nat (length (mx_rows X));
  mi_target : forall j, op = Some j -> exists t a ty, nth_error (m_trees m) j = Some t /\ nth_error As j = Some a /\
    tree_inv (m_heap m) X (Some ty) t a /\ length ty = length (mx_rows X) /\
    forall pr, m_pred m = Some pr -> forall i, i < length (mx_rows X) -> nth i ty 0%R = (nth i y 0 - nth i pr 0)%R }.

Lemma col_length h X As i : length (col h X As i) = length As.
Proof. apply map_length. Qed.
Lemma col_nth h X As i j a : nth_error As j = Some a -> nth j (col h X As i) 0%R = nth i (insample h X a) 0%R.
Proof. intros H. apply nth_error_nth. unfold col. now apply nth_error_map_some with (f := fun a => nth i (insample h X a) 0%R). Qed.
Lemma insample_length h X a : length (insample h X a) = length (mx_rows X).
Proof. apply map_length. Qed.
Lemma nth_error_both {A B} (l : list A) (l' : list B) j x : length l = length l' -> nth_error l j = Some x -> exists y, nth_error l' j = Some y.
Proof.
  intros Hl H. destruct (nth_error l' j) eqn:E; eauto. apply nth_error_None in E.
  assert (j < length l) by (apply nth_error_Some; congruence). lia.
Qed.

Lemma stays_refl h t f p : stays h t h (Tr (tr_nodes t) f p).
Proof. split; [lia|]. split; auto. Qed.
(** one tree replaced *)
Lemma others_frame X op np h ts As j t a h' t' k tk b :
  mst X op np h ts As -> nth_error ts j = Some t -> nth_error As j = Some a -> stays h t h' t' ->
  k <> j -> nth_error ts k = Some tk -> nth_error As k = Some b ->
  forall q, In q (aids b) -> h_get h' q = h_get h q.
Proof.
  intros H Ht Ha (S1&S2&S3) Hk Htk Hb q Hq.
  destruct (ms_tree _ _ _ _ _ _ H _ _ _ Htk Hb) as (oy&Hi&_).
  destruct (ms_tree _ _ _ _ _ _ H _ _ _ Ht Ha) as (oy'&Hi'&_).
  apply S2; [apply (ti_below _ _ _ _ _ Hi); auto|]. intros Hin. apply (ti_in _ _ _ _ _ _ Hi') in Hin.
  apply Hk. exact (ms_disj _ _ _ _ _ _ H _ _ _ _ _ Hb Ha Hq Hin).
Qed.
Lemma mst_upd X op op' (np np' : Prop) h ts As j t a h' t' a' oy' :
  mst X op np h ts As -> nth_error ts j = Some t -> nth_error As j = Some a ->
  stays h t h' t' -> tree_inv h' X oy' t' a' -> (op' = Some j -> oy' <> None) ->
  (forall k, k <> j -> op' = Some k -> op = Some k) -> (np -> np') ->
  (tr_fresh t' = true -> tr_pred t' = Some (insample h' X a') /\ op' <> Some j) ->
  ((exists b, tr_pred t' = Some b /\ length b = length (mx_rows X)) \/ (tr_pred t' = None /\ np' /\ exists i, a' = ALeaf i)) ->
  mst X op' np' h' (set_nth j t' ts) (set_nth j a' As) /\
  (forall i, col h' X (set_nth j a' As) i = set_nth j (nth i (insample h' X a') 0%R) (col h X As i)).
Proof.
  intros H Ht Ha Hst Hi Hoy Hop Hnp Hc Hb.
  assert (Hj : j < length As) by (apply nth_error_Some; congruence).
  assert (Hins : forall k b, k <> j -> nth_error As k = Some b -> insample h' X b = insample h X b).
  { intros k b Hk Hkb. destruct (nth_error_both As ts k b (ms_len _ _ _ _ _ _ H) Hkb) as (tk&Htk).
    apply insample_ext. exact (others_frame X op np h ts As j t a h' t' k tk b H Ht Ha Hst Hk Htk Hkb). }
  destruct (ms_tree _ _ _ _ _ _ H _ _ _ Ht Ha) as (oy&Hia&_).
  split; [split|].
  - rewrite !set_nth_length. apply H.
  - intros k tk b. rewrite !set_nth_error. destruct (Nat.eqb_spec k j) as [->|Hk].
    + rewrite Ht, Ha. intros [= <-] [= <-]. eauto.
    + intros Htk Hkb. destruct (ms_tree _ _ _ _ _ _ H _ _ _ Htk Hkb) as (o&Hik&Ho).
      exists o. split; [|intros E; apply Ho; auto].
      apply (tree_inv_heap h h' X o tk b Hik); [apply Hst|]. intros q Hq. apply (others_frame X op np h ts As j t a h' t' k tk b H Ht Ha Hst Hk Htk Hkb). now apply (ti_in _ _ _ _ _ _ Hik).
  - intros k1 k2 b1 b2 q. rewrite !set_nth_error.
    assert (Hnew : forall k b, k <> j -> nth_error As k = Some b -> In q (aids a') -> In q (aids b) -> False).
    { intros k b Hk Hkb Hq1 Hq2. apply (ti_in _ _ _ _ _ _ Hi) in Hq1. destruct Hst as (S1&S2&S3).
      destruct (nth_error_both As ts k b (ms_len _ _ _ _ _ _ H) Hkb) as (tk&Htk).
      destruct (ms_tree _ _ _ _ _ _ H _ _ _ Htk Hkb) as (o&Hik&_).
      apply S3 in Hq1 as [Hq1|Hq1].
      - apply (ti_in _ _ _ _ _ _ Hia) in Hq1. apply Hk. exact (ms_disj _ _ _ _ _ _ H _ _ _ _ _ Hkb Ha Hq2 Hq1).
      - pose proof (ti_below _ _ _ _ _ Hik _ Hq2). lia. }
    destruct (Nat.eqb_spec k1 j) as [->|Hk1], (Nat.eqb_spec k2 j) as [->|Hk2]; rewrite ?Ha; auto.
    + intros [= <-] H2 Q1 Q2. exfalso. eauto.
    + intros H1 [= <-] Q1 Q2. exfalso. eauto.
    + intros H1 H2 Q1 Q2. exact (ms_disj _ _ _ _ _ _ H _ _ _ _ _ H1 H2 Q1 Q2).
  - intros k tk b. rewrite !set_nth_error. destruct (Nat.eqb_spec k j) as [->|Hk].
    + rewrite Ht, Ha. intros [= <-] [= <-]. auto.
    + intros Htk Hkb Hf. destruct (ms_cache _ _ _ _ _ _ H _ _ _ Htk Hkb Hf) as [E1 E2].
      rewrite (Hins k b) by auto. split; auto.
  - intros k tk b. rewrite !set_nth_error. destruct (Nat.eqb_spec k j) as [->|Hk].
    + rewrite Ht, Ha. intros [= <-] [= <-]. auto.
    + intros Htk Hkb. destruct (ms_buf _ _ _ _ _ _ H _ _ _ Htk Hkb) as [?|(?&?&?)]; auto.
  - intros k E. rewrite set_nth_length. destruct (Nat.eq_dec k j) as [->|Hk]; auto. apply (ms_op _ _ _ _ _ _ H). auto.
  - intros i. unfold col. rewrite map_set_nth. apply nth_error_ext_eq. intros k. rewrite !set_nth_error.
    destruct (Nat.eqb_spec k j) as [->|Hk]; [now rewrite !nth_error_map, Ha|].
    rewrite !nth_error_map. destruct (nth_error As k) as [b|] eqn:E; auto. simpl. now rewrite (Hins k b).
Qed.

(** ** prediction of one tree *)
Lemma predict_ready h X oy t a : no_nan X -> tree_inv h X oy t a ->
  (tr_fresh t = true -> tr_pred t = Some (insample h X a)) ->
  ((exists b, tr_pred t = Some b /\ length b = length (mx_rows X)) \/ (tr_pred t = None /\ exists i, a = ALeaf i)) ->
  tree_predict h t = Ok (insample h X a, Tr (tr_nodes t) true (Some (insample h X a))).
Proof.
  intros Hn H Hc Hb. destruct (tr_fresh t) eqn:Ef.
  - unfold tree_predict. rewrite Ef, Hc by auto. reflexivity.
  - destruct (tree_predict_spec _ _ _ _ _ Hn H Ef) as (b&Esb&->).
    assert (length b = length (mx_rows X)) as ->; [|now rewrite Nat.eqb_refl].
    unfold start_buffer in Esb. destruct Hb as [(b'&E&Hl)|(E&i&->)]; rewrite E in Esb; [congruence|].
    pose proof (ti_perm _ _ _ _ _ H) as Hp. simpl in Hp. apply Permutation_sym, Permutation_length_1_inv in Hp. rewrite Hp in Esb. simpl in Esb.
    destruct (ti_ok _ _ _ _ _ H) as (w&s&Eg&Hs). unfold node_data, node_split in Esb. rewrite Eg in Esb.
    injection Esb as <-. rewrite repeat_length.
    rewrite (cvd_n _ (si_c _ _ _ _ Hs)), (si_mask _ _ _ _ Hs), Nat2Z.id.
    unfold mask_of. clear. induction (mx_rows X); simpl; auto.
Qed.
