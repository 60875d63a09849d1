(** Proofs about call histories on one tree. *)
From Coq Require Import Reals Lra Permutation.
From Verif Require Import Base Fl Ext MData MSplit MTree MSampler MHist MTreeHist Spec SpecTree LFl LList PData PSplit PDataProps PCond PTree PPred.

Lemma np_choice_in {A} (d : A) xs idx x rest : np_choice d xs idx = Ok (x, rest) -> In x xs.
Proof.
  unfold np_choice. destruct xs as [|y ys]; [discriminate|]. destruct idx; [discriminate|].
  intros E; injection E as <- <-. apply choose_in. discriminate.
Qed.
Lemma sample_grow_spec h t idx m h1 idx' : sample_grow_mutation h t idx = Ok (m, h1, idx') ->
  exists i v x p s i1 i2, In i (splittable_leaf_nodes h t) /\ node_split h i = Some s /\
    In v (fst (splittable_variables (d_X (sp_data s)))) /\
    random_splittable_value (d_X (sp_data s)) v i1 = Ok (x, i2) /\
    split_node h i (fresh_le v x) (fresh_gt v x) = Ok (p, h1) /\ grow_mutation h1 i p = Ok m.
Proof.
  unfold sample_grow_mutation, random_splittable_leaf_node.
  destruct (splittable_leaf_nodes h t) as [|n ns] eqn:En; [discriminate|].
  destruct (np_choice 0 (n :: ns) idx) as [[i i1]| |] eqn:E1; try discriminate. cbn [rbind].
  apply np_choice_in in E1. unfold sample_split_node, node_data.
  destruct (node_split h i) as [s|] eqn:Es; try discriminate.
  unfold sample_split_condition.
  destruct (np_choice 0 (fst (splittable_variables (d_X (sp_data s)))) i1) as [[v i2]| |] eqn:E2; try discriminate. cbn [rbind].
  apply np_choice_in in E2.
  destruct (random_splittable_value (d_X (sp_data s)) v i2) as [[x i3]| |] eqn:E3; try discriminate. cbn [rbind].
  change (SC v x OpLe None None) with (fresh_le v x). change (SC v x OpGt None None) with (fresh_gt v x).
  destruct (split_node h i (fresh_le v x) (fresh_gt v x)) as [[p h2]| |] eqn:E4; try discriminate. cbn [rbind].
  destruct (grow_mutation h2 i p) as [m'| |] eqn:E5; try discriminate. cbn [rbind].
  intros E; injection E as <- <- <-. exists i, v, x, p, s, i2, i3. auto 10.
Qed.
Lemma sample_prune_spec h t idx m h1 idx' : sample_prune_mutation h t idx = Ok (m, h1, idx') ->
  exists i n, In i (prunable_decision_nodes h t) /\ h_get h i = Some n /\
    h1 = snd (h_alloc h (Nd (KLeaf 0%R) (nd_split n) (nd_depth n))) /\
    prune_mutation h1 i (h_next h) = Ok m.
Proof.
  unfold sample_prune_mutation, random_prunable_decision_node.
  destruct (prunable_decision_nodes h t) as [|n0 ns] eqn:En; [discriminate|].
  destruct (np_choice 0 (n0 :: ns) idx) as [[i i1]| |] eqn:E1; try discriminate. cbn [rbind].
  apply np_choice_in in E1. destruct (h_get h i) as [n|] eqn:Eg; try discriminate. unfold h_alloc at 1.
  destruct (prune_mutation _ i (h_next h)) as [m'| |] eqn:E5; try discriminate. cbn [rbind].
  intros E; injection E as <- <- <-. exists i, n. auto.
Qed.

(** every leaf holds a row *)
(** the split made at a node was an offered one: the column varies in the node beyond its first row and
    the threshold occurs in it *)
Definition chosen (X : matrix) (cs : list rule) (v : nat) (x : fl) : Prop :=
  v < mx_ncols X /\ (exists r, In r (mx_rows X) /\ kept cs r = true /\ cell r v = x) /\
  let ok i := i < length (mx_rows X) /\ kept cs (nth i (mx_rows X) []) = true in
  exists k i j, k < i /\ k < j /\ ok k /\ ok i /\ ok j /\ value_in X i v <> value_in X j v.
Fixpoint filled (X : matrix) (cs : list rule) (a : atree) : Prop :=
  match a with
  | ALeaf _ => exists r, In r (mx_rows X) /\ kept cs r = true
  | ANode _ v x l r => chosen X cs v x /\ filled X (cs ++ [Rl v x true]) l /\ filled X (cs ++ [Rl v x false]) r
  end.
Lemma filled_some X a : forall cs, filled X cs a -> exists r, In r (mx_rows X) /\ kept cs r = true.
Proof.
  induction a as [i|i v x l IHl r IHr]; intros cs; simpl; auto.
  intros [_ [Hl _]]. apply IHl in Hl as (r0&Hr&Hk). exists r0. split; auto. rewrite kept_snoc in Hk.
  apply andb_true_iff in Hk. tauto.
Qed.
Lemma filled_subst X b a : forall cs d i ci di ai, NoDup (aids a) -> afind cs d i a = Some (ci, di, ai) ->
  filled X cs a -> (filled X ci ai -> filled X ci b) -> filled X cs (asubst i b a).
Proof.
  induction a as [j|j v x l IHl r IHr]; intros cs d i ci di ai Hn; simpl; destruct (Nat.eqb_spec j i) as [E|Hne].
  - intros H; injection H as <- <- <-. auto.
  - discriminate.
  - intros H; injection H as <- <- <-. auto.
  - simpl in Hn. inversion Hn as [|? ? Hj Hn']; subst. apply NoDup_app_disj in Hn' as (Hl&Hr&Hd).
    destruct (afind _ _ _ l) as [[[c0 d0] a0]|] eqn:El.
    + intros H; injection H as <- <- <-. intros (Fc&Fl&Fr) Hb. pose proof (afind_sub _ _ _ _ _ _ _ El) as [Ei Hin].
      simpl. split; [exact Fc|]. split; [eapply IHl; eauto|]. rewrite asubst_notin; auto.
      intros Hi. apply (Hd i); auto. apply Hin. rewrite <- Ei. apply aroot_in.
    + intros Er. intros (Fc&Fl&Fr) Hb. pose proof (afind_sub _ _ _ _ _ _ _ Er) as [Ei Hin].
      simpl. split; [exact Fc|]. split; [|eapply IHr; eauto]. rewrite asubst_notin; auto.
      intros Hi. apply (Hd i); auto. apply Hin. rewrite <- Ei. apply aroot_in.
Qed.
Lemma sampled_fills X oy cs s v ds x rest : no_nan X -> sinv X oy cs s ->
  random_splittable_value (d_X (sp_data s)) v ds = Ok (x, rest) -> 
  x <> FNaN /\ (exists r, In r (mx_rows X) /\ kept (cs ++ [Rl v x true]) r = true) /\
  (exists r, In r (mx_rows X) /\ kept (cs ++ [Rl v x false]) r = true).
Proof.
  intros Hnan Hs H. apply (rsv_value X oy cs s Hnan Hs) in H as (Hin&i&j&Hi&Hj&Hx&Hlt&_).
  apply (offered_varies X oy cs s Hnan Hs) in Hin as (Hv&_).
  pose proof (proj1 (in_node_kept _ _ _ _ i Hs) Hi) as [Hi1 Hi2].
  pose proof (proj1 (in_node_kept _ _ _ _ j Hs) Hj) as [Hj1 Hj2].
  unfold value_in in *.
  assert (Hx' : x <> FNaN). { rewrite <- Hx. apply Hnan; auto. apply nth_In; auto. }
  assert (Hvj : cell (nth j (mx_rows X) []) v <> FNaN). { apply Hnan; auto. apply nth_In; auto. }
  split; auto. apply not_nan in Hx', Hvj. split.
  - exists (nth i (mx_rows X) []). split; [apply nth_In; auto|]. rewrite kept_snoc, Hi2. unfold excluded; simpl.
    rewrite Hx. rewrite fgt_negb by auto. now rewrite fle_refl.
  - exists (nth j (mx_rows X) []). split; [apply nth_In; auto|]. rewrite kept_snoc, Hj2. unfold excluded; simpl.
    rewrite fle_negb by auto. now rewrite Hlt.
Qed.

Lemma sampled_chosen X oy cs s v ds x rest : no_nan X -> sinv X oy cs s ->
  random_splittable_value (d_X (sp_data s)) v ds = Ok (x, rest) -> chosen X cs v x.
Proof.
  intros Hnan Hs H. apply (rsv_value X oy cs s Hnan Hs) in H as (Hin&i0&j0&Hi0&_&Hx&_).
  apply (offered_iff X oy cs s Hnan Hs) in Hin as (Hv&k&i&j&Hki&Hkj&Hk&Hi&Hj&Hd).
  assert (Hin : forall q, in_node s q -> q < length (mx_rows X) /\ kept cs (nth q (mx_rows X) []) = true).
  { intros q Hq. apply (in_node_kept _ _ _ _ q Hs). exact Hq. }
  split; auto. split.
  - exists (nth i0 (mx_rows X) []). destruct (Hin i0 Hi0). split; [apply nth_In; auto|]. split; auto.
  - simpl. exists k, i, j. auto 10.
Qed.

Definition stays (h : heap) (t : tree) (h' : heap) (t' : tree) : Prop :=
  h_next h <= h_next h' /\
  (forall j, j < h_next h -> ~ In j (tr_nodes t) -> h_get h' j = h_get h j) /\
  (forall j, In j (tr_nodes t') -> In j (tr_nodes t) \/ h_next h <= j).

Lemma grow_full h X oy t a i v x p h1 m r : no_nan X -> tree_inv h X oy t a -> x <> FNaN ->
  split_node h i (fresh_le v x) (fresh_gt v x) = Ok (p, h1) -> grow_mutation h1 i p = Ok m ->
  done (mutate h1 t m) = Ok r ->
  In i (tr_nodes t) /\ is_leaf h i = true /\ m = Mu MGrow i p /\ p = S (S (h_next h)) /\
  h_next h1 = S (S (S (h_next h))) /\
  exists l1, remove_first i (tr_nodes t) = Some l1 /\
    let l4 := l1 ++ [h_next h; S (h_next h); p] in
    let h2 := relink h1 l4 i p in
    r = (h2, Tr l4 false (tr_pred t)) /\
    tree_inv h2 X oy (Tr l4 false (tr_pred t)) (asubst i (ANode p v x (ALeaf (h_next h)) (ALeaf (S (h_next h)))) a) /\
    (forall j, j < h_next h -> h_get h2 j = if mem j l1 then relinked i p (h_get h j) else h_get h j).
Proof.
  intros Hnan H Hx Hsp Hg Hd. 
  assert (Hm : m = Mu MGrow i p /\ is_leaf h1 i = true).
  { unfold grow_mutation in Hg. destruct (is_leaf h1 i); simpl in Hg; [|discriminate]. injection Hg as <-. auto. }
  destruct Hm as [-> Hl1].
  assert (Hi : In i (tr_nodes t)).
  { unfold mutate, done in Hd. simpl in Hd. pose proof (remove_first_spec i (tr_nodes t)) as Hs.
    destruct (remove_first i (tr_nodes t)) as [l1|]; [|discriminate].
    destruct Hs as (l2&l3&->&_). apply in_app_iff. simpl; auto. }
  assert (Hl : is_leaf h i = true).
  { pose proof (split_node_spec _ _ _ _ _ _ Hsp) as (k&s&d&s'&sl&sr&E&_&_&_&Hold&_).
    unfold is_leaf in *. rewrite Hold in Hl1; auto. apply (ti_below _ _ _ _ _ H), (ti_in _ _ _ _ _ _ H), Hi. }
  destruct (grow_step h X oy t a i v x p h1 Hnan H Hi Hl Hx Hsp) as (Hp&Hn&_&l1&Hr&Hmut&Hinv&Hget).
  rewrite Hmut in Hd. simpl in Hd. injection Hd as <-. 
  split; auto. split; auto. split; auto. split; auto. split; auto. exists l1. split; auto.
Qed.
Lemma prune_full h X oy t a i n m r : tree_inv h X oy t a -> h_get h i = Some n ->
  let h1 := snd (h_alloc h (Nd (KLeaf 0%R) (nd_split n) (nd_depth n))) in
  prune_mutation h1 i (h_next h) = Ok m -> done (mutate h1 t m) = Ok r ->
  In i (tr_nodes t) /\ is_prunable h i = true /\ m = Mu MPrune i (h_next h).
Proof.
  intros H Eg h1 Hp Hd.
  assert (Hm : m = Mu MPrune i (h_next h) /\ is_prunable h1 i = true).
  { unfold prune_mutation in Hp. destruct (is_dec h1 i), (is_prunable h1 i); simpl in Hp; try discriminate. injection Hp as <-. auto. }
  destruct Hm as [-> Hl1].
  assert (Hi : In i (tr_nodes t)).
  { unfold mutate, done in Hd. simpl in Hd. pose proof (remove_first_spec i (tr_nodes t)) as Hs.
    destruct (remove_first i (tr_nodes t)) as [l1|]; [|discriminate].
    destruct Hs as (l2&l3&->&_). apply in_app_iff. simpl; auto. }
  split; auto. split; auto.
  pose proof (proj1 (ti_in _ _ _ _ _ _ H) Hi) as Hia.
  destruct (afind_in a [] 0 i Hia) as ([[ci di] ai]&Hf).
  pose proof (afind_aok _ _ _ _ _ _ _ _ _ _ (ti_ok _ _ _ _ _ H) Hf) as Ha.
  pose proof (afind_sub _ _ _ _ _ _ _ Hf) as [Ei Hsub].
  assert (Hold: forall j, j < h_next h -> h_get h1 j = h_get h j).
  { intros j Hj. unfold h1; simpl. destruct (Nat.eqb_spec j (h_next h)); auto; lia. }
  clearbody h1.
  assert (Hb : forall j, In j (aids ai) -> j < h_next h) by (intros j Hj; apply (ti_below _ _ _ _ _ H); auto).
  unfold is_prunable, left_child, right_child in *.
  rewrite Hold in Hl1 by (apply Hb; rewrite <- Ei; apply aroot_in).
  destruct ai as [j|j v x l r0]; simpl in *; subst j.
  - destruct Ha as (w&s&E&_). rewrite E in Hl1. discriminate.
  - destruct Ha as ((s&E&_)&_). rewrite E in Hl1 |- *. apply andb_true_iff in Hl1 as [A B].
    unfold is_leaf in *. rewrite Hold in A, B; [now rewrite A, B|..];
    apply Hb; right; apply in_app_iff; [right|left]; apply aroot_in.
Qed.

Definition y_after (y : list R) (o : tree_op) : list R := last_tree_target y [o].
Lemma tree_predict_shape h t v t' : tree_predict h t = Ok (v, t') -> t' = Tr (tr_nodes t) true (Some v).
Proof.
  unfold tree_predict. destruct (if tr_fresh t then _ else _) as [[p|]| |]; simpl; try discriminate.
  intros E; injection E as <- <-. auto.
Qed.
Lemma tree_inv_cache h X oy t a f p : tree_inv h X oy t a -> tree_inv h X oy (Tr (tr_nodes t) f p) a.
Proof. intros []. constructor; auto. Qed.
Lemma tree_inv_heap h h' X oy t a : tree_inv h X oy t a -> h_next h <= h_next h' ->
  (forall j, In j (tr_nodes t) -> h_get h' j = h_get h j) -> tree_inv h' X oy t a.
Proof.
  intros H Hn Hg. pose proof H as [H1 H2 H3 H4]. constructor; auto.
  - apply (aok_ext h); auto. intros j Hj. apply Hg. apply (ti_in _ _ _ _ _ _ H). exact Hj.
  - intros j Hj. apply H4 in Hj. lia.
Qed.
Lemma remove_first_incl i (l l1 : list nat) j : remove_first i l = Some l1 -> In j l1 -> In j l.
Proof.
  intros E. pose proof (remove_first_spec i l) as Hs. rewrite E in Hs. destruct Hs as (a&b&->&->&_).
  rewrite !in_app_iff. simpl. tauto.
Qed.
Lemma perm_remove i (l l1 : list nat) : remove_first i l = Some l1 -> NoDup l -> 
  forall j, In j l1 <-> In j l /\ j <> i.
Proof.
  intros E Hn j. pose proof (remove_first_spec i l) as Hs. rewrite E in Hs. destruct Hs as (a&b&->&->&_).
  apply NoDup_remove in Hn as [_ Hn]. rewrite !in_app_iff in *. simpl. split.
  - intros H. split; [tauto|]. intros ->. tauto.
  - intros [H Hne]. intuition congruence.
Qed.
Lemma ti_tnodup h X oy t a : tree_inv h X oy t a -> NoDup (tr_nodes t).
Proof. intros H. eapply Permutation_NoDup; [symmetry; apply H|apply H]. Qed.
Lemma nodes_below h X oy t a j : tree_inv h X oy t a -> In j (tr_nodes t) -> j < h_next h.
Proof. intros H Hj. apply (ti_below _ _ _ _ _ H), (ti_in _ _ _ _ _ _ H), Hj. Qed.

(** what a successful call does *)
Inductive did (X : matrix) (h : heap) (t : tree) (a : atree) : heap -> tree -> atree -> Prop :=
| did_grow i v x h1 p l1 (Hi : In i (tr_nodes t)) (Hl : is_leaf h i = true) (Hx : x <> FNaN)
    (Hsp : split_node h i (fresh_le v x) (fresh_gt v x) = Ok (p, h1))
    (Hr : remove_first i (tr_nodes t) = Some l1) :
    let l4 := l1 ++ [h_next h; S (h_next h); p] in
    did X h t a (relink h1 l4 i p) (Tr l4 false (tr_pred t))
      (asubst i (ANode p v x (ALeaf (h_next h)) (ALeaf (S (h_next h)))) a)
| did_prune i v x jl jr s d ci l1 l2 l3 (Hi : In i (tr_nodes t)) (Hp : is_prunable h i = true)
    (Hf : afind [] 0 i a = Some (ci, d, ANode i v x (ALeaf jl) (ALeaf jr)))
    (Hg : h_get h i = Some (Nd (KDec jl jr) (SFull s) d))
    (Hr1 : remove_first i (tr_nodes t) = Some l1) (Hr2 : remove_first jl l1 = Some l2)
    (Hr3 : remove_first jr l2 = Some l3) :
    let u := h_next h in
    let h1 := snd (h_alloc h (Nd (KLeaf 0%R) (SFull s) d)) in
    did X h t a (relink h1 (l3 ++ [u]) i u) (Tr (l3 ++ [u]) false (tr_pred t)) (asubst i (ALeaf u) a).

Lemma did_grow_op h X oy t a i v x p h1 m r : no_nan X -> tree_inv h X oy t a -> x <> FNaN ->
  split_node h i (fresh_le v x) (fresh_gt v x) = Ok (p, h1) -> grow_mutation h1 i p = Ok m ->
  done (mutate h1 t m) = Ok r ->
  exists a', did X h t a (fst r) (snd r) a' /\ tree_inv (fst r) X oy (snd r) a' /\ stays h t (fst r) (snd r) /\
    (forall ci di, afind [] 0 i a = Some (ci, di, ALeaf i) -> chosen X ci v x ->
      (exists r, In r (mx_rows X) /\ kept (ci ++ [Rl v x true]) r = true) ->
      (exists r, In r (mx_rows X) /\ kept (ci ++ [Rl v x false]) r = true) -> filled X [] a -> filled X [] a').
Proof.
  intros Hnan H Hx Hsp Hg Hd. 
  destruct (grow_full _ _ _ _ _ _ _ _ _ _ _ _ Hnan H Hx Hsp Hg Hd) as (Hi&Hl&->&Hp&Hn&l1&Hr&Er&Hinv&Hget).
  subst r. simpl. eexists. split; [eapply did_grow; eauto|]. split; [exact Hinv|]. split.
  - unfold stays. rewrite relink_next, Hn. split; [lia|]. split.
    + intros j Hj Hnj. rewrite Hget by auto. replace (mem j l1) with false; auto. symmetry. apply mem_not.
      intros Hin. apply Hnj. eapply perm_remove in Hin; eauto using ti_tnodup. tauto.
    + simpl. intros j Hj. apply in_app_iff in Hj as [Hj|Hj].
      * left. eapply perm_remove in Hj; eauto using ti_tnodup. tauto.
      * right. simpl in Hj. intuition subst; lia.
  - intros ci di Hf F0 F1 F2 Ff. eapply filled_subst; eauto using ti_nodup. intros _. simpl. auto.
Qed.
Lemma did_prune_op h X oy t a i n m r : tree_inv h X oy t a -> h_get h i = Some n ->
  let h1 := snd (h_alloc h (Nd (KLeaf 0%R) (nd_split n) (nd_depth n))) in
  prune_mutation h1 i (h_next h) = Ok m -> done (mutate h1 t m) = Ok r ->
  exists a', did X h t a (fst r) (snd r) a' /\ tree_inv (fst r) X oy (snd r) a' /\ stays h t (fst r) (snd r) /\
    (filled X [] a -> filled X [] a').
Proof.
  intros H Eg h1 Hp Hd. destruct (prune_full _ _ _ _ _ _ _ _ _ H Eg Hp Hd) as (Hi&Hl&->).
  destruct (prune_step _ _ _ _ _ _ H Hi Hl) as (v&x&jl&jr&s&d&ci&Hf&Hg&Hs&Hpm&l1&l2&l3&Hr1&Hr2&Hr3&Hmut&Hinv&Hget).
  rewrite Eg in Hg. injection Hg as ->. change (done (mutate (snd (h_alloc h (Nd (KLeaf 0%R) (SFull s) d))) t (Mu MPrune i (h_next h))) = Ok r) in Hd.
  rewrite Hmut in Hd. simpl in Hd. injection Hd as <-. simpl fst. simpl snd.
  eexists. split; [eapply did_prune; eauto|]. split; [exact Hinv|]. 
  assert (Hn1 : NoDup (tr_nodes t)) by eauto using ti_tnodup.
  assert (Hsub : forall j, In j l3 -> In j (tr_nodes t)).
  { intros j Hj. eapply remove_first_incl; [exact Hr1|]. eapply remove_first_incl; [exact Hr2|]. eapply remove_first_incl; [exact Hr3|]. exact Hj. }
  split.
  - unfold stays. rewrite relink_next. simpl. split; [lia|]. split.
    + intros j Hj Hnj. rewrite Hget by auto. replace (mem j l3) with false; auto. symmetry. apply mem_not.
      intros Hin. auto.
    + simpl. intros j Hj. apply in_app_iff in Hj as [Hj|Hj]; [auto|]. right. simpl in Hj. intuition subst; lia.
  - intros Ff. eapply filled_subst; eauto using ti_nodup. apply filled_some.
Qed.

Lemma tree_do_inv h X y t a o h' t' : no_nan X -> tree_inv h X (Some y) t a -> 
  sane_tree_op (length (mx_rows X)) o -> tree_do h t o = Ok (h', t') ->
  exists a', tree_inv h' X (Some (y_after y o)) t' a' /\ stays h t h' t' /\
    (proposed_op o -> filled X [] a -> filled X [] a').
Proof.
  intros Hnan H Hs. destruct o as [i v x|i|idx|idx|idx|idx|i w|y0|]; cbn [tree_do]; unfold y_after; cbn [last_tree_target].
  - destruct (split_node h i (fresh_le v x) (fresh_gt v x)) as [[p h1]| |] eqn:E1; try discriminate. cbn [rbind].
    destruct (grow_mutation h1 i p) as [m| |] eqn:E2; try discriminate. cbn [rbind]. intros Hd.
    edestruct did_grow_op as (a'&_&Ha&Hst&_); eauto. exists a'. simpl in *. tauto.
  - destruct (h_get h i) as [n|] eqn:Eg; try discriminate. unfold h_alloc at 1.
    destruct (prune_mutation _ i (h_next h)) as [m| |] eqn:E2; try discriminate. cbn [rbind]. intros Hd.
    edestruct did_prune_op as (a'&_&Ha&Hst&_); eauto. exists a'. simpl in *. tauto.
  - destruct (sample_grow_mutation h t idx) as [[[m h1] idx']| |] eqn:E; try discriminate. cbn [rbind]. intros Hd.
    apply sample_grow_spec in E as (i&v&x&p&s&i1&i2&Hi&Es&Hv&Hr&Hsp&Hg).
    unfold splittable_leaf_nodes, leaf_nodes in Hi. apply filter_In in Hi as [Hi _]. apply filter_In in Hi as [Hi Hl].
    pose proof (proj1 (ti_in _ _ _ _ _ _ H) Hi) as Hia. destruct (afind_in a [] 0 i Hia) as ([[ci di] ai]&Hf).
    pose proof (afind_leaf _ _ _ _ _ _ _ _ _ _ (ti_ok _ _ _ _ _ H) Hf Hl) as ->.
    pose proof (afind_aok _ _ _ _ _ _ _ _ _ _ (ti_ok _ _ _ _ _ H) Hf) as (w&s0&Eg&Hs0).
    unfold node_split in Es. rewrite Eg in Es. injection Es as ->.
    destruct (sampled_fills _ _ _ _ _ _ _ _ Hnan Hs0 Hr) as (Hx&F1&F2). pose proof (sampled_chosen _ _ _ _ _ _ _ _ Hnan Hs0 Hr) as F0.
    destruct (did_grow_op _ _ _ _ _ _ _ _ _ _ _ _ Hnan H Hx Hsp Hg Hd) as (a'&_&Ha&Hst&Hfil). exists a'. simpl in *. eauto 6.
  - destruct (sample_prune_mutation h t idx) as [[[m h1] idx']| |] eqn:E; try discriminate. cbn [rbind]. intros Hd.
    apply sample_prune_spec in E as (i&n&Hi&Eg&->&Hpm).
    destruct (did_prune_op _ _ _ _ _ _ _ _ _ H Eg Hpm Hd) as (a'&_&Ha&Hst&Hfil). exists a'. simpl in *. tauto.
  - destruct (sample_grow_mutation h t idx) as [[[m h1] idx']| |] eqn:E; try discriminate. cbn [rbind].
    intros Hd; injection Hd as <- <-.
    apply sample_grow_spec in E as (i&v&x&p&s&i1&i2&Hi&Es&Hv&Hr&Hsp&Hg).
    apply split_node_spec in Hsp as (k&s0&d&s'&sl&sr&E&_&_&Hn&Hold&_).
    exists a. split.
    + eapply tree_inv_heap; eauto; [lia|]. intros j Hj. apply Hold. eapply nodes_below; eauto.
    + split; auto. split; [lia|]. split; auto.
  - destruct (sample_prune_mutation h t idx) as [[[m h1] idx']| |] eqn:E; try discriminate. cbn [rbind].
    intros Hd; injection Hd as <- <-.
    apply sample_prune_spec in E as (i&n&Hi&Eg&->&Hpm).
    assert (Hold: forall j, j < h_next h -> h_get (snd (h_alloc h (Nd (KLeaf 0%R) (nd_split n) (nd_depth n)))) j = h_get h j).
    { intros j Hj. simpl. destruct (Nat.eqb_spec j (h_next h)); auto; lia. }
    exists a. split.
    + eapply tree_inv_heap; eauto; [simpl; lia|]. intros j Hj. apply Hold. eapply nodes_below; eauto.
    + split; auto. split; [simpl; lia|]. split; auto.
  - destruct (existsb (Nat.eqb i) (leaf_nodes h t)) eqn:Ei; [|discriminate]. intros E; injection E as <- <-.
    exists a. split; [apply set_value_inv; auto|]. split; auto. split; [rewrite set_value_next; lia|]. split; auto.
    intros j Hj Hnj. rewrite set_value_get. apply in_existsb in Ei. unfold leaf_nodes in Ei. apply filter_In in Ei as [Ei _].
    destruct (h_get h j) as [[[w'|l r] s d]|]; auto. destruct (Nat.eqb_spec j i); [congruence|auto].
  - intros E. destruct (update_y_step h X (Some y) t a (Some y0) H) as (h2&E2&N2&G2&I2).
    { intros y' Ey; injection Ey as <-. auto. }
    rewrite E2 in E. injection E as <- <-. exists a. split; auto. split; auto.
    split; [lia|]. split; auto. intros j Hj Hnj. rewrite G2. apply mem_not in Hnj. now rewrite Hnj.
  - destruct (tree_predict h t) as [[p t1]| |] eqn:E; try discriminate. cbn [rbind]. intros E'; injection E' as <- <-.
    apply tree_predict_shape in E as ->. exists a. split; [apply tree_inv_cache; auto|].
    split; auto. split; [lia|]. split; auto.
Qed.

Lemma start_inv X y normalize h0 s : length y = length (mx_rows X) -> root_split X y normalize = Ok s ->
  tree_inv (fst (start_tree h0 s)) X (Some (start_target y normalize)) (snd (start_tree h0 s)) (ALeaf (h_next h0)).
Proof.
  intros Hl Hr. constructor; simpl; auto.
  - rewrite Nat.eqb_refl. do 2 eexists. split; eauto.
    unfold start_target. destruct normalize.
    + apply root_sinv_norm in Hr as (ny&E&_&H&_); auto. now rewrite E.
    + apply root_sinv; auto.
  - repeat constructor; simpl; tauto.
  - intros j [<-|[]]. simpl. lia.
Qed.
Lemma last_tree_target_cons y o os : last_tree_target y (o :: os) = last_tree_target (y_after y o) os.
Proof. destruct o; reflexivity. Qed.
Lemma tree_run_inv X os : no_nan X -> forall h y t a h' t', tree_inv h X (Some y) t a ->
  Forall (sane_tree_op (length (mx_rows X))) os -> tree_run h t os = Ok (h', t') ->
  exists a', tree_inv h' X (Some (last_tree_target y os)) t' a' /\ stays h t h' t' /\
    (Forall proposed_op os -> filled X [] a -> filled X [] a').
Proof.
  intros Hnan. induction os as [|o os IH]; intros h y t a h' t' H Hs; simpl.
  - intros E; injection E as <- <-. exists a. split; auto. split; auto. split; [lia|auto].
  - inversion Hs; subst. destruct (tree_do h t o) as [[h1 t1]| |] eqn:E; try discriminate. cbn [rbind]. intros Hr.
    destruct (tree_do_inv _ _ _ _ _ _ _ _ Hnan H H2 E) as (a1&H1&S1&F1).
    destruct (IH _ _ _ _ _ _ H1 H3 Hr) as (a2&H2'&S2&F2).
    exists a2. split; [change (match o with TUpdateY y0 => _ | _ => _ end) with (last_tree_target y (o :: os)); now rewrite last_tree_target_cons|].
    split.
    + destruct S1 as (A1&A2&A3), S2 as (B1&B2&B3). split; [lia|]. split.
      * intros j Hj Hnj. rewrite B2; [auto|lia|]. intros Hin. apply A3 in Hin as [?|?]; [auto|lia].
      * intros j Hj. apply B3 in Hj as [Hj|Hj]; [apply A3 in Hj as [?|?]; auto|right; lia].
    + intros Hp Hf. inversion Hp; subst. auto.
Qed.
Lemma tree_reached_inv X y normalize h0 os h t : no_nan X -> tree_reached X y normalize h0 os h t ->
  exists a, tree_inv h X (Some (last_tree_target (start_target y normalize) os)) t a /\
    (Forall proposed_op os -> mx_rows X <> [] -> filled X [] a) /\
    (forall j, j < h_next h0 -> h_get h j = h_get h0 j).
Proof.
  intros Hnan (Hl&Hs&s&Hr&Hrun). rewrite Hl in Hs.
  destruct (tree_run_inv X os Hnan _ _ _ _ _ _ (start_inv X y normalize h0 s Hl Hr) Hs Hrun) as (a&Ha&(S1&S2&S3)&Hf).
  exists a. split; auto. split.
  - intros Hp Hne. apply Hf; auto. simpl. destruct (mx_rows X) as [|r rows]; [congruence|]. exists r. simpl; auto.
  - intros j Hj. rewrite S2; simpl in *.
    + destruct (Nat.eqb_spec j (h_next h0)); auto; lia.
    + lia.
    + intros [?|[]]. lia.
Qed.
