(** Proofs about node.py, mutation.py, tree.py: the invariant of a Tree and its preservation. *)
From Coq Require Import Reals Lra Permutation.
From Verif Require Import Base Fl Ext MData MSplit MTree MHist Spec LFl LList PData PSplit PDataProps PCond.

(** ** abstract trees: node identities and rules *)
Inductive atree := ALeaf (i : nat) | ANode (i v : nat) (x : fl) (l r : atree).
Definition aroot (a : atree) : nat := match a with ALeaf i => i | ANode i _ _ _ _ => i end.
Fixpoint aids (a : atree) : list nat :=
  match a with ALeaf i => [i] | ANode i _ _ l r => i :: aids l ++ aids r end.
Fixpoint aleafids (a : atree) : list nat :=
  match a with ALeaf i => [i] | ANode _ _ _ l r => aleafids l ++ aleafids r end.
Fixpoint adecids (a : atree) : list nat :=
  match a with ALeaf i => [] | ANode i _ _ l r => i :: adecids l ++ adecids r end.
Fixpoint aheight (a : atree) : nat :=
  match a with ALeaf _ => 1 | ANode _ _ _ l r => S (Nat.max (aheight l) (aheight r)) end.
Lemma aroot_in a : In (aroot a) (aids a).
Proof. destruct a; simpl; auto. Qed.
Lemma aheight_le a : aheight a <= length (aids a).
Proof. induction a; simpl; auto. rewrite app_length. lia. Qed.
Lemma aleaf_count a : length (aleafids a) = S (length (adecids a)).
Proof. induction a; simpl; auto. rewrite !app_length. lia. Qed.
Lemma aids_perm a : Permutation (aids a) (aleafids a ++ adecids a).
Proof.
  induction a; simpl; auto. rewrite IHa1, IHa2. clear.
  rewrite <- Permutation_middle. constructor. rewrite <- !app_assoc. apply Permutation_app_head.
  rewrite !app_assoc. apply Permutation_app_tail. apply Permutation_app_comm.
Qed.
Lemma aids_incl a j : In j (aids a) <-> In j (aleafids a) \/ In j (adecids a).
Proof.
  rewrite <- in_app_iff. split; apply Permutation_in; [apply aids_perm|symmetry; apply aids_perm].
Qed.

(** The heap holds the tree [a] below conditions [cs] at depth [d]. *)
Fixpoint aok (h : heap) (X : matrix) (oy : option (list R)) (cs : list rule) (d : nat) (a : atree) : Prop :=
  match a with
  | ALeaf i => exists w s, h_get h i = Some (Nd (KLeaf w) (SFull s) d) /\ sinv X oy cs s
  | ANode i v x l r =>
      (exists s, h_get h i = Some (Nd (KDec (aroot l) (aroot r)) (SFull s) d) /\ sinv X oy cs s) /\
      x <> FNaN /\ v < mx_ncols X /\
      aok h X oy (cs ++ [Rl v x true]) (S d) l /\ aok h X oy (cs ++ [Rl v x false]) (S d) r
  end.
Lemma aok_ext h h' X oy a : forall cs d, (forall j, In j (aids a) -> h_get h' j = h_get h j) ->
  aok h X oy cs d a -> aok h' X oy cs d a.
Proof.
  induction a as [i|i v x l IHl r IHr]; intros cs d He; simpl in *.
  - rewrite He by auto. auto.
  - rewrite He by auto. intros (H1&H2&H3&H4&H5).
    split; [auto|]. split; [auto|]. split; [auto|]. split; [apply IHl|apply IHr]; auto;
    intros; apply He; rewrite in_app_iff; auto.
Qed.
Lemma NoDup_app_disj {A} (l m : list A) : NoDup (l ++ m) <-> NoDup l /\ NoDup m /\ (forall k, In k l -> In k m -> False).
Proof.
  induction l as [|b l IH]; simpl.
  - split; [intros H; repeat split; auto; constructor|tauto].
  - split.
    + intros H; inversion H as [|? ? H1 H2]; subst. apply IH in H2 as (H2&H3&H4). rewrite in_app_iff in H1.
      repeat split; auto. { constructor; tauto. } intros k [->|Hk] Hm; eauto.
    + intros (H1&H2&H3). inversion H1; subst. constructor.
      * rewrite in_app_iff. intros [?|?]; [tauto|eauto].
      * apply IH. repeat split; auto. intros; eapply H3; eauto.
Qed.

Lemma aok_leaf_iff h X oy a : forall cs d j, aok h X oy cs d a -> In j (aids a) -> NoDup (aids a) ->
  (is_leaf h j = true <-> In j (aleafids a)) /\ (is_dec h j = true <-> In j (adecids a)).
Proof.
  induction a as [i|i v x l IHl r IHr]; intros cs d j; simpl.
  - intros (w&s&E&_) [<-|[]] _. unfold is_leaf, is_dec. rewrite E. intuition discriminate.
  - intros ((s&E&_)&_&_&Hl&Hr) Hj Hn. inversion Hn as [|? ? Hi Hn']; subst.
    apply NoDup_app_disj in Hn' as (Hnl&Hnr&Hdis).
    rewrite !in_app_iff. destruct Hj as [<-|Hj].
    + unfold is_leaf, is_dec. rewrite E. split; [|intuition].
      split; [discriminate|]. intros [H|H]; exfalso; apply Hi, in_app_iff; [left|right]; apply aids_incl; auto.
    + assert (j <> i) by (intros ->; auto). apply in_app_iff in Hj as [Hj|Hj].
      * destruct (IHl _ _ j Hl Hj Hnl) as [A B]. rewrite A, B. split; split; auto.
        -- intros [?|Hr']; auto. exfalso. eapply Hdis; eauto. apply aids_incl; auto.
        -- intros [?|[?|Hr']]; auto; [congruence|]. exfalso. eapply Hdis; eauto. apply aids_incl; auto.
      * destruct (IHr _ _ j Hr Hj Hnr) as [A B]. rewrite A, B. split; split; auto.
        -- intros [Hl'|?]; auto. exfalso. eapply Hdis; eauto. apply aids_incl; auto.
        -- intros [?|[Hl'|?]]; auto; [congruence|]. exfalso. eapply Hdis; eauto. apply aids_incl; auto.
Qed.
(** the subtree at a node, with its conditions and depth; replacing it *)
Fixpoint afind (cs : list rule) (d i : nat) (a : atree) : option (list rule * nat * atree) :=
  if Nat.eqb (aroot a) i then Some (cs, d, a) else
  match a with
  | ALeaf _ => None
  | ANode _ v x l r =>
      match afind (cs ++ [Rl v x true]) (S d) i l with
      | Some z => Some z
      | None => afind (cs ++ [Rl v x false]) (S d) i r
      end
  end.
Fixpoint asubst (i : nat) (b a : atree) : atree :=
  if Nat.eqb (aroot a) i then b else
  match a with
  | ALeaf _ => a
  | ANode j v x l r => ANode j v x (asubst i b l) (asubst i b r)
  end.
Lemma afind_in a : forall cs d i, In i (aids a) -> exists z, afind cs d i a = Some z.
Proof.
  induction a as [j|j v x l IHl r IHr]; intros cs d i; simpl.
  - intros [->|[]]. rewrite Nat.eqb_refl. eauto.
  - destruct (Nat.eqb_spec j i) as [|Hne]; [eauto|]. intros [?|H]; [congruence|].
    apply in_app_iff in H as [H|H].
    + destruct (IHl (cs ++ [Rl v x true]) (S d) i H) as (z&->). eauto.
    + destruct (afind _ _ _ l); eauto.
Qed.
Lemma afind_sub a : forall cs d i ci di ai, afind cs d i a = Some (ci, di, ai) ->
  aroot ai = i /\ incl (aids ai) (aids a).
Proof.
  induction a as [j|j v x l IHl r IHr]; intros cs d i ci di ai; simpl; destruct (Nat.eqb_spec j i) as [E|Hne].
  - intros H; injection H as <- <- <-. split; auto. apply incl_refl.
  - discriminate.
  - intros H; injection H as <- <- <-. split; auto. apply incl_refl.
  - destruct (afind _ _ _ l) as [[[c0 d0] a0]|] eqn:El.
    + intros H; injection H as <- <- <-. apply IHl in El as [H1 H2]. split; auto.
      intros k Hk. right. apply in_app_iff. auto.
    + intros Er. apply IHr in Er as [H1 H2]. split; auto. intros k Hk. right. apply in_app_iff. auto.
Qed.
Lemma afind_notin a cs d i : ~ In i (aids a) -> afind cs d i a = None.
Proof.
  intros H. destruct (afind cs d i a) as [[[c0 d0] a0]|] eqn:E; auto.
  apply afind_sub in E as [<- E]. exfalso. apply H, E, aroot_in.
Qed.
Lemma asubst_notin i b a : ~ In i (aids a) -> asubst i b a = a.
Proof.
  induction a as [j|j v x l IHl r IHr]; simpl; intros H; destruct (Nat.eqb_spec j i); try tauto.
  rewrite IHl, IHr; auto; intros Hi; apply H; right; apply in_app_iff; auto.
Qed.
Lemma asubst_root i b a : aroot (asubst i b a) = if Nat.eqb (aroot a) i then aroot b else aroot a.
Proof. destruct a; simpl; destruct (Nat.eqb _ _); auto. Qed.
Lemma afind_aok h X oy a : forall cs d i ci di ai, aok h X oy cs d a -> afind cs d i a = Some (ci, di, ai) ->
  aok h X oy ci di ai.
Proof.
  induction a as [j|j v x l IHl r IHr]; intros cs d i ci di ai; simpl; destruct (Nat.eqb_spec j i) as [E|Hne].
  - intros Ha H; injection H as <- <- <-. exact Ha.
  - discriminate.
  - intros Ha H; injection H as <- <- <-. exact Ha.
  - intros (H1&H2&H3&H4&H5). destruct (afind _ _ _ l) as [[[c0 d0] a0]|] eqn:El.
    + intros H; injection H as <- <- <-. eauto.
    + eauto.
Qed.
Lemma asubst_perm a : forall cs d i ci di ai, NoDup (aids a) -> afind cs d i a = Some (ci, di, ai) ->
  exists rest, Permutation (aids a) (aids ai ++ rest) /\
    forall b, Permutation (aids (asubst i b a)) (aids b ++ rest).
Proof.
  induction a as [j|j v x l IHl r IHr]; intros cs d i ci di ai Hn; simpl; destruct (Nat.eqb_spec j i) as [E|Hne].
  - intros H; injection H as <- <- <-. exists []. split; [simpl; auto|]. intros b; now rewrite app_nil_r.
  - discriminate.
  - intros H; injection H as <- <- <-. exists []. split; [simpl; now rewrite app_nil_r|]. intros b; now rewrite app_nil_r.
  - simpl in Hn. inversion Hn as [|? ? Hj Hn']; subst. apply NoDup_app_disj in Hn' as (Hl&Hr&Hd).
    destruct (afind _ _ _ l) as [[[c0 d0] a0]|] eqn:El.
    + intros H; injection H as <- <- <-. pose proof (afind_sub _ _ _ _ _ _ _ El) as [Ei Hin].
      destruct (IHl _ _ _ _ _ _ Hl El) as (rest&P1&P2).
      exists (j :: rest ++ aids r). split.
      * rewrite P1. rewrite <- Permutation_middle. constructor. now rewrite <- app_assoc.
      * intros b. simpl. rewrite P2.
        rewrite (asubst_notin i b r).
        -- rewrite <- Permutation_middle. constructor. now rewrite <- app_assoc.
        -- intros Hi. eapply Hd; [|exact Hi]. apply Hin. rewrite <- Ei. apply aroot_in.
    + intros Er. pose proof (afind_sub _ _ _ _ _ _ _ Er) as [Ei Hin].
      destruct (IHr _ _ _ _ _ _ Hr Er) as (rest&P1&P2).
      exists (j :: aids l ++ rest). split.
      * rewrite P1. rewrite <- Permutation_middle. constructor. rewrite Permutation_app_swap_app. auto.
      * intros b. simpl. rewrite P2.
        rewrite (asubst_notin i b l).
        -- rewrite <- Permutation_middle. constructor. rewrite Permutation_app_swap_app. auto.
        -- intros Hi. eapply Hd; [exact Hi|]. apply Hin. rewrite <- Ei. apply aroot_in.
Qed.

Definition relinked (e u : nat) (o : option tnode) : option tnode := option_map (relink_node e u) o.
Lemma aok_relink_other h h' X oy e u a : forall cs d, ~ In e (aids a) ->
  (forall j, In j (aids a) -> h_get h' j = relinked e u (h_get h j)) ->
  aok h X oy cs d a -> aok h' X oy cs d a.
Proof.
  induction a as [i|i v x l IHl r IHr]; intros cs d Hn He; simpl in *.
  - rewrite He by auto. intros (w&s&->&H). exists w, s. auto.
  - intros ((s&E&H1)&H2&H3&H4&H5).
    assert (Hl: ~ In e (aids l)) by (intros ?; apply Hn; right; apply in_app_iff; auto).
    assert (Hr: ~ In e (aids r)) by (intros ?; apply Hn; right; apply in_app_iff; auto).
    split. { exists s. rewrite He, E by auto. simpl. unfold relink_node. simpl.
      destruct (Nat.eqb_spec (aroot l) e) as [El|]; [exfalso; apply Hl; rewrite <- El; apply aroot_in|].
      destruct (Nat.eqb_spec (aroot r) e) as [Er|]; [exfalso; apply Hr; rewrite <- Er; apply aroot_in|]. auto. }
    split; [auto|]. split; [auto|]. split; [apply IHl|apply IHr]; auto; intros; apply He; rewrite in_app_iff; auto.
Qed.
Lemma aok_subst h h' X oy i b a : forall cs d ci di ai,
  aok h X oy cs d a -> NoDup (aids a) -> afind cs d i a = Some (ci, di, ai) ->
  (forall j, In j (aids a) -> ~ In j (aids ai) -> h_get h' j = relinked i (aroot b) (h_get h j)) ->
  aok h' X oy ci di b -> aok h' X oy cs d (asubst i b a).
Proof.
  induction a as [j|j v x l IHl r IHr]; intros cs d ci di ai; simpl; destruct (Nat.eqb_spec j i) as [E|Hne].
  - intros _ _ H; injection H as <- <- <-. auto.
  - discriminate.
  - intros _ _ H; injection H as <- <- <-. auto.
  - intros ((s&E&H1)&H2&H3&H4&H5) Hn. inversion Hn as [|? ? Hj Hn']; subst. apply NoDup_app_disj in Hn' as (Hl&Hr&Hd).
    destruct (afind _ _ _ l) as [[[c0 d0] a0]|] eqn:El.
    + intros H; injection H as <- <- <-. pose proof (afind_sub _ _ _ _ _ _ _ El) as [Ei Hin]. intros He Hb.
      assert (Hil: In i (aids l)) by (apply Hin; rewrite <- Ei; apply aroot_in).
      assert (Hir: ~ In i (aids r)) by (intros Hi; eapply Hd; eauto).
      simpl. rewrite (asubst_notin i b r) by auto.
      split. { exists s. rewrite He, E; auto.
        - simpl. unfold relink_node. simpl. rewrite asubst_root.
          destruct (Nat.eqb_spec (aroot r) i) as [Er|]; [exfalso; apply Hir; rewrite <- Er; apply aroot_in|]. auto.
        - intros Hx. apply Hj, in_app_iff. auto. }
      split; [auto|]. split; [auto|]. split.
      * eapply IHl; eauto. intros k Hk. apply He. right. apply in_app_iff; auto.
      * apply (aok_relink_other h h' X oy i (aroot b)); auto. intros k Hk. apply He; [right; apply in_app_iff; auto|]. intros Hx. apply (Hd k); auto.
    + intros Er. pose proof (afind_sub _ _ _ _ _ _ _ Er) as [Ei Hin]. intros He Hb.
      assert (Hir: In i (aids r)) by (apply Hin; rewrite <- Ei; apply aroot_in).
      assert (Hil: ~ In i (aids l)) by (intros Hi; eapply Hd; eauto).
      simpl. rewrite (asubst_notin i b l) by auto.
      split. { exists s. rewrite He, E; auto.
        - simpl. unfold relink_node. simpl. rewrite asubst_root.
          destruct (Nat.eqb_spec (aroot l) i) as [Er'|]; [exfalso; apply Hil; rewrite <- Er'; apply aroot_in|]. auto.
        - intros Hx. apply Hj, in_app_iff. auto. }
      split; [auto|]. split; [auto|]. split.
      * apply (aok_relink_other h h' X oy i (aroot b)); auto. intros k Hk. apply He; [right; apply in_app_iff; auto|]. intros Hx. apply (Hd k); auto.
      * eapply IHr; eauto. intros k Hk. apply He. right. apply in_app_iff; auto.
Qed.

(** ** relink *)
Definition mem (j : nat) (l : list nat) : bool := existsb (Nat.eqb j) l.
Lemma mem_in j l : mem j l = true <-> In j l.
Proof.
  unfold mem. rewrite existsb_exists. split.
  - intros (k&H&E). apply Nat.eqb_eq in E. now subst.
  - intros H. exists j. rewrite Nat.eqb_refl. auto.
Qed.
Lemma mem_not j l : mem j l = false <-> ~ In j l.
Proof. rewrite <- mem_in. destruct (mem j l); intuition congruence. Qed.
Lemma relink_node_idem e u n : u <> e -> relink_node e u (relink_node e u n) = relink_node e u n.
Proof.
  intros Hu. unfold relink_node. destruct n as [[w|l r] s d]; simpl; auto.
  destruct (Nat.eqb_spec l e), (Nat.eqb_spec r e);
  repeat match goal with |- context [Nat.eqb ?a ?b] => destruct (Nat.eqb_spec a b) end; congruence.
Qed.
Lemma relink_next h ids e u : h_next (relink h ids e u) = h_next h.
Proof.
  revert h; induction ids as [|i ids IH]; intros h; simpl; auto.
  destruct (h_get h i); rewrite IH; auto.
Qed.
Lemma relink_get ids e u : u <> e -> forall h j,
  h_get (relink h ids e u) j = if mem j ids then relinked e u (h_get h j) else h_get h j.
Proof.
  intros Hu. induction ids as [|i ids IH]; intros h j; simpl; auto.
  destruct (h_get h i) as [n|] eqn:E.
  - rewrite IH. simpl. destruct (Nat.eqb_spec j i) as [->|Hne]; simpl; auto.
    rewrite E. simpl. destruct (mem i ids); simpl; auto. now rewrite relink_node_idem.
  - rewrite IH. fold (mem j ids). destruct (Nat.eqb_spec j i) as [->|Hne]; simpl; auto.
    rewrite E. destruct (mem i ids); auto.
Qed.

Lemma remove_first_perm x l : In x l -> exists r, remove_first x l = Some r /\ Permutation l (x :: r).
Proof.
  intros H. pose proof (remove_first_spec x l) as Hs. destruct (remove_first x l) as [r|]; [|tauto].
  exists r. split; auto. destruct Hs as (l1&l2&->&->&_). symmetry. apply Permutation_middle.
Qed.

(** ** the invariant of a tree *)
Definition below (n : nat) (l : list nat) : Prop := forall j, In j l -> j < n.
Record tree_inv (h : heap) (X : matrix) (oy : option (list R)) (t : tree) (a : atree) : Prop := {
  ti_ok : aok h X oy [] 0 a;
  ti_nodup : NoDup (aids a);
  ti_perm : Permutation (tr_nodes t) (aids a);
  ti_below : below (h_next h) (aids a) }.
Lemma ti_in h X oy t a j : tree_inv h X oy t a -> (In j (tr_nodes t) <-> In j (aids a)).
Proof. intros H. split; apply Permutation_in; [apply H|symmetry; apply H]. Qed.
Lemma ti_node h X oy a : forall cs d j, aok h X oy cs d a -> In j (aids a) ->
  exists k s d' cs', h_get h j = Some (Nd k (SFull s) d') /\ sinv X oy cs' s.
Proof.
  induction a as [i|i v x l IHl r IHr]; intros cs d j; simpl.
  - intros (w&s&E&H) [<-|[]]. eauto 8.
  - intros ((s&E&H)&_&_&Hl&Hr) [<-|Hj]; [eauto 8|]. apply in_app_iff in Hj as [Hj|Hj]; eauto.
Qed.
Lemma filter_perm {A} (f : A -> bool) l m : Permutation l m -> Permutation (filter f l) (filter f m).
Proof.
  induction 1; simpl; auto.
  - destruct (f x); auto.
  - destruct (f x), (f y); auto. constructor.
  - eauto using Permutation_trans.
Qed.
Lemma NoDup_aleaf a : NoDup (aids a) -> NoDup (aleafids a) /\ NoDup (adecids a).
Proof.
  intros H. assert (H' : NoDup (aleafids a ++ adecids a)) by (eapply Permutation_NoDup; [apply aids_perm|auto]).
  apply NoDup_app_disj in H'. tauto.
Qed.
Lemma leaf_nodes_perm h X oy t a : tree_inv h X oy t a -> Permutation (leaf_nodes h t) (aleafids a).
Proof.
  intros H. unfold leaf_nodes. apply NoDup_Permutation.
  - apply NoDup_filter. eapply Permutation_NoDup; [symmetry; apply H|apply H].
  - apply NoDup_aleaf, H.
  - intros j. rewrite filter_In, (ti_in _ _ _ _ _ _ H). split.
    + intros [Hj Hl]. eapply aok_leaf_iff in Hj as [A _]; try apply H. tauto.
    + intros Hl. assert (Hj : In j (aids a)) by (apply aids_incl; auto). split; auto.
      eapply aok_leaf_iff in Hj as [A _]; try apply H. tauto.
Qed.
Lemma decision_nodes_perm h X oy t a : tree_inv h X oy t a -> Permutation (decision_nodes h t) (adecids a).
Proof.
  intros H. unfold decision_nodes. apply NoDup_Permutation.
  - apply NoDup_filter. eapply Permutation_NoDup; [symmetry; apply H|apply H].
  - apply NoDup_aleaf, H.
  - intros j. rewrite filter_In, (ti_in _ _ _ _ _ _ H). split.
    + intros [Hj Hl]. eapply aok_leaf_iff in Hj as [_ A]; try apply H. tauto.
    + intros Hl. assert (Hj : In j (aids a)) by (apply aids_incl; auto). split; auto.
      eapply aok_leaf_iff in Hj as [_ A]; try apply H. tauto.
Qed.
(** the node found is a leaf exactly when the subtree found is *)
Lemma afind_leaf h X oy cs d i a ci di ai : aok h X oy cs d a -> afind cs d i a = Some (ci, di, ai) ->
  is_leaf h i = true -> ai = ALeaf i.
Proof.
  intros Ha Hf Hl. pose proof (afind_aok _ _ _ _ _ _ _ _ _ _ Ha Hf) as Hi.
  apply afind_sub in Hf as [<- _]. destruct ai as [j|j v x l r]; auto.
  simpl in *. destruct Hi as ((s&E&_)&_). unfold is_leaf in Hl. rewrite E in Hl. discriminate.
Qed.

(** fresh identities *)
Lemma split_node_spec h i c0 c1 p h1 : split_node h i c0 c1 = Ok (p, h1) ->
  exists k s d s' sl sr, h_get h i = Some (Nd k (SFull s) d) /\ split_children s c0 c1 = Ok (s', sl, sr) /\
    p = S (S (h_next h)) /\ h_next h1 = S (S (S (h_next h))) /\
    (forall j, j < h_next h -> h_get h1 j = h_get h j) /\
    h_get h1 (h_next h) = Some (Nd (KLeaf 0%R) (SFull sl) (S d)) /\
    h_get h1 (S (h_next h)) = Some (Nd (KLeaf 0%R) (SFull sr) (S d)) /\
    h_get h1 (S (S (h_next h))) = Some (Nd (KDec (h_next h) (S (h_next h))) (SFull s') d).
Proof.
  unfold split_node. destruct (h_get h i) as [[k [s|c] d]|] eqn:E; try discriminate.
  destruct (split_children s c0 c1) as [[[s' sl] sr]| |] eqn:Es; try discriminate. simpl.
  intros H; injection H as <- <-. exists k, s, d, s', sl, sr. simpl.
  rewrite Nat.add_1_r. split; auto. split; auto. split; auto. split; auto. split.
  { intros j Hj. repeat match goal with |- context [Nat.eqb ?a ?b] => destruct (Nat.eqb_spec a b) end; auto; lia. }
  split; [|split];
  repeat match goal with |- context [match ?n with _ => _ end] => fail | _ => idtac end;
  rewrite ?Nat.eqb_refl; 
  repeat match goal with |- context [Nat.eqb ?a ?b] => destruct (Nat.eqb_spec a b) end; auto; try lia.
Qed.

Lemma grow_step h X oy t a i v x p h1 : no_nan X -> tree_inv h X oy t a -> In i (tr_nodes t) -> is_leaf h i = true ->
  x <> FNaN -> split_node h i (fresh_le v x) (fresh_gt v x) = Ok (p, h1) ->
  p = S (S (h_next h)) /\ h_next h1 = S (S (S (h_next h))) /\
  grow_mutation h1 i p = Ok (Mu MGrow i p) /\
  exists l1, remove_first i (tr_nodes t) = Some l1 /\
    let l4 := l1 ++ [h_next h; S (h_next h); p] in
    let h2 := relink h1 l4 i p in
    mutate h1 t (Mu MGrow i p) = (h2, Tr l4 false (tr_pred t), None) /\
    tree_inv h2 X oy (Tr l4 false (tr_pred t)) (asubst i (ANode p v x (ALeaf (h_next h)) (ALeaf (S (h_next h)))) a) /\
    (forall j, j < h_next h -> h_get h2 j = if mem j l1 then relinked i p (h_get h j) else h_get h j).
Proof.
  intros Hnan H Hi Hl Hx Hsp. pose proof (proj1 (ti_in _ _ _ _ _ _ H) Hi) as Hia.
  destruct (afind_in a [] 0 i Hia) as ([[ci di] ai]&Hf).
  pose proof (afind_leaf _ _ _ _ _ _ _ _ _ _ (ti_ok _ _ _ _ _ H) Hf Hl) as ->.
  pose proof (afind_aok _ _ _ _ _ _ _ _ _ _ (ti_ok _ _ _ _ _ H) Hf) as (w&s0&Eg&Hs0).
  apply split_node_spec in Hsp as (k&s&d&s'&sl&sr&E&Es&->&Hn&Hold&Hgl&Hgr&Hgp).
  rewrite Eg in E. injection E as <- <- <-.
  destruct (split_children_sinv _ _ _ _ _ _ _ _ _ Hnan Hx Hs0 Es) as (Hv&Hs'&Hsl&Hsr).
  pose proof (ti_below _ _ _ _ _ H) as Hb. pose proof (Hb i Hia) as Hib.
  split; auto. split; auto. split.
  { unfold grow_mutation, is_leaf. rewrite Hold by auto. rewrite Eg. reflexivity. }
  destruct (remove_first_perm i (tr_nodes t) Hi) as (l1&Hr&Hp). exists l1. split; auto.
  set (p := S (S (h_next h))) in *. cbv zeta. split.
  { unfold mutate. simpl. rewrite Hr. unfold left_child, right_child. rewrite Hgp. reflexivity. }
  assert (Hpi : p <> i) by (unfold p; lia).
  destruct (asubst_perm a _ _ _ _ _ _ (ti_nodup _ _ _ _ _ H) Hf) as (rest&P1&P2).
  assert (Hl1 : Permutation l1 rest).
  { apply (Permutation_cons_inv (a := i)). rewrite <- Hp, (ti_perm _ _ _ _ _ H), P1. reflexivity. }
  assert (Hn1 : NoDup (i :: rest)).
  { eapply Permutation_NoDup; [exact P1|apply H]. }
  assert (Hrest : forall j, In j rest -> j < h_next h).
  { intros j Hj. apply Hb. eapply Permutation_in; [symmetry; apply P1|]. simpl; auto. }
  assert (Hnotl1 : forall j, h_next h <= j -> ~ In j l1).
  { intros j Hj Hin. apply (Permutation_in _ Hl1) in Hin. apply Hrest in Hin. lia. }
  assert (Hget : forall j, h_get (relink h1 (l1 ++ [h_next h; S (h_next h); p]) i p) j =
     if mem j (l1 ++ [h_next h; S (h_next h); p]) then relinked i p (h_get h1 j) else h_get h1 j).
  { intros j. apply relink_get. auto. }
  split.
  - constructor; simpl.
    + eapply aok_subst; eauto using ti_ok, ti_nodup.
      * intros j Hj Hnj. rewrite Hget. simpl. rewrite Hold by auto.
        assert (Hin: In j l1).
        { apply (Permutation_in _ (Permutation_sym Hl1)). apply (Permutation_in _ P1) in Hj. apply in_app_iff in Hj. tauto. }
        replace (mem j _) with true; auto. symmetry. apply mem_in, in_app_iff; auto.
      * assert (Hm : forall j, In j [h_next h; S (h_next h); p] -> mem j (l1 ++ [h_next h; S (h_next h); p]) = true).
        { intros j Hj. apply mem_in, in_app_iff; auto. }
        simpl. rewrite !Hget, !Hm by (simpl; auto). rewrite Hgl, Hgr, Hgp. simpl. unfold relink_node; simpl.
        destruct (Nat.eqb_spec (h_next h) i); [lia|].
        assert (Hneq: Nat.eqb (S (h_next h)) i = false) by (apply Nat.eqb_neq; lia).
        change (match i with 0 => false | S m' => h_next h =? m' end) with (Nat.eqb (S (h_next h)) i). rewrite Hneq.
        split; [exists s'; auto|]. split; auto. split; auto. split; eauto.
    + eapply Permutation_NoDup; [symmetry; apply P2|]. simpl.
      inversion Hn1; subst.
      assert (Hx1: forall j, In j rest -> j <> h_next h /\ j <> S (h_next h) /\ j <> p).
      { intros j Hj. apply Hrest in Hj. unfold p; lia. }
      constructor; [intros [?|[?|Hj]]; [unfold p in *; lia|unfold p in *; lia|apply Hx1 in Hj; tauto]|].
      constructor; [intros [?|Hj]; [lia|apply Hx1 in Hj; tauto]|].
      constructor; [intros Hj; apply Hx1 in Hj; tauto|]. auto.
    + rewrite P2. simpl. rewrite Hl1. rewrite Permutation_app_comm. simpl.
      transitivity (h_next h :: p :: S (h_next h) :: rest); repeat constructor.
    + rewrite relink_next, Hn. intros j Hj. apply (Permutation_in _ (P2 _)) in Hj. simpl in Hj.
      unfold p in *. destruct Hj as [<-|[<-|[<-|Hj]]]; try lia. apply Hrest in Hj. lia.
  - intros j Hj. rewrite Hget, Hold by auto.
    assert (mem j (l1 ++ [h_next h; S (h_next h); p]) = mem j l1) as ->; auto.
    unfold mem. rewrite existsb_app. simpl.
    destruct (Nat.eqb_spec j (h_next h)); [lia|]. destruct (Nat.eqb_spec j (S (h_next h))); [lia|].
    destruct (Nat.eqb_spec j p); [unfold p in *; lia|]. simpl. now rewrite orb_false_r.
Qed.

Lemma afind_prunable h X oy cs d i a ci di ai : aok h X oy cs d a -> afind cs d i a = Some (ci, di, ai) ->
  is_prunable h i = true -> exists v x jl jr, ai = ANode i v x (ALeaf jl) (ALeaf jr).
Proof.
  intros Ha Hf Hl. pose proof (afind_aok _ _ _ _ _ _ _ _ _ _ Ha Hf) as Hi.
  apply afind_sub in Hf as [<- _]. unfold is_prunable, left_child, right_child in Hl.
  destruct ai as [j|j v x l r]; simpl in *.
  - destruct Hi as (w&s&E&_). rewrite E in Hl. discriminate.
  - destruct Hi as ((s&E&_)&_&_&Al&Ar). rewrite E in Hl. apply andb_true_iff in Hl as [Hl Hr].
    unfold is_leaf in *. destruct l as [jl|jl vl xl l1 l2]; simpl in Al.
    + destruct r as [jr|jr vr xr r1 r2]; simpl in Ar; [eauto 8|].
      destruct Ar as ((?&Er&_)&_). simpl in Hr. rewrite Er in Hr. discriminate.
    + destruct Al as ((?&El&_)&_). simpl in Hl. rewrite El in Hl. discriminate.
Qed.

Lemma prune_step h X oy t a i : tree_inv h X oy t a -> In i (tr_nodes t) -> is_prunable h i = true ->
  exists v x jl jr s d ci, 
   afind [] 0 i a = Some (ci, d, ANode i v x (ALeaf jl) (ALeaf jr)) /\
   h_get h i = Some (Nd (KDec jl jr) (SFull s) d) /\ sinv X oy ci s /\
   let u := h_next h in
   let h1 := snd (h_alloc h (Nd (KLeaf 0%R) (SFull s) d)) in
   prune_mutation h1 i u = Ok (Mu MPrune i u) /\
   exists l1 l2 l3, remove_first i (tr_nodes t) = Some l1 /\ remove_first jl l1 = Some l2 /\ remove_first jr l2 = Some l3 /\
    let l4 := l3 ++ [u] in
    let h2 := relink h1 l4 i u in
    mutate h1 t (Mu MPrune i u) = (h2, Tr l4 false (tr_pred t), None) /\
    tree_inv h2 X oy (Tr l4 false (tr_pred t)) (asubst i (ALeaf u) a) /\
    (forall j, j < h_next h -> h_get h2 j = if mem j l3 then relinked i u (h_get h j) else h_get h j).
Proof.
  intros H Hi Hl. pose proof (proj1 (ti_in _ _ _ _ _ _ H) Hi) as Hia.
  destruct (afind_in a [] 0 i Hia) as ([[ci di] ai]&Hf).
  destruct (afind_prunable _ _ _ _ _ _ _ _ _ _ (ti_ok _ _ _ _ _ H) Hf Hl) as (v&x&jl&jr&->).
  pose proof (afind_aok _ _ _ _ _ _ _ _ _ _ (ti_ok _ _ _ _ _ H) Hf) as ((s&Eg&Hs)&Hx&Hv&(wl&sl&El&Hsl)&(wr&sr&Er&Hsr)).
  simpl in Eg. exists v, x, jl, jr, s, di, ci. split; auto. split; auto. split; auto. cbv zeta.
  pose proof (ti_below _ _ _ _ _ H) as Hb.
  destruct (asubst_perm a _ _ _ _ _ _ (ti_nodup _ _ _ _ _ H) Hf) as (rest&P1&P2). simpl in P1.
  assert (Hall : below (h_next h) (i :: jl :: jr :: rest)).
  { intros j Hj. apply Hb. eapply Permutation_in; [symmetry; apply P1|auto]. }
  assert (Hn1 : NoDup (i :: jl :: jr :: rest)) by (eapply Permutation_NoDup; [exact P1|apply H]).
  set (u := h_next h) in *. set (h1 := snd (h_alloc h (Nd (KLeaf 0%R) (SFull s) di))).
  assert (Hn : h_next h1 = S u) by reflexivity.
  assert (Hold : forall j, j < u -> h_get h1 j = h_get h j).
  { intros j Hj. unfold h1; simpl. fold u. destruct (Nat.eqb_spec j u); auto; lia. }
  assert (Hu : h_get h1 u = Some (Nd (KLeaf 0%R) (SFull s) di)).
  { unfold h1; simpl. fold u. now rewrite Nat.eqb_refl. }
  assert (Hib : i < u) by (apply Hall; simpl; auto).
  assert (Hlb : jl < u) by (apply Hall; simpl; auto).
  assert (Hrb : jr < u) by (apply Hall; simpl; auto).
  split.
  { unfold prune_mutation, is_dec, is_prunable, left_child, right_child, is_leaf.
    rewrite Hold, Eg by auto. rewrite !Hold, El, Er by auto. reflexivity. }
  assert (Ht : Permutation (tr_nodes t) (i :: jl :: jr :: rest)) by (rewrite (ti_perm _ _ _ _ _ H); exact P1).
  destruct (remove_first_perm i (tr_nodes t) Hi) as (l1&Hr1&Hp1).
  assert (Q1 : Permutation l1 (jl :: jr :: rest)) by (apply (Permutation_cons_inv (a := i)); now rewrite <- Hp1).
  destruct (remove_first_perm jl l1) as (l2&Hr2&Hp2).
  { eapply Permutation_in; [symmetry; exact Q1|simpl; auto]. }
  assert (Q2 : Permutation l2 (jr :: rest)) by (apply (Permutation_cons_inv (a := jl)); now rewrite <- Hp2).
  destruct (remove_first_perm jr l2) as (l3&Hr3&Hp3).
  { eapply Permutation_in; [symmetry; exact Q2|simpl; auto]. }
  assert (Q3 : Permutation l3 rest) by (apply (Permutation_cons_inv (a := jr)); now rewrite <- Hp3).
  exists l1, l2, l3. split; auto. split; auto. split; auto. split.
  { unfold mutate. cbn [mu_kind mu_existing mu_updated]. rewrite Hr1. unfold left_child, right_child. rewrite Hold, Eg by auto. cbn [remove_id].
    rewrite Hr2. cbn [remove_id]. rewrite Hr3. reflexivity. }
  assert (Hget : forall j, h_get (relink h1 (l3 ++ [u]) i u) j =
     if mem j (l3 ++ [u]) then relinked i u (h_get h1 j) else h_get h1 j).
  { intros j. apply relink_get. lia. }
  split.
  - constructor; cbn [tr_nodes].
    + eapply aok_subst; eauto using ti_ok, ti_nodup.
      * intros j Hj Hnj. rewrite Hget. cbn [aroot]. rewrite Hold by auto.
        assert (Hin: In j l3).
        { apply (Permutation_in _ (Permutation_sym Q3)). apply (Permutation_in _ P1) in Hj. simpl in Hj, Hnj. tauto. }
        replace (mem j _) with true; auto. symmetry. apply mem_in, in_app_iff; auto.
      * simpl. rewrite Hget, Hu. replace (mem u (l3 ++ [u])) with true.
        -- simpl. unfold relink_node; simpl. eauto.
        -- symmetry. apply mem_in, in_app_iff. simpl; auto.
    + eapply Permutation_NoDup; [symmetry; apply P2|]. simpl. constructor.
      * intros Hj. assert (u < u); [|lia]. apply Hall. simpl; auto.
      * inversion Hn1 as [|? ? ? Hn2]; subst. inversion Hn2 as [|? ? ? Hn3]; subst. inversion Hn3; subst; auto.
    + rewrite P2. simpl. rewrite Q3. rewrite Permutation_app_comm. reflexivity.
    + rewrite relink_next, Hn. intros j Hj. apply (Permutation_in _ (P2 _)) in Hj. simpl in Hj.
      destruct Hj as [<-|Hj]; [lia|]. assert (j < u); [|lia]. apply Hall. simpl; auto.
  - intros j Hj. rewrite Hget, Hold by auto.
    replace (mem j (l3 ++ [u])) with (mem j l3); auto.
    unfold mem. rewrite existsb_app. simpl.
    destruct (Nat.eqb_spec j u); [lia|]. simpl. now rewrite orb_false_r.
Qed.

(** set_value and update_y keep the shape *)
Lemma set_value_next h i w : h_next (set_value h i w) = h_next h.
Proof. unfold set_value. destruct (h_get h i) as [[[v|] s d]|]; auto. Qed.
Lemma set_value_get h i w j : h_get (set_value h i w) j =
  match h_get h j with Some (Nd (KLeaf v) s d) => Some (Nd (KLeaf (if Nat.eqb j i then w else v)) s d) | o => o end.
Proof.
  unfold set_value. destruct (h_get h i) as [[[v|l r] s d]|] eqn:E; simpl.
  - destruct (Nat.eqb_spec j i) as [->|Hne].
    + rewrite E. reflexivity.
    + destruct (h_get h j) as [[[v'|l r] s' d']|]; auto.
  - destruct (Nat.eqb_spec j i) as [->|Hne]; [rewrite E; auto|]. destruct (h_get h j) as [[[v'|? ?] s' d']|]; auto.
  - destruct (Nat.eqb_spec j i) as [->|Hne]; [rewrite E; auto|]. destruct (h_get h j) as [[[v'|? ?] s' d']|]; auto.
Qed.
Lemma set_value_aok h X oy i w a : forall cs d, aok h X oy cs d a -> aok (set_value h i w) X oy cs d a.
Proof.
  induction a as [j|j v x l IHl r IHr]; intros cs d; simpl.
  - intros (w'&s&E&Hs). rewrite set_value_get, E. eauto.
  - intros ((s&E&Hs)&Hx&Hv&Hl&Hr). rewrite set_value_get, E. eauto 10.
Qed.
Lemma set_value_inv h X oy t a i w : tree_inv h X oy t a -> tree_inv (set_value h i w) X oy t a.
Proof.
  intros []. constructor; auto using set_value_aok. now rewrite set_value_next.
Qed.

(** update_y *)
Definition y_set (y : option (list R)) (o : option tnode) : option tnode :=
  match o with
  | Some n => match set_node_y n y with Some n' => Some n' | None => Some n end
  | None => None
  end.
Lemma y_set_idem y o : y_set y (y_set y o) = y_set y o.
Proof. destruct o as [[k [s|c] d]|]; reflexivity. Qed.
Lemma node_update_y_spec X oy y a : forall fuel h cs d, aheight a <= fuel ->
  NoDup (aids a) ->
  (exists h0, aok h0 X oy cs d a /\ forall j, In j (aids a) -> h_get h j = h_get h0 j \/ h_get h j = y_set y (h_get h0 j)) ->
  exists h', node_update_y fuel h (aroot a) y = Ok h' /\ h_next h' = h_next h /\
    forall j, h_get h' j = if mem j (aids a) then y_set y (h_get h j) else h_get h j.
Proof.
  induction a as [i|i v x l IHl r IHr]; intros fuel h cs d Hf Hnd (h0&Hok&Hh); simpl in Hf;
  (destruct fuel as [|fuel]; [lia|]); simpl in *.
  - destruct Hok as (w&s&E&Hs). destruct (Hh i) as [E'|E']; auto; rewrite E in E'; simpl in E'; rewrite E'; simpl;
    eexists; (split; [reflexivity|]); simpl; split; auto; intros j; destruct (Nat.eqb_spec j i) as [->|]; simpl; auto; rewrite E'; reflexivity.
  - destruct Hok as ((s&E&Hs)&Hx&Hv&Hl&Hr).
    inversion Hnd as [|? ? Hi Hnd']; subst. apply NoDup_app_disj in Hnd' as (Hnl&Hnr&Hdis).
    assert (exists s', h_get h i = Some (Nd (KDec (aroot l) (aroot r)) (SFull s') d)) as (s'&E').
    { destruct (Hh i) as [E'|E']; auto; rewrite E in E'; simpl in E'; eauto. }
    rewrite E'. simpl.
    set (h1 := h_set h i _).
    assert (Hh1 : forall j, In j (aids l ++ aids r) -> h_get h1 j = h_get h j).
    { intros j Hj. unfold h1; simpl. destruct (Nat.eqb_spec j i) as [->|]; tauto. }
    destruct (IHl fuel h1 (cs ++ [Rl v x true]) (S d)) as (h2&E2&N2&G2); auto.
    + lia.
    + exists h0. split; auto. intros j Hj. rewrite Hh1 by (apply in_app_iff; auto). apply Hh. right. apply in_app_iff; auto.
    + rewrite E2. simpl.
      assert (Hh2 : forall j, In j (aids r) -> h_get h2 j = h_get h j).
      { intros j Hj. rewrite G2. replace (mem j (aids l)) with false.
        - apply Hh1, in_app_iff; auto.
        - symmetry. apply mem_not. intros ?; eauto. }
      destruct (IHr fuel h2 (cs ++ [Rl v x false]) (S d)) as (h3&E3&N3&G3); auto.
      * lia.
      * exists h0. split; auto. intros j Hj. rewrite Hh2 by auto. apply Hh. right. apply in_app_iff; auto.
      * exists h3. split; auto. split; [rewrite N3, N2; reflexivity|].
        intros j. rewrite G3, G2. simpl. unfold mem. simpl. rewrite existsb_app. fold (mem j (aids l)) (mem j (aids r)).
        destruct (Nat.eqb_spec j i) as [->|Hne].
        -- replace (mem i (aids l)) with false by (symmetry; apply mem_not; intros ?; apply Hi, in_app_iff; auto).
           replace (mem i (aids r)) with false by (symmetry; apply mem_not; intros ?; apply Hi, in_app_iff; auto).
           unfold h1. simpl. rewrite E'. reflexivity.
        -- simpl. destruct (mem j (aids l)) eqn:Ml, (mem j (aids r)) eqn:Mr; simpl; auto. now rewrite y_set_idem.
Qed.

Lemma afind_height a : forall cs d i ci di ai, afind cs d i a = Some (ci, di, ai) -> aheight ai <= aheight a.
Proof.
  induction a as [j|j v x l IHl r IHr]; intros cs d i ci di ai; simpl; destruct (Nat.eqb_spec j i) as [E|Hne].
  - intros H; injection H as <- <- <-. auto.
  - discriminate.
  - intros H; injection H as <- <- <-. auto.
  - destruct (afind _ _ _ l) as [[[c0 d0] a0]|] eqn:El.
    + intros H; injection H as <- <- <-. apply IHl in El. lia.
    + intros Er. apply IHr in Er. lia.
Qed.
Lemma afind_nodup a cs d i ci di ai : NoDup (aids a) -> afind cs d i a = Some (ci, di, ai) -> NoDup (aids ai).
Proof.
  intros Hn Hf. destruct (asubst_perm _ _ _ _ _ _ _ Hn Hf) as (rest&P1&_).
  apply (Permutation_NoDup P1), NoDup_app_disj in Hn. tauto.
Qed.
Lemma nodes_update_y_spec X oy y a h0 fuel : aok h0 X oy [] 0 a -> NoDup (aids a) -> aheight a <= fuel ->
  forall ids h, incl ids (aids a) -> 
  (forall j, In j (aids a) -> h_get h j = h_get h0 j \/ h_get h j = y_set y (h_get h0 j)) ->
  exists h' T, nodes_update_y fuel h ids y = Ok h' /\ h_next h' = h_next h /\ incl ids T /\ incl T (aids a) /\
    forall j, h_get h' j = if mem j T then y_set y (h_get h j) else h_get h j.
Proof.
  intros Hok Hnd Hfu. induction ids as [|i ids IH]; intros h Hin Hh.
  - exists h, []. simpl. split; auto. split; auto. split; [apply incl_refl|]. split; [intros ? []|]. auto.
  - destruct (afind_in a [] 0 i) as ([[ci di] ai]&Hf); [apply Hin; simpl; auto|].
    pose proof (afind_sub _ _ _ _ _ _ _ Hf) as [Ei Hsub].
    destruct (node_update_y_spec X oy y ai fuel h ci di) as (h1&E1&N1&G1).
    + apply afind_height in Hf. lia.
    + eapply afind_nodup; eauto.
    + exists h0. split; [eapply afind_aok; eauto|auto].
    + destruct (IH h1) as (h2&T&E2&N2&I2&J2&G2).
      * intros j Hj. apply Hin. simpl; auto.
      * intros j Hj. rewrite G1. destruct (Hh j Hj) as [E|E]; destruct (mem j (aids ai)); rewrite E; auto.
        rewrite y_set_idem. auto.
      * exists h2, (aids ai ++ T). simpl. rewrite <- Ei, E1. simpl. split; auto. split; [congruence|]. split.
        { intros j [<-|Hj]; apply in_app_iff; [left; apply aroot_in|right; apply I2; auto]. }
        split. { apply incl_app; auto. }
        intros j. rewrite G2, G1. unfold mem. rewrite existsb_app. fold (mem j (aids ai)) (mem j T).
        destruct (mem j (aids ai)), (mem j T); simpl; auto. now rewrite y_set_idem.
Qed.
Lemma below_length n l : NoDup l -> below n l -> length l <= n.
Proof.
  intros Hn Hb. rewrite <- (seq_length n 0). apply NoDup_incl_length; auto.
  intros j Hj. apply in_seq. apply Hb in Hj. lia.
Qed.
Lemma update_y_aok h h' X oy y a : (forall y', y = Some y' -> length y' = length (mx_rows X)) ->
  forall cs d, (forall j, In j (aids a) -> h_get h' j = y_set y (h_get h j)) ->
  aok h X oy cs d a -> aok h' X y cs d a.
Proof.
  intros Hy. induction a as [i|i v x l IHl r IHr]; intros cs d He; simpl in *.
  - intros (w&s&E&Hs). rewrite He, E by auto. simpl. eauto using sinv_update_y.
  - intros ((s&E&Hs)&Hx&Hv&Hl&Hr). rewrite He, E by auto. simpl.
    split; [eauto using sinv_update_y|]. split; auto. split; auto.
    split; [apply IHl|apply IHr]; auto; intros; apply He; right; apply in_app_iff; auto.
Qed.
Lemma update_y_step h X oy t a y : tree_inv h X oy t a -> (forall y', y = Some y' -> length y' = length (mx_rows X)) ->
  exists h', tree_update_y h t y = Ok (h', Tr (tr_nodes t) false (tr_pred t)) /\
    h_next h' = h_next h /\ 
    (forall j, h_get h' j = if mem j (tr_nodes t) then y_set y (h_get h j) else h_get h j) /\ tree_inv h' X y (Tr (tr_nodes t) false (tr_pred t)) a.
Proof.
  intros H Hy. unfold tree_update_y.
  destruct (nodes_update_y_spec X oy y a h (S (length (tr_nodes t))) (ti_ok _ _ _ _ _ H) (ti_nodup _ _ _ _ _ H)) with (ids := tr_nodes t) (h := h)
    as (h'&T&E&N&I&J&G); auto.
  - pose proof (Permutation_length (ti_perm _ _ _ _ _ H)). pose proof (aheight_le a). lia.
  - intros j Hj. now apply (ti_in _ _ _ _ _ _ H).
  - assert (G' : forall j, h_get h' j = if mem j (tr_nodes t) then y_set y (h_get h j) else h_get h j).
    { intros j. rewrite G. replace (mem j T) with (mem j (tr_nodes t)); auto.
      destruct (mem j (tr_nodes t)) eqn:M1, (mem j T) eqn:M2; auto.
      - apply mem_in, I, mem_in in M1. congruence.
      - apply mem_in, J in M2. apply (ti_in _ _ _ _ _ _ H) in M2. apply mem_in in M2. congruence. }
    exists h'. rewrite E. simpl. split; auto. split; auto. split; auto.
    constructor; simpl; try apply H.
    + eapply update_y_aok; eauto using ti_ok. intros j Hj. rewrite G'.
      replace (mem j (tr_nodes t)) with true; auto. symmetry. apply mem_in. now apply (ti_in _ _ _ _ _ _ H).
    + rewrite N. apply H.
Qed.
