(** How a mutation changes the numbers of prunable nodes and splittable leaves. *)
From Coq Require Import Reals Lra Permutation.
From Verif Require Import Base Fl Ext MData MSplit MTree MSampler MHist MTreeHist Spec SpecTree SpecPropose LFl LList
  PData PSplit PDataProps PCond PTree PPred PTreeHist PTreeProps PTreeProps2 PSampler PSampler2.

Definition both (l r : atree) : bool := match l, r with ALeaf _, ALeaf _ => true | _, _ => false end.
Fixpoint aprun (a : atree) : list nat :=
  match a with ALeaf _ => [] | ANode i _ _ l r => if both l r then [i] else aprun l ++ aprun r end.
Fixpoint apar (i : nat) (a : atree) : bool :=
  match a with ALeaf _ => false | ANode _ _ _ l r => if both l r then (aroot l =? i) || (aroot r =? i) else apar i l || apar i r end.
Lemma both_true l r : both l r = true -> exists a b, l = ALeaf a /\ r = ALeaf b.
Proof. destruct l, r; try discriminate. eauto. Qed.
Lemma aprun_incl a j : In j (aprun a) -> In j (adecids a).
Proof.
  induction a as [i|i v x l IHl r IHr]; simpl; auto. destruct (both l r); [intros [->|[]]; auto|]. rewrite !in_app_iff. tauto.
Qed.
Lemma aprun_nodup a : NoDup (aids a) -> NoDup (aprun a).
Proof.
  induction a as [i|i v x l IHl r IHr]; simpl; intros H; [constructor|]. inversion H as [|? ? Hi H']; subst. apply NoDup_app_disj in H' as (Hl&Hr&Hd).
  destruct (both l r); [repeat constructor; auto|]. apply NoDup_app_disj. split; auto. split; auto.
  intros k A B. apply aprun_incl in A, B. apply (Hd k); apply aids_incl; auto.
Qed.
Lemma root_leaf h X oy cs d a : aok h X oy cs d a -> is_leaf h (aroot a) = match a with ALeaf _ => true | _ => false end.
Proof. destruct a; simpl; [intros (w&s&E&_)|intros ((s&E&_)&_)]; unfold is_leaf; now rewrite E. Qed.
Lemma node_prunable h X oy cs d i v x l r : aok h X oy cs d (ANode i v x l r) -> is_prunable h i = both l r.
Proof.
  intros ((s&E&_)&_&_&Hl&Hr). unfold is_prunable, left_child, right_child. rewrite E.
  rewrite (root_leaf _ _ _ _ _ _ Hl), (root_leaf _ _ _ _ _ _ Hr). destruct l, r; reflexivity.
Qed.
Lemma leaf_not_prunable h j : is_leaf h j = true -> is_prunable h j = false.
Proof. unfold is_leaf, is_prunable, left_child, right_child. destruct (h_get h j) as [[[w|l r] s d]|]; auto; discriminate. Qed.
Lemma aprun_iff h X oy a : forall cs d j, aok h X oy cs d a -> NoDup (aids a) -> In j (aids a) -> (is_prunable h j = true <-> In j (aprun a)).
Proof.
  induction a as [i|i v x l IHl r IHr]; intros cs d j H Hn Hj.
  - destruct Hj as [<-|[]]. rewrite leaf_not_prunable by (apply (root_leaf _ _ _ _ _ _ H)). simpl. intuition discriminate.
  - pose proof (node_prunable _ _ _ _ _ _ _ _ _ _ H) as Hp. destruct H as (_&_&_&Hl&Hr). simpl in Hn. inversion Hn as [|? ? Hi Hn']; subst. apply NoDup_app_disj in Hn' as (Hnl&Hnr&Hd).
    destruct Hj as [<-|Hj].
    + rewrite Hp. simpl. destruct (both l r); [simpl; tauto|]. split; [discriminate|]. intros A. exfalso. apply Hi. apply in_app_iff in A as [A|A]; apply aprun_incl in A; apply in_app_iff; [left|right]; apply aids_incl; auto.
    + simpl. assert (Hij : i <> j) by (intros ->; auto). destruct (both l r) eqn:Eb.
      * apply both_true in Eb as (a&b&->&->). apply in_app_iff in Hj as [[<-|[]]|[<-|[]]]; (split; [|intros [A|[]]; exfalso; auto]);
          rewrite leaf_not_prunable; try discriminate; [apply (root_leaf _ _ _ _ _ _ Hl)|apply (root_leaf _ _ _ _ _ _ Hr)].
      * rewrite in_app_iff. apply in_app_iff in Hj as [Hj|Hj].
        -- rewrite (IHl _ _ _ Hl Hnl Hj). split; auto. intros [A|A]; auto. exfalso. apply (Hd j); auto. apply aids_incl. right. now apply aprun_incl.
        -- rewrite (IHr _ _ _ Hr Hnr Hj). split; auto. intros [A|A]; auto. exfalso. apply (Hd j); auto. apply aids_incl. right. now apply aprun_incl.
Qed.
Lemma prun_perm h X oy t a : tree_inv h X oy t a -> Permutation (prunable_decision_nodes h t) (aprun a).
Proof.
  intros H. apply NoDup_Permutation.
  - unfold prunable_decision_nodes, decision_nodes. apply NoDup_filter, NoDup_filter. eapply ti_tnodup; eauto.
  - apply aprun_nodup, H.
  - intros j. unfold prunable_decision_nodes, decision_nodes. rewrite !filter_In, (ti_in _ _ _ _ _ _ H). split.
    + intros [[A _] B]. apply (aprun_iff _ _ _ _ _ _ _ (ti_ok _ _ _ _ _ H) (ti_nodup _ _ _ _ _ H) A). exact B.
    + intros A. assert (Hj : In j (aids a)) by (apply aids_incl; right; now apply aprun_incl).
      apply (aprun_iff _ _ _ _ _ _ _ (ti_ok _ _ _ _ _ H) (ti_nodup _ _ _ _ _ H) Hj) in A. split; auto. split; auto. now apply prunable_dec.
Qed.
Lemma apar_notin i a : ~ In i (aids a) -> apar i a = false.
Proof.
  induction a as [j|j v x l IHl r IHr]; simpl; auto. intros H. assert (Hl : ~ In i (aids l)) by (intros A; apply H; right; apply in_app_iff; auto).
  assert (Hr : ~ In i (aids r)) by (intros A; apply H; right; apply in_app_iff; auto).
  destruct (both l r).
  - apply orb_false_iff. split; apply Nat.eqb_neq; intros E; [apply Hl|apply Hr]; rewrite <- E; apply aroot_in.
  - now rewrite IHl, IHr.
Qed.
Lemma apar_iff h X oy i a : forall cs d, aok h X oy cs d a -> NoDup (aids a) ->
  (apar i a = true <-> exists j, In j (aids a) /\ is_prunable h j = true /\ (left_child h j = Some i \/ right_child h j = Some i)).
Proof.
  induction a as [j|j v x l IHl r IHr]; intros cs d H Hn.
  - simpl. split; [discriminate|]. intros (k&[<-|[]]&Hp&_). rewrite leaf_not_prunable in Hp by (apply (root_leaf _ _ _ _ _ _ H)). discriminate.
  - pose proof (node_prunable _ _ _ _ _ _ _ _ _ _ H) as Hp. destruct H as ((s&E&_)&_&_&Hl&Hr). simpl in Hn. inversion Hn as [|? ? Hi Hn']; subst. apply NoDup_app_disj in Hn' as (Hnl&Hnr&Hd).
    assert (Ecl : left_child h j = Some (aroot l) /\ right_child h j = Some (aroot r)) by (unfold left_child, right_child; rewrite E; auto). destruct Ecl as [Ecl Ecr].
    simpl. destruct (both l r) eqn:Eb.
    + rewrite orb_true_iff, !Nat.eqb_eq. split.
      * intros A. exists j. rewrite Hp, Ecl, Ecr. split; auto. split; auto. destruct A as [->| ->]; auto.
      * intros (k&Hk&Hkp&Hc). assert (k = j).
        { destruct Hk as [|Hk]; auto. exfalso. apply both_true in Eb as (a&b&->&->). apply in_app_iff in Hk as [[<-|[]]|[<-|[]]];
          rewrite leaf_not_prunable in Hkp; try discriminate; [apply (root_leaf _ _ _ _ _ _ Hl)|apply (root_leaf _ _ _ _ _ _ Hr)]. }
        subst k. rewrite Ecl, Ecr in Hc. destruct Hc as [Q|Q]; injection Q as <-; auto.
    + rewrite orb_true_iff, (IHl _ _ Hl Hnl), (IHr _ _ Hr Hnr). split.
      * intros [(k&A&B)|(k&A&B)]; exists k; split; auto; right; apply in_app_iff; auto.
      * intros (k&[<-|Hk]&B); [rewrite Hp in B; destruct B; discriminate|]. apply in_app_iff in Hk as [Hk|Hk]; [left|right]; eauto.
Qed.
Lemma sibling_iff h X oy t a i : tree_inv h X oy t a -> (sibling_is_leaf h t i <-> apar i a = true).
Proof.
  intros H. rewrite (apar_iff _ _ _ _ _ _ _ (ti_ok _ _ _ _ _ H) (ti_nodup _ _ _ _ _ H)). unfold sibling_is_leaf, may_prune.
  split; intros (j&A).
  - destruct A as [[A B] C]. exists j. rewrite <- (ti_in _ _ _ _ _ _ H). split; auto. split; auto. apply is_prunable_iff. exact B.
  - destruct A as (A&B&C). exists j. rewrite (ti_in _ _ _ _ _ _ H). split; auto. split; auto. apply is_prunable_iff. exact B.
Qed.
(** ** growing *)
Lemma grow_aprun i p v x l0 r0 a : NoDup (aids a) -> In i (aleafids a) ->
  length (aprun (asubst i (ANode p v x (ALeaf l0) (ALeaf r0)) a)) + (if apar i a then 1 else 0) = S (length (aprun a)).
Proof.
  set (b := ANode p v x (ALeaf l0) (ALeaf r0)).
  induction a as [j|j w z l IHl r IHr]; intros Hn Hi.
  - destruct Hi as [->|[]]. simpl. rewrite Nat.eqb_refl. reflexivity.
  - simpl in Hn. inversion Hn as [|? ? Hj Hn']; subst. apply NoDup_app_disj in Hn' as (Hnl&Hnr&Hd).
    assert (Hij : j <> i) by (intros ->; apply Hj; simpl in Hi; apply in_app_iff in Hi as [Hi|Hi]; apply in_app_iff; [left|right]; apply aids_incl; auto).
    simpl asubst. apply Nat.eqb_neq in Hij. rewrite Hij. simpl in Hi. apply in_app_iff in Hi as [Hi|Hi].
    + assert (Hir : ~ In i (aids r)) by (intros A; apply (Hd i); auto; apply aids_incl; auto). rewrite (asubst_notin i b r Hir).
      destruct l as [l|l v' x' ll lr].
      * simpl in Hi. destruct Hi as [->|[]]. simpl asubst. rewrite Nat.eqb_refl. destruct r as [r|r v'' x'' rl rr].
        -- simpl. rewrite Nat.eqb_refl. simpl. reflexivity.
        -- set (c := ANode r v'' x'' rl rr) in *. pose proof (apar_notin i c Hir) as Hz.
           change (apar i (ANode j w z (ALeaf i) c)) with (apar i c). rewrite Hz.
           change (aprun (ANode j w z b c)) with (aprun b ++ aprun c). change (aprun (ANode j w z (ALeaf i) c)) with (aprun c). rewrite app_length. change (length (aprun b)) with 1. lia.
      * specialize (IHl Hnl Hi). assert (Hroot : (l =? i) = false).
        { apply Nat.eqb_neq. intros ->. simpl in Hnl. inversion Hnl; subst. apply H1. simpl in Hi. apply in_app_iff in Hi as [Hi|Hi]; apply in_app_iff; [left|right]; apply aids_incl; auto. }
        set (c := ANode l v' x' ll lr) in *. assert (Ec : exists y1 y2 y3 y4 y5, asubst i b c = ANode y1 y2 y3 y4 y5) by (unfold c; simpl; rewrite Hroot; eauto 10).
        destruct Ec as (y1&y2&y3&y4&y5&Ec). pose proof (apar_notin i r Hir) as Hz.
        assert (E1 : aprun (ANode j w z (asubst i b c) r) = aprun (asubst i b c) ++ aprun r) by (rewrite Ec; reflexivity).
        change (apar i (ANode j w z c r)) with (apar i c || apar i r). change (aprun (ANode j w z c r)) with (aprun c ++ aprun r). rewrite E1, Hz, orb_false_r, !app_length. lia.
    + assert (Hil : ~ In i (aids l)) by (intros A; apply (Hd i); auto; apply aids_incl; auto). rewrite (asubst_notin i b l Hil).
      destruct r as [r|r v' x' rl rr].
      * simpl in Hi. destruct Hi as [->|[]]. simpl asubst. rewrite Nat.eqb_refl. destruct l as [l|l v'' x'' ll lr].
        -- simpl. rewrite Nat.eqb_refl, orb_true_r. simpl. reflexivity.
        -- set (c := ANode l v'' x'' ll lr) in *. pose proof (apar_notin i c Hil) as Hz.
           change (apar i (ANode j w z c (ALeaf i))) with (apar i c || false). rewrite Hz.
           change (aprun (ANode j w z c b)) with (aprun c ++ aprun b). change (aprun (ANode j w z c (ALeaf i))) with (aprun c ++ []). rewrite !app_length. change (length (aprun b)) with 1. simpl. lia.
      * specialize (IHr Hnr Hi). assert (Hroot : (r =? i) = false).
        { apply Nat.eqb_neq. intros ->. simpl in Hnr. inversion Hnr; subst. apply H1. simpl in Hi. apply in_app_iff in Hi as [Hi|Hi]; apply in_app_iff; [left|right]; apply aids_incl; auto. }
        set (c := ANode r v' x' rl rr) in *. assert (Ec : exists y1 y2 y3 y4 y5, asubst i b c = ANode y1 y2 y3 y4 y5) by (unfold c; simpl; rewrite Hroot; eauto 10).
        destruct Ec as (y1&y2&y3&y4&y5&Ec). pose proof (apar_notin i l Hil) as Hz.
        assert (E1 : aprun (ANode j w z l (asubst i b c)) = aprun l ++ aprun (asubst i b c)) by (rewrite Ec; destruct l; reflexivity).
        assert (E2 : apar i (ANode j w z l c) = apar i l || apar i c) by (destruct l; reflexivity).
        assert (E3 : aprun (ANode j w z l c) = aprun l ++ aprun c) by (destruct l; reflexivity). rewrite E1, E2, E3, Hz, !app_length. change (false || apar i c) with (apar i c). lia.
Qed.
(** pruning is growing backwards *)
Lemma aleaf_subst_leaf i u a : NoDup (aids a) -> ~ In u (aids a) -> In i (aids a) -> In u (aleafids (asubst i (ALeaf u) a)).
Proof.
  induction a as [j|j v x l IHl r IHr]; intros Hn Hu Hi.
  - destruct Hi as [->|[]]. simpl. rewrite Nat.eqb_refl. simpl. auto.
  - simpl in Hn. inversion Hn as [|? ? Hj Hn']; subst. apply NoDup_app_disj in Hn' as (Hnl&Hnr&Hd).
    simpl. destruct (Nat.eqb_spec j i) as [|Hne]; [simpl; auto|]. destruct Hi as [|Hi]; [congruence|].
    assert (Hul : ~ In u (aids l)) by (intros A; apply Hu; right; apply in_app_iff; auto). assert (Hur : ~ In u (aids r)) by (intros A; apply Hu; right; apply in_app_iff; auto).
    simpl. apply in_app_iff. apply in_app_iff in Hi as [Hi|Hi]; [left; auto|right; auto].
Qed.
Lemma prune_back i v x jl jr u a : forall cs d ci di, NoDup (aids a) -> ~ In u (aids a) -> afind cs d i a = Some (ci, di, ANode i v x (ALeaf jl) (ALeaf jr)) ->
  asubst u (ANode i v x (ALeaf jl) (ALeaf jr)) (asubst i (ALeaf u) a) = a.
Proof.
  induction a as [j|j w z l IHl r IHr]; intros cs d ci di Hn Hu; simpl; destruct (Nat.eqb_spec j i) as [E|Hne].
  - intros Q. injection Q as _ _ Q. discriminate.
  - discriminate.
  - intros Q. injection Q as _ _ -> -> -> -> ->. simpl. rewrite Nat.eqb_refl. reflexivity.
  - simpl in Hn. inversion Hn as [|? ? Hj Hn']; subst. apply NoDup_app_disj in Hn' as (Hnl&Hnr&Hd).
    assert (Hul : ~ In u (aids l)) by (intros A; apply Hu; right; apply in_app_iff; auto). assert (Hur : ~ In u (aids r)) by (intros A; apply Hu; right; apply in_app_iff; auto).
    simpl. destruct (Nat.eqb_spec j u) as [E|_]; [exfalso; apply Hu; simpl; auto|].
    destruct (afind _ _ i l) as [[[c0 d0] a0]|] eqn:El.
    + intros Q. injection Q as -> -> ->. pose proof (afind_sub _ _ _ _ _ _ _ El) as [Ei Hin]. assert (Hir : ~ In i (aids r)) by (intros A; apply (Hd i); auto; apply Hin; simpl; auto).
      rewrite (asubst_notin i _ r Hir), (asubst_notin u _ r Hur). f_equal. eapply IHl; eauto.
    + intros Er. pose proof (afind_sub _ _ _ _ _ _ _ Er) as [Ei Hin]. assert (Hil : ~ In i (aids l)) by (intros A; apply (Hd i); auto; apply Hin; simpl; auto).
      rewrite (asubst_notin i _ l Hil), (asubst_notin u _ l Hul). f_equal. eapply IHr; eauto.
Qed.
Lemma asubst_leaf_perm a : forall cs d i ci di ai, NoDup (aids a) -> afind cs d i a = Some (ci, di, ai) ->
  exists rest, Permutation (aleafids a) (aleafids ai ++ rest) /\ forall b, Permutation (aleafids (asubst i b a)) (aleafids b ++ rest).
Proof.
  induction a as [j|j v x l IHl r IHr]; intros cs d i ci di ai Hn; simpl; destruct (Nat.eqb_spec j i) as [E|Hne].
  - intros H; injection H as <- <- <-. exists []. split; [simpl; auto|]. intros b; now rewrite app_nil_r.
  - discriminate.
  - intros H; injection H as <- <- <-. exists []. split; [simpl; now rewrite app_nil_r|]. intros b; now rewrite app_nil_r.
  - simpl in Hn. inversion Hn as [|? ? Hj Hn']; subst. apply NoDup_app_disj in Hn' as (Hnl&Hnr&Hd).
    destruct (afind _ _ i l) as [[[c0 d0] a0]|] eqn:El.
    + intros H; injection H as -> -> ->. destruct (IHl _ _ _ _ _ _ Hnl El) as (rest&P1&P2).
      pose proof (afind_sub _ _ _ _ _ _ _ El) as [Ei Hin]. assert (Hir : ~ In i (aids r)).
      { intros A. apply (Hd i); auto. apply Hin. rewrite <- Ei. apply aroot_in. }
      exists (rest ++ aleafids r). split; [rewrite P1, app_assoc; auto|]. intros b. simpl. rewrite (P2 b), (asubst_notin i b r Hir), app_assoc. auto.
    + intros Er. destruct (IHr _ _ _ _ _ _ Hnr Er) as (rest&P1&P2).
      pose proof (afind_sub _ _ _ _ _ _ _ Er) as [Ei Hin]. assert (Hil : ~ In i (aids l)).
      { intros A. apply (Hd i); auto. apply Hin. rewrite <- Ei. apply aroot_in. }
      exists (aleafids l ++ rest). split; [rewrite P1|intros b; simpl; rewrite (P2 b), (asubst_notin i b l Hil)]; rewrite !app_assoc; apply Permutation_app_tail, Permutation_app_comm.
Qed.
Lemma filter_perm_length {A} (f : A -> bool) l l' : Permutation l l' -> length (filter f l) = length (filter f l').
Proof. induction 1; simpl; auto; repeat (match goal with |- context [f ?z] => destruct (f z) end; simpl; auto). congruence. Qed.
Definition b2n (b : bool) : nat := if b then 1 else 0.
Lemma filter_cons_len {A} (f : A -> bool) z l : length (filter f (z :: l)) = b2n (f z) + length (filter f l).
Proof. simpl. destruct (f z); reflexivity. Qed.
Lemma filter_len_ext {A} (f g : A -> bool) l : (forall z, In z l -> f z = g z) -> length (filter f l) = length (filter g l).
Proof. intros H. f_equal. now apply filter_ext_in. Qed.
Lemma relinked_splittable h h2 j e u : h_get h2 j = relinked e u (h_get h j) \/ h_get h2 j = h_get h j -> is_splittable h2 j = is_splittable h j.
Proof.
  unfold is_splittable, node_data, node_split. intros [-> | ->]; auto. unfold relinked, relink_node. destruct (h_get h j) as [[[w|l r] s d]|]; reflexivity.
Qed.
Lemma spl_len h X oy t a : tree_inv h X oy t a -> length (splittable_leaf_nodes h t) = length (filter (is_splittable h) (aleafids a)).
Proof. intros H. unfold splittable_leaf_nodes. apply filter_perm_length. eapply leaf_nodes_perm; eauto. Qed.

Lemma grow_counts h X oy t a i v x p h1 m h2 t2 : no_nan X -> tree_inv h X oy t a -> x <> FNaN -> In i (leaf_nodes h t) ->
  split_node h i (fresh_le v x) (fresh_gt v x) = Ok (p, h1) -> grow_mutation h1 i p = Ok m -> mutate h1 t m = (h2, t2, None) ->
  length (prunable_decision_nodes h2 t2) + b2n (apar i a) = S (length (prunable_decision_nodes h t)) /\
  length (splittable_leaf_nodes h2 t2) + b2n (is_splittable h i) =
    length (splittable_leaf_nodes h t) + b2n (is_splittable h2 (h_next h)) + b2n (is_splittable h2 (S (h_next h))).
Proof.
  intros Hn H Hx Hi Hsp Hg Hm. assert (Hd : done (mutate h1 t m) = Ok (h2, t2)) by (rewrite Hm; reflexivity).
  destruct (grow_full _ _ _ _ _ _ _ _ _ _ _ _ Hn H Hx Hsp Hg Hd) as (Hit&Hl&->&Hp&Hnx&l1&Hr&Er&Hinv&Hget). cbv zeta in *.
  set (l4 := l1 ++ _) in *. set (h2' := relink h1 l4 i p) in *. injection Er as -> ->.
  pose proof (proj1 (ti_in _ _ _ _ _ _ H) Hit) as Hia. destruct (afind_in a [] 0 i Hia) as ([[ci di] ai]&Hf).
  pose proof (afind_leaf _ _ _ _ _ _ _ _ _ _ (ti_ok _ _ _ _ _ H) Hf Hl) as ->.
  assert (Hil : In i (aleafids a)) by (apply (Permutation_in _ (leaf_nodes_perm _ _ _ _ _ H)); auto).
  split.
  - rewrite (Permutation_length (prun_perm _ _ _ _ _ Hinv)), (Permutation_length (prun_perm _ _ _ _ _ H)). apply grow_aprun; auto. apply H.
  - rewrite (spl_len _ _ _ _ _ Hinv), (spl_len _ _ _ _ _ H).
    destruct (asubst_leaf_perm a _ _ _ _ _ _ (ti_nodup _ _ _ _ _ H) Hf) as (rest&P1&P2). specialize (P2 (ANode p v x (ALeaf (h_next h)) (ALeaf (S (h_next h))))).
    rewrite (filter_perm_length _ _ _ P1), (filter_perm_length _ _ _ P2).
    change (aleafids (ALeaf i) ++ rest) with (i :: rest). change (aleafids (ANode p v x (ALeaf (h_next h)) (ALeaf (S (h_next h)))) ++ rest) with (h_next h :: S (h_next h) :: rest).
    rewrite !filter_cons_len, (filter_len_ext (is_splittable h2') (is_splittable h) rest); [lia|].
    intros z Hz. apply (relinked_splittable h h2' z i p). assert (Hza : In z (aids a)) by (apply aids_incl; left; apply (Permutation_in _ (Permutation_sym P1)); simpl; auto).
    rewrite Hget by (apply (ti_below _ _ _ _ _ H); auto). destruct (mem z l1); auto.
Qed.
Lemma prune_counts h X oy t a i n m h2 t2 : tree_inv h X oy t a -> h_get h i = Some n ->
  let h1 := snd (h_alloc h (Nd (KLeaf 0%R) (nd_split n) (nd_depth n))) in
  prune_mutation h1 i (h_next h) = Ok m -> mutate h1 t m = (h2, t2, None) ->
  exists ci d v x jl jr s a2, afind [] 0 i a = Some (ci, d, ANode i v x (ALeaf jl) (ALeaf jr)) /\ left_child h i = Some jl /\ right_child h i = Some jr /\
    n = Nd (KDec jl jr) (SFull s) d /\ sinv X oy ci s /\ tree_inv h2 X oy t2 a2 /\ a2 = asubst i (ALeaf (h_next h)) a /\
    node_split h2 (h_next h) = Some s /\ In (h_next h) (leaf_nodes h2 t2) /\
    length (prunable_decision_nodes h t) + b2n (apar (h_next h) a2) = S (length (prunable_decision_nodes h2 t2)) /\
    length (splittable_leaf_nodes h2 t2) + b2n (is_splittable h jl) + b2n (is_splittable h jr) = length (splittable_leaf_nodes h t) + b2n (is_splittable h2 (h_next h)).
Proof.
  intros H Eg h1 Hp Hm. assert (Hd : done (mutate h1 t m) = Ok (h2, t2)) by (rewrite Hm; reflexivity).
  destruct (prune_full _ _ _ _ _ _ _ _ _ H Eg Hp Hd) as (Hi&Hl&->).
  destruct (prune_step _ _ _ _ _ _ H Hi Hl) as (v&x&jl&jr&s&d&ci&Hf&Hg&Hs&Hpm&l1&l2&l3&Hr1&Hr2&Hr3&Hmut&Hinv&Hget). cbv zeta in *.
  rewrite Eg in Hg. injection Hg as ->. change (snd (h_alloc h (Nd (KLeaf 0%R) (SFull s) d))) with h1 in *.
  assert (E1 : h_get h1 (h_next h) = Some (Nd (KLeaf 0%R) (SFull s) d)) by (unfold h1; simpl; now rewrite Nat.eqb_refl). clearbody h1.
  set (l4 := l3 ++ _) in *. set (h2' := relink h1 l4 i (h_next h)) in *. rewrite Hm in Hmut. injection Hmut as -> ->.
  exists ci, d, v, x, jl, jr, s, (asubst i (ALeaf (h_next h)) a). split; auto. split; [unfold left_child; now rewrite Eg|]. split; [unfold right_child; now rewrite Eg|].
  split; auto. split; auto. split; auto. split; auto.
  assert (Hu : ~ In (h_next h) (aids a)) by (intros A; apply (ti_below _ _ _ _ _ H) in A; lia).
  assert (Hia : In i (aids a)) by (apply (ti_in _ _ _ _ _ _ H); auto).
  assert (E2 : h_get h2' (h_next h) = Some (Nd (KLeaf 0%R) (SFull s) d)).
  { unfold h2'. rewrite relink_get by (intros Q; apply Hu; now rewrite Q). destruct (mem (h_next h) l4); rewrite E1; reflexivity. }
  split; [unfold node_split; now rewrite E2|].
  assert (Hul : In (h_next h) (aleafids (asubst i (ALeaf (h_next h)) a))) by (apply aleaf_subst_leaf; auto; apply H).
  split; [apply (Permutation_in _ (Permutation_sym (leaf_nodes_perm _ _ _ _ _ Hinv))); exact Hul|]. split.
  - rewrite (Permutation_length (prun_perm _ _ _ _ _ Hinv)), (Permutation_length (prun_perm _ _ _ _ _ H)).
    pose proof (grow_aprun (h_next h) i v x jl jr _ (ti_nodup _ _ _ _ _ Hinv) Hul) as G.
    rewrite (prune_back i v x jl jr (h_next h) a _ _ _ _ (ti_nodup _ _ _ _ _ H) Hu Hf) in G. exact G.
  - rewrite (spl_len _ _ _ _ _ Hinv), (spl_len _ _ _ _ _ H).
    destruct (asubst_leaf_perm a _ _ _ _ _ _ (ti_nodup _ _ _ _ _ H) Hf) as (rest&P1&P2). specialize (P2 (ALeaf (h_next h))).
    rewrite (filter_perm_length _ _ _ P1), (filter_perm_length _ _ _ P2).
    change (aleafids (ALeaf (h_next h)) ++ rest) with (h_next h :: rest). change (aleafids (ANode i v x (ALeaf jl) (ALeaf jr)) ++ rest) with (jl :: jr :: rest).
    rewrite !filter_cons_len, (filter_len_ext (is_splittable h2') (is_splittable h) rest); [lia|].
    intros z Hz. apply (relinked_splittable h h2' z i (h_next h)). assert (Hza : In z (aids a)) by (apply aids_incl; left; apply (Permutation_in _ (Permutation_sym P1)); simpl; auto).
    rewrite Hget by (apply (ti_below _ _ _ _ _ H); auto). destruct (mem z l3); auto.
Qed.
