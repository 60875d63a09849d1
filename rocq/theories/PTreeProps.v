(** Lemmas behind Properties_Tree.v *)
From Coq Require Import Reals Lra Permutation.
From Verif Require Import Base Fl Ext MData MSplit MTree MSampler MHist MTreeHist Spec SpecTree LFl LList PData PSplit PDataProps PCond PTree PPred PTreeHist.

(** leaves and rows *)
Lemma leaf_region h X oy t a j : tree_inv h X oy t a -> In j (leaf_nodes h t) ->
  exists cj dj w s, In (j, (cj, dj)) (aregions [] 0 a) /\ h_get h j = Some (Nd (KLeaf w) (SFull s) dj) /\ sinv X oy cj s.
Proof.
  intros H Hj. apply (Permutation_in _ (leaf_nodes_perm _ _ _ _ _ H)) in Hj.
  destruct (aregions_of a [] 0 j Hj) as (cj&dj&Hr). 
  destruct (aok_region _ _ _ _ _ _ _ _ _ (ti_ok _ _ _ _ _ H) Hr) as (w&s&E&Hs). exists cj, dj, w, s. auto.
Qed.
Lemma holds_iff h X oy t a j i : no_nan X -> tree_inv h X oy t a -> In j (leaf_nodes h t) ->
  (leaf_holds h j i <-> i < length (mx_rows X) /\ aleaf_of a (nth i (mx_rows X) []) = j).
Proof.
  intros Hnan H Hj. destruct (leaf_region _ _ _ _ _ _ H Hj) as (cj&dj&w&s&Hr&E&Hs).
  unfold leaf_holds, node_split. rewrite E.
  assert (Hk : i < length (mx_rows X) -> kept cj (nth i (mx_rows X) []) = (aleaf_of a (nth i (mx_rows X) []) =? j)).
  { intros Hi. rewrite (region_kept h X oy a (nth i (mx_rows X) [])) with (cs := []) (d := 0) (j := j) (dj := dj); auto; try apply H.
    intros v Hv. apply Hnan; auto. apply nth_In; auto. }
  split.
  - intros (s'&E'&Hi). injection E' as <-. apply (in_node_kept _ _ _ _ _ Hs) in Hi as [Hi Hke]. split; auto.
    rewrite Hk in Hke by auto. now apply Nat.eqb_eq.
  - intros [Hi Hl]. exists s. split; auto. apply (in_node_kept _ _ _ _ _ Hs). split; auto. rewrite Hk by auto.
    now apply Nat.eqb_eq.
Qed.
Lemma filled_region X a : forall cs d j cj dj, filled X cs a -> In (j, (cj, dj)) (aregions cs d a) ->
  exists r, In r (mx_rows X) /\ kept cj r = true.
Proof.
  induction a as [i|i v x l IHl r IHr]; intros cs d j cj dj; simpl.
  - intros H [E|[]]. injection E as <- <- <-. auto.
  - intros (_&Hl&Hr) H. apply in_app_iff in H as [H|H]; eauto.
Qed.
Lemma filled_holds h X oy t a j : tree_inv h X oy t a -> filled X [] a -> In j (leaf_nodes h t) ->
  exists i, leaf_holds h j i.
Proof.
  intros H Hf Hj. destruct (leaf_region _ _ _ _ _ _ H Hj) as (cj&dj&w&s&Hr&E&Hs).
  destruct (filled_region _ _ _ _ _ _ _ Hf Hr) as (r&Hin&Hk). apply In_nth with (d := []) in Hin as (i&Hi&<-).
  exists i. exists s. unfold node_split. rewrite E. split; auto. apply (in_node_kept _ _ _ _ _ Hs). auto.
Qed.

(** children of listed nodes *)
Lemma child_listed h X oy a : forall cs d j l r s dd, aok h X oy cs d a -> In j (aids a) ->
  h_get h j = Some (Nd (KDec l r) s dd) -> In l (aids a) /\ In r (aids a) /\
  (exists kl sl, h_get h l = Some (Nd kl sl (S dd))) /\ (exists kr sr, h_get h r = Some (Nd kr sr (S dd))).
Proof.
  induction a as [i|i v x tl IHl tr IHr]; intros cs d j l r s dd; simpl.
  - intros (w&s0&E&_) [<-|[]] E'. congruence.
  - intros ((s0&E&_)&_&_&Hl&Hr) [<-|Hj] E'.
    + rewrite E in E'. injection E' as <- <- <- <-.
      destruct (aok_root_split _ _ _ _ _ _ Hl) as (kl&sl&El&_). destruct (aok_root_split _ _ _ _ _ _ Hr) as (kr&sr&Er&_).
      split; [right; apply in_app_iff; left; apply aroot_in|]. split; [right; apply in_app_iff; right; apply aroot_in|].
      eauto 10.
    + rewrite !in_app_iff. apply in_app_iff in Hj as [Hj|Hj];
      [destruct (IHl _ _ _ _ _ _ _ Hl Hj E') as (A&B&C&D)|destruct (IHr _ _ _ _ _ _ _ Hr Hj E') as (A&B&C&D)]; tauto.
Qed.
(** a tree that is not a leaf has a prunable node *)
Lemma prunable_exists h X oy a : forall cs d, aok h X oy cs d a -> adecids a <> [] ->
  exists j, In j (aids a) /\ is_prunable h j = true.
Proof.
  induction a as [i|i v x l IHl r IHr]; intros cs d; simpl; [congruence|].
  intros ((s&E&_)&_&_&Hl&Hr) _.
  destruct (adecids l) as [|b bl] eqn:Dl.
  - destruct (adecids r) as [|c cl] eqn:Dr.
    + exists i. split; auto. unfold is_prunable, left_child, right_child. rewrite E.
      destruct l as [jl|]; [|discriminate]. destruct r as [jr|]; [|discriminate]. simpl in *.
      destruct Hl as (w&sl&El&_), Hr as (w'&sr&Er&_). unfold is_leaf. now rewrite El, Er.
    + destruct (IHr _ _ Hr) as (j&Hj&Hp); [discriminate|]. exists j. split; auto. right. apply in_app_iff; auto.
  - destruct (IHl _ _ Hl) as (j&Hj&Hp); [discriminate|]. exists j. split; auto. right. apply in_app_iff; auto.
Qed.
Lemma is_prunable_iff h j : is_prunable h j = true <->
  exists l r, left_child h j = Some l /\ right_child h j = Some r /\ is_leaf h l = true /\ is_leaf h r = true.
Proof.
  unfold is_prunable. destruct (left_child h j) as [l|], (right_child h j) as [r|]; split; try discriminate;
  try (intros (?&?&?&?&?&?); congruence).
  - intros H. apply andb_true_iff in H. exists l, r. tauto.
  - intros (l'&r'&E1&E2&H1&H2). injection E1 as <-. injection E2 as <-. now rewrite H1, H2.
Qed.
Lemma prunable_dec h j : is_prunable h j = true -> is_dec h j = true.
Proof.
  unfold is_prunable, is_dec, left_child. destruct (h_get h j) as [[[w|l r] s d]|]; auto; discriminate.
Qed.

(** ** cache *)
Definition cache_ok (h : heap) (X : matrix) (t : tree) : Prop :=
  tr_fresh t = true -> exists p, tr_pred t = Some p /\ forall a oy, tree_inv h X oy t a -> p = insample h X a.
Lemma hvalue_ext h h' i : h_get h' i = h_get h i -> hvalue h' i = hvalue h i.
Proof. intros E. unfold hvalue, leaf_value. now rewrite E. Qed.
Lemma astree_ext h h' a : (forall j, In j (aids a) -> h_get h' j = h_get h j) -> astree h' a = astree h a.
Proof.
  induction a as [i|i v x l IHl r IHr]; simpl; intros He.
  - f_equal. apply hvalue_ext. auto.
  - f_equal; [apply IHl|apply IHr]; intros; apply He; right; apply in_app_iff; auto.
Qed.
Lemma insample_ext h h' X a : (forall j, In j (aids a) -> h_get h' j = h_get h j) -> insample h' X a = insample h X a.
Proof. intros He. unfold insample. now rewrite (astree_ext h h'). Qed.
Lemma sample_grow_frame h t idx m h1 idx' : sample_grow_mutation h t idx = Ok (m, h1, idx') ->
  h_next h <= h_next h1 /\ forall j, j < h_next h -> h_get h1 j = h_get h j.
Proof.
  intros E. apply sample_grow_spec in E as (i&v&x&p&s&i1&i2&_&_&_&_&Hsp&_).
  apply split_node_spec in Hsp as (k&s0&d&s'&sl&sr&_&_&_&Hn&Hold&_). split; [lia|auto].
Qed.
Lemma sample_prune_frame h t idx m h1 idx' : sample_prune_mutation h t idx = Ok (m, h1, idx') ->
  h_next h <= h_next h1 /\ forall j, j < h_next h -> h_get h1 j = h_get h j.
Proof.
  intros E. apply sample_prune_spec in E as (i&n&_&_&->&_). simpl. split; [lia|].
  intros j Hj. destruct (Nat.eqb_spec j (h_next h)); auto; lia.
Qed.
Lemma cache_frame h h1 X oy t a : tree_inv h X oy t a -> (forall j, j < h_next h -> h_get h1 j = h_get h j) ->
  h_next h <= h_next h1 -> cache_ok h X t -> cache_ok h1 X t.
Proof.
  intros H Hold Hn Hc Hf. destruct (Hc Hf) as (p&Ep&Hp). exists p. split; auto.
  intros a1 oy1 H1. 
  assert (Hb : forall j, In j (aids a1) -> j < h_next h).
  { intros j Hj. apply (ti_in _ _ _ _ _ _ H1) in Hj. eapply nodes_below; eauto. }
  rewrite (insample_ext h h1) by auto. apply (Hp a1 oy1).
  constructor; try apply H1.
  - apply (aok_ext h1); [|apply H1]. intros j Hj. symmetry. auto.
  - exact Hb.
Qed.
Lemma invalidates_fresh h t o h' t' : invalidates o -> tree_do h t o = Ok (h', t') -> tr_fresh t' = false.
Proof.
  assert (Hm : forall h1 m, done (mutate h1 t m) = Ok (h', t') -> tr_fresh t' = false).
  { intros h1 m. unfold mutate. destruct (mu_kind m).
    - destruct (remove_first (mu_existing m) (tr_nodes t)); [|discriminate].
      destruct (left_child h1 (mu_updated m)); [|discriminate].
      destruct (right_child h1 (mu_updated m)); [|discriminate]. intros E; injection E as <- <-; auto.
    - destruct (remove_first (mu_existing m) (tr_nodes t)) as [l1|]; [|discriminate].
      destruct (remove_id (left_child h1 (mu_existing m)) l1) as [l2|]; [|discriminate].
      destruct (remove_id (right_child h1 (mu_existing m)) l2) as [l3|]; [|discriminate].
      intros E; injection E as <- <-; auto.
    - intros E; injection E as <- <-; auto. }
  destruct o as [i v x|i|idx|idx|idx|idx|i w|y0|]; cbn [invalidates mutates tree_do]; intros Hi; try tauto.
  - destruct (split_node _ _ _ _) as [[p h1]| |]; try discriminate. cbn [rbind].
    destruct (grow_mutation h1 i p) as [m| |]; try discriminate. cbn [rbind]. eauto.
  - destruct (h_get h i); try discriminate. unfold h_alloc.
    destruct (prune_mutation _ _ _) as [m| |]; try discriminate. cbn [rbind]. eauto.
  - destruct (sample_grow_mutation h t idx) as [[[m h1] idx']| |]; try discriminate. cbn [rbind]. eauto.
  - destruct (sample_prune_mutation h t idx) as [[[m h1] idx']| |]; try discriminate. cbn [rbind]. eauto.
  - unfold tree_update_y. destruct (nodes_update_y _ _ _ _) as [h1| |]; try discriminate. cbn [rbind].
    intros E; injection E as <- <-. auto.
Qed.
Lemma cache_step h X oy t a o h' t' : no_nan X -> tree_inv h X oy t a -> no_set o -> cache_ok h X t ->
  tree_do h t o = Ok (h', t') -> cache_ok h' X t'.
Proof.
  intros Hnan H Hns Hc Hd.
  assert (Hinv : invalidates o -> cache_ok h' X t').
  { intros Hi Hf. pose proof (invalidates_fresh _ _ _ _ _ Hi Hd). congruence. }
  destruct o as [i v x|i|idx|idx|idx|idx|i w|y0|]; cbn [no_set invalidates mutates] in *; auto; cbn [tree_do] in Hd.
  - destruct (sample_grow_mutation h t idx) as [[[m h1] idx']| |] eqn:E; try discriminate. cbn [rbind] in Hd. injection Hd as <- <-.
    apply sample_grow_frame in E as [E1 E2]. eapply cache_frame; eauto.
  - destruct (sample_prune_mutation h t idx) as [[[m h1] idx']| |] eqn:E; try discriminate. cbn [rbind] in Hd. injection Hd as <- <-.
    apply sample_prune_frame in E as [E1 E2]. eapply cache_frame; eauto.
  - destruct (tree_predict h t) as [[p t1]| |] eqn:E; try discriminate. cbn [rbind] in Hd. injection Hd as <- <-.
    pose proof (tree_predict_shape _ _ _ _ E) as ->. intros _. exists p. split; auto.
    intros a1 oy1 H1. apply (tree_inv_cache _ _ _ _ _ (tr_fresh t) (tr_pred t)) in H1. simpl in H1.
    destruct t as [nodes fresh pred]; simpl in *. destruct fresh.
    + destruct (Hc eq_refl) as (p'&Ep&Hp). unfold tree_predict in E. simpl in *. rewrite Ep in E. simpl in E.
      injection E as <-. eauto.
    + destruct (tree_predict_spec _ _ _ _ _ Hnan H1 eq_refl) as (b&_&E'). rewrite E' in E.
      destruct (length b =? length (mx_rows X)); [|discriminate]. now injection E.
Qed.
Lemma cache_run X os : no_nan X -> forall h y t a h' t', tree_inv h X (Some y) t a -> 
  Forall (sane_tree_op (length (mx_rows X))) os -> Forall no_set os -> cache_ok h X t ->
  tree_run h t os = Ok (h', t') -> cache_ok h' X t'.
Proof.
  intros Hnan. induction os as [|o os IH]; intros h y t a h' t' H Hs Hns Hc; simpl.
  - intros E; injection E as <- <-. auto.
  - inversion Hs; subst. inversion Hns; subst.
    destruct (tree_do h t o) as [[h1 t1]| |] eqn:E; try discriminate. cbn [rbind]. intros Hr.
    destruct (tree_do_inv _ _ _ _ _ _ _ _ Hnan H H2 E) as (a1&H1&_&_).
    apply (IH h1 (y_after y o) t1 a1 h' t'); auto. apply (cache_step h X (Some y) t a o h1 t1); auto.
Qed.
Lemma tree_run_app h t os1 os2 : tree_run h t (os1 ++ os2) = 
  let! (h1, t1) := tree_run h t os1 in tree_run h1 t1 os2.
Proof.
  revert h t; induction os1 as [|o os1 IH]; intros h t; simpl; auto.
  destruct (tree_do h t o) as [[h1 t1]| |]; simpl; auto.
Qed.
Lemma cache_current_ok X y normalize h0 os h t : no_nan X -> tree_reached X y normalize h0 os h t ->
  cache_current os -> cache_ok h X t.
Proof.
  intros Hnan (Hl&Hs&s&Hr&Hrun) Hcur. rewrite Hl in Hs. pose proof (start_inv X y normalize h0 s Hl Hr) as H0.
  destruct Hcur as [Hns|(os1&o&os2&->&Hi&Hns)].
  - eapply cache_run; eauto. intros Hf. discriminate.
  - rewrite tree_run_app in Hrun. apply Forall_app in Hs as [Hs1 Hs2]. inversion Hs2 as [|? ? So Sos]; subst.
    destruct (tree_run _ _ os1) as [[h1 t1]| |] eqn:E1; try discriminate. cbn [rbind] in Hrun.
    destruct (tree_run_inv X os1 Hnan _ _ _ _ _ _ H0 Hs1 E1) as (a1&H1'&_&_).
    cbn [tree_run] in Hrun. destruct (tree_do h1 t1 o) as [[h2 t2]| |] eqn:E2; try discriminate. cbn [rbind] in Hrun.
    destruct (tree_do_inv _ _ _ _ _ _ _ _ Hnan H1' So E2) as (a2&H2'&_&_).
    apply (cache_run X os2 Hnan h2 _ t2 a2 h t H2'); auto. intros Hf. rewrite (invalidates_fresh _ _ _ _ _ Hi E2) in Hf. discriminate.
Qed.
Lemma predict_correct X oy h t a v t' : no_nan X -> tree_inv h X oy t a -> cache_ok h X t ->
  tree_predict h t = Ok (v, t') -> v = insample h X a.
Proof.
  intros Hnan H Hc E. destruct (tr_fresh t) eqn:Ef.
  - destruct (Hc Ef) as (p&Ep&Hp). unfold tree_predict in E. rewrite Ef, Ep in E. simpl in E. injection E as <- _. eauto.
  - destruct (tree_predict_spec _ _ _ _ _ Hnan H Ef) as (b&_&E'). rewrite E' in E.
    destruct (length b =? length (mx_rows X)); [|discriminate]. now injection E.
Qed.

(** never predicted *)
Lemma no_predict_step h t o h' t' : no_predict o -> tree_do h t o = Ok (h', t') -> tr_pred t' = tr_pred t.
Proof.
  assert (Hm : forall h1 m, done (mutate h1 t m) = Ok (h', t') -> tr_pred t' = tr_pred t).
  { intros h1 m. unfold mutate. destruct (mu_kind m).
    - destruct (remove_first (mu_existing m) (tr_nodes t)); [|discriminate].
      destruct (left_child h1 (mu_updated m)); [|discriminate].
      destruct (right_child h1 (mu_updated m)); [|discriminate]. intros E; injection E as <- <-; auto.
    - destruct (remove_first (mu_existing m) (tr_nodes t)) as [l1|]; [|discriminate].
      destruct (remove_id (left_child h1 (mu_existing m)) l1) as [l2|]; [|discriminate].
      destruct (remove_id (right_child h1 (mu_existing m)) l2) as [l3|]; [|discriminate].
      intros E; injection E as <- <-; auto.
    - intros E; injection E as <- <-; auto. }
  destruct o as [i v x|i|idx|idx|idx|idx|i w|y0|]; cbn [no_predict tree_do]; intros Hi; try tauto.
  - destruct (split_node _ _ _ _) as [[p h1]| |]; try discriminate. cbn [rbind].
    destruct (grow_mutation h1 i p) as [m| |]; try discriminate. cbn [rbind]. eauto.
  - destruct (h_get h i); try discriminate. unfold h_alloc.
    destruct (prune_mutation _ _ _) as [m| |]; try discriminate. cbn [rbind]. eauto.
  - destruct (sample_grow_mutation h t idx) as [[[m h1] idx']| |]; try discriminate. cbn [rbind]. eauto.
  - destruct (sample_prune_mutation h t idx) as [[[m h1] idx']| |]; try discriminate. cbn [rbind]. eauto.
  - destruct (sample_grow_mutation h t idx) as [[[m h1] idx']| |]; try discriminate. cbn [rbind]. intros E; injection E as <- <-; auto.
  - destruct (sample_prune_mutation h t idx) as [[[m h1] idx']| |]; try discriminate. cbn [rbind]. intros E; injection E as <- <-; auto.
  - destruct (existsb _ _); try discriminate. intros E; injection E as <- <-; auto.
  - unfold tree_update_y. destruct (nodes_update_y _ _ _ _) as [h1| |]; try discriminate. cbn [rbind].
    intros E; injection E as <- <-. auto.
Qed.
Lemma no_predict_run os : forall h t h' t', Forall no_predict os -> tree_run h t os = Ok (h', t') -> tr_pred t' = tr_pred t.
Proof.
  induction os as [|o os IH]; intros h t h' t' Hf; simpl.
  - intros E; injection E as <- <-. auto.
  - inversion Hf; subst. destruct (tree_do h t o) as [[h1 t1]| |] eqn:E; try discriminate. cbn [rbind]. intros Hr.
    rewrite (IH _ _ _ _ H2 Hr). eapply no_predict_step; eauto.
Qed.
Lemma count_full p n : count p n = n -> forall i, i < n -> p i = true.
Proof.
  induction n; simpl; intros E i Hi; [lia|].
  assert (Hle : forall k, count p k <= k) by (induction k; simpl; auto; destruct (p k); lia).
  pose proof (Hle n). destruct (p n) eqn:Ep; [|lia].
  destruct (Nat.eq_dec i n) as [->|]; auto. apply IHn; lia.
Qed.
Lemma full_count p n : (forall i, i < n -> p i = true) -> count p n = n.
Proof. induction n; simpl; intros H; auto. rewrite IHn, H by (intros; auto; apply H; lia). lia. Qed.
Lemma first_predict h X oy t a : no_nan X -> tree_inv h X oy t a -> tr_fresh t = false -> tr_pred t = None ->
  exists i0 s0 k d, hd_error (tr_nodes t) = Some i0 /\ h_get h i0 = Some (Nd k (SFull s0) d) /\
   ((forall i, i < length (mx_rows X) -> in_node s0 i) /\ exists v t', tree_predict h t = Ok (v, t')) \/
   hd_error (tr_nodes t) = Some i0 /\ h_get h i0 = Some (Nd k (SFull s0) d) /\
   (exists i, i < length (mx_rows X) /\ ~ in_node s0 i) /\ tree_predict h t = Raise EIndexError.
Proof.
  intros Hnan H Hf Hp. destruct (tree_predict_spec _ _ _ _ _ Hnan H Hf) as (b&Eb&E).
  unfold start_buffer in Eb. rewrite Hp in Eb. destruct (tr_nodes t) as [|i0 nodes] eqn:En; [discriminate|]. simpl in Eb.
  assert (Hi0 : In i0 (aids a)) by (apply (ti_in _ _ _ _ _ _ H); rewrite En; simpl; auto).
  destruct (ti_node _ _ _ _ _ _ _ (ti_ok _ _ _ _ _ H) Hi0) as (k&s&d'&cs'&E0&Hs0).
  unfold node_data, node_split in Eb. rewrite E0 in Eb. injection Eb as <-. rewrite repeat_length in E.
  rewrite (n_obsv_exact X oy cs' s Hs0), Nat2Z.id in E.
  exists i0, s, k, d'. simpl.
  destruct (Nat.eqb_spec (count (in_nodeb s) (length (mx_rows X))) (length (mx_rows X))) as [Ec|Ec].
  - left. split; auto. split; auto. split; [|eauto]. intros i Hi. apply in_nodeb_iff. eapply count_full; eauto.
  - right. split; auto. split; auto. split; auto.
    destruct (forallb (in_nodeb s) (seq 0 (length (mx_rows X)))) eqn:Ea.
    + exfalso. apply Ec. apply full_count. intros i Hi. rewrite forallb_forall in Ea. apply Ea. apply in_seq. lia.
    + assert (Hex : exists i, In i (seq 0 (length (mx_rows X))) /\ in_nodeb s i = false).
      { clear -Ea. induction (seq 0 (length (mx_rows X))) as [|i l IH]; simpl in *; [discriminate|].
        destruct (in_nodeb s i) eqn:E; [|exists i; auto]. simpl in Ea. destruct (IH Ea) as (k&?&?). exists k; auto. }
      destruct Hex as (i&Hi&Hb). exists i. apply in_seq in Hi. split; [lia|]. intros Hin. apply in_nodeb_iff in Hin. congruence.
Qed.

(** ** proposals *)
Lemma splittable_leaf h X oy t a i : tree_inv h X oy t a -> In i (splittable_leaf_nodes h t) -> 
  exists w s d ci, In i (tr_nodes t) /\ is_leaf h i = true /\ afind [] 0 i a = Some (ci, d, ALeaf i) /\
    h_get h i = Some (Nd (KLeaf w) (SFull s) d) /\ sinv X oy ci s /\
    fst (is_at_least_one_splittable_variable (d_X (sp_data s))) = true.
Proof.
  intros H Hi. unfold splittable_leaf_nodes in Hi. apply filter_In in Hi as [Hi Hsp].
  unfold leaf_nodes in Hi. apply filter_In in Hi as [Hi Hl].
  pose proof (proj1 (ti_in _ _ _ _ _ _ H) Hi) as Hia. destruct (afind_in a [] 0 i Hia) as ([[ci di] ai]&Hf).
  pose proof (afind_leaf _ _ _ _ _ _ _ _ _ _ (ti_ok _ _ _ _ _ H) Hf Hl) as ->.
  pose proof (afind_aok _ _ _ _ _ _ _ _ _ _ (ti_ok _ _ _ _ _ H) Hf) as (w&s&Eg&Hs).
  exists w, s, di, ci. unfold is_splittable, node_data, node_split in Hsp. rewrite Eg in Hsp. auto 10.
Qed.
Lemma split_node_total h X y i w s d cs v x : no_nan X -> h_get h i = Some (Nd (KLeaf w) (SFull s) d) -> 
  sinv X (Some y) cs s -> x <> FNaN -> v < mx_ncols X -> i < h_next h ->
  exists p h1, split_node h i (fresh_le v x) (fresh_gt v x) = Ok (p, h1) /\ grow_mutation h1 i p = Ok (Mu MGrow i p).
Proof.
  intros Hnan Eg Hs Hx Hv Hi. destruct (split_children_total X y cs s v x Hnan Hx Hv Hs) as (s'&sl&sr&E).
  unfold split_node. rewrite Eg, E. simpl. do 2 eexists. split; [reflexivity|].
  unfold grow_mutation, is_leaf. simpl.
  repeat match goal with |- context [Nat.eqb ?a ?b] => destruct (Nat.eqb_spec a b); try lia end.
  repeat match goal with |- context [match i with 0 => false | S _ => _ end] => 
    destruct i; [|] end; now rewrite Eg.
Qed.

(** ** grow then prune *)
Lemma redirected_relink e u n : relink_node e u n = redirected e u n.
Proof. destruct n as [[w|l r] s d]; reflexivity. Qed.
Lemma aleaf_of_subst_leaf i u r a : ~ In i (adecids a) ->
  aleaf_of (asubst i (ALeaf u) a) r = if Nat.eqb (aleaf_of a r) i then u else aleaf_of a r.
Proof.
  induction a as [j|j v x tl IHl tr IHr]; simpl; intros Hn.
  - destruct (Nat.eqb_spec j i); auto.
  - destruct (Nat.eqb_spec j i); [tauto|]. simpl. rewrite in_app_iff in Hn.
    destruct (fle (cell r v) x); [apply IHl|apply IHr]; tauto.
Qed.
Lemma asubst_asubst i u b a : ~ In (aroot b) (aids a) ->
  asubst (aroot b) (ALeaf u) (asubst i b a) = asubst i (ALeaf u) a.
Proof.
  induction a as [j|j v x tl IHl tr IHr]; simpl; intros Hn; destruct (Nat.eqb_spec j i); simpl.
  - destruct b; simpl; rewrite Nat.eqb_refl; auto.
  - destruct (Nat.eqb_spec j (aroot b)); [tauto|auto].
  - destruct b; simpl; rewrite Nat.eqb_refl; auto.
  - rewrite in_app_iff in Hn. destruct (Nat.eqb_spec j (aroot b)); [tauto|]. rewrite IHl, IHr by tauto. auto.
Qed.
Lemma afind_asubst i b a : forall cs d ci di ai, ~ In (aroot b) (aids a) -> 
  afind cs d i a = Some (ci, di, ai) -> afind cs d (aroot b) (asubst i b a) = Some (ci, di, b).
Proof.
  induction a as [j|j v x tl IHl tr IHr]; intros cs d ci di ai Hn; simpl in *; destruct (Nat.eqb_spec j i); simpl.
  - intros E; injection E as <- <- <-. destruct b; simpl; rewrite Nat.eqb_refl; auto.
  - discriminate.
  - intros E; injection E as <- <- <-. destruct b; simpl; rewrite Nat.eqb_refl; auto.
  - rewrite in_app_iff in Hn. destruct (Nat.eqb_spec j (aroot b)); [tauto|].
    destruct (afind _ _ i tl) as [[[c0 d0] a0]|] eqn:El.
    + intros E; injection E as <- <- <-. rewrite (IHl _ _ _ _ _ ltac:(tauto) El). auto.
    + intros Er. destruct (afind (cs ++ [Rl v x true]) (S d) (aroot b) (asubst i b tl)) as [z|] eqn:El'.
      * exfalso. assert (Hni : ~ In i (aids tl)) by (intros Hi; destruct (afind_in tl (cs ++ [Rl v x true]) (S d) i Hi) as (z'&E'); congruence).
        rewrite (asubst_notin _ _ _ Hni) in El'. rewrite afind_notin in El' by tauto. discriminate.
      * eapply IHr; eauto.
Qed.
Lemma split_children_parent s c0 c1 s' sl sr X oy cs : sinv X oy cs s ->
  split_children s c0 c1 = Ok (s', sl, sr) -> same_rows_target s s'.
Proof.
  intros Hs. unfold split_children. destruct (split_add s c0) as [s0| |]; try discriminate. cbn [rbind].
  destruct (summed_y (d_y (sp_data s))) as [[v t']| |] eqn:Es; try discriminate. cbn [rbind].
  destruct (summed_y (d_y (sp_data s0))) as [[v0 t0]| |]; try discriminate. cbn [rbind].
  match goal with |- context [split_add ?q ?c] => destruct (split_add q c) as [s1| |]; try discriminate end. cbn [rbind].
  intros E; injection E as <- <- <-. repeat split; auto. simpl.
  apply (summed_y_spec _ _ _ _ _ (si_t _ _ _ _ Hs)) in Es as [_ Ht]. rewrite (tv_y _ _ _ Ht).
  symmetry. apply (si_t _ _ _ _ Hs).
Qed.
Lemma on_path_kept X oy cs s r : sinv X oy cs s -> row_clean (mx_ncols X) r = true ->
  (forall c, In c (cc_conds (sp_cc s)) -> sc_val c <> FNaN) -> on_path s r = kept cs r.
Proof.
  intros Hs Hr Hv. unfold on_path, kept. rewrite <- (si_conds _ _ _ _ Hs). pose proof (si_ops _ _ _ _ Hs) as Ho.
  induction (cc_conds (sp_cc s)) as [|c l IH]; simpl; auto. inversion Ho as [|? ? [Hc1 Hc2] Ho']; subst.
  rewrite negb_orb, IH; auto; [|intros; apply Hv; simpl; auto]. f_equal.
  unfold cond_holds, excluded, rule_of. simpl. 
  pose proof (proj1 (row_clean_iff _ _) Hr _ Hc1) as [Hn _].
  assert (Hv' : sc_val c <> FNaN) by (apply Hv; simpl; auto).
  apply not_nan in Hn, Hv'. destruct (sc_op c); try tauto.
  - rewrite fgt_negb by auto. now rewrite negb_involutive.
  - now rewrite fgt_negb by auto.
Qed.

Lemma afind_rules h X oy a : forall cs d i ci di ai, aok h X oy cs d a -> afind cs d i a = Some (ci, di, ai) ->
  Forall (fun q => rl_val q <> FNaN) cs -> Forall (fun q => rl_val q <> FNaN) ci.
Proof.
  induction a as [j|j v x l IHl r IHr]; intros cs d i ci di ai; simpl; destruct (Nat.eqb_spec j i) as [E|Hne].
  - intros Ha H; injection H as <- <- <-. auto.
  - discriminate.
  - intros Ha H; injection H as <- <- <-. auto.
  - intros (H1&H2&H3&H4&H5). destruct (afind _ _ _ l) as [[[c0 d0] a0]|] eqn:El.
    + intros H; injection H as <- <- <-. intros Hc. eapply IHl; eauto. apply Forall_app; auto.
    + intros Er Hc. eapply IHr; eauto. apply Forall_app; auto.
Qed.
Lemma kept_leaf h X oy t a i ci di r : tree_inv h X oy t a -> afind [] 0 i a = Some (ci, di, ALeaf i) ->
  row_clean (mx_ncols X) r = true -> kept ci r = Nat.eqb (aleaf_of a r) i.
Proof.
  intros H Hf Hr.
  assert (Hreg : forall a cs d, afind cs d i a = Some (ci, di, ALeaf i) -> In (i, (ci, di)) (aregions cs d a)).
  { clear. induction a as [j|j v x l IHl r IHr]; intros cs d; simpl; destruct (Nat.eqb_spec j i) as [E|Hne].
    - intros H; injection H as <- <- <-. auto.
    - discriminate.
    - intros H; injection H as <- <- E'. discriminate.
    - destruct (afind _ _ _ l) as [[[c0 d0] a0]|] eqn:El.
      + intros H; injection H as -> -> ->. apply in_app_iff. auto.
      + intros Er. apply in_app_iff. auto. }
  rewrite (region_kept h X oy a r) with (cs := []) (d := 0) (j := i) (dj := di); auto; try apply H.
  - intros v Hv. apply (proj1 (row_clean_iff _ _) Hr v Hv).
Qed.
Lemma grow_prune_step h X y t a i v x h1 t1 p : no_nan X -> tree_inv h X (Some y) t a -> x <> FNaN ->
  tree_do h t (TGrow i v x) = Ok (h1, t1) ->
  In p (tr_nodes t1) -> is_dec h1 p = true -> ~ In p (tr_nodes t) ->
  exists h2 t2, tree_do h1 t1 (TPrune p) = Ok (h2, t2) /\
  exists i' others w s s' d ci, Permutation (tr_nodes t) (i :: others) /\ Permutation (tr_nodes t2) (i' :: others) /\
    h_get h i = Some (Nd (KLeaf w) (SFull s) d) /\ h_get h2 i' = Some (Nd (KLeaf 0%R) (SFull s') d) /\
    same_rows_target s s' /\ (forall j, In j others -> h_get h2 j = option_map (redirected i i') (h_get h j)) /\
    tree_inv h2 X (Some y) t2 (asubst i (ALeaf i') a) /\ afind [] 0 i a = Some (ci, d, ALeaf i) /\ sinv X (Some y) ci s.
Proof.
  intros Hnan H Hx Hd Hp Hpd Hpn. cbn [tree_do] in Hd.
  destruct (split_node h i (fresh_le v x) (fresh_gt v x)) as [[p0 hs]| |] eqn:Hsp; try discriminate. cbn [rbind] in Hd.
  destruct (grow_mutation hs i p0) as [m| |] eqn:Hg; try discriminate. cbn [rbind] in Hd.
  destruct (grow_full _ _ _ _ _ _ _ _ _ _ _ _ Hnan H Hx Hsp Hg Hd) as (Hi&Hl&->&Hp0&Hn&l1&Hr&Er&Hinv&Hget).
  injection Er as -> ->.
  pose proof (split_node_spec _ _ _ _ _ _ Hsp) as (k&s&d&s'&sl&sr&Eg&Esc&_&_&Hold&Hgl&Hgr&Hgp).
  pose proof (proj1 (ti_in _ _ _ _ _ _ H) Hi) as Hia. destruct (afind_in a [] 0 i Hia) as ([[ci di] ai]&Hf).
  pose proof (afind_leaf _ _ _ _ _ _ _ _ _ _ (ti_ok _ _ _ _ _ H) Hf Hl) as ->.
  pose proof (afind_aok _ _ _ _ _ _ _ _ _ _ (ti_ok _ _ _ _ _ H) Hf) as (w&s0&Eg'&Hs0).
  rewrite Eg in Eg'. injection Eg' as -> -> ->.
  set (l := h_next h) in *. set (rt := S l) in *. assert (Hp0' : p0 = S rt) by (unfold rt; auto).
  set (h1 := relink hs (l1 ++ [l; rt; p0]) i p0) in *. set (t1 := Tr (l1 ++ [l; rt; p0]) false (tr_pred t)) in *.
  pose proof (ti_tnodup _ _ _ _ _ H) as Hnd.
  assert (Hib : i < l) by (eapply nodes_below; eauto).
  assert (Hl1b : forall j, In j l1 -> j < l).
  { intros j Hj. eapply nodes_below; eauto. eapply remove_first_incl; eauto. }
  assert (G1 : forall j, h_get h1 j = if mem j (l1 ++ [l; rt; p0]) then relinked i p0 (h_get hs j) else h_get hs j).
  { intros j. apply relink_get. lia. }
  assert (Hm : forall j, In j [l; rt; p0] -> mem j (l1 ++ [l; rt; p0]) = true).
  { intros j Hj. apply mem_in, in_app_iff; auto. }
  assert (Gl : h_get h1 l = Some (Nd (KLeaf 0%R) (SFull sl) (S di))).
  { rewrite G1, Hm, Hgl by (simpl; auto). reflexivity. }
  assert (Gr : h_get h1 rt = Some (Nd (KLeaf 0%R) (SFull sr) (S di))).
  { rewrite G1, Hm, Hgr by (simpl; auto). reflexivity. }
  assert (Gp : h_get h1 p0 = Some (Nd (KDec l rt) (SFull s') di)).
  { rewrite G1, Hm by (simpl; auto). rewrite Hp0'. fold rt in Hgp. rewrite Hgp. simpl. unfold relink_node; simpl.
    destruct (Nat.eqb_spec l i); [lia|]. assert (Nat.eqb rt i = false) as Er by (apply Nat.eqb_neq; unfold rt; lia).
    unfold rt in Er. simpl in Er. rewrite Er. reflexivity. }
  assert (p = p0) as ->.
  { simpl in Hp. apply in_app_iff in Hp as [Hp|[<-|[<-|[<-|[]]]]]; auto.
    - exfalso. apply Hpn. eapply remove_first_incl; eauto.
    - unfold is_dec in Hpd. rewrite Gl in Hpd. discriminate.
    - unfold is_dec in Hpd. rewrite Gr in Hpd. discriminate. }
  assert (Hpr : is_prunable h1 p0 = true).
  { unfold is_prunable, left_child, right_child, is_leaf. now rewrite Gp, Gl, Gr. }
  destruct (prune_step h1 X (Some y) t1 _ p0 Hinv Hp Hpr) as (v2&x2&jl&jr&s2&d2&ci2&Hf2&Hg2&Hs2&Hpm&m1&m2&m3&R1&R2&R3&Hmut&Hinv2&Hget2).
  rewrite Gp in Hg2. injection Hg2 as <- <- <- <-.
  cbn [tree_do]. rewrite Gp. unfold h_alloc at 1. cbn [nd_split nd_depth].
  unfold h_alloc in Hpm, Hmut, Hinv2, Hget2. cbn [snd] in Hpm, Hmut, Hinv2, Hget2.
  rewrite Hpm. cbn [rbind]. rewrite Hmut. cbn [done].
  do 2 eexists. split; [reflexivity|].
  set (u := h_next h1) in *.
  assert (Hu : u = S (S rt)). { unfold u, h1. rewrite relink_next. exact Hn. }
  assert (Q0 : Permutation (tr_nodes t) (i :: l1)).
  { destruct (remove_first_perm i (tr_nodes t) Hi) as (l1'&E'&P'). congruence. }
  assert (Hnl : NoDup (l1 ++ [l; rt; p0])). { apply (ti_tnodup _ _ _ _ _ Hinv). }
  assert (Q3 : Permutation m3 l1).
  { pose proof (remove_first_spec p0 (tr_nodes t1)) as S1. rewrite R1 in S1. destruct S1 as (b1&b2&E1&->&_).
    apply NoDup_Permutation.
    - assert (N1 : NoDup (b1 ++ b2)). { simpl in E1. rewrite E1 in Hnl. eapply NoDup_remove_1; eauto. }
      pose proof (remove_first_spec l (b1 ++ b2)) as S2. rewrite R2 in S2. destruct S2 as (b3&b4&E2&->&_). rewrite E2 in N1.
      apply NoDup_remove_1 in N1. pose proof (remove_first_spec rt (b3 ++ b4)) as S3. rewrite R3 in S3. destruct S3 as (b5&b6&E3&->&_).
      rewrite E3 in N1. eapply NoDup_remove_1; eauto.
    - apply NoDup_app_disj in Hnl. tauto.
    - intros j. assert (Hj1 : In j (b1 ++ b2) <-> In j (tr_nodes t1) /\ j <> p0) by (eapply perm_remove; eauto).
      assert (N1 : NoDup (b1 ++ b2)). { simpl in E1. rewrite E1 in Hnl. eapply NoDup_remove_1; eauto. }
      assert (Hj2 : In j m2 <-> In j (b1 ++ b2) /\ j <> l) by (eapply perm_remove; eauto).
      assert (N2 : NoDup m2).
      { pose proof (remove_first_spec l (b1 ++ b2)) as S2. rewrite R2 in S2. destruct S2 as (b3&b4&E2&->&_). rewrite E2 in N1.
        eapply NoDup_remove_1; eauto. }
      assert (Hj3 : In j m3 <-> In j m2 /\ j <> rt) by (eapply perm_remove; eauto).
      rewrite Hj3, Hj2, Hj1. simpl. rewrite in_app_iff. simpl.
      split; [intuition congruence|]. intros Hj. pose proof (Hl1b j Hj). unfold rt in *. repeat split; auto; lia. }
  exists u, l1, w, s0, s', di, ci. split; auto. split.
  { simpl. rewrite Permutation_app_comm. simpl. constructor. exact Q3. }
  split; auto. split.
  { rewrite relink_get by lia. replace (mem u (m3 ++ [u])) with true; [|symmetry; apply mem_in, in_app_iff; simpl; auto].
    simpl. fold u. rewrite Nat.eqb_refl. reflexivity. }
  split; [eapply split_children_parent; eauto|]. split.
  - intros j Hj. pose proof (Hl1b j Hj) as Hjb.
    rewrite Hget2 by (rewrite Hu; unfold rt; lia).
    replace (mem j m3) with true; [|symmetry; apply mem_in; eapply Permutation_in; [symmetry; exact Q3|auto]].
    rewrite G1. replace (mem j (l1 ++ [l; rt; p0])) with true; [|symmetry; apply mem_in, in_app_iff; auto].
    rewrite Hold by auto. 
    assert (Hjt : In j (tr_nodes t)) by (eapply remove_first_incl; eauto).
    destruct (h_get h j) as [[[w'|cl cr] sj dj]|] eqn:Ej; simpl; auto. unfold relink_node; simpl.
    apply (ti_in _ _ _ _ _ _ H) in Hjt.
    destruct (child_listed _ _ _ _ _ _ _ _ _ _ _ (ti_ok _ _ _ _ _ H) Hjt Ej) as (A&B&_).
    apply (ti_below _ _ _ _ _ H) in A, B. fold l in A, B.
    f_equal. f_equal. f_equal; repeat match goal with |- context [Nat.eqb ?a ?b] => destruct (Nat.eqb_spec a b) end; auto; unfold rt in *; lia.
  - split; [|split; auto].
    assert (Hno : ~ In p0 (aids a)) by (intros Hx0; apply (ti_below _ _ _ _ _ H) in Hx0; fold l in Hx0; unfold rt in *; lia).
    pose proof (asubst_asubst i u (ANode p0 v x (ALeaf l) (ALeaf rt)) a Hno) as Ea. cbn [aroot] in Ea.
    rewrite <- Ea. exact Hinv2.
Qed.
