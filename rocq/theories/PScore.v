(** Lemmas behind Properties_Score.v *)
From Coq Require Import Reals Lra Permutation.
From Verif Require Import Base Fl Ext MData MSplit MTree MSampler MHist MTreeHist Spec SpecTree SpecSampler SpecScore LFl LList
  PData PSplit PDataProps PCond PTree PPred PTreeHist PTreeProps PTreeProps2 PSampler PSampler2 PSampler3 PCounts PModel PModel2 PModel3 PModel4 PModel5 PModel6 PModel7 PModel8.

Definition rws (X : matrix) (cs : list rule) : list nat := filter (fun i => kept cs (nth i (mx_rows X) [])) (seq 0 (length (mx_rows X))).
Lemma filter_filter {A} (f g : A -> bool) l : filter f (filter g l) = filter (fun x => g x && f x) l.
Proof. induction l as [|x l IH]; auto. simpl. destruct (g x); simpl; [destruct (f x)|]; rewrite ?IH; auto. Qed.
Lemma rws_nil X : rws X [] = seq 0 (length (mx_rows X)).
Proof. unfold rws. generalize (seq 0 (length (mx_rows X))). induction l; simpl; auto. now rewrite IHl. Qed.
Lemma not_gt X i v x : no_nan X -> v < mx_ncols X -> i < length (mx_rows X) -> x <> FNaN -> fgt (value_in X i v) x = negb (fle (value_in X i v) x).
Proof.
  intros Hn Hv Hi Hx. assert (H : value_in X i v <> FNaN) by (apply Hn; auto; apply nth_In; auto).
  apply fgt_negb; [destruct (value_in X i v)|destruct x]; auto; congruence.
Qed.
Lemma rws_left X cs v x : no_nan X -> v < mx_ncols X -> x <> FNaN -> rws X (cs ++ [Rl v x true]) = filter (fun i => fle (value_in X i v) x) (rws X cs).
Proof.
  intros Hn Hv Hx. unfold rws. rewrite filter_filter. apply filter_ext_in. intros i Hi. apply in_seq in Hi. rewrite kept_snoc. f_equal.
  unfold excluded; simpl. pose proof (not_gt X i v x Hn Hv ltac:(lia) Hx) as E. unfold value_in in *. rewrite E. apply negb_involutive.
Qed.
Lemma rws_right X cs v x : rws X (cs ++ [Rl v x false]) = filter (fun i => negb (fle (value_in X i v) x)) (rws X cs).
Proof. unfold rws. rewrite filter_filter. apply filter_ext. intros i. rewrite kept_snoc. reflexivity. Qed.
Lemma count_ext p q n : (forall i, i < n -> p i = q i) -> count p n = count q n.
Proof. induction n; simpl; intros H; auto. rewrite IHn by (intros; apply H; lia). rewrite (H n) by lia. reflexivity. Qed.
Lemma sum_over_ext p q y n : (forall i, i < n -> p i = q i) -> sum_over p y n = sum_over q y n.
Proof. induction n; simpl; intros H; auto. rewrite IHn by (intros; apply H; lia). rewrite (H n) by lia. reflexivity. Qed.
Lemma rws_count X cs : count_of X cs = length (rws X cs).
Proof.
  unfold count_of, mask_of, rws. rewrite <- count_filter. symmetry. rewrite <- (map_length (fun r => existsb (fun q => excluded q r) cs)).
  change (map (fun r => existsb (fun q => excluded q r) cs) (mx_rows X)) with (mask_of X cs).
  transitivity (count (fun i => match nth_error (mask_of X cs) i with Some false => true | _ => false end) (length (mask_of X cs))).
  - apply count_ext. intros i Hi. unfold mask_of in *. rewrite map_length in Hi. rewrite nth_error_map, (nth_error_nth' _ [] Hi). simpl.
    unfold kept. now destruct (existsb _ _).
  - now apply count_count_false.
Qed.
Lemma rws_sum X y cs : length y = length (mx_rows X) -> sum_of X y cs = target_sum y (rws X cs).
Proof.
  intros Hl. unfold target_sum, rws. rewrite <- sum_over_targets. unfold sum_of.
  rewrite <- (sum_over_masked_sum (mask_of X cs) y (length (mx_rows X))); auto; [|apply mask_of_length].
  symmetry.
  apply sum_over_ext. intros i Hi. unfold mask_of. rewrite nth_error_map, (nth_error_nth' _ [] Hi). simpl.
  unfold kept. now destruct (existsb _ _).
Qed.
Lemma Lk_gain X y cs v x sigma p : no_nan X -> v < mx_ncols X -> x <> FNaN -> length y = length (mx_rows X) -> (0 < sigma)%R -> good p ->
  let rows := rws X cs in
  Lk X y cs v x sigma p = XFin (split_gain y sigma (tau_of (pa_k p) (pa_ntrees p)) rows (filter (fun i => fle (value_in X i v) x) rows)
    (filter (fun i => negb (fle (value_in X i v) x)) rows)).
Proof.
  intros Hn Hv Hx Hl Hs Hp rows. destruct Hp as [(_&_&Hk&_) Hnt]. unfold Lk. rewrite sigma_m_fin by auto. rewrite log_grow_ratio_fin by auto using tau_pos.
  rewrite !rws_count, !rws_sum, rws_left, rws_right by auto. reflexivity.
Qed.

(** ** scores of abstract trees *)
Fixpoint ashape (a : atree) : stree := match a with ALeaf _ => SLeaf 0%R | ANode _ v x l r => SNode v x (ashape l) (ashape r) end.
Lemma splits_astree h a : splits_of (astree h a) = ashape a.
Proof. induction a; simpl; congruence. Qed.
Lemma score_splits X Y sigma p st : forall rows d, score X Y sigma p rows d (splits_of st) = score X Y sigma p rows d st.
Proof. induction st as [w|v x l IHl r IHr]; intros rows d; simpl; auto. now rewrite IHl, IHr. Qed.
Lemma score_subst X Y sigma p b a : no_nan X -> forall h cs d i ci di ai, aok h X (Some Y) cs d a -> NoDup (aids a) -> afind cs d i a = Some (ci, di, ai) ->
  (score X Y sigma p (rws X cs) d (ashape (asubst i b a)) - score X Y sigma p (rws X cs) d (ashape a) =
   score X Y sigma p (rws X ci) di (ashape b) - score X Y sigma p (rws X ci) di (ashape ai))%R.
Proof.
  intros Hnan. induction a as [j|j v x l IHl r IHr]; intros h cs d i ci di ai Ha Hn; simpl; destruct (Nat.eqb_spec j i) as [E|Hne].
  - intros H; injection H as <- <- <-. reflexivity.
  - discriminate.
  - intros H; injection H as <- <- <-. reflexivity.
  - simpl in Ha. destruct Ha as ((s&E&Hs)&Hx&Hv&Hl&Hr). inversion Hn as [|? ? Hi Hn']; subst. apply NoDup_app_disj in Hn' as (Hnl&Hnr&Hdis).
    destruct (afind (cs ++ [Rl v x true]) (S d) i l) as [[[c0 d0] a0]|] eqn:El; intros H.
    + injection H as <- <- <-. specialize (IHl _ _ _ _ _ _ _ Hl Hnl El). rewrite rws_left in IHl by auto.
      rewrite (asubst_notin i b r); [simpl; lra|].
      intros Hir. apply (Hdis i); auto. apply afind_sub in El as [<- El]. apply El, aroot_in.
    + specialize (IHr _ _ _ _ _ _ _ Hr Hnr H). rewrite rws_right in IHr by auto.
      rewrite (asubst_notin i b l); [simpl; lra|].
      intros Hil. destruct (afind_in l (cs ++ [Rl v x true]) (S d) i Hil) as (z&Ez). congruence.
Qed.
Definition sc (X : matrix) (Y : list R) (sigma : R) (p : params) (a : atree) : R := tree_score X Y sigma p (ashape a).
Lemma node_score X Y sigma p cs d i v x l r : 
  score X Y sigma p (rws X cs) d (ashape (ANode i v x (ALeaf l) (ALeaf r))) =
  (ln (pa_pprune p / pa_pgrow p) + log_structure_odds (pa_alpha p) (pa_beta p) d +
   split_gain Y sigma (tau_of (pa_k p) (pa_ntrees p)) (rws X cs) (filter (fun i => fle (value_in X i v) x) (rws X cs))
    (filter (fun i => negb (fle (value_in X i v) x)) (rws X cs)))%R.
Proof. simpl. lra. Qed.
Lemma inv_target_len h X Y t a : tree_inv h X (Some Y) t a -> length Y = length (mx_rows X).
Proof.
  intros H. destruct (ti_node _ _ _ _ _ _ (aroot a) (ti_ok _ _ _ _ _ H) (aroot_in a)) as (k&s&d'&cs'&_&Hs).
  pose proof (tv_len _ _ _ (si_t _ _ _ _ Hs) Y eq_refl) as Hl. now rewrite mask_of_length in Hl.
Qed.
Lemma reads_shape h X oy t a st : tree_inv h X oy t a -> reads h t st -> splits_of st = ashape a.
Proof.
  intros H (root&ids&Hu&Hp&_). destruct (unfolds_root _ _ _ _ _ Hu) as (Hin&k&sp&E).
  assert (Hin' : In root (aids a)). { eapply Permutation_in; [|exact Hin]. eapply perm_trans; [symmetry; exact Hp|apply H]. }
  destruct (aok_depth _ _ _ _ _ _ _ _ _ _ (ti_ok _ _ _ _ _ H) Hin' E) as [_ Hr]. rewrite (Hr eq_refl) in Hu.
  rewrite (unfolds_det _ _ _ _ _ (aok_unfolds _ _ _ _ _ _ (ti_ok _ _ _ _ _ H)) _ _ Hu). apply splits_astree.
Qed.
Lemma reads_inv h X oy t a : tree_inv h X oy t a -> reads h t (astree h a).
Proof. intros H. exists (aroot a), (aids a). split; [eapply aok_unfolds; apply H|]. split; apply H. Qed.
Lemma reads_score h X oy t a st Y sigma p : tree_inv h X oy t a -> reads h t st -> tree_score X Y sigma p st = sc X Y sigma p a.
Proof. intros H Hr. unfold sc. rewrite <- (reads_shape _ _ _ _ _ _ H Hr). unfold tree_score. now rewrite score_splits. Qed.

(** ** proposals *)
Lemma grow_score h X Y t a idx m h1 idx1 h2 t2 sigma p : no_nan X -> tree_inv h X (Some Y) t a ->
  sample_grow_mutation h t idx = Ok (m, h1, idx1) -> mutate h1 t m = (h2, t2, None) -> (0 < sigma)%R -> good p ->
  exists a2, tree_inv h2 X (Some Y) t2 a2 /\ mu_kind m = MGrow /\
    log_probability_ratio h1 t m sigma p =
    Ok (XFin (sc X Y sigma p a2 - sc X Y sigma p a - ln (INR (length (prunable_decision_nodes h t)) + 1))%R) /\
    length (prunable_decision_nodes h2 t2) <= S (length (prunable_decision_nodes h t)).
Proof.
  intros Hn H Hsg Hm Hs Hp. pose proof (inv_target_len _ _ _ _ _ H) as Hlen.
  destruct (grow_view _ _ _ _ _ _ _ _ _ Hn H Hsg) as (i&u&l&r&cs&d&v&x&->&Hf&Hch&Haf&Hin&Hfr&Hx&Hsp&Hg&->&->).
  assert (Hleaf : In i (leaf_nodes h t)) by (unfold splittable_leaf_nodes in Hin; apply filter_In in Hin; tauto).
  destruct (grow_counts _ _ _ _ _ _ _ _ _ _ _ _ _ Hn H Hx Hleaf Hsp Hg Hm) as (Hcnt&_).
  assert (Hd : done (mutate h1 t (Mu MGrow i u)) = Ok (h2, t2)) by (rewrite Hm; reflexivity).
  destruct (grow_full _ _ _ _ _ _ _ _ _ _ _ _ Hn H Hx Hsp Hg Hd) as (_&_&_&_&_&l1&_&Er&Hinv&_). cbv zeta in *. injection Er as -> ->.
  eexists. split; [exact Hinv|]. split; [reflexivity|]. split; [|lia].
  assert (Hv : v < mx_ncols X) by apply Hch.
  pose proof (Lk_gain X Y cs v x sigma p Hn Hv Hx Hlen Hs Hp) as HL. cbv zeta in HL.
  destruct (frame_lists _ _ _ _ _ _ H Hfr) as (_&E1&_&E2).
  rewrite (grow_ratio _ _ _ t _ _ _ _ _ _ _ _ sigma p _ Hn Hf Hch Hp) with (2 := HL).
  - unfold n_prunable_decision_nodes. rewrite E2. do 2 f_equal. unfold sc, tree_score. rewrite <- rws_nil.
    rewrite (score_subst X Y sigma p _ a Hn h [] 0 i cs d (ALeaf i) (ti_ok _ _ _ _ _ H) (ti_nodup _ _ _ _ _ H) Haf).
    rewrite node_score. simpl score. lra.
  - unfold n_splittable_leaf_nodes. rewrite E1. destruct (splittable_leaf_nodes h t); [destruct Hin|simpl; lia].
Qed.
Lemma prune_score h X Y t a idx m h1 idx1 h2 t2 sigma p : no_nan X -> tree_inv h X (Some Y) t a -> filled X [] a ->
  sample_prune_mutation h t idx = Ok (m, h1, idx1) -> mutate h1 t m = (h2, t2, None) -> (0 < sigma)%R -> good p ->
  2 <= length (splittable_leaf_nodes h t) ->
  exists a2, tree_inv h2 X (Some Y) t2 a2 /\ mu_kind m = MPrune /\
    log_probability_ratio h1 t m sigma p =
    Ok (XFin (sc X Y sigma p a2 - sc X Y sigma p a - ln (INR (length (splittable_leaf_nodes h t)) - 1)
              + ln (INR (length (prunable_decision_nodes h t))))%R) /\ 1 <= length (prunable_decision_nodes h t) <= S (length (prunable_decision_nodes h2 t2)).
Proof.
  intros Hn H Hfil Hsg Hm Hs Hp Hns. pose proof (inv_target_len _ _ _ _ _ H) as Hlen. pose proof Hsg as Hsg0.
  apply sample_prune_spec in Hsg0 as (i0&n0&Hi0&Eg0&Eh1&Hpm).
  destruct (prune_view _ _ _ _ _ _ _ _ _ H Hsg) as (i&l&r&cs&d&v&x&->&Hf&Haf&Hch&Hin&Hfr&Hgm). specialize (Hch Hfil).
  assert (Hcnt : length (prunable_decision_nodes h t) <= S (length (prunable_decision_nodes h2 t2))).
  { rewrite Eh1 in Hpm, Hm. destruct (prune_counts _ _ _ _ _ _ _ _ _ _ H Eg0 Hpm Hm) as (?&?&?&?&?&?&?&?&_&_&_&_&_&_&_&_&_&Hc&_). lia. }
  unfold prune_mutation in Hpm. destruct (is_dec h1 i0), (is_prunable h1 i0); simpl in Hpm; try discriminate. injection Hpm as <-.
  unfold prunable_decision_nodes, decision_nodes in Hi0. rewrite !filter_In in Hi0. destruct Hi0 as [[Hi0 _] Hpr].
  destruct (prune_step _ _ _ _ _ _ H Hi0 Hpr) as (v'&x'&jl&jr&s&d'&ci&Haf'&Eg'&_&_&l1&l2&l3&_&_&_&Hmut&Hinv&_). cbv zeta in *.
  rewrite Haf in Haf'. injection Haf' as <- <- <- <- <- <-. rewrite Eg0 in Eg'. injection Eg' as ->. simpl nd_split in *. simpl nd_depth in *.
  rewrite <- Eh1 in Hmut. rewrite Hm in Hmut. injection Hmut as -> ->. rewrite <- Eh1 in Hinv.
  assert (Hnp : 1 <= length (prunable_decision_nodes h t)) by (destruct (prunable_decision_nodes h t); [destruct Hin|simpl; lia]).
  eexists. split; [exact Hinv|]. split; [reflexivity|]. split; [|split; [exact Hnp|exact Hcnt]].
  pose proof (afind_aok _ _ _ _ _ _ _ _ _ _ (ti_ok _ _ _ _ _ H) Haf) as (_&Hx&_).
  assert (Hv : v < mx_ncols X) by apply Hch.
  pose proof (Lk_gain X Y cs v x sigma p Hn Hv Hx Hlen Hs Hp) as HL. cbv zeta in HL.
  destruct (frame_lists _ _ _ _ _ _ H Hfr) as (_&E1&_&E2).
  rewrite (prune_ratio _ _ _ t _ _ _ _ _ _ _ _ sigma p _ Hn Hf Hch Hp) with (4 := HL); unfold n_splittable_leaf_nodes, n_prunable_decision_nodes; rewrite ?E1, ?E2; auto.
  do 2 f_equal. unfold sc, tree_score. rewrite <- rws_nil.
  rewrite (score_subst X Y sigma p _ a Hn h [] 0 _ cs d _ (ti_ok _ _ _ _ _ H) (ti_nodup _ _ _ _ _ H) Haf).
  rewrite node_score. simpl score. 
  pose proof Hp as [(_&_&_&Hg&Hpp) _]. rewrite !ln_div by auto. lra.
Qed.
