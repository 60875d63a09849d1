(** Lemmas behind Properties_Sampler.v *)
From Coq Require Import Reals Lra Permutation.
From Verif Require Import Base Fl Ext MData MSplit MTree MSampler MScalar MHist MTreeHist Spec SpecTree SpecSampler LFl LList
  PData PSplit PDataProps PCond PTree PPred PTreeHist PTreeProps PTreeProps2 PSampler PSampler2.

Lemma sum_over_targets p y : forall n, sum_over p y n = rsum (map (fun i => nth i y 0%R) (filter p (seq 0 n))).
Proof.
  induction n; [reflexivity|]. rewrite seq_S, filter_app, map_app, rsum_app. simpl sum_over. rewrite IHn. simpl.
  destruct (p n); unfold rsum; simpl; lra.
Qed.
Lemma targets_len X y cs s : sinv X (Some y) cs s -> length (node_targets s y) = count_of X cs.
Proof.
  intros Hs. unfold node_targets. rewrite map_length, <- count_filter.
  pose proof (tv_len _ _ _ (si_t _ _ _ _ Hs) y eq_refl) as Hl. rewrite mask_of_length in Hl. rewrite Hl.
  apply Nat2Z.inj. rewrite <- (n_obsv_exact _ _ _ _ Hs). rewrite (cvd_n _ (si_c _ _ _ _ Hs)), (si_mask _ _ _ _ Hs). reflexivity.
Qed.
Lemma targets_sum X y cs s : sinv X (Some y) cs s -> rsum (node_targets s y) = sum_of X y cs.
Proof.
  intros Hs. unfold node_targets. rewrite <- sum_over_targets.
  pose proof (tv_len _ _ _ (si_t _ _ _ _ Hs) y eq_refl) as Hl. rewrite mask_of_length in Hl. rewrite Hl.
  destruct (sum_exact _ _ _ _ Hs y eq_refl) as (_&t'&E).
  destruct (summed_y_total _ _ _ (si_t _ _ _ _ Hs)) as (t2&E2). rewrite E in E2. now injection E2.
Qed.

Lemma split_family h X y t a i v x p h1 : no_nan X -> tree_inv h X (Some y) t a -> In i (leaf_nodes h t) -> x <> FNaN ->
  split_node h i (fresh_le v x) (fresh_gt v x) = Ok (p, h1) ->
  exists cs d, family h1 X y cs d v x i p (h_next h) (S (h_next h)) /\ afind [] 0 i a = Some (cs, d, ALeaf i) /\
   v < mx_ncols X.
Proof.
  intros Hn H Hi Hx Hsp. unfold leaf_nodes in Hi. apply filter_In in Hi as [Hi Hl].
  pose proof (proj1 (ti_in _ _ _ _ _ _ H) Hi) as Hia. destruct (afind_in a [] 0 i Hia) as ([[ci di] ai]&Hf).
  pose proof (afind_leaf _ _ _ _ _ _ _ _ _ _ (ti_ok _ _ _ _ _ H) Hf Hl) as ->.
  pose proof (afind_aok _ _ _ _ _ _ _ _ _ _ (ti_ok _ _ _ _ _ H) Hf) as (w&s&Eg&Hs0).
  apply split_node_spec in Hsp as (k&s0&d&s'&sl&sr&Eg'&Hsc&->&Hnx&Hold&Hgl&Hgr&Hgp).
  rewrite Eg in Eg'. injection Eg' as <- <- <-.
  destruct (split_children_sinv _ _ _ _ _ _ _ _ _ Hn Hx Hs0 Hsc) as (Hvc&Hs'&Hsl&Hsr).
  exists ci, di. split; auto.
  exists (KLeaf w), s, s', (KLeaf 0), sl, (KLeaf 0), sr. rewrite Hold by (eapply nodes_below; eauto). auto 10.
Qed.
Lemma prune_family h X y t a i n m : tree_inv h X (Some y) t a -> In i (tr_nodes t) -> is_prunable h i = true ->
  h_get h i = Some n ->
  let h1 := snd (h_alloc h (Nd (KLeaf 0%R) (nd_split n) (nd_depth n))) in
  prune_mutation h1 i (h_next h) = Ok m ->
  m = Mu MPrune i (h_next h) /\ exists cs d v x l r, family h1 X y cs d v x (h_next h) i l r /\
    afind [] 0 i a = Some (cs, d, ANode i v x (ALeaf l) (ALeaf r)).
Proof.
  intros H Hi Hp Eg h1 Hpm.
  destruct (prune_step _ _ _ _ _ _ H Hi Hp) as (v&x&jl&jr&s&d&ci&Hf&Hg&Hs&Hpm'&_).
  rewrite Eg in Hg. injection Hg as ->. change (nd_split _) with (SFull s) in h1. change (nd_depth _) with d in h1.
  fold h1 in Hpm'. rewrite Hpm' in Hpm. injection Hpm as <-. split; auto.
  pose proof (afind_aok _ _ _ _ _ _ _ _ _ _ (ti_ok _ _ _ _ _ H) Hf) as ((s1&E1&Hs1)&_&_&(wl&sl&El&Hsl)&(wr&sr&Er&Hsr)).
  pose proof (afind_sub _ _ _ _ _ _ _ Hf) as [_ Hsub].
  assert (Hb : forall j, In j [i; jl; jr] -> j < h_next h).
  { intros j Hj. apply (ti_below _ _ _ _ _ H). apply Hsub. exact Hj. }
  exists ci, d, v, x, jl, jr. split; auto.
  assert (Hold : forall j, j < h_next h -> h_get h1 j = h_get h j).
  { intros j Hj. unfold h1. simpl. destruct (Nat.eqb_spec j (h_next h)); auto; lia. }
  exists (KLeaf 0), s, s, (KLeaf wl), sl, (KLeaf wr), sr.
  rewrite (Hold i), (Hold jl), (Hold jr) by (apply Hb; simpl; auto). unfold h1. simpl h_get. rewrite Nat.eqb_refl. auto 10.
Qed.
(** after a grow, the new decision node *)
Lemma grown_find h X y t a i v x p h1 m h2 t2 : no_nan X -> tree_inv h X (Some y) t a -> x <> FNaN ->
  split_node h i (fresh_le v x) (fresh_gt v x) = Ok (p, h1) -> grow_mutation h1 i p = Ok m ->
  mutate h1 t m = (h2, t2, None) ->
  In i (leaf_nodes h t) /\ m = Mu MGrow i p /\ In p (tr_nodes t2) /\ is_prunable h2 p = true /\
  exists a2, tree_inv h2 X (Some y) t2 a2 /\ exists cs d, afind [] 0 i a = Some (cs, d, ALeaf i) /\
   afind [] 0 p a2 = Some (cs, d, ANode p v x (ALeaf (h_next h)) (ALeaf (S (h_next h)))) /\
   (chosen X cs v x -> (exists r, In r (mx_rows X) /\ kept (cs ++ [Rl v x true]) r = true) ->
      (exists r, In r (mx_rows X) /\ kept (cs ++ [Rl v x false]) r = true) -> filled X [] a -> filled X [] a2).
Proof.
  intros Hn H Hx Hsp Hg Hm.
  assert (Hd : done (mutate h1 t m) = Ok (h2, t2)) by (rewrite Hm; reflexivity).
  destruct (grow_full _ _ _ _ _ _ _ _ _ _ _ _ Hn H Hx Hsp Hg Hd) as (Hi&Hl&->&Hp&Hnx&l1&Hr&Er&Hinv&Hget).
  injection Er as -> ->.
  split; [unfold leaf_nodes; now apply filter_In|]. split; auto. split; [simpl; apply in_app_iff; simpl; auto|].
  set (b := ANode p v x (ALeaf (h_next h)) (ALeaf (S (h_next h)))) in *.
  pose proof (proj1 (ti_in _ _ _ _ _ _ H) Hi) as Hia. destruct (afind_in a [] 0 i Hia) as ([[ci di] ai]&Hf).
  pose proof (afind_leaf _ _ _ _ _ _ _ _ _ _ (ti_ok _ _ _ _ _ H) Hf Hl) as ->.
  assert (Hnp : ~ In p (aids a)). { intros Hin. apply (ti_below _ _ _ _ _ H) in Hin. lia. }
  pose proof (afind_asubst i b a [] 0 ci di (ALeaf i) Hnp Hf) as Hf2. simpl aroot in Hf2.
  split.
  { pose proof (afind_aok _ _ _ _ _ _ _ _ _ _ (ti_ok _ _ _ _ _ Hinv) Hf2) as ((s1&E1&_)&_&_&(wl&sl&El&_)&(wr&sr&Er&_)).
    unfold is_prunable, left_child, right_child. rewrite E1. simpl. unfold is_leaf. rewrite El, Er. reflexivity. }
  eexists. split; [exact Hinv|]. exists ci, di. split; auto. split; [exact Hf2|].
  intros F0 F1 F2 Ff. eapply filled_subst; eauto using ti_nodup. intros _. simpl. auto.
Qed.
Lemma undo_lik h X y t a i v x p h1 m h2 t2 n m' sigma P : no_nan X -> tree_inv h X (Some y) t a -> x <> FNaN ->
  split_node h i (fresh_le v x) (fresh_gt v x) = Ok (p, h1) -> grow_mutation h1 i p = Ok m ->
  mutate h1 t m = (h2, t2, None) -> h_get h2 p = Some n ->
  let h3 := snd (h_alloc h2 (Nd (KLeaf 0%R) (nd_split n) (nd_depth n))) in
  prune_mutation h3 p (h_next h2) = Ok m' ->
  exists cs, log_likihood_ratio h1 m sigma P = Ok (Lk X y cs v x sigma P) /\
    log_likihood_ratio h3 m' sigma P = Ok (xneg (Lk X y cs v x sigma P)).
Proof.
  intros Hn H Hx Hsp Hg Hm Eg h3 Hpm.
  destruct (grown_find _ _ _ _ _ _ _ _ _ _ _ _ _ Hn H Hx Hsp Hg Hm) as (Hi&->&Hp&Hpr&a2&H2&cs&d&Hf&Hf2&_).
  destruct (split_family _ _ _ _ _ _ _ _ _ _ Hn H Hi Hx Hsp) as (cs1&d1&Hfam&Hf'&_).
  rewrite Hf in Hf'. injection Hf' as <- <-.
  destruct (prune_family _ _ _ _ _ _ _ _ H2 Hp Hpr Eg Hpm) as (->&cs3&d3&v3&x3&l3&r3&Hfam3&Hf3).
  rewrite Hf2 in Hf3. injection Hf3 as <- <- <- <- <- <-.
  fold h3 in Hfam3. exists cs. unfold log_likihood_ratio. simpl mu_kind. cbv iota. simpl mu_existing. simpl mu_updated.
  rewrite (family_children _ _ _ _ _ _ _ _ _ _ _ Hfam), (family_children _ _ _ _ _ _ _ _ _ _ _ Hfam3). cbn [rbind].
  rewrite (family_lik _ _ _ _ _ _ _ _ _ _ _ sigma P Hfam).
  rewrite (family_lik _ _ _ _ _ _ _ _ _ _ _ sigma P Hfam3). auto.
Qed.

(** ** scalar samplers *)
Lemma scalar_sample_full {A} (src : nat -> A) size b k : 0 < size -> k < size ->
  scalar_sample src size (Sca (map src (seq (b * size) (size - k))) (b * size + size)) =
  Ok (src (b * size + (size - 1 - k)), Sca (map src (seq (b * size) (size - S k))) (b * size + size)).
Proof.
  intros Hs Hk. unfold scalar_sample. simpl sca_cache.
  replace (size - k) with (S (size - S k)) at 1 by lia. simpl seq. simpl map. cbv iota.
  unfold pop. simpl sca_cache.
  replace (size - k) with (S (size - S k)) by lia. rewrite seq_S, map_app, rev_app_distr. simpl.
  rewrite rev_involutive. do 2 f_equal. f_equal. lia.
Qed.
Lemma scalar_sample_empty {A} (src : nat -> A) size b : 0 < size ->
  scalar_sample src size (Sca [] (b * size)) =
  Ok (src (b * size + (size - 1)), Sca (map src (seq (b * size) (size - 1))) (b * size + size)).
Proof.
  intros Hs. unfold scalar_sample. simpl sca_cache. cbv iota. unfold refresh_cache, pop. simpl.
  replace size with (S (size - 1)) at 2 by lia. rewrite seq_S, map_app, rev_app_distr. simpl. rewrite rev_involutive. do 2 f_equal.
Qed.
(** state after [j] calls *)
Definition scalar_at {A} (src : nat -> A) (size j : nat) : scalar :=
  let b := j / size in let k := j mod size in
  if Nat.eqb k 0 then Sca [] (b * size) else Sca (map src (seq (b * size) (size - k))) (b * size + size).
Lemma scalar_step {A} (src : nat -> A) size j : 0 < size ->
  scalar_sample src size (scalar_at src size j) =
  Ok (src (j / size * size + (size - 1 - j mod size)), scalar_at src size (S j)).
Proof.
  intros Hs. assert (Hm : j mod size < size) by (apply Nat.mod_upper_bound; lia).
  pose proof (Nat.div_mod j size ltac:(lia)) as Hj.
  assert (Hsj : (S j / size = if S (j mod size) =? size then S (j / size) else j / size) /\
                (S j mod size = if S (j mod size) =? size then 0 else S (j mod size))).
  { destruct (Nat.eqb_spec (S (j mod size)) size) as [E|E].
    - assert (Es : S j = size * S (j / size) + 0) by lia. split.
      + symmetry. apply Nat.div_unique with (r := 0); lia.
      + symmetry. apply Nat.mod_unique with (q := S (j / size)); lia.
    - split.
      + symmetry. apply Nat.div_unique with (r := S (j mod size)); lia.
      + symmetry. apply Nat.mod_unique with (q := j / size); lia. }
  destruct Hsj as [Hd Hmo].
  assert (Hnext : scalar_at src size (S j) = Sca (map src (seq (j / size * size) (size - S (j mod size)))) (j / size * size + size)).
  { unfold scalar_at. rewrite Hd, Hmo. destruct (Nat.eqb_spec (S (j mod size)) size) as [E|E].
    - simpl. rewrite E, Nat.sub_diag. simpl. f_equal. lia.
    - destruct (Nat.eqb_spec (S (j mod size)) 0); [lia|]. reflexivity. }
  rewrite Hnext. unfold scalar_at. destruct (Nat.eqb_spec (j mod size) 0) as [E|E].
  - rewrite E. rewrite scalar_sample_empty by auto. do 2 f_equal. f_equal. lia.
  - now apply scalar_sample_full.
Qed.
Lemma scalar_samples_spec {A} (src : nat -> A) size k : 0 < size -> forall j,
  scalar_samples src size k (scalar_at src size j) =
  Ok (map (fun i => src (i / size * size + (size - 1 - i mod size))) (seq j k), scalar_at src size (j + k)).
Proof.
  intros Hs. induction k as [|k IH]; intros j; simpl.
  - now rewrite Nat.add_0_r.
  - rewrite scalar_step by auto. cbn [rbind]. rewrite IH. cbn [rbind]. do 2 f_equal. f_equal. lia.
Qed.

(** ** trees without splittable leaves *)
Lemma frozen_step h X y t a sigma p r om h1 t1 r1 : tree_inv h X (Some y) t a -> splittable_leaf_nodes h t = [] ->
  tree_step h t sigma p r = Ok (om, h1, t1, r1) -> om = None /\ t1 = t /\ hframe h h1.
Proof.
  intros H Hs. unfold tree_step, tree_sample.
  destruct (propose (pa_limit p) h t r) as [[[m h'] r']| |] eqn:Ep; try discriminate. cbn [rbind].
  apply propose_cases in Ep as [(idx'&E&_)|(idx'&E&_)].
  - unfold sample_grow_mutation, random_splittable_leaf_node in E. rewrite Hs in E. discriminate.
  - destruct (prune_view _ _ _ _ _ _ _ _ _ H E) as (i&l&r0&cs&d&v&x&->&_&_&_&_&Hfr&_).
    destruct (log_probability_ratio h' t _ sigma p) as [L| |] eqn:EL; try discriminate. cbn [rbind].
    destruct (rg_unif r') as [|u us]; [discriminate|]. cbn [rbind].
    apply prune_low in EL.
    + rewrite (low_accept u _ EL). intros E'. injection E' as <- <- <- <-. auto.
    + unfold n_splittable_leaf_nodes. destruct (frame_lists _ _ _ _ _ _ H Hfr) as (_&->&_). rewrite Hs. simpl. lia.
Qed.
Definition keeps (h h' : heap) (t : tree) : Prop :=
  forall j, In j (tr_nodes t) -> option_map structure_of (h_get h' j) = option_map structure_of (h_get h j).
Lemma quiet_keeps h X y t a o h' t' : tree_inv h X (Some y) t a ->
  sane_tree_op (length (mx_rows X)) o -> ~ mutates o -> tree_do h t o = Ok (h', t') ->
  tr_nodes t' = tr_nodes t /\ keeps h h' t /\ exists y', tree_inv h' X (Some y') t' a.
Proof.
  intros H Hs Hm Hd.
  assert (Hfr : forall h1, h_next h <= h_next h1 /\ (forall j, j < h_next h -> h_get h1 j = h_get h j) ->
     keeps h h1 t /\ exists y', tree_inv h1 X (Some y') t a).
  { intros h1 [Hn Hold]. assert (Hb : forall j, In j (tr_nodes t) -> h_get h1 j = h_get h j) by (intros j Hj; apply Hold; eapply nodes_below; eauto).
    split; [intros j Hj; now rewrite Hb|]. exists y. eapply tree_inv_heap; eauto. }
  destruct o as [i v x|i|idx|idx|idx|idx|i w|y0|]; cbn [mutates] in Hm; try tauto; cbn [tree_do] in Hd.
  - destruct (sample_grow_mutation h t idx) as [[[m h1] idx']| |] eqn:E; try discriminate. cbn [rbind] in Hd.
    injection Hd as <- <-. split; auto. apply Hfr. eapply sample_grow_frame; eauto.
  - destruct (sample_prune_mutation h t idx) as [[[m h1] idx']| |] eqn:E; try discriminate. cbn [rbind] in Hd.
    injection Hd as <- <-. split; auto. apply Hfr. eapply sample_prune_frame; eauto.
  - destruct (existsb _ _); try discriminate. injection Hd as <- <-. split; auto. split; [|exists y; now apply set_value_inv].
    intros j Hj. rewrite set_value_get. destruct (h_get h j) as [[[w'|l r] s d]|]; auto.
  - simpl in Hs. destruct (update_y_step _ _ _ _ _ (Some y0) H) as (h1&E&_&G&HI). { intros y' E; injection E as <-; auto. }
    rewrite E in Hd. injection Hd as <- <-. split; auto. split; [|eauto]. intros j Hj. rewrite G.
    rewrite (proj2 (mem_in _ _) Hj). destruct (h_get h j) as [[k [s|c] d]|]; auto.
  - destruct (tree_predict h t) as [[v t1]| |] eqn:E; try discriminate. cbn [rbind] in Hd. injection Hd as <- <-.
    apply tree_predict_shape in E as ->. split; auto. split; [intros j Hj; auto|]. exists y. now apply tree_inv_cache.
Qed.
Lemma keeps_splittable h h' t t' : tr_nodes t' = tr_nodes t -> keeps h h' t -> splittable_leaf_nodes h' t' = splittable_leaf_nodes h t.
Proof.
  intros En Hk. unfold splittable_leaf_nodes, leaf_nodes. rewrite En.
  assert (E1 : filter (is_leaf h') (tr_nodes t) = filter (is_leaf h) (tr_nodes t)).
  { apply filter_ext_in. intros j Hj. apply Hk in Hj. unfold is_leaf.
    destruct (h_get h' j) as [[[w'|l' r'] s' d']|], (h_get h j) as [[[w|l r] s d]|]; simpl in Hj; auto; discriminate. }
  rewrite E1. apply filter_ext_in. intros j Hj. apply filter_In in Hj as [Hj _]. apply Hk in Hj.
  unfold is_splittable, node_data, node_split.
  destruct (h_get h' j) as [[k' [s'|c'] d']|], (h_get h j) as [[k [s|c] d]|]; simpl in Hj; auto; try discriminate.
  unfold structure_of in Hj. simpl in Hj. injection Hj as _ _ Hj _. now rewrite Hj.
Qed.
Definition samp_ok (n : nat) (o : samp_op) : Prop :=
  match o with SCall o => sane_tree_op n o /\ ~ mutates o | SStep _ _ _ => True end.
Lemma frozen_run X os : forall h y t a h' t', tree_inv h X (Some y) t a -> splittable_leaf_nodes h t = [] ->
  Forall (samp_ok (length (mx_rows X))) os -> samp_run h t os = Ok (h', t') ->
  tr_nodes t' = tr_nodes t /\ keeps h h' t.
Proof.
  induction os as [|o os IH]; intros h y t a h' t' H Hs Ho; simpl.
  - intros E; injection E as <- <-. split; auto. intros j Hj; auto.
  - inversion Ho as [|? ? Ho1 Ho2]; subst.
    destruct (samp_do h t o) as [[h1 t1]| |] eqn:E; try discriminate. cbn [rbind]. intros Hr.
    assert (Hst : tr_nodes t1 = tr_nodes t /\ keeps h h1 t /\ exists y', tree_inv h1 X (Some y') t1 a).
    { destruct o as [o|sigma p r]; cbn [samp_do samp_ok] in *.
      - destruct Ho1. eapply quiet_keeps; eauto.
      - destruct (tree_step h t sigma p r) as [[[[om h2] t2] r2]| |] eqn:Es; try discriminate. cbn [rbind] in E.
        injection E as <- <-. destruct (frozen_step _ _ _ _ _ _ _ _ _ _ _ _ H Hs Es) as (_&->&[Hn Hold]).
        assert (Hb : forall j, In j (tr_nodes t) -> h_get h2 j = h_get h j) by (intros j Hj; apply Hold; eapply nodes_below; eauto).
        split; auto. split; [intros j Hj; now rewrite Hb|]. exists y. eapply tree_inv_heap; eauto. }
    destruct Hst as (En&Hk&y'&H1).
    destruct (IH _ _ _ _ _ _ H1 ltac:(rewrite (keeps_splittable _ _ _ _ En Hk); auto) Ho2 Hr) as (En2&Hk2).
    split; [congruence|]. intros j Hj. rewrite Hk2 by (rewrite En; auto). auto.
Qed.
