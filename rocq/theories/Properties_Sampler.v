(** Properties C32, C34-C38 and C48: leaf draws, likelihood ratio, acceptance ratio, acceptance rule,
    cached scalar samplers. *)
From Coq Require Import Reals Lra Permutation.
From Verif Require Import Base Fl Ext MData MSplit MTree MSampler MScalar MHist MTreeHist Spec SpecTree SpecSampler LFl LList
  PData PSplit PDataProps PCond PTree PPred PTreeHist PTreeProps PTreeProps2 PSampler PSampler2 PSampler3 Properties_Tree.
Local Open Scope R_scope.

(** ** C32 *)
(** The leaf sampler sets the value of a leaf to m + z s where N(m, v) is the posterior of the leaf value
    given the targets of its rows; m shrinks their mean towards 0; but s^2 is v / n_trees. *)
Theorem C32_leaf_draw : forall X y normalize h0 os h t i s w d sigma p r z zs,
  no_nan X -> tree_reached X y normalize h0 os h t ->
  In i (leaf_nodes h t) -> h_get h i = Some (Nd (KLeaf w) (SFull s) d) -> (exists k, in_node s k) ->
  0 < sigma -> 0 < pa_k p -> (1 <= pa_ntrees p)%nat -> rg_norm r = z :: zs ->
  let ys := node_targets s (last_tree_target (start_target y normalize) os) in
  exists m v sd h',
    posterior_is ys sigma (tau_of (pa_k p) (pa_ntrees p)) m v /\
    leaf_step h i sigma p r = Ok (h', rng_set_norm r zs) /\
    h_get h' i = Some (Nd (KLeaf (m + z * sd)) (SFull s) d) /\
    (forall j, j <> i -> h_get h' j = h_get h j) /\
    0 <= sd /\ sd * sd = v / INR (pa_ntrees p) /\ 0 < v /\ (sd * sd = v <-> pa_ntrees p = 1%nat) /\
    (exists c, 0 < c < 1 /\ m = c * (rsum ys / INR (length ys))).
Proof.
  intros X y nrm h0 os h t i s w d sigma p r z zs Hn Hr Hi Eg [k Hk] Hsg Hpk Hnt Ez ys.
  destruct (tree_reached_inv _ _ _ _ _ _ _ Hn Hr) as (a&H&_).
  set (Y := last_tree_target (start_target y nrm) os) in *.
  destruct (leaf_region _ _ _ _ _ _ H Hi) as (cs&d'&w'&s'&_&Eg'&Hs). rewrite Eg in Eg'. injection Eg' as <- <- <-.
  pose proof (targets_len _ _ _ _ Hs) as HL. pose proof (targets_sum _ _ _ _ Hs) as HS. fold ys in HL, HS.
  assert (Hpos : (1 <= count_of X cs)%nat).
  { rewrite <- HL. unfold ys, node_targets. rewrite map_length, <- count_filter. apply count_pos with (i := k).
    - pose proof (tv_len _ _ _ (si_t _ _ _ _ Hs) Y eq_refl) as Hl. rewrite mask_of_length in Hl. rewrite Hl.
      eapply in_node_lt; eauto.
    - now apply in_nodeb_iff. }
  set (tau := tau_of (pa_k p) (pa_ntrees p)). pose proof (tau_pos _ _ Hpk Hnt) as Ht. fold tau in Ht.
  assert (Hnr : 0 < INR (length ys)) by (rewrite HL; apply lt_0_INR; lia).
  pose proof (pv_pos (INR (length ys)) sigma tau ltac:(lra) Hsg Ht) as Hv.
  assert (HT : 0 < INR (pa_ntrees p)) by (apply lt_0_INR; lia).
  assert (Hvt : 0 < pv (INR (length ys)) sigma tau / INR (pa_ntrees p)) by (now apply Rdiv_lt_0_compat).
  exists (pm (INR (length ys)) (rsum ys) sigma tau), (pv (INR (length ys)) sigma tau),
    (sqrt (pv (INR (length ys)) sigma tau / INR (pa_ntrees p))),
    (set_value h i (pm (INR (length ys)) (rsum ys) sigma tau + z * sqrt (pv (INR (length ys)) sigma tau / INR (pa_ntrees p)))).
  split. { eexists. apply factor; auto. }
  split.
  { unfold leaf_step. rewrite (node_n_spec _ _ _ _ _ _ _ _ Eg Hs), (node_sum_spec _ _ _ _ _ _ _ _ Eg Hs). cbn [rbind].
    rewrite Ez. rewrite leaf_sample_fin by auto. rewrite <- HL, <- HS. reflexivity. }
  split. { rewrite set_value_get, Eg, Nat.eqb_refl. reflexivity. }
  split. { intros j Hj. rewrite set_value_get. destruct (h_get h j) as [[[v'|? ?] ? ?]|]; auto.
           destruct (Nat.eqb_spec j i); [contradiction|auto]. }
  split; [apply sqrt_pos|]. rewrite sqrt_sqrt by lra. split; auto. split; auto. split.
  { split.
    - intros E. destruct (Nat.eq_dec (pa_ntrees p) 1) as [|Hne]; auto. exfalso.
      assert (2 <= INR (pa_ntrees p)) by (change 2 with (INR 2); apply le_INR; lia).
      assert (E2 : pv (INR (length ys)) sigma tau = INR (pa_ntrees p) * pv (INR (length ys)) sigma tau).
      { rewrite <- E at 2. field. lra. } nra.
    - intros ->. simpl. lra. }
  set (n := INR (length ys)) in *. set (S := rsum ys).
  exists (n * (tau * tau) / (sigma * sigma + n * (tau * tau))).
  assert (0 < sigma * sigma) by nra. assert (0 < tau * tau) by nra. assert (0 < n * (tau * tau)) by nra.
  split.
  - split; [apply Rdiv_lt_0_compat; lra|]. apply Rmult_lt_reg_r with (sigma * sigma + n * (tau * tau)); [lra|].
    unfold Rdiv. rewrite Rmult_assoc, Rinv_l by lra. lra.
  - unfold pm. rewrite pv_form by lra. field. repeat split; nra.
Qed.
(** the posterior and the marginal are determined by the targets *)
Theorem C32_posterior_unique : forall y sigma tau m v m' v',
  posterior_is y sigma tau m v -> posterior_is y sigma tau m' v' -> m = m' /\ v = v'.
Proof. intros y sigma tau m v m' v' [c H] [c' H']. destruct (factor_unique _ _ _ _ _ _ _ _ _ H H'); tauto. Qed.
Example C32_example : let s := node_split tx_h 4 in
  In 4%nat (leaf_nodes tx_h tx_t) /\ (exists k, match s with Some s => in_node s k | None => False end).
Proof. split; [vm_compute; tauto|]. exists 4%nat. vm_compute. reflexivity. Qed.

(** ** C34 *)
(** Splitting a leaf at any column and threshold, installing the split, then merging it again: the two
    log likelihood ratios are exactly opposite. *)
Theorem C34_opposite : forall X y normalize h0 os h t i v x p h1 m h2 t2 n m' sigma P,
  no_nan X -> tree_reached X y normalize h0 os h t -> x <> FNaN ->
  split_node h i (fresh_le v x) (fresh_gt v x) = Ok (p, h1) -> grow_mutation h1 i p = Ok m ->
  mutate h1 t m = (h2, t2, None) -> h_get h2 p = Some n ->
  let h3 := snd (h_alloc h2 (Nd (KLeaf 0) (nd_split n) (nd_depth n))) in
  prune_mutation h3 p (h_next h2) = Ok m' ->
  exists L, log_likihood_ratio h1 m sigma P = Ok L /\ log_likihood_ratio h3 m' sigma P = Ok (xneg L) /\
    (0 < sigma -> 0 < pa_k P -> (1 <= pa_ntrees P)%nat -> exists l, L = XFin l).
Proof.
  intros X y nrm h0 os h t i v x p h1 m h2 t2 n m' sigma P Hn Hr Hx Hsp Hg Hm Eg h3 Hpm.
  destruct (tree_reached_inv _ _ _ _ _ _ _ Hn Hr) as (a&H&_).
  destruct (undo_lik _ _ _ _ _ _ _ _ _ _ _ _ _ _ _ sigma P Hn H Hx Hsp Hg Hm Eg Hpm) as (cs&E1&E2).
  eexists. split; [exact E1|]. split; [exact E2|]. intros Hs Hk Hnt.
  unfold Lk. rewrite sigma_m_fin by auto. rewrite log_grow_ratio_fin; eauto using tau_pos.
Qed.
(** the same for proposals drawn by the proposal functions *)
Theorem C34_opposite_sampled : forall X y normalize h0 os h t idx m h1 idx1 h2 t2 idx2 m' h3 idx3 sigma P,
  no_nan X -> tree_reached X y normalize h0 os h t ->
  sample_grow_mutation h t idx = Ok (m, h1, idx1) -> mutate h1 t m = (h2, t2, None) ->
  sample_prune_mutation h2 t2 idx2 = Ok (m', h3, idx3) -> mu_existing m' = mu_updated m ->
  exists L, log_likihood_ratio h1 m sigma P = Ok L /\ log_likihood_ratio h3 m' sigma P = Ok (xneg L).
Proof.
  intros X y nrm h0 os h t idx m h1 idx1 h2 t2 idx2 m' h3 idx3 sigma P Hn Hr Hsg Hm Hsp He.
  destruct (tree_reached_inv _ _ _ _ _ _ _ Hn Hr) as (a&H&_).
  destruct (grow_view _ _ _ _ _ _ _ _ _ Hn H Hsg) as (i&p&l&r&cs&d&v&x&->&_&_&_&_&_&Hx&Hs&Hg&_).
  apply sample_prune_spec in Hsp as (j&n&Hj&Eg&->&Hpm).
  assert (j = p). { unfold prune_mutation in Hpm. destruct (negb _ || negb _); [discriminate|]. injection Hpm as <-. exact He. }
  subst j. destruct (undo_lik _ _ _ _ _ _ _ _ _ _ _ _ _ _ _ sigma P Hn H Hx Hs Hg Hm Eg Hpm) as (cs'&E1&E2). eauto.
Qed.
Definition sm_grown : res (mutation * heap * list nat) := sample_grow_mutation tx_h tx_t [0; 0; 0]%nat.
Definition sm_mutated := match sm_grown with Ok (m, h1, _) => Some (mutate h1 tx_t m) | _ => None end.
Definition sm_pruned := match sm_mutated with
  | Some (h2, t2, None) => match sample_prune_mutation h2 t2 [1]%nat with Ok (m', _, _) => Some m' | _ => None end
  | _ => None end.
Example C34_example : (match sm_grown with Ok (m, _, _) => Some m | _ => None end) = Some (Mu MGrow 1 12) /\
  sm_pruned = Some (Mu MPrune 12 13).
Proof. split; vm_compute; reflexivity. Qed.

(** ** C35 *)
(** With sigma_mu = 1 the likelihood ratio is the ratio of the integrated likelihoods. *)
Theorem C35_integrated_when_one : forall yl yr sigma, 0 < sigma ->
  exists Ll Lr L, log_marginal_is yl sigma 1 Ll /\ log_marginal_is yr sigma 1 Lr /\ log_marginal_is (yl ++ yr) sigma 1 L /\
    log_grow_ratio (Z.of_nat (length (yl ++ yr))) (Z.of_nat (length yl)) (Z.of_nat (length yr))
      (rsum (yl ++ yr)) (rsum yl) (rsum yr) sigma (XFin 1) = XFin (Ll + Lr - L).
Proof.
  intros yl yr sigma Hs. assert (H1 : 0 < 1) by lra.
  eexists _, _, _. split; [do 2 eexists; apply factor; auto|]. split; [do 2 eexists; apply factor; auto|].
  split; [do 2 eexists; apply factor; auto|].
  rewrite log_grow_ratio_fin by auto. rewrite grow_val_one by (auto using pos_INR).
  rewrite <- lm_diff with (Q := rsum (map (fun yi => yi * yi) (yl ++ yr))) (Ql := rsum (map (fun yi => yi * yi) yl)) (Qr := rsum (map (fun yi => yi * yi) yr));
    auto using pos_INR.
  - rewrite app_length, plus_INR. reflexivity.
  - now rewrite map_app, rsum_app.
Qed.
(** the same on trees: the likelihood ratio of every grow proposal *)
Lemma split_sums (f : nat -> R) p q r l : (forall i, In i l -> (p i = false /\ q i = false /\ r i = false) \/
    (p i = true /\ q i = true /\ r i = false) \/ (p i = true /\ q i = false /\ r i = true)) ->
  rsum (map f (filter p l)) = rsum (map f (filter q l)) + rsum (map f (filter r l)).
Proof.
  unfold rsum. induction l as [|i l IH]; simpl; intros H; [lra|].
  specialize (IH (fun j Hj => H j (or_intror Hj))).
  destruct (H i (or_introl eq_refl)) as [(->&->&->)|[(->&->&->)|(->&->&->)]]; simpl; rewrite ?IH; lra.
Qed.
Theorem C35_integrated_when_one_tree : forall X y normalize h0 os h t idx m h1 idx1 sigma P,
  no_nan X -> tree_reached X y normalize h0 os h t -> sample_grow_mutation h t idx = Ok (m, h1, idx1) ->
  0 < sigma -> 0 < pa_k P -> (1 <= pa_ntrees P)%nat -> tau_of (pa_k P) (pa_ntrees P) = 1 ->
  let Y := last_tree_target (start_target y normalize) os in
  exists s sl sr l r Ll Lr L,
    node_split h1 (mu_existing m) = Some s /\ left_child h1 (mu_updated m) = Some l /\ right_child h1 (mu_updated m) = Some r /\
    node_split h1 l = Some sl /\ node_split h1 r = Some sr /\
    log_marginal_is (node_targets sl Y) sigma 1 Ll /\ log_marginal_is (node_targets sr Y) sigma 1 Lr /\
    log_marginal_is (node_targets s Y) sigma 1 L /\
    log_likihood_ratio h1 m sigma P = Ok (XFin (Ll + Lr - L)).
Proof.
  intros X y nrm h0 os h t idx m h1 idx1 sigma P Hn Hr Hsg Hs Hk Hnt Htau Y.
  destruct (tree_reached_inv _ _ _ _ _ _ _ Hn Hr) as (a&H&_). fold Y in H.
  destruct (grow_view _ _ _ _ _ _ _ _ _ Hn H Hsg) as (i&p&l&r&cs&d&v&x&->&Hf&Hch&_&_&_&Hx&_).
  pose proof Hf as (ke&se&sp&kl&sl&kr&sr&E1&E2&E3&E4&H1&H2&H3&H4). assert (H01 : 0 < 1) by lra.
  exists se, sl, sr, l, r. unfold node_split, left_child, right_child. simpl mu_existing. simpl mu_updated.
  rewrite E1, E2, E3, E4. eexists _, _, _. do 5 (split; [reflexivity|]).
  split; [do 2 eexists; apply factor; auto|]. split; [do 2 eexists; apply factor; auto|].
  split; [do 2 eexists; apply factor; auto|].
  unfold log_likihood_ratio. simpl mu_kind. cbv iota. simpl mu_existing. simpl mu_updated.
  rewrite (family_children _ _ _ _ _ _ _ _ _ _ _ Hf). cbn [rbind]. rewrite (family_lik _ _ _ _ _ _ _ _ _ _ _ sigma P Hf).
  f_equal. unfold Lk. rewrite sigma_m_fin, Htau by auto.
  rewrite log_grow_ratio_fin by auto. rewrite grow_val_one by (auto using pos_INR). f_equal.
  rewrite !(targets_len _ _ _ _ H1), !(targets_len _ _ _ _ H3), !(targets_len _ _ _ _ H4).
  rewrite !(targets_sum _ _ _ _ H1), !(targets_sum _ _ _ _ H3), !(targets_sum _ _ _ _ H4).
  symmetry. destruct Hch as (Hv&_). apply lm_diff; auto using pos_INR.
  - rewrite <- plus_INR. f_equal. symmetry. now apply count_of_split.
  - unfold node_targets. rewrite !map_map. apply split_sums. intros j _.
    assert (B : forall s', in_nodeb s' j = true \/ in_nodeb s' j = false) by (intros s'; destruct (in_nodeb s' j); auto).
    pose proof (in_node_kept _ _ _ _ j H1) as K1. pose proof (in_node_kept _ _ _ _ j H3) as K3. pose proof (in_node_kept _ _ _ _ j H4) as K4.
    rewrite <- in_nodeb_iff in K1, K3, K4. rewrite kept_snoc in K3, K4.
    destruct (Nat.lt_ge_cases j (length (mx_rows X))) as [Hj|Hj].
    + assert (Hc : excluded (Rl v x false) (nth j (mx_rows X) []) = negb (excluded (Rl v x true) (nth j (mx_rows X) []))).
      { apply excluded_compl; apply not_nan; auto. apply Hn; auto. apply nth_In; auto. }
      rewrite Hc in K4. destruct (kept cs (nth j (mx_rows X) [])), (excluded (Rl v x true) (nth j (mx_rows X) [])); simpl in K3, K4;
      destruct (in_nodeb se j), (in_nodeb sl j), (in_nodeb sr j); intuition (try discriminate; try lia).
    + destruct (in_nodeb se j), (in_nodeb sl j), (in_nodeb sr j); intuition (try discriminate; try lia).
Qed.
(** For every other sigma_mu it is wrong, already on zero targets and for leaves of any sizes. *)
Theorem C35_integrated_refuted : forall tau sigma nl nr, 0 < tau -> tau <> 1 -> 0 < sigma -> (1 <= nl + nr)%nat ->
  exists yl yr, length yl = nl /\ length yr = nr /\
  forall Ll Lr L, log_marginal_is yl sigma tau Ll -> log_marginal_is yr sigma tau Lr -> log_marginal_is (yl ++ yr) sigma tau L ->
    log_grow_ratio (Z.of_nat (length (yl ++ yr))) (Z.of_nat (length yl)) (Z.of_nat (length yr))
      (rsum (yl ++ yr)) (rsum yl) (rsum yr) sigma (XFin tau) <> XFin (Ll + Lr - L).
Proof.
  intros tau sigma nl nr Ht H1 Hs Hn. exists (repeat 0 nl), (repeat 0 nr). rewrite !repeat_length. split; auto. split; auto.
  intros Ll Lr L (ml&vl&Hl) (mr&vr&Hr) (m&v&H).
  destruct (factor_unique _ _ _ _ _ _ _ _ _ Hl (factor _ _ _ Hs Ht)) as [-> _].
  destruct (factor_unique _ _ _ _ _ _ _ _ _ Hr (factor _ _ _ Hs Ht)) as [-> _].
  destruct (factor_unique _ _ _ _ _ _ _ _ _ H (factor _ _ _ Hs Ht)) as [-> _].
  assert (Hz : forall k, rsum (repeat 0 k) = 0) by (unfold rsum; induction k; simpl; lra).
  rewrite log_grow_ratio_fin by auto. rewrite lm_diff; auto using pos_INR.
  - rewrite rsum_app, !Hz, Rplus_0_r. intros E. injection E as E. revert E.
    rewrite !app_length, !repeat_length. apply grow_val_zero; auto using pos_INR.
    apply lt_0_INR. lia.
  - now rewrite app_length, plus_INR.
  - now rewrite map_app, rsum_app.
Qed.
(** sigma_mu is 1 for k = 1/2 and one tree; the default k = 2 gives 1/4 for one tree *)
Example C35_example : tau_of (/ 2) 1 = 1 /\ tau_of 2 1 <> 1.
Proof. unfold tau_of. simpl. rewrite sqrt_1. split; [field|lra]. Qed.

(** ** C36 *)
(** parameters in the ranges the model intends *)
Definition usual (p : params) : Prop :=
  (0 < pa_alpha p < 1 /\ 0 <= pa_beta p /\ 0 < pa_k p /\ 0 < pa_pgrow p /\ 0 < pa_pprune p) /\ (1 <= pa_ntrees p)%nat.
(** Acceptance ratio of a grow: neither the probability of the chosen variable and value nor the number
    of splittable leaves enters. *)
Theorem C36_grow : forall X y normalize h0 os h t idx m h1 idx1 sigma p,
  no_nan X -> tree_reached X y normalize h0 os h t -> sample_grow_mutation h t idx = Ok (m, h1, idx1) ->
  0 < sigma -> usual p ->
  exists L n, log_likihood_ratio h1 m sigma p = Ok (XFin L) /\ h_get h (mu_existing m) = Some n /\
    log_probability_ratio h1 t m sigma p =
    Ok (XFin (ln (pa_pprune p / pa_pgrow p) - ln (INR (length (prunable_decision_nodes h t)) + 1) + L
              + log_structure_odds (pa_alpha p) (pa_beta p) (nd_depth n))).
Proof.
  intros X y nrm h0 os h t idx m h1 idx1 sigma p Hn Hr Hsg Hs Hp.
  destruct (tree_reached_inv _ _ _ _ _ _ _ Hn Hr) as (a&H&_).
  destruct (grow_view _ _ _ _ _ _ _ _ _ Hn H Hsg) as (i&u&l&r&cs&d&v&x&->&Hf&Hch&Haf&Hin&Hfr&_).
  destruct (Lk_fin X (last_tree_target (start_target y nrm) os) cs v x sigma p Hs Hp) as (L&HL).
  pose proof (afind_aok _ _ _ _ _ _ _ _ _ _ (ti_ok _ _ _ _ _ H) Haf) as (w&s&Eg&_).
  exists L, (Nd (KLeaf w) (SFull s) d). split; [|split; [exact Eg|]].
  - unfold log_likihood_ratio. simpl mu_kind. cbv iota. simpl mu_existing. simpl mu_updated.
    rewrite (family_children _ _ _ _ _ _ _ _ _ _ _ Hf). cbn [rbind]. rewrite (family_lik _ _ _ _ _ _ _ _ _ _ _ sigma p Hf). now rewrite HL.
  - destruct (frame_lists _ _ _ _ _ _ H Hfr) as (_&E1&_&E2).
    rewrite (grow_ratio _ _ _ t _ _ _ _ _ _ _ _ sigma p L Hn Hf Hch Hp); auto.
    + unfold n_prunable_decision_nodes. rewrite E2. reflexivity.
    + unfold n_splittable_leaf_nodes. rewrite E1. destruct (splittable_leaf_nodes h t); [destruct Hin|simpl; lia].
Qed.
(** Acceptance ratio of a prune (at least two splittable leaves; fewer: C38). *)
Theorem C36_prune : forall X y normalize h0 os h t idx m h1 idx1 sigma p,
  no_nan X -> mx_rows X <> [] -> tree_reached X y normalize h0 os h t -> Forall proposed_op os ->
  sample_prune_mutation h t idx = Ok (m, h1, idx1) ->
  (2 <= length (splittable_leaf_nodes h t))%nat -> 0 < sigma -> usual p ->
  exists L n, log_likihood_ratio h1 m sigma p = Ok (XFin L) /\ h_get h (mu_existing m) = Some n /\
    log_probability_ratio h1 t m sigma p =
    Ok (XFin (ln (pa_pgrow p / pa_pprune p) - ln (INR (length (splittable_leaf_nodes h t)) - 1)
              + ln (INR (length (prunable_decision_nodes h t))) + L
              - log_structure_odds (pa_alpha p) (pa_beta p) (nd_depth n))).
Proof.
  intros X y nrm h0 os h t idx m h1 idx1 sigma p Hn Hne Hr Hpo Hsg Hns Hs Hp.
  destruct (tree_reached_inv _ _ _ _ _ _ _ Hn Hr) as (a&H&Hfil&_). specialize (Hfil Hpo Hne).
  destruct (prune_view _ _ _ _ _ _ _ _ _ H Hsg) as (i&l&r&cs&d&v&x&->&Hf&Haf&Hch&Hin&Hfr&Hgm). specialize (Hch Hfil).
  destruct (Lk_fin X (last_tree_target (start_target y nrm) os) cs v x sigma p Hs Hp) as (L&HL).
  pose proof (afind_aok _ _ _ _ _ _ _ _ _ _ (ti_ok _ _ _ _ _ H) Haf) as ((s&Eg&_)&_).
  exists (- L), (Nd (KDec l r) (SFull s) d). split; [|split; [exact Eg|]].
  - unfold log_likihood_ratio. simpl mu_kind. cbv iota. simpl mu_existing. simpl mu_updated.
    rewrite (family_children _ _ _ _ _ _ _ _ _ _ _ Hf). cbn [rbind]. rewrite (family_lik _ _ _ _ _ _ _ _ _ _ _ sigma p Hf). now rewrite HL.
  - destruct (frame_lists _ _ _ _ _ _ H Hfr) as (_&E1&_&E2).
    rewrite (prune_ratio _ _ _ t _ _ _ _ _ _ _ _ sigma p L Hn Hf Hch Hp); auto; unfold n_splittable_leaf_nodes, n_prunable_decision_nodes;
      rewrite ?E1, ?E2; auto.
    destruct (prunable_decision_nodes h t); [destruct Hin|simpl; lia].
Qed.
(** A grow and the prune that undoes it: the sum of the log ratios, which detailed balance wants to be 0. *)
Theorem C36_round_trip : forall X y normalize h0 os h t idx m h1 idx1 h2 t2 idx2 m' h3 idx3 sigma p g q,
  no_nan X -> mx_rows X <> [] -> tree_reached X y normalize h0 os h t -> Forall proposed_op os ->
  sample_grow_mutation h t idx = Ok (m, h1, idx1) -> mutate h1 t m = (h2, t2, None) ->
  sample_prune_mutation h2 t2 idx2 = Ok (m', h3, idx3) -> mu_existing m' = mu_updated m ->
  (2 <= length (splittable_leaf_nodes h2 t2))%nat -> 0 < sigma -> usual p ->
  log_probability_ratio h1 t m sigma p = Ok (XFin g) -> log_probability_ratio h3 t2 m' sigma p = Ok (XFin q) ->
  g + q = ln (INR (length (prunable_decision_nodes h2 t2))) - ln (INR (length (prunable_decision_nodes h t)) + 1)
          - ln (INR (length (splittable_leaf_nodes h2 t2)) - 1).
Proof.
  intros X y nrm h0 os h t idx m h1 idx1 h2 t2 idx2 m' h3 idx3 sigma p g q Hn Hne Hr Hpo Hsg Hm Hsp He Hns Hs Hp Hg Hq.
  assert (Hr2 : tree_reached X y nrm h0 (os ++ [TSampleGrow idx]) h2 t2).
  { destruct Hr as (Hl&Hss&s&Hro&Hrun). split; auto. split; [apply Forall_app; split; auto; repeat constructor|].
    exists s. split; auto. rewrite tree_run_app, Hrun. cbn [rbind tree_run tree_do]. rewrite Hsg. cbn [rbind]. rewrite Hm. reflexivity. }
  assert (Hpo2 : Forall proposed_op (os ++ [TSampleGrow idx])) by (apply Forall_app; split; auto; repeat constructor).
  destruct (C36_grow _ _ _ _ _ _ _ _ _ _ _ sigma p Hn Hr Hsg Hs Hp) as (L&n&HL&En&E). rewrite Hg in E. injection E as ->.
  destruct (C36_prune _ _ _ _ _ _ _ _ _ _ _ sigma p Hn Hne Hr2 Hpo2 Hsp Hns Hs Hp) as (L'&n'&HL'&En'&E'). rewrite Hq in E'. injection E' as ->.
  destruct (C34_opposite_sampled _ _ _ _ _ _ _ _ _ _ _ _ _ _ _ _ _ sigma p Hn Hr Hsg Hm Hsp He) as (L0&A&B).
  rewrite HL in A. injection A as <-. rewrite HL' in B. injection B as ->.
  assert (Hd : nd_depth n' = nd_depth n).
  { destruct (tree_reached_inv _ _ _ _ _ _ _ Hn Hr) as (a&H&_).
    destruct (grow_view _ _ _ _ _ _ _ _ _ Hn H Hsg) as (i&u&l&r&cs&d&v&x&->&Hf&_&Haf&_&_&Hx&Hs0&Hg0&_).
    destruct (grown_find _ _ _ _ _ _ _ _ _ _ _ _ _ Hn H Hx Hs0 Hg0 Hm) as (_&_&_&_&a2&H2&cs2&d2&Haf2&Haf3&_).
    rewrite Haf in Haf2. injection Haf2 as <- <-. simpl in He, En. rewrite He in En'.
    pose proof (afind_aok _ _ _ _ _ _ _ _ _ _ (ti_ok _ _ _ _ _ H) Haf) as (w&s&Eg&_).
    pose proof (afind_aok _ _ _ _ _ _ _ _ _ _ (ti_ok _ _ _ _ _ H2) Haf3) as ((s2&Eg2&_)&_).
    rewrite Eg in En. injection En as <-. rewrite Eg2 in En'. injection En' as <-. reflexivity. }
  rewrite Hd. destruct Hp as [(_&_&_&Hpg&Hpp) _]. rewrite !ln_div by auto. lra.
Qed.
(** Six rows, one column 1..6, target all zero: splitting at 2 leaves one splittable leaf. *)
Definition zx_X : matrix := Mx 1 [[fz 1]; [fz 2]; [fz 3]; [fz 4]; [fz 5]; [fz 6]].
Definition zx_y : list R := [0; 0; 0; 0; 0; 0].
Lemma zx_no_nan : no_nan zx_X.
Proof.
  intros r v Hr Hv. simpl in Hr, Hv. destruct v as [|v]; [|lia]. repeat (destruct Hr as [<-|Hr]; [discriminate|]); destruct Hr.
Qed.
Definition zx_start : heap * tree :=
  match root_split zx_X zx_y false with Ok s => start_tree h_empty s | _ => (h_empty, make_tree []) end.
Definition zx_grow := sample_grow_mutation (fst zx_start) (snd zx_start) [0; 0; 1]%nat.
Definition zx_m := match zx_grow with Ok (m, _, _) => m | _ => Mu MOther 0 0 end.
Definition zx_h1 := match zx_grow with Ok (_, h1, _) => h1 | _ => h_empty end.
Definition zx_after := mutate zx_h1 (snd zx_start) zx_m.
Definition zx_prune := sample_prune_mutation (fst (fst zx_after)) (snd (fst zx_after)) [0]%nat.
Definition zx_m' := match zx_prune with Ok (m, _, _) => m | _ => Mu MOther 0 0 end.
Definition zx_h3 := match zx_prune with Ok (_, h1, _) => h1 | _ => h_empty end.
Lemma zx_reached : tree_reached zx_X zx_y false h_empty [] (fst zx_start) (snd zx_start).
Proof. split; [reflexivity|]. split; [constructor|]. eexists. split; reflexivity. Qed.
Lemma zx_grow_ok : zx_grow = Ok (zx_m, zx_h1, []).
Proof.
  unfold zx_m, zx_h1.
  assert (E : match zx_grow with Ok (_, _, i) => Some i | _ => None end = Some []) by (vm_compute; reflexivity).
  destruct zx_grow as [[[m h1] i]| |]; try discriminate. injection E as ->. reflexivity.
Qed.
Lemma zx_after_ok : snd zx_after = None.
Proof. vm_compute. reflexivity. Qed.
Lemma zx_after_eq : zx_after = (fst (fst zx_after), snd (fst zx_after), None).
Proof.
  assert (E : forall q : heap * tree * option exn, snd q = None -> q = (fst (fst q), snd (fst q), None)).
  { intros [[a b] c] Hc. cbn in *. now rewrite Hc. }
  apply E, zx_after_ok.
Qed.
Lemma zx_prune_ok : zx_prune = Ok (zx_m', zx_h3, []).
Proof.
  unfold zx_m', zx_h3.
  assert (E : match zx_prune with Ok (_, _, i) => Some i | _ => None end = Some []) by (vm_compute; reflexivity).
  destruct zx_prune as [[[m h1] i]| |]; try discriminate. injection E as ->. reflexivity.
Qed.
Definition zx_p : params := Pa 1 (/ 2) 0 (/ 2) 1 1 (/ 2) (/ 2) 1000.
Lemma zx_usual : usual zx_p.
Proof. unfold usual, zx_p; simpl. repeat split; try lra; lia. Qed.
(** The grow has a finite log ratio, the prune undoing it has log ratio -infinity (or is NaN). *)
Theorem C36_opposite_refuted : exists X y h t idx m h1 idx1 h2 t2 idx2 m' h3 idx3 p g L,
  no_nan X /\ tree_reached X y false h_empty [] h t /\ usual p /\
  sample_grow_mutation h t idx = Ok (m, h1, idx1) /\ mutate h1 t m = (h2, t2, None) /\
  sample_prune_mutation h2 t2 idx2 = Ok (m', h3, idx3) /\ mu_existing m' = mu_updated m /\
  log_probability_ratio h1 t m 1 p = Ok (XFin g) /\ log_probability_ratio h3 t2 m' 1 p = Ok L /\ (L = XNInf \/ L = XNaN).
Proof.
  exists zx_X, zx_y, (fst zx_start), (snd zx_start), [0; 0; 1]%nat, zx_m, zx_h1, [], (fst (fst zx_after)), (snd (fst zx_after)), [0]%nat, zx_m', zx_h3, [], zx_p.
  destruct (C36_grow _ _ _ _ _ _ _ _ _ _ _ 1 zx_p zx_no_nan zx_reached zx_grow_ok ltac:(lra) zx_usual) as (L&n&_&_&E).
  assert (Hk : mu_kind zx_m' = MPrune) by (vm_compute; reflexivity).
  assert (Hns : n_splittable_leaf_nodes zx_h3 (snd (fst zx_after)) = 1%nat) by (vm_compute; reflexivity).
  assert (HL : exists L', log_probability_ratio zx_h3 (snd (fst zx_after)) zx_m' 1 zx_p = Ok L').
  { assert (Hr2 : tree_reached zx_X zx_y false h_empty [TSampleGrow [0; 0; 1]%nat] (fst (fst zx_after)) (snd (fst zx_after))).
    { destruct zx_reached as (Hl&_&s&Hro&Hrun). split; auto. split; [repeat constructor|]. exists s. split; auto.
      assert (Est : start_tree h_empty s = zx_start) by (unfold zx_start; now rewrite Hro). rewrite Est. cbn [rbind tree_run tree_do]. fold zx_grow. rewrite zx_grow_ok. cbn [rbind].
      fold zx_after. rewrite zx_after_eq at 1. reflexivity. }
    destruct (tree_reached_inv _ _ _ _ _ _ _ zx_no_nan Hr2) as (a&H&Hfil&_).
    assert (Hfl : filled zx_X [] a) by (apply Hfil; [repeat constructor|discriminate]).
    pose proof zx_prune_ok as Hsg. unfold zx_prune in Hsg.
    destruct (prune_view _ _ _ _ _ _ _ _ _ H Hsg) as (i&l&r&cs&d&v&x&Em&Hf&Haf&Hch&Hin&Hfr&Hgm). specialize (Hch Hfl).
    rewrite Em. assert (Hpp : pa_pprune zx_p <> 0) by (simpl; lra).
    exact (prune_total _ _ _ (snd (fst zx_after)) _ _ _ _ _ _ _ _ 1 zx_p zx_no_nan Hf Hch Hpp Hgm). }
  destruct HL as (L'&HL'). eexists _, L'.
  split; [apply zx_no_nan|]. split; [apply zx_reached|]. split; [apply zx_usual|]. split; [apply zx_grow_ok|].
  split. { exact zx_after_eq. }
  split; [apply zx_prune_ok|]. split; [vm_compute; reflexivity|]. split; [exact E|]. split; [exact HL'|].
  destruct zx_m' as [mk me mu]. simpl in Hk. subst mk. eapply prune_low; [|exact HL']. rewrite Hns. auto.
Qed.
(** the round trip formula applies to the grow of two splittable leaves *)
Example C36_example :
  match sample_grow_mutation (fst zx_start) (snd zx_start) [0; 0; 2]%nat with
  | Ok (m, h1, _) => match mutate h1 (snd zx_start) m with
                     | (h2, t2, None) => length (prunable_decision_nodes h2 t2) = 1%nat /\ length (splittable_leaf_nodes h2 t2) = 2%nat
                     | _ => False end
  | _ => False end.
Proof. vm_compute. auto. Qed.

(** ** C37 *)
(** The decision of the tree sampler: accept iff the uniform draw is below the LOG of the ratio. *)
Theorem C37_rule : forall h t sigma p r om h1 r1, tree_sample h t sigma p r = Ok (om, h1, r1) ->
  exists m r0 L u, propose (pa_limit p) h t r = Ok (m, h1, r0) /\ log_probability_ratio h1 t m sigma p = Ok L /\
    rg_unif r0 = u :: rg_unif r1 /\
    (om = Some m <-> u_below u L) /\ (om = None <-> ~ u_below u L) /\
    (forall l, L = XFin l -> l <= 0 -> 0 <= u -> om = None) /\
    (forall l, L = XFin l -> 1 <= l -> u < 1 -> om = Some m) /\
    (L = XNaN -> om = None) /\ (L = XNInf -> om = None) /\ (L = XPInf -> om = Some m).
Proof.
  intros h t sigma p r om h1 r1. unfold tree_sample.
  destruct (propose (pa_limit p) h t r) as [[[m h'] r0]| |]; try discriminate. cbn [rbind].
  destruct (log_probability_ratio h' t m sigma p) as [L| |] eqn:EL; try discriminate. cbn [rbind].
  destruct (rg_unif r0) as [|u us] eqn:Eu; [discriminate|]. intros E; injection E as <- <- <-.
  assert (Hacc : accepts u L = true <-> u_below u L).
  { unfold accepts. destruct L; simpl; try (split; [discriminate|tauto]); try tauto. match goal with |- context [Rlt_dec ?a ?b] => destruct (Rlt_dec a b) end; (split; intros; [|try contradiction]); auto; try discriminate. }
  exists m, r0, L, u. simpl rg_unif.
  destruct (accepts u L) eqn:Ea.
  - assert (Hb : u_below u L) by tauto.
    repeat match goal with |- _ /\ _ => split end; auto; try tauto; try (split; [discriminate|tauto]).
    + intros l -> Hl Hu. simpl in Hb. lra.
    + intros ->. destruct Hb.
    + intros ->. destruct Hb.
  - assert (Hb : ~ u_below u L) by (rewrite <- Hacc; discriminate).
    repeat match goal with |- _ /\ _ => split end; auto; try tauto; try (split; [discriminate|tauto]).
    + intros l -> Hl Hu. simpl in Hb. lra.
    + intros ->. destruct Hb. exact I.
Qed.
(** what happens to the tree: rejected proposals leave it alone, accepted ones are installed *)
Theorem C37_effect : forall h t sigma p r om h2 t2 r1, tree_step h t sigma p r = Ok (om, h2, t2, r1) ->
  exists h1, tree_sample h t sigma p r = Ok (om, h1, r1) /\
    match om with None => h2 = h1 /\ t2 = t | Some m => mutate h1 t m = (h2, t2, None) end.
Proof.
  intros h t sigma p r om h2 t2 r1. unfold tree_step.
  destruct (tree_sample h t sigma p r) as [[[o h1] r']| |]; try discriminate. cbn [rbind].
  destruct o as [m|]; [destruct (mutate h1 t m) as [[h' t'] [e|]] eqn:Em; try discriminate|];
  intros E; injection E as <- <- <- <-; exists h1; auto.
Qed.
(** The Metropolis-Hastings rule u < ratio is violated: a proposal with a ratio strictly between 0 and 1 is
    rejected for a draw below the ratio (indeed for every draw). *)
Lemma rsum_zeros l : (forall x, In x l -> x = 0) -> rsum l = 0.
Proof. unfold rsum. induction l as [|a l IH]; simpl; intros H; auto. rewrite IH, (H a) by auto. lra. Qed.
Lemma zx_node_sum cs s : sinv zx_X (Some zx_y) cs s -> sum_of zx_X zx_y cs = 0.
Proof.
  intros Hs. rewrite <- (targets_sum _ _ _ _ Hs). apply rsum_zeros. intros x Hx. unfold node_targets in Hx.
  apply in_map_iff in Hx as (i&<-&_). do 6 (destruct i as [|i]; [reflexivity|]). destruct i; reflexivity.
Qed.
Lemma zx_ratio : exists l, log_probability_ratio zx_h1 (snd zx_start) zx_m 1 zx_p = Ok (XFin l) /\ l < 0.
Proof.
  destruct (tree_reached_inv _ _ _ _ _ _ _ zx_no_nan zx_reached) as (a&H&_).
  pose proof zx_grow_ok as Hsg. unfold zx_grow in Hsg.
  destruct (grow_view _ _ _ _ _ _ _ _ _ zx_no_nan H Hsg) as (i&u&l&r&cs&d&v&x&Em&Hf&Hch&_&Hin&Hfr&Hx&_).
  assert (Htau : tau_of (pa_k zx_p) (pa_ntrees zx_p) = 1) by (unfold tau_of; simpl; rewrite sqrt_1; field).
  set (n := INR (count_of zx_X cs)). set (nl := INR (count_of zx_X (cs ++ [Rl v x true]))). set (nr := INR (count_of zx_X (cs ++ [Rl v x false]))).
  assert (Hn : n = nl + nr).
  { unfold n, nl, nr. rewrite <- plus_INR. f_equal. symmetry. apply count_of_split; auto using zx_no_nan. apply Hch. }
  pose proof (pos_INR (count_of zx_X (cs ++ [Rl v x true]))) as Hl. fold nl in Hl.
  pose proof (pos_INR (count_of zx_X (cs ++ [Rl v x false]))) as Hr. fold nr in Hr.
  assert (HL : Lk zx_X zx_y cs v x 1 zx_p = XFin (grow_val n nl nr 0 0 0 1 1)).
  { unfold Lk. rewrite sigma_m_fin, Htau by (simpl; lra || auto). rewrite log_grow_ratio_fin by lra.
    destruct Hf as (ke&se&sp&kl&sl&kr&sr&_&_&_&_&H1&_&H3&H4).
    now rewrite (zx_node_sum _ _ H1), (zx_node_sum _ _ H3), (zx_node_sum _ _ H4). }
  assert (Hval : grow_val n nl nr 0 0 0 1 1 <= 0).
  { unfold grow_val. rewrite !Rmult_1_r.
    replace (1 / 2 * (0 * 0 / (1 + nl) + 0 * 0 / (1 + nr) - 0 * 0 / (1 + n))) with 0 by (field; lra).
    assert (0 < (1 + nl) * (1 + nr)) by nra. assert (Hq : 0 < 1 * (1 + n) / ((1 + nl) * (1 + nr))) by (apply Rdiv_lt_0_compat; lra).
    rewrite ln_sqrt by auto.
    assert (ln (1 * (1 + n) / ((1 + nl) * (1 + nr))) <= 0); [|lra].
    assert (Hle : 1 * (1 + n) / ((1 + nl) * (1 + nr)) <= 1).
    { apply Rmult_le_reg_r with ((1 + nl) * (1 + nr)); auto. unfold Rdiv. rewrite Rmult_assoc, Rinv_l by lra. nra. }
    destruct (Req_dec (1 * (1 + n) / ((1 + nl) * (1 + nr))) 1) as [->|Hne]; [rewrite ln_1; lra|].
    apply Rlt_le. rewrite <- ln_1. apply ln_increasing; lra. }
  destruct (frame_lists _ _ _ _ _ _ H Hfr) as (_&E1&_&E2).
  assert (Hns : (1 <= n_splittable_leaf_nodes zx_h1 (snd zx_start))%nat).
  { unfold n_splittable_leaf_nodes. rewrite E1. destruct (splittable_leaf_nodes (fst zx_start) (snd zx_start)); [destruct Hin|simpl; lia]. }
  rewrite Em.
  pose proof (grow_ratio _ _ _ (snd zx_start) _ _ _ _ _ _ _ _ 1 zx_p _ zx_no_nan Hf Hch zx_usual Hns HL) as Hgr.
  eexists. split; [exact Hgr|].
  assert (Hpr : n_prunable_decision_nodes zx_h1 (snd zx_start) = 0%nat) by (vm_compute; reflexivity).
  rewrite Hpr. change (INR 0) with 0. rewrite Rplus_0_l, ln_1.
  assert (Hpp : pa_pprune zx_p / pa_pgrow zx_p = 1) by (simpl; field). rewrite Hpp, ln_1.
  assert (Hod : log_structure_odds (pa_alpha zx_p) (pa_beta zx_p) d = ln (/ 2) + ln (/ 2)).
  { unfold log_structure_odds, split_probability, zx_p, pa_alpha, pa_beta. rewrite Ropp_0, !Rpower_O by (rewrite ?S_INR; pose proof (pos_INR d); lra).
    rewrite Rmult_1_r. replace (1 - / 2) with (/ 2) by lra. lra. }
  rewrite Hod. assert (ln (/ 2) < 0) by (rewrite <- ln_1; apply ln_increasing; lra). lra.
Qed.
Lemma propose_grow_first n h t bs idx us zs gs m h1 idx' : sample_grow_mutation h t idx = Ok (m, h1, idx') ->
  propose (S n) h t (Rng (true :: bs) idx us zs gs) = Ok (m, h1, Rng bs idx' us zs gs).
Proof. intros E. simpl. now rewrite E. Qed.
Theorem C37_metropolis_refuted : exists X y h t p r l u m h1 r0 r1,
  no_nan X /\ tree_reached X y false h_empty [] h t /\ usual p /\
  propose (pa_limit p) h t r = Ok (m, h1, r0) /\ log_probability_ratio h1 t m 1 p = Ok (XFin l) /\
  rg_unif r0 = [u] /\ 0 <= u < 1 /\ u < exp l /\ tree_sample h t 1 p r = Ok (None, h1, r1).
Proof.
  destruct zx_ratio as (l&El&Hl).
  pose proof (exp_pos l) as He. assert (He1 : exp l < 1) by (rewrite <- exp_0; now apply exp_increasing).
  assert (Ep : propose (pa_limit zx_p) (fst zx_start) (snd zx_start) (Rng [true] [0; 0; 1]%nat [exp l / 2] [] []) =
    Ok (zx_m, zx_h1, Rng [] [] [exp l / 2] [] [])).
  { exact (propose_grow_first 999 _ _ [] _ [exp l / 2] [] [] _ _ _ zx_grow_ok). }
  exists zx_X, zx_y, (fst zx_start), (snd zx_start), zx_p, (Rng [true] [0; 0; 1]%nat [exp l / 2] [] []), l, (exp l / 2),
    zx_m, zx_h1, (Rng [] [] [exp l / 2] [] []), (Rng [] [] [] [] []).
  split; [apply zx_no_nan|]. split; [apply zx_reached|]. split; [apply zx_usual|]. split; [exact Ep|]. split; [exact El|].
  split; [reflexivity|]. split; [lra|]. split; [lra|].
  unfold tree_sample. rewrite Ep. cbn [rbind]. rewrite El. cbn [rbind rg_unif]. unfold accepts, xltb.
  destruct (Rlt_dec (exp l / 2) l); [lra|reflexivity].
Qed.

(** ** C38 *)
(** With at most one splittable leaf no prune is ever accepted, whatever the draws and parameters. *)
Theorem C38_no_prune : forall X y normalize h0 os h t sigma p r om h1 t1 r1,
  no_nan X -> tree_reached X y normalize h0 os h t -> (length (splittable_leaf_nodes h t) <= 1)%nat ->
  tree_step h t sigma p r = Ok (om, h1, t1, r1) -> forall m, om = Some m -> mu_kind m = MGrow.
Proof.
  intros X y nrm h0 os h t sigma p r om h1 t1 r1 Hn Hr Hns Hst m ->.
  destruct (tree_reached_inv _ _ _ _ _ _ _ Hn Hr) as (a&H&_).
  apply C37_effect in Hst as (h1'&Hs&_).
  apply C37_rule in Hs as (m0&r0&L&u&Hp&HL&_&Hacc&Hno&_).
  assert (Hu : u_below u L).
  { destruct L; simpl in *; auto; try (destruct Hno as [_ Hno]; discriminate Hno; tauto).
    match goal with |- u < ?l => destruct (Rlt_dec u l); auto end. destruct Hno as [_ Hno]. discriminate (Hno n). }
  assert (m0 = m) as -> by (destruct Hacc as [_ Hb]; specialize (Hb Hu); congruence).
  apply propose_cases in Hp as [(idx'&E&_)|(idx'&E&_)].
  - destruct (grow_view _ _ _ _ _ _ _ _ _ Hn H E) as (i&u'&l&r'&cs&d&v&x&->&_). reflexivity.
  - destruct (prune_view _ _ _ _ _ _ _ _ _ H E) as (i&l&r'&cs&d&v&x&->&_&_&_&_&Hfr&_). exfalso.
    destruct (frame_lists _ _ _ _ _ _ H Hfr) as (_&E1&_).
    assert (Hlow : low L). { eapply prune_low; [|exact HL]. unfold n_splittable_leaf_nodes. now rewrite E1. }
    destruct Hlow as [-> | ->]; exact Hu.
Qed.
(** Once no leaf can be split the structure never changes again, under any sequence of sampler steps interleaved
    with calls that do not edit the tree. *)
Theorem C38_frozen : forall X y normalize h0 os h t later h' t',
  no_nan X -> tree_reached X y normalize h0 os h t -> splittable_leaf_nodes h t = [] ->
  Forall (fun o => match o with SCall c => sane_tree_op (length (mx_rows X)) c /\ ~ mutates c | SStep _ _ _ => True end) later ->
  samp_run h t later = Ok (h', t') ->
  tr_nodes t' = tr_nodes t /\ splittable_leaf_nodes h' t' = [] /\
  forall j, In j (tr_nodes t) -> option_map structure_of (h_get h' j) = option_map structure_of (h_get h j).
Proof.
  intros X y nrm h0 os h t later h' t' Hn Hr Hs Hl Hrun.
  destruct (tree_reached_inv _ _ _ _ _ _ _ Hn Hr) as (a&H&_).
  destruct (frozen_run _ _ _ _ _ _ _ _ H Hs Hl Hrun) as (A&B). split; auto. split; auto.
  rewrite <- Hs. eapply keeps_splittable; eauto.
Qed.

(** two distinct covariate values: after one split no leaf can be split and a prune is still proposed (and rejected) *)
Definition fx_X : matrix := Mx 1 [[fz 1]; [fz 1]; [fz 2]; [fz 2]].
Definition fx_y : list R := [1; 2; 3; 4].
Definition fx : heap * tree :=
  match root_split fx_X fx_y false with
  | Ok s => match tree_run (fst (start_tree h_empty s)) (snd (start_tree h_empty s)) [TSampleGrow [0; 0; 0]%nat] with
            | Ok q => q | _ => (h_empty, make_tree []) end
  | _ => (h_empty, make_tree []) end.
Definition okb {A} (r : res A) : bool := match r with Ok _ => true | _ => false end.
Lemma okb_ok {A} (r : res A) : okb r = true -> exists a, r = Ok a.
Proof. destruct r; try discriminate. eauto. Qed.
Lemma frozen_step_ok n h X y t a idx m h1 idx' sigma p u : no_nan X -> tree_inv h X (Some y) t a -> filled X [] a -> pa_pprune p <> 0 ->
  pa_limit p = S n -> splittable_leaf_nodes h t = [] -> sample_prune_mutation h t idx = Ok (m, h1, idx') ->
  tree_step h t sigma p (Rng [false] idx [u] [] []) = Ok (None, h1, t, Rng [] idx' [] [] []).
Proof.
  intros Hn H Hfl Hp Hlim Hs E. destruct (prune_view _ _ _ _ _ _ _ _ _ H E) as (i&l&r'&cs&d&v&x&Em&Hf&_&Hch&_&Hfr&Hg).
  destruct (prune_total _ _ _ t _ _ _ _ _ _ _ _ sigma p Hn Hf (Hch Hfl) Hp Hg) as (L&HL).
  destruct (frame_lists _ _ _ _ _ _ H Hfr) as (_&E1&_).
  assert (Hlow : low L). { eapply prune_low; [|exact HL]. unfold n_splittable_leaf_nodes. rewrite E1, Hs. simpl. lia. }
  unfold tree_step, tree_sample. rewrite Hlim. simpl propose. rewrite E. cbn [rbind]. subst m. rewrite HL. cbn [rbind rg_unif rng_set_index rng_set_method].
  rewrite low_accept by auto. reflexivity.
Qed.
Lemma frozen_one n h X y t a idx m h1 idx' sigma p u : no_nan X -> tree_inv h X (Some y) t a -> filled X [] a -> pa_pprune p <> 0 ->
  pa_limit p = S n -> splittable_leaf_nodes h t = [] -> sample_prune_mutation h t idx = Ok (m, h1, idx') ->
  exists h' t', samp_run h t [SStep sigma p (Rng [false] idx [u] [] [])] = Ok (h', t').
Proof.
  intros. exists h1, t. simpl. erewrite frozen_step_ok by eauto. reflexivity.
Qed.
Lemma fx_no_nan : no_nan fx_X.
Proof.
  intros r v Hr Hv. simpl in Hr, Hv. destruct v as [|v]; [|lia]. repeat (destruct Hr as [<-|Hr]; [discriminate|]); destruct Hr.
Qed.
Lemma fx_reached : tree_reached fx_X fx_y false h_empty [TSampleGrow [0; 0; 0]%nat] (fst fx) (snd fx).
Proof. split; [reflexivity|]. split; [repeat constructor|]. eexists. split; [reflexivity|]. reflexivity. Qed.
Example C38_case : no_nan fx_X /\ tree_reached fx_X fx_y false h_empty [TSampleGrow [0; 0; 0]%nat] (fst fx) (snd fx) /\
  length (tr_nodes (snd fx)) = 3%nat /\ splittable_leaf_nodes (fst fx) (snd fx) = [] /\
  exists h' t', samp_run (fst fx) (snd fx) [SStep 1 zx_p (Rng [false] [0]%nat [/ 2] [] [])] = Ok (h', t').
Proof.
  split; [apply fx_no_nan|]. split; [apply fx_reached|]. split; [vm_compute; reflexivity|]. split; [vm_compute; reflexivity|].
  destruct (okb_ok (sample_prune_mutation (fst fx) (snd fx) [0]%nat)) as [[[m h1] idx'] Es]; [vm_compute; reflexivity|].
  destruct (tree_reached_inv _ _ _ _ _ _ _ fx_no_nan fx_reached) as (a&H&Hf&_).
  refine (frozen_one 999 _ _ _ _ _ _ _ _ _ 1 zx_p (/ 2) fx_no_nan H _ _ eq_refl _ Es).
  - apply Hf; [repeat constructor|discriminate].
  - simpl. lra.
  - vm_compute. reflexivity.
Qed.

(** ** C48 *)
Lemma scalar_at_0 {A} (src : nat -> A) size : (0 < size)%nat -> scalar_at src size 0 = scalar_init.
Proof. intros Hs. unfold scalar_at. now rewrite Nat.mod_0_l, Nat.div_0_l by lia. Qed.
(** The j-th value handed out is a value of the source: block j / size, taken from its end. *)
Theorem C48_order : forall {A} (src : nat -> A) size k, (0 < size)%nat ->
  exists s, scalar_samples src size k scalar_init =
    Ok (map (fun j => src (j / size * size + (size - 1 - j mod size)))%nat (seq 0 k), s).
Proof. intros A src size k Hs. eexists. rewrite <- (scalar_at_0 src size Hs). apply scalar_samples_spec; auto. Qed.
(** Every draw is handed out exactly once: whole blocks are permutations of the source's draws. *)
Lemma flip_spec size j : (0 < size)%nat -> let g := fun j => (j / size * size + (size - 1 - j mod size))%nat in
  g (g j) = j /\ (forall b, j < b * size -> g j < b * size)%nat.
Proof.
  intros Hs g. assert (Hm : (j mod size < size)%nat) by (apply Nat.mod_upper_bound; lia).
  pose proof (Nat.div_mod j size ltac:(lia)) as Hj. split.
  - assert (E1 : (g j / size = j / size)%nat) by (symmetry; apply Nat.div_unique with (r := (size - 1 - j mod size)%nat); unfold g; lia).
    assert (E2 : (g j mod size = size - 1 - j mod size)%nat) by (symmetry; apply Nat.mod_unique with (q := (j / size)%nat); unfold g; lia).
    unfold g at 1. rewrite E1, E2. lia.
  - intros b Hb. assert (Hq : (j / size < b)%nat) by (apply Nat.div_lt_upper_bound; lia). unfold g. nia.
Qed.
Theorem C48_each_once : forall {A} (src : nat -> A) size b, (0 < size)%nat ->
  exists vs s, scalar_samples src size (b * size) scalar_init = Ok (vs, s) /\ Permutation vs (map src (seq 0 (b * size))) /\
    sca_pos s = (b * size)%nat.
Proof.
  intros A src size b Hs. do 2 eexists.
  split; [rewrite <- (scalar_at_0 src size Hs); apply scalar_samples_spec; auto|]. split.
  - rewrite <- (map_map (fun j => j / size * size + (size - 1 - j mod size))%nat src). apply Permutation_map.
    apply NoDup_Permutation_bis; [|rewrite map_length; auto|].
    + apply FinFun.Injective_map_NoDup; [|apply seq_NoDup]. intros i j E.
      destruct (flip_spec size i Hs) as [<- _]. destruct (flip_spec size j Hs) as [<- _]. cbv beta in *. now rewrite E.
    + intros j Hj. apply in_map_iff in Hj as (i&<-&Hi). apply in_seq in Hi. apply in_seq.
      destruct (flip_spec size i Hs) as [_ Hlt]. specialize (Hlt b). cbv beta in Hlt. lia.
  - unfold scalar_at. simpl. rewrite Nat.mod_mul, Nat.div_mul by lia. reflexivity.
Qed.
Theorem C48_empty_cache : forall {A} (src : nat -> A) k, scalar_samples src 0 (S k) scalar_init = Raise EIndexError.
Proof. reflexivity. Qed.
Example C48_example : exists s, scalar_samples (fun i => i) 3 5 scalar_init = Ok ([2; 1; 0; 5; 4]%nat, s).
Proof. eexists. reflexivity. Qed.

Print Assumptions C32_leaf_draw.
Print Assumptions C35_integrated_refuted.
Print Assumptions C36_grow.
Print Assumptions C36_opposite_refuted.
Print Assumptions C37_metropolis_refuted.
Print Assumptions C38_frozen.
Print Assumptions C48_each_once.
