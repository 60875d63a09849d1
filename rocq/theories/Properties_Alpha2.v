(** Property C78, the other direction: with all other settings trees can grow. *)
From Coq Require Import Reals Lra Lia.
From Verif Require Import Base Fl Ext MData MSplit MTree MSampler MHist MTreeHist Spec SpecTree SpecSampler SpecAlpha LFl LList
  PData PSplit PDataProps PCond PTree PPred PTreeHist PTreeProps PTreeProps2 PSampler PSampler2 PSampler3 PModel10 PAlpha Properties_Tree Properties_Sampler Properties_Propose PNoise Properties_Noise.
Local Open Scope R_scope.

Definition tame (p : params) : params := Pa (pa_ntrees p) (/ 2) 0 (pa_k p) (pa_siga p) (pa_sigb p) (pa_pgrow p) (pa_pprune p) (pa_limit p).
Lemma tame_good p : 0 < pa_k p -> 0 < pa_pgrow p -> 0 < pa_pprune p -> (1 <= pa_ntrees p)%nat -> good (tame p).
Proof. intros. unfold good, tame. cbn [pa_alpha pa_beta pa_k pa_pgrow pa_pprune pa_ntrees]. split; auto. repeat split; auto; lra. Qed.
Lemma Lk_tame X y cs v x sigma p : Lk X y cs v x sigma (tame p) = Lk X y cs v x sigma p.
Proof. reflexivity. Qed.
(** the ratio of a grow at the root *)
Lemma root_ratio h X y t cs v x i u l r sigma p L : no_nan X -> family h X y cs 0 v x i u l r -> chosen X cs v x ->
  ~ forbids_growth p -> 0 < pa_pgrow p -> 0 < pa_pprune p -> (1 <= n_splittable_leaf_nodes h t)%nat -> Lk X y cs v x sigma p = XFin L ->
  exists q, log_probability_ratio h t (Mu MGrow i u) sigma p = Ok q /\
    (q = XPInf \/ q = XFin (ln (pa_pprune p / pa_pgrow p) - ln (INR (n_prunable_decision_nodes h t) + 1) + L
       + (ln (1 - split_prior p 1) + ln (1 - split_prior p 1) + ln (pa_alpha p) - ln (1 - pa_alpha p)))).
Proof.
  intros Hn Hf Hc Ha Hg Hpr Hns HL. unfold log_probability_ratio, log_transition_ratio, log_likihood_ratio, log_tree_ratio. simpl mu_kind. cbv iota.
  unfold log_grow_transition_ratio, log_tree_ratio_grow. simpl mu_existing. simpl mu_updated.
  rewrite (family_children _ _ _ _ _ _ _ _ _ _ _ Hf).
  destruct (family_depth _ _ _ _ _ _ _ _ _ _ _ Hf) as (D1&D2&D3&D4). rewrite D1, D2.
  unfold log_probability_split_within_tree.
  destruct (family_pick _ _ _ _ _ _ _ _ _ _ _ Hn Hf Hc) as (q&Eq). rewrite Eq. cbn [rbind].
  unfold py_div. destruct (Req_EM_T (pa_pgrow p) 0) as [?|_]; [lra|]. cbn [rbind].
  rewrite (family_lik _ _ _ _ _ _ _ _ _ _ _ sigma p Hf), HL. cbn [rbind]. rewrite D3, D4. cbn [rbind].
  assert (A1 : 0 < pa_alpha p <= 1) by (destruct (Rlt_dec 0 (pa_alpha p)), (Rle_dec (pa_alpha p) 1); try lra; exfalso; apply Ha; left; lra).
  assert (A2 : split_prior p 1 < 1) by (rewrite prior_child; destruct (Rlt_dec (pa_alpha p * Rpower 2 (- pa_beta p)) 1); auto; exfalso; apply Ha; right; left; lra).
  unfold log_probability_node_not_split, log_probability_node_split. rewrite prior_root.
  assert (0 < INR (n_splittable_leaf_nodes h t)) by (apply lt_0_INR; lia).
  pose proof (pos_INR (n_prunable_decision_nodes h t)).
  rewrite (xlog_fin (INR (n_splittable_leaf_nodes h t))) by auto.
  rewrite (xlog_fin (INR (n_prunable_decision_nodes h t + 1))) by (rewrite plus_INR; simpl; lra).
  rewrite (xlog_fin (pa_pprune p / pa_pgrow p)) by (now apply Rdiv_lt_0_compat).
  rewrite (xlog_fin (1 - split_prior p 1)) by lra. rewrite (xlog_fin (pa_alpha p)) by lra.
  destruct (Req_dec (pa_alpha p) 1) as [E1|E1].
  - assert (E0 : xlog (XFin (1 - pa_alpha p)) = XNInf).
    { rewrite E1. unfold xlog, rsign. destruct (Rlt_dec (1 - 1) 0); [lra|]. destruct (Rlt_dec 0 (1 - 1)); [lra|reflexivity]. }
    rewrite E0. rewrite !xneg_fin, !xadd_fin, !xsub_fin, !xadd_fin. eexists. split; [reflexivity|]. left. reflexivity.
  - rewrite (xlog_fin (1 - pa_alpha p)) by lra. rewrite plus_INR. change (INR 1) with 1.
    rewrite !xneg_fin, !xadd_fin, !xsub_fin, !xadd_fin. eexists. split; [reflexivity|]. right. f_equal. lra.
Qed.
Lemma step_always h t sigma p r m h1 r0 u us : propose (pa_limit p) h t r = Ok (m, h1, r0) -> rg_unif r0 = u :: us ->
  log_probability_ratio h1 t m sigma p = Ok XPInf -> (exists h2 t2, mutate h1 t m = (h2, t2, None)) ->
  exists h2 t2, mutate h1 t m = (h2, t2, None) /\ tree_step h t sigma p r = Ok (Some m, h2, t2, rng_set_unif r0 us).
Proof.
  intros Ep Eu Eq (h2&t2&Em). unfold tree_step, tree_sample. rewrite Ep. cbn [rbind]. rewrite Eq. cbn [rbind]. rewrite Eu. cbn [rbind].
  unfold accepts, xltb. rewrite Em. eauto.
Qed.

(** A first split whose two sides have different mean targets is accepted, whatever the draw, once the noise is small enough:
    the conditions of C78 are the only ones under which no tree ever grows. *)
Theorem C78_otherwise : forall X y normalize h0 os h t idx m h1 idx1 p,
  no_nan X -> tree_reached X y normalize h0 os h t -> length (tr_nodes t) = 1%nat -> sample_grow_mutation h t idx = Ok (m, h1, idx1) ->
  ~ forbids_growth p -> 0 < pa_k p -> 0 < pa_pgrow p -> 0 < pa_pprune p -> (1 <= pa_ntrees p)%nat ->
  let Y := last_tree_target (start_target y normalize) os in
  exists sl sr, sides h1 (mu_updated m) sl sr /\
  (average (node_targets sl Y) <> average (node_targets sr Y) ->
   exists s0, 0 < s0 /\ forall sigma r r0 u us, 0 < sigma < s0 ->
    propose (pa_limit p) h t r = Ok (m, h1, r0) -> rg_unif r0 = u :: us -> 0 <= u < 1 ->
    exists h2 t2, mutate h1 t m = (h2, t2, None) /\ tree_step h t sigma p r = Ok (Some m, h2, t2, rng_set_unif r0 us)).
Proof.
  intros X y nrm h0 os h t idx m h1 idx1 p Hn Hr Hone Hsg Ha Hk Hpg Hpp Hnt Y.
  destruct (tree_reached_inv _ _ _ _ _ _ _ Hn Hr) as (a&H&_). fold Y in H.
  assert (Hmu : exists h2 t2, mutate h1 t m = (h2, t2, None)).
  { eapply sampled_mutate; eauto. exists idx, idx1. auto. }
  destruct (grow_view_filled _ _ _ _ _ _ _ _ _ Hn H Hsg) as (i&u&l&r&cs&d&v&x&->&Hf&Hch&Haf&Hin&Hfr&Hcl&Hcr).
  destruct (single_leaf _ _ _ _ _ H Hone) as (i0&->&_).
  assert (Hi : d = 0%nat) by (simpl in Haf; destruct (Nat.eqb_spec i0 i); [injection Haf as _ <- _; auto|discriminate]). subst d.
  pose proof (tame_good p Hk Hpg Hpp Hnt) as Hgood.
  destruct (family_value _ _ _ _ _ _ _ _ _ _ _ (tame p) Hn Hf Hch Hgood) as (sl&sr&Hsd&Ll&Lr&HL).
  exists sl, sr. split; [exact Hsd|]. intros Hav. rewrite <- Ll in Hcl. rewrite <- Lr in Hcr.
  destruct (frame_lists _ _ _ _ _ _ H Hfr) as (_&E1&_&E2).
  assert (Hns : (1 <= n_splittable_leaf_nodes h1 t)%nat).
  { unfold n_splittable_leaf_nodes. rewrite E1. destruct (splittable_leaf_nodes h t); [destruct Hin|simpl; lia]. }
  set (P := ln (pa_pprune p / pa_pgrow p) - ln (INR (n_prunable_decision_nodes h1 t) + 1)).
  set (O := ln (1 - split_prior p 1) + ln (1 - split_prior p 1) + ln (pa_alpha p) - ln (1 - pa_alpha p)).
  destruct (small_noise (node_targets sl Y) (node_targets sr Y) (tau_of (pa_k p) (pa_ntrees p)) (1 - P - O) (- P - O)) as (s0&Hs0&Hd); auto.
  { now apply tau_pos. }
  exists s0. split; auto. intros sigma rr r0 u' us Hs Ep Eu Hu. specialize (Hd sigma Hs). cbv zeta in Hd. destruct Hd as [D1 _]. specialize (D1 Hav).
  pose proof (HL sigma (proj1 Hs)) as HL'. rewrite Lk_tame in HL'.
  destruct (root_ratio _ _ _ t _ _ _ _ _ _ _ sigma p _ Hn Hf Hch Ha Hpg Hpp Hns HL') as (q&Hq&[-> | ->]).
  - exact (step_always _ _ _ _ _ _ _ _ _ _ Ep Eu Hq Hmu).
  - fold P in Hq. fold O in Hq. destruct (step_decided _ _ _ _ _ _ _ _ _ _ _ Ep Eu Hq Hmu) as [Hacc _]. apply Hacc. cbn [tame pa_k pa_ntrees] in *. lra.
Qed.
Print Assumptions C78_otherwise.
(** alpha = 1, beta = 1: a tree grows *)
Example C78_otherwise_case : exists sigma m h2 t2, let p := Pa 1 1 1 2 1 1 (/ 2) (/ 2) 1000 in 0 < sigma /\
  tree_step (fst ox_start) (snd ox_start) sigma p (Rng [true] [0; 0; 2]%nat [/ 2] [] []) = Ok (Some m, h2, t2, Rng [] [] [] [] []) /\
  mu_kind m = MGrow.
Proof.
  assert (Ha : ~ forbids_growth (Pa 1 1 1 2 1 1 (/ 2) (/ 2) 1000)).
  { unfold forbids_growth. cbn [pa_alpha pa_beta pa_pprune]. intros [H|[H|H]]; try lra.
    rewrite Rpower_Ropp, Rpower_1 in H by lra. lra. }
  destruct (C78_otherwise _ _ _ _ _ _ _ _ _ _ _ (Pa 1 1 1 2 1 1 (/ 2) (/ 2) 1000) zx_no_nan ox_reached ltac:(vm_compute; reflexivity) ox_grow_ok Ha
    ltac:(simpl; lra) ltac:(simpl; lra) ltac:(simpl; lra) (le_n _)) as (sl&sr&Hsd&H).
  assert (E : node_targets sl ox_y = [0; 0; 0] /\ node_targets sr ox_y = [1; 1; 1]) by (eapply sides_targets; [exact Hsd|vm_compute; reflexivity]).
  destruct H as (s0&Hs0&H).
  { cbn [last_tree_target start_target]. change (start_target ox_y false) with ox_y. destruct E as [-> ->]. unfold average, rsum. simpl. lra. }
  destruct (H (s0 / 2) (Rng [true] [0; 0; 2]%nat [/ 2] [] []) (Rng [] [] [/ 2] [] []) (/ 2) [] ltac:(lra)) as (h2&t2&_&E'); [|reflexivity|lra|].
  - exact (propose_grow_first 999 _ _ [] _ [/ 2] [] [] _ _ _ ox_grow_ok).
  - exists (s0 / 2), ox_m, h2, t2. split; [lra|]. split; [exact E'|vm_compute; reflexivity].
Qed.
