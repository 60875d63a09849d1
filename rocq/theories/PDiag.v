(** Lemmas for the properties of the diagnostics. *)
From Coq Require Import Reals Lra Lia ZArith Permutation.
From Verif Require Import Base Fl Ext MData MSplit MTree MSampler MHist MTreeHist MModel MModelHist MSklearn MDiag Spec SpecTree SpecSampler SpecModel SpecSklearn SpecFeatures SpecDiag.
From Verif Require Import LFl LList PData PSplit PDataProps PCond PTree PPred PTreeHist PModel PModel2 PModel7 PModel8 PModel12 PSklearn PSklearn2 PSklearn3 PFeatures.
Local Open Scope R_scope.

(** ** depths *)
Lemma paths_distances t : forall cs, map (@length rule) (paths cs t) = map (fun d => (length cs + d)%nat) (distances t).
Proof.
  induction t as [v|v x l IHl r IHr]; intros cs; simpl; [f_equal; lia|]. f_equal; [lia|].
  rewrite !map_app, IHl, IHr, !map_map. f_equal; apply map_ext; intros; rewrite app_length; simpl; lia.
Qed.
Lemma paths_distances_root t : map (@length rule) (paths [] t) = distances t.
Proof. rewrite paths_distances. simpl. apply map_id. Qed.
Lemma maxs_app a b : (fold_right Nat.max 0 (a ++ b) = Nat.max (fold_right Nat.max 0 a) (fold_right Nat.max 0 b))%nat.
Proof. induction a; simpl; auto. rewrite IHa. lia. Qed.
Lemma distances_max t : fold_right Nat.max 0%nat (distances t) = height t.
Proof.
  induction t as [v|v x l IHl r IHr]; simpl; auto. rewrite <- IHl, <- IHr.
  assert (K : forall a, a <> [] -> fold_right Nat.max 0%nat (map S a) = S (fold_right Nat.max 0%nat a)).
  { induction a as [|x0 a IH]; [congruence|]. intros _. simpl. destruct a as [|z a]; [simpl; lia|]. rewrite IH by discriminate. lia. }
  rewrite K, maxs_app; auto. destruct l; discriminate.
Qed.
Lemma highest_distances ts : fold_right Nat.max 0%nat (flat_map distances ts) = highest ts.
Proof. unfold highest. induction ts as [|t ts IH]; simpl; auto. now rewrite maxs_app, distances_max, IH. Qed.
Lemma maxs_perm a b : Permutation a b -> (fold_right Nat.max 0 a = fold_right Nat.max 0 b)%nat.
Proof. induction 1; simpl; try lia. Qed.
Lemma rsum_perm a b : Permutation a b -> rsum a = rsum b.
Proof. unfold rsum. induction 1; simpl; lra. Qed.
Lemma fold_max l : forall d, fold_left Nat.max l d = Nat.max d (fold_right Nat.max 0%nat l).
Proof. induction l as [|x l IH]; intros d; simpl; [lia|]. rewrite IH. lia. Qed.
Lemma fold_min_zero l : forall d, (d = 0 \/ In 0 l)%nat -> fold_left Nat.min l d = 0%nat.
Proof. induction l as [|x l IH]; intros d; simpl; [intuition|]. intros H. apply IH. intuition; subst; simpl; auto; left; lia. Qed.
Lemma summary_spec ds ds' : Permutation ds ds' -> In 0%nat ds' ->
  summary ds = Ok (0%nat, mean (map INR ds'), fold_right Nat.max 0%nat ds').
Proof.
  intros P H0. assert (H : In 0%nat ds) by (eapply Permutation_in; [apply Permutation_sym|]; eauto). destruct ds as [|d ds]; [destruct H|]. unfold summary.
  rewrite fold_min_zero by (destruct H; auto). rewrite fold_max. f_equal. f_equal; [f_equal|].
  - unfold mean. rewrite map_length, (Permutation_length P). f_equal. apply rsum_perm. now apply Permutation_map.
  - rewrite <- (maxs_perm _ _ P). simpl. lia.
Qed.
Lemma node_depths_spec h ids : (forall i, In i ids -> exists nd ps, h_get h i = Some nd /\ stored_path h i = Some ps /\ nd_depth nd = length ps) ->
  exists pss, map (stored_path h) ids = map Some pss /\ node_depths h ids = Ok (map (@length rule) pss).
Proof.
  induction ids as [|i ids IH]; intros H; [exists []; auto|]. destruct (H i (or_introl eq_refl)) as (nd&ps&E1&E2&E3).
  destruct IH as (pss&A&B); [intros; apply H; simpl; auto|]. exists (ps :: pss). simpl. rewrite E1, E2, A, B, E3. auto.
Qed.
Lemma perm_some {A} (a b : list A) : Permutation (map Some a) (map Some b) -> Permutation a b.
Proof.
  intros H. apply (Permutation_flat_map (fun o => match o with Some x => [x] | None => [] end)) in H.
  assert (G : forall l : list A, flat_map (fun o => match o with Some x => [x] | None => [] end) (map Some l) = l) by (induction l; simpl; congruence).
  now rewrite !G in H.
Qed.
Lemma model_depths_spec n e ts : consists_of n e ts -> exists ds, model_depths (fst e) (sm_trees (snd e)) = Ok ds /\ Permutation ds (flat_map distances ts).
Proof.
  intros (HF&Hd&_). revert Hd. induction HF as [|t st tl sl H HF IH]; intros Hd; [exists []; split; auto|].
  destruct IH as (es&E1&P1); [intros; eapply Hd; simpl; eauto|].
  destruct (node_depths_spec (fst e) (tr_nodes t)) as (pss&E2&E3); [intros; eapply Hd; simpl; eauto|].
  exists (map (@length rule) pss ++ es). simpl. rewrite E3. cbn [rbind]. rewrite E1. split; auto. apply Permutation_app; auto.
  rewrite E2 in H. apply perm_some in H. rewrite <- paths_distances_root. now apply Permutation_map.
Qed.
Lemma distances_zero t : In 0%nat (distances t).
Proof. destruct t; simpl; auto. Qed.
Lemma depth_summaries_spec n : forall ss tss, Forall2 (consists_of n) ss tss -> Forall (fun ts => ts <> []) tss ->
  depth_summaries ss = Ok (map (fun ts => (0%nat, mean (map INR (flat_map distances ts)), highest ts)) tss).
Proof.
  induction 1 as [|[h s] ts ss tss H HF IH]; intros Hn; auto. inversion Hn as [|? ? H1 H2]; subst. cbn [depth_summaries].
  destruct (model_depths_spec _ _ _ H) as (ds&E&P). cbn [fst snd] in E. rewrite E. cbn [rbind].
  rewrite (summary_spec _ _ P). 2: { destruct ts as [|t ts]; [congruence|]. simpl. apply in_app_iff. left. apply distances_zero. }
  cbn [rbind]. rewrite IH by auto. cbn [rbind map]. now rewrite highest_distances.
Qed.
Lemma depth_summaries_none n : forall ss tss, Forall2 (consists_of n) ss tss -> Forall (fun ts => length ts = 0%nat) tss -> ss <> [] -> depth_summaries ss = Raise EValueError.
Proof.
  intros ss tss HF H0 Hs. inversion HF as [|[h s] ts ss' tss' H HF']; subst; [congruence|]. inversion H0 as [|? ? H1 H2]; subst. destruct ts; [|discriminate].
  cbn [depth_summaries]. destruct (model_depths_spec _ _ _ H) as (ds&E&P). cbn [fst snd] in E. rewrite E. cbn [rbind]. apply Permutation_sym, Permutation_nil in P. subst. reflexivity.
Qed.
