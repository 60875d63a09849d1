(** Properties C59-C61: see /verif/properties.jsonl. *)
From Coq Require Import Reals Lra Lia ZArith Permutation Sorted.
From Verif Require Import Base Fl Ext MData MSplit MTree MSampler MHist MTreeHist MModel MModelHist MSklearn MFeatures Spec SpecTree SpecSampler SpecModel SpecSklearn SpecFeatures.
From Verif Require Import LFl LList PData PSplit PDataProps PCond PTree PPred PTreeHist PModel PModel2 PModel7 PModel8 PModel12 PSklearn PSklearn2 PSklearn3 PFeatures
  Properties_Model Properties_Model2 Properties_Sklearn Properties_Sklearn2.
Local Open Scope R_scope.

(** ** C59 *)
(** The samples a fit stores consist of trees: n_trees per sample. *)
Theorem C59_samples_are_trees : forall b s h X y rs s', no_nan X -> length y = length (mx_rows X) -> fit b s h X y rs = Ok s' ->
  exists tss, holds_trees (mx_ncols X) s' tss /\ Forall (fun ts => length ts = pa_ntrees (sk_par s)) tss.
Proof. apply fit_consists. Qed.
Print Assumptions C59_samples_are_trees.

Lemma reported_prop ts l v : length l = list_sum (map n_nodes ts) -> (forall v, counter l v = (2 * times v (flat_map split_vars ts))%nat) ->
  prop_of l v = reported ts v.
Proof.
  intros L C. unfold prop_of, reported. rewrite C, L. destruct (Nat.eqb_spec (2 * times v (flat_map split_vars ts)) 0) as [E|E].
  - replace (times v (flat_map split_vars ts)) with 0%nat by lia. simpl. unfold Rdiv. rewrite Rmult_0_r, Rmult_0_l. auto.
  - rewrite mult_INR. simpl. auto.
Qed.
(** Without a list of columns: the columns used in some split, in increasing order. *)
Theorem C59_used_columns : forall n s tss, holds_trees n s tss ->
  exists fp, feature_split_proportions s None = Ok fp /\ StronglySorted lt (map fst fp) /\
    (forall v, In v (map fst fp) <-> In v (flat_map split_vars (concat tss))) /\
    forall v q, In (v, q) fp -> q = reported (concat tss) v.
Proof.
  intros n s tss (ss&Es&H). destruct (sample_variables_spec _ _ _ H) as (l&El&L&C). unfold feature_split_proportions. rewrite Es, El. cbn [rbind].
  eexists. split; [reflexivity|]. destruct (counted_spec l) as (N&S&I). 
  destruct (proportions_spec l (counted l) []) as (A&B&D&E); [constructor|simpl; tauto|]. rewrite E by (simpl; auto). simpl app.
  split; auto. split.
  - intros v. rewrite I, C. unfold times. rewrite (count_occ_In Nat.eq_dec). lia.
  - intros v q Hin. transitivity (prop_of l v); [exact (B _ Hin)|]. apply reported_prop; auto.
Qed.
Print Assumptions C59_used_columns.
(** With a list of columns: those columns, unused ones with 0. *)
Theorem C59_given_columns : forall n s tss cols, holds_trees n s tss ->
  exists fp, feature_split_proportions s (Some cols) = Ok fp /\ NoDup (map fst fp) /\ (forall v, In v (map fst fp) <-> In v cols) /\
    (NoDup cols -> map fst fp = cols) /\
    forall v q, In (v, q) fp -> q = reported (concat tss) v /\ (~ In v (flat_map split_vars (concat tss)) -> q = 0).
Proof.
  intros n s tss cols (ss&Es&H). destruct (sample_variables_spec _ _ _ H) as (l&El&L&C). unfold feature_split_proportions. rewrite Es, El. cbn [rbind].
  eexists. split; [reflexivity|]. destruct (proportions_spec l cols []) as (A&B&D&E); [constructor|simpl; tauto|].
  split; auto. split; [intros v; rewrite D; simpl; tauto|]. split; [auto|]. intros v q Hin.
  assert (Eq : q = reported (concat tss) v) by (transitivity (prop_of l v); [exact (B _ Hin)|]; apply reported_prop; auto). split; auto.
  intros Hv. rewrite Eq. unfold reported, times. apply (count_occ_not_In Nat.eq_dec) in Hv. rewrite Hv. simpl. unfold Rdiv. rewrite Rmult_0_r, Rmult_0_l. auto.
Qed.
Print Assumptions C59_given_columns.
(** The reported numbers: in [0, 1), and together short of 1 by the number of trees over the number of nodes. *)
Lemma nodes_splits t : n_nodes t = (1 + 2 * length (split_vars t))%nat.
Proof. induction t as [v|v x l IHl r IHr]; simpl; auto. rewrite app_length. lia. Qed.
Lemma nodes_splits_all ts : list_sum (map n_nodes ts) = (length ts + 2 * length (flat_map split_vars ts))%nat.
Proof. induction ts as [|t ts IH]; auto. cbn [map list_sum fold_right flat_map length]. fold (list_sum (map n_nodes ts)). rewrite IH, nodes_splits, app_length. lia. Qed.
Lemma times_cons x l v : times v (x :: l) = ((if Nat.eq_dec x v then 1 else 0) + times v l)%nat.
Proof. unfold times. simpl. destruct (Nat.eq_dec x v); auto. Qed.
Lemma times_hit x : forall keys, NoDup keys -> In x keys -> list_sum (map (fun v => if Nat.eq_dec x v then 1 else 0)%nat keys) = 1%nat.
Proof.
  induction keys as [|k keys IH]; intros Hn Hx; [destruct Hx|]. destruct Hx as [->|Hx]; inversion Hn; subst; simpl.
  - destruct (Nat.eq_dec x x); [|congruence]. f_equal. clear - H1. induction keys as [|k keys IH]; simpl; auto.
    destruct (Nat.eq_dec x k); [subst; simpl in H1; tauto|]. apply IH. simpl in H1. tauto.
  - destruct (Nat.eq_dec x k); [subst; tauto|]. simpl. auto.
Qed.
Lemma times_total : forall keys l, NoDup keys -> (forall v, In v l -> In v keys) -> list_sum (map (fun v => times v l) keys) = length l.
Proof.
  intros keys l Hn. induction l as [|x l IH]; intros H.
  - clear. induction keys as [|k keys IH]; auto.
  - simpl length. rewrite <- IH by (intros; apply H; simpl; auto). pose proof (times_hit x keys Hn (H x (or_introl eq_refl))) as E.
    change (S (list_sum (map (fun v => times v l) keys))) with (1 + list_sum (map (fun v => times v l) keys))%nat. rewrite <- E.
    clear. induction keys as [|k keys IH]; auto. unfold list_sum in *. cbn [map fold_right]. rewrite times_cons. lia.
Qed.
Lemma rsum_reported ts : forall keys, (0 < list_sum (map n_nodes ts))%nat ->
  rsum (map (reported ts) keys) = 2 * INR (list_sum (map (fun v => times v (flat_map split_vars ts)) keys)) / INR (list_sum (map n_nodes ts)).
Proof.
  intros keys Hp. assert (INR (list_sum (map n_nodes ts)) <> 0) by (apply not_0_INR; lia).
  induction keys as [|k keys IH]; [simpl; unfold rsum; simpl; field; auto|]. cbn [map]. unfold rsum in *. cbn [fold_right]. rewrite IH.
  cbn [list_sum fold_right]. rewrite plus_INR. unfold reported, list_sum. field. auto.
Qed.
Theorem C59_sum : forall n s tss fp, holds_trees n s tss -> concat tss <> [] -> feature_split_proportions s None = Ok fp ->
  (forall v q, In (v, q) fp -> 0 < q < 1) /\
  rsum (map snd fp) = 1 - INR (length (concat tss)) / INR (list_sum (map n_nodes (concat tss))) /\ rsum (map snd fp) < 1.
Proof.
  intros n s tss fp H Hne E. destruct (C59_used_columns _ _ _ H) as (fp'&E'&Hs&Hk&Hv). rewrite E in E'. injection E' as <-.
  set (ts := concat tss) in *. assert (Hlen : (0 < length ts)%nat) by (destruct ts; [congruence|simpl; lia]).
  assert (Hpos : (0 < list_sum (map n_nodes ts))%nat) by (rewrite nodes_splits_all; lia).
  assert (HR : 0 < INR (list_sum (map n_nodes ts))) by (apply lt_0_INR; auto).
  assert (HN : 0 < INR (length ts)) by (apply lt_0_INR; auto).
  assert (Em : map snd fp = map (reported ts) (map fst fp)).
  { rewrite map_map. apply map_ext_in. intros [v q] Hin. simpl. auto. }
  assert (Hnd : NoDup (map fst fp)).
  { clear - Hs. induction Hs as [|x l Hs IH Hx]; constructor; auto. intros Hin. rewrite Forall_forall in Hx. specialize (Hx x Hin). lia. }
  assert (Es : rsum (map snd fp) = 1 - INR (length ts) / INR (list_sum (map n_nodes ts))).
  { rewrite Em, rsum_reported by auto. rewrite times_total by (auto; intros v Hv'; apply Hk; auto).
    rewrite nodes_splits_all in *. rewrite plus_INR, mult_INR in *. simpl (INR 2) in *. field. lra. }
  split; [|split; auto].
  - intros v q Hin. rewrite (Hv v q Hin). unfold reported.
    assert (Hin' : In v (flat_map split_vars ts)) by (apply Hk; apply (in_map fst) in Hin; exact Hin).
    assert (Ht : (0 < times v (flat_map split_vars ts))%nat) by (unfold times; apply (count_occ_In Nat.eq_dec) in Hin'; lia).
    assert (Hle : (times v (flat_map split_vars ts) <= length (flat_map split_vars ts))%nat) by apply count_occ_bound.
    assert (0 < INR (times v (flat_map split_vars ts))) by (apply lt_0_INR; auto). apply le_INR in Hle.
    assert (Hn2 : INR (list_sum (map n_nodes ts)) = INR (length ts) + 2 * INR (length (flat_map split_vars ts))).
    { rewrite nodes_splits_all, plus_INR, mult_INR. simpl (INR 2). auto. }
    split; [apply Rdiv_lt_0_compat; lra|]. apply (Rmult_lt_reg_r (INR (list_sum (map n_nodes ts)))); auto. unfold Rdiv. rewrite Rmult_assoc, Rinv_l by lra. lra.
  - rewrite Es. assert (0 < INR (length ts) / INR (list_sum (map n_nodes ts))) by (apply Rdiv_lt_0_compat; auto). lra.
Qed.
Print Assumptions C59_sum.
(** so the reported number is never the share of the splits made on the column *)
Theorem C59_not_the_share : forall n s tss fp v q, holds_trees n s tss -> feature_split_proportions s None = Ok fp -> In (v, q) fp ->
  let splits := flat_map split_vars (concat tss) in
  q < INR (times v splits) / INR (length splits).
Proof.
  intros n s tss fp v q H E Hin splits. destruct (C59_used_columns _ _ _ H) as (fp'&E'&Hs&Hk&Hv). rewrite E in E'. injection E' as <-.
  assert (Hin' : In v splits) by (apply Hk; apply (in_map fst) in Hin; exact Hin).
  assert (Ht : (0 < times v splits)%nat) by (unfold times; apply (count_occ_In Nat.eq_dec) in Hin'; lia).
  assert (Hle : (times v splits <= length splits)%nat) by apply count_occ_bound.
  assert (Hne : (0 < length (concat tss))%nat).
  { unfold splits in Hin'. destruct (concat tss); [destruct Hin'|simpl; lia]. }
  rewrite (Hv v q Hin). unfold reported. fold splits. rewrite nodes_splits_all. fold splits.
  apply lt_0_INR in Ht, Hne. apply le_INR in Hle. assert (Hl : 0 < INR (length splits)) by lra. rewrite plus_INR, mult_INR. simpl (INR 2).
  apply (Rmult_lt_reg_r (INR (length (concat tss)) + 2 * INR (length splits))); [lra|].
  unfold Rdiv. rewrite Rmult_assoc, Rinv_l by lra. rewrite Rmult_1_r.
  apply (Rmult_lt_reg_r (INR (length splits))); auto.
  replace (INR (times v splits) * / INR (length splits) * (INR (length (concat tss)) + 2 * INR (length splits)) * INR (length splits))
    with (INR (times v splits) * (INR (length (concat tss)) + 2 * INR (length splits))) by (field; lra). nra.
Qed.
Print Assumptions C59_not_the_share.
Theorem C59_unfitted : forall s cols, sk_samples s = None -> feature_split_proportions s cols = Raise ETypeError.
Proof. intros s cols E. unfold feature_split_proportions. now rewrite E. Qed.
Print Assumptions C59_unfitted.
Example C59_case : forall b, exists rs s' tss fp, fit b ex_sk ex_empty mx_X mx_y rs = Ok s' /\ holds_trees 1 s' tss /\
  feature_split_proportions s' (Some [0%nat]) = Ok fp /\ map fst fp = [0%nat].
Proof.
  intros b. destruct (ex_fit b) as (rs&s'&_&Hf). destruct (C59_samples_are_trees b ex_sk ex_empty mx_X mx_y rs s' mx_no_nan eq_refl Hf) as (tss&H&_).
  destruct (C59_given_columns 1 s' tss [0%nat] H) as (fp&E&_&_&K&_). exists rs, s', tss, fp. split; auto. split; auto. split; auto. apply K. repeat constructor; simpl; auto.
Qed.

(** ** C60 *)
Lemma dict_get_in {A} (d : list (nat * A)) k a : NoDup (map fst d) -> (dict_get k d = Some a <-> In (k, a) d).
Proof.
  induction d as [|(k',a') d IH]; intros Hn; simpl; [split; [discriminate|tauto]|]. inversion Hn; subst. destruct (Nat.eqb_spec k k') as [->|Hk].
  - split; [intros [= ->]; auto|]. intros [[= ->]|Hin]; auto. exfalso. apply H1. apply (in_map fst) in Hin. exact Hin.
  - rewrite IH by auto. split; auto. intros [[= -> ->]|]; tauto.
Qed.
Lemma dict_get_none {A} (d : list (nat * A)) k : dict_get k d = None <-> ~ In k (map fst d).
Proof.
  induction d as [|(k',a') d IH]; simpl; [tauto|]. destruct (Nat.eqb_spec k k') as [->|Hk]; [split; [discriminate|tauto]|]. rewrite IH. split; [intros H [->|?]; tauto|tauto].
Qed.
(** feature [f] is above its threshold *)
Definition exceeds (fp th : list (nat * R)) (f : nat) : Prop := exists q t, In (f, q) fp /\ In (f, t) th /\ t < q.
Lemma is_kept_loop_spec fp th : NoDup (map fst fp) -> NoDup (map fst th) -> forall fs, (forall f, In f fs -> In f (map fst fp) /\ In f (map fst th)) ->
  exists bs, is_kept_loop fp th fs = Ok bs /\ Forall2 (fun f b => b = true <-> exceeds fp th f) fs bs.
Proof.
  intros N1 N2. induction fs as [|f fs IH]; intros H; [exists []; auto|]. destruct (H f (or_introl eq_refl)) as [H1 H2].
  apply in_map_iff in H1 as ((f1&q)&<-&H1). apply in_map_iff in H2 as ((f2&t)&E&H2). simpl in E. subst f2. simpl fst in *. simpl.
  rewrite (proj2 (dict_get_in fp f1 q N1) H1), (proj2 (dict_get_in th f1 t N2) H2). destruct IH as (bs&->&HF); [intros; apply H; simpl; auto|]. cbn [rbind].
  eexists. split; [reflexivity|]. constructor; auto. split.
  - destruct (Rlt_dec t q); [|discriminate]. intros _. exists q, t. auto.
  - intros (q'&t'&Hq&Ht&Hlt). assert (q' = q) as -> by (apply (dict_get_in fp) in Hq, H1; auto; congruence).
    assert (t' = t) as -> by (apply (dict_get_in th) in Ht, H2; auto; congruence). destruct (Rlt_dec t q); tauto.
Qed.
(** is_kept: one answer per feature, in increasing order of the features *)
Theorem C60_is_kept : forall fp th, NoDup (map fst fp) -> NoDup (map fst th) -> incl (map fst fp) (map fst th) ->
  exists fs bs, Permutation fs (map fst fp) /\ StronglySorted lt fs /\ is_kept fp th = Ok bs /\
    Forall2 (fun f b => b = true <-> exceeds fp th f) fs bs.
Proof.
  intros fp th N1 N2 Hi. exists (nsort (map fst fp)).
  assert (Hp := nsort_perm (map fst fp)).
  destruct (is_kept_loop_spec fp th N1 N2 (nsort (map fst fp))) as (bs&E&HF).
  { intros f Hf. apply (Permutation_in _ Hp) in Hf. auto. }
  exists bs. split; auto. split; [|auto]. apply sorted_nodup_lt; [apply nsort_sorted|]. eapply Permutation_NoDup; [apply Permutation_sym; eauto|auto].
Qed.
Print Assumptions C60_is_kept.
Theorem C60_kept_features : forall fp th, NoDup (map fst fp) -> NoDup (map fst th) -> incl (map fst fp) (map fst th) ->
  exists ks, kept_features fp th = Ok ks /\ StronglySorted lt ks /\ forall f, In f ks <-> exceeds fp th f.
Proof.
  intros fp th N1 N2 Hi.
  assert (Hp := nsort_perm (map fst fp)).
  destruct (is_kept_loop_spec fp th N1 N2 (nsort (map fst fp))) as (bs&E&HF).
  { intros f Hf. apply (Permutation_in _ Hp) in Hf. auto. }
  unfold kept_features, is_kept. rewrite E. cbn [rbind]. eexists. split; [reflexivity|].
  assert (Hs : StronglySorted lt (nsort (map fst fp))).
  { apply sorted_nodup_lt; [apply nsort_sorted|]. eapply Permutation_NoDup; [apply Permutation_sym; eauto|auto]. }
  assert (Hc : forall f, exceeds fp th f -> In f (nsort (map fst fp))).
  { intros f (q&t&Hq&_). apply (Permutation_in _ (Permutation_sym Hp)). apply (in_map fst) in Hq. exact Hq. }
  clear E Hp N1 N2 Hi. revert Hs Hc. induction HF as [|f b fs bs Hfb HF IH]; intros Hs Hc; simpl.
  - split; [constructor|]. intros f. split; [tauto|]. intros Hf. destruct (Hc f Hf).
  - inversion Hs as [|? ? Hs' Hlt]; subst.
    assert (HIn : forall g, In g (map fst (filter snd (combine fs bs))) -> In g fs).
    { intros g Hg. apply in_map_iff in Hg as ((g'&b')&<-&Hg). apply filter_In in Hg as [Hg _]. apply in_combine_l in Hg. auto. }
    assert (G : StronglySorted lt (map fst (filter snd (combine fs bs))) /\ forall g, In g (map fst (filter snd (combine fs bs))) <-> exceeds fp th g /\ In g fs).
    { clear - HF Hs'. induction HF as [|f b fs bs Hfb HF IH]; simpl; [split; [constructor|tauto]|]. inversion Hs' as [|? ? Hs2 Hlt]; subst. destruct (IH Hs2) as [A B].
      destruct b; simpl.
      - split; [constructor; auto; rewrite Forall_forall in *; intros g Hg; apply Hlt; apply B in Hg; tauto|]. intros g. rewrite B. split; [intros [<-|[? ?]]; tauto|]. intros [Hg [<-|?]]; tauto.
      - split; auto. intros g. rewrite B. split; [tauto|]. intros [Hg [<-|?]]; [apply Hfb in Hg; discriminate|tauto]. }
    destruct G as [A B]. destruct b; simpl.
    + split; [constructor; auto; rewrite Forall_forall in *; intros g Hg; apply Hlt; auto|]. intros g. rewrite B. split; [intros [<-|[? ?]]; tauto|]. intros Hg.
      destruct (Hc g Hg) as [<-|?]; tauto.
    + split; auto. intros g. rewrite B. split; [tauto|]. intros Hg. destruct (Hc g Hg) as [<-|?]; [apply Hfb in Hg; discriminate|tauto].
Qed.
Print Assumptions C60_kept_features.
(** the two parts: each entry is in exactly one of them, with its proportion *)
Theorem C60_partition : forall fp th, NoDup (map fst fp) -> NoDup (map fst th) -> incl (map fst fp) (map fst th) ->
  exists passed failed, partition_features fp th = Ok (passed, failed) /\ Permutation (passed ++ failed) fp /\
    (forall f q, In (f, q) passed <-> In (f, q) fp /\ exceeds fp th f) /\
    (forall f q, In (f, q) failed <-> In (f, q) fp /\ ~ exceeds fp th f).
Proof.
  intros fp th N1 N2 Hi. destruct (C60_kept_features fp th N1 N2 Hi) as (ks&E&_&Hk). unfold partition_features. rewrite E. cbn [rbind].
  eexists; eexists. split; [reflexivity|].
  assert (Hm : forall f, member f ks = true <-> exceeds fp th f).
  { intros f. rewrite <- Hk. unfold member. rewrite existsb_exists. split; [intros (x&Hx&Ex); apply Nat.eqb_eq in Ex; congruence|intros Hf; exists f; split; auto; apply Nat.eqb_refl]. }
  split; [|split].
  - clear. induction fp as [|e fp IH]; simpl; auto. destruct (member (fst e) ks); simpl; [constructor; auto|]. rewrite <- Permutation_middle. auto.
  - intros f q. rewrite filter_In. simpl. rewrite Hm. tauto.
  - intros f q. rewrite filter_In. simpl. rewrite negb_true_iff, <- not_true_iff_false, Hm. tauto.
Qed.
Print Assumptions C60_partition.
Theorem C60_missing_threshold : forall fp th f, In f (map fst fp) -> ~ In f (map fst th) ->
  is_kept fp th = Raise EKeyError /\ kept_features fp th = Raise EKeyError /\ partition_features fp th = Raise EKeyError.
Proof.
  intros fp th f H1 H2.
  assert (E : is_kept fp th = Raise EKeyError).
  { unfold is_kept. apply (Permutation_in _ (Permutation_sym (nsort_perm (map fst fp)))) in H1. induction (nsort (map fst fp)) as [|g fs IH]; [destruct H1|]. simpl.
    destruct H1 as [<-|H1].
    - rewrite (proj2 (dict_get_none th g) H2). destruct (dict_get g fp); auto.
    - destruct (dict_get g fp), (dict_get g th); auto. rewrite IH; auto. }
  unfold partition_features, kept_features. rewrite E. auto.
Qed.
Print Assumptions C60_missing_threshold.
Example C60_case : let fp := [(2%nat, 3 / 10); (0%nat, 1 / 10)] in let th := [(0%nat, 2 / 10); (1%nat, 0); (2%nat, 2 / 10)] in
  NoDup (map fst fp) /\ NoDup (map fst th) /\ incl (map fst fp) (map fst th) /\ kept_features fp th = Ok [2%nat].
Proof.
  cbv zeta. split; [repeat constructor; simpl; lia|]. split; [repeat constructor; simpl; lia|]. split; [intros x; simpl; tauto|].
  unfold kept_features, is_kept. simpl. destruct (Rlt_dec (2 / 10) (1 / 10)); [lra|]. destruct (Rlt_dec (2 / 10) (3 / 10)); [|lra]. reflexivity.
Qed.

(** ** C61 *)
(** the cutoff np.percentile(xs, p) with 0 <= p <= 1, i.e. at most one per cent *)
Lemma sorted_nth (s : list R) : StronglySorted Rle s -> forall i j, (i <= j < length s)%nat -> nth i s 0 <= nth j s 0.
Proof.
  induction 1 as [|x s Hs IH Hx]; intros i j Hij; [simpl in Hij; lia|]. destruct j as [|j].
  - assert (i = 0)%nat as -> by lia. lra.
  - simpl in Hij. destruct i as [|i]; simpl; [|apply IH; lia]. rewrite Forall_forall in Hx. apply Hx. apply nth_In. lia.
Qed.
Lemma int_part_small q : 0 <= q < 1 -> Int_part q = 0%Z.
Proof.
  intros Hq. destruct (base_Int_part q) as [H1 H2]. assert (IZR (Int_part q) < 1) by lra. assert (-1 < IZR (Int_part q)) by lra.
  apply (lt_IZR _ 1) in H. apply (lt_IZR (-1)) in H0. lia.
Qed.
(** For up to 100 null values the cutoff lies between the smallest and the second smallest of them. *)
Theorem C61_cutoff : forall xs p, (2 <= length xs <= 100)%nat -> 0 <= p <= 1 ->
  exists c a b rest, percentile xs p = Ok c /\ Permutation xs (a :: b :: rest) /\ Forall (fun x => b <= x) rest /\ a <= c <= b /\
    c = a + p * INR (length xs - 1) / 100 * (b - a).
Proof.
  intros xs p Hl Hp. unfold percentile. destruct (Rlt_dec p 0); [lra|]. destruct (Rlt_dec 100 p); [lra|].
  assert (Hpm := rsort_perm xs). assert (Hso := rsort_sorted xs). set (s := rsort xs) in *. assert (Hls := Permutation_length Hpm).
  assert (Hpos : 0 <= p / 100 * INR (length xs - 1) < 1).
  { assert (INR (length xs - 1) <= 99) by (change 99 with (IZR (Z.of_nat 99)); rewrite <- INR_IZR_INZ; apply le_INR; lia).
    assert (0 <= INR (length xs - 1)) by apply pos_INR. split; [apply Rmult_le_pos; [lra|auto]|]. nra. }
  destruct xs as [|x xs]; [simpl in Hl; lia|]. rewrite (int_part_small _ Hpos). change (Z.to_nat 0) with 0%nat.
  replace (Nat.min 1 (length (x :: xs) - 1)) with 1%nat by lia.
  destruct s as [|a [|b rest]]; try (simpl in Hls, Hl; lia). simpl nth.
  inversion Hso as [|? ? Hso1 Ha]; subst. inversion Hso1 as [|? ? Hso2 Hb]; subst. inversion Ha; subst.
  eexists. exists a, b, rest. split; [reflexivity|]. split; [apply Permutation_sym; auto|]. split; [auto|].
  set (pos := p / 100 * INR (length (x :: xs) - 1)) in *. simpl (INR 0). rewrite Rminus_0_r. split; [nra|]. unfold pos. field.
Qed.
Print Assumptions C61_cutoff.
Lemma filter_perm {A} (f : A -> bool) l l' : Permutation l l' -> Permutation (filter f l) (filter f l').
Proof.
  induction 1 as [|x l l' H IH|x y l|l1 l2 l3 _ IH1 _ IH2]; simpl; auto.
  - destruct (f x); auto.
  - destruct (f x), (f y); auto. apply perm_swap.
  - etransitivity; eauto.
Qed.
(** so every null value but at most one is on or above it, whatever p is *)
Theorem C61_most_are_above : forall xs p c, (2 <= length xs <= 100)%nat -> 0 <= p <= 1 -> percentile xs p = Ok c ->
  (length (filter (fun x => if Rle_dec c x then true else false) xs) >= length xs - 1)%nat.
Proof.
  intros xs p c Hl Hp E. destruct (C61_cutoff xs p Hl Hp) as (c'&a&b&rest&E'&Hpm&Hr&Hc&_). rewrite E in E'. injection E' as <-.
  assert (Hf : Permutation (filter (fun x => if Rle_dec c x then true else false) xs) (filter (fun x => if Rle_dec c x then true else false) (a :: b :: rest))).
  { apply filter_perm. auto. }
  rewrite (Permutation_length Hf), (Permutation_length Hpm). simpl.
  assert (Er : filter (fun x => if Rle_dec c x then true else false) rest = rest).
  { clear - Hr Hc. induction Hr; simpl; auto. destruct (Rle_dec c x); [f_equal; auto|lra]. }
  rewrite Er. destruct (Rle_dec c a), (Rle_dec c b); simpl; lia || lra.
Qed.
Print Assumptions C61_most_are_above.
(** local_thresholds uses that cutoff for each feature *)
Theorem C61_local_thresholds : forall null p th, local_thresholds null p = Ok th ->
  Forall2 (fun e t => fst t = fst e /\ percentile (snd e) p = Ok (snd t)) null th.
Proof.
  induction null as [|(f,xs) null IH]; intros p th; simpl; [intros [= <-]; constructor|]. destruct (percentile xs p) as [t| |] eqn:E; try discriminate. cbn [rbind].
  destruct (local_thresholds null p) as [ts| |] eqn:E2; try discriminate. cbn [rbind]. intros [= <-]. constructor; auto.
Qed.
Print Assumptions C61_local_thresholds.
(** the documented reading, a cutoff exceeded by at most a share 1 - p of the null values, fails *)
Theorem C61_documented_share_refuted : exists xs c, length xs = 10%nat /\ percentile xs (95 / 100) = Ok c /\
  ~ (INR (length (filter (fun x => if Rlt_dec c x then true else false) xs)) <= (1 - 95 / 100) * INR (length xs)).
Proof.
  assert (H11 : exists H, Rle_dec 1 1 = left H) by (destruct (Rle_dec 1 1) as [q|q]; [exists q; reflexivity|exfalso; lra]). destruct H11 as (p11&H11).
  assert (H01 : exists H, Rle_dec 0 1 = left H) by (destruct (Rle_dec 0 1) as [q|q]; [exists q; reflexivity|exfalso; lra]). destruct H01 as (p01&H01).
  set (xs := 0 :: repeat 1 9). assert (Hs : rsort xs = xs).
  { unfold xs, rsort. cbn [repeat fold_right rinsert]. repeat (rewrite H11; cbn [rinsert]). rewrite H01. reflexivity. }
  exists xs, (95 / 100 / 100 * 9). split; [reflexivity|]. split.
  - unfold percentile. destruct (Rlt_dec (95 / 100) 0); [lra|]. destruct (Rlt_dec 100 (95 / 100)); [lra|]. rewrite Hs. change (length xs) with 10%nat.
    replace (INR (10 - 1)) with 9 by (simpl; lra). rewrite int_part_small by lra. unfold xs. change (Z.to_nat 0) with 0%nat. simpl. f_equal. lra.
  - unfold xs. cbn [repeat filter]. destruct (Rlt_dec (95 / 100 / 100 * 9) 0); [lra|].
    assert (Hc : exists H, Rlt_dec (95 / 100 / 100 * 9) 1 = left H) by (destruct (Rlt_dec (95 / 100 / 100 * 9) 1) as [q|q]; [exists q; reflexivity|exfalso; lra]). destruct Hc as (pc&Hc).
    rewrite Hc. simpl. lra.
Qed.
Print Assumptions C61_documented_share_refuted.
(** global_thresholds never returns *)
Theorem C61_global_fails : forall null p, global_thresholds null p = Raise EAttributeError \/ global_thresholds null p = Raise EValueError.
Proof. intros [|[f xs] null] p; simpl; auto. destruct (forallb _ null); auto. Qed.
Print Assumptions C61_global_fails.
