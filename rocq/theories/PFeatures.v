(** Lemmas about stored samples and split proportions. *)
From Coq Require Import Reals Lra Lia Permutation Sorted.
From Verif Require Import Base Fl Ext MData MSplit MTree MSampler MHist MTreeHist MModel MModelHist MSklearn MFeatures Spec SpecTree SpecSampler SpecModel SpecSklearn SpecFeatures.
From Verif Require Import LFl LList PData PSplit PDataProps PCond PTree PPred PTreeHist PModel PModel2 PModel7 PModel8 PModel12 PSklearn PSklearn2 PSklearn3.

(** ** sorting *)
Lemma ninsert_perm x l : Permutation (ninsert x l) (x :: l).
Proof. induction l as [|y l IH]; simpl; auto. destruct (x <=? y); auto. rewrite IH. apply perm_swap. Qed.
Lemma nsort_perm l : Permutation (nsort l) l.
Proof. induction l as [|x l IH]; simpl; auto. rewrite ninsert_perm. auto. Qed.
Lemma ninsert_sorted x l : StronglySorted le l -> StronglySorted le (ninsert x l).
Proof.
  induction 1 as [|y l Hs IH Hy]; simpl; [repeat constructor|]. destruct (Nat.leb_spec x y).
  - constructor; [constructor; auto|]. constructor; auto. eapply Forall_impl; [|exact Hy]. intros; simpl in *; lia.
  - constructor; auto. rewrite Forall_forall in *. intros z Hz. apply (Permutation_in _ (ninsert_perm x l)) in Hz as [<-|Hz]; auto. lia.
Qed.
Lemma nsort_sorted l : StronglySorted le (nsort l).
Proof. induction l as [|x l IH]; simpl; [constructor|]. now apply ninsert_sorted. Qed.
Lemma sorted_nodup_lt l : StronglySorted le l -> NoDup l -> StronglySorted lt l.
Proof.
  induction 1 as [|x l Hs IH Hx]; intros Hn; constructor; inversion Hn; subst; auto. rewrite Forall_forall in *. intros y Hy.
  specialize (Hx y Hy). destruct (Nat.eq_dec x y) as [->|]; [tauto|lia].
Qed.
Lemma rinsert_perm x l : Permutation (rinsert x l) (x :: l).
Proof. induction l as [|y l IH]; simpl; auto. destruct (Rle_dec x y); auto. rewrite IH. apply perm_swap. Qed.
Lemma rsort_perm l : Permutation (rsort l) l.
Proof. induction l as [|x l IH]; simpl; auto. rewrite rinsert_perm. auto. Qed.
Lemma rinsert_sorted x l : StronglySorted Rle l -> StronglySorted Rle (rinsert x l).
Proof.
  induction 1 as [|y l Hs IH Hy]; simpl; [repeat constructor|]. destruct (Rle_dec x y).
  - constructor; [constructor; auto|]. constructor; auto. eapply Forall_impl; [|exact Hy]. intros; simpl in *; lra.
  - constructor; auto. rewrite Forall_forall in *. intros z Hz. apply (Permutation_in _ (rinsert_perm x l)) in Hz as [<-|Hz]; auto. lra.
Qed.
Lemma rsort_sorted l : StronglySorted Rle (rsort l).
Proof. induction l as [|x l IH]; simpl; [constructor|]. now apply rinsert_sorted. Qed.

(** ** paths *)
Definition last_var (cs : list rule) : option nat := match last_opt cs with None => None | Some q => Some (rl_var q) end.
Lemma last_var_app cs q : last_var (cs ++ [q]) = Some (rl_var q).
Proof. unfold last_var, last_opt. now rewrite rev_app_distr. Qed.
Lemma splitting_last c : cc_splitting_variable c = last_var (map (fun q => Rl (sc_var q) (sc_val q) (match sc_op q with OpLe => true | _ => false end)) (cc_conds c)).
Proof. unfold cc_splitting_variable, last_var, last_opt. rewrite <- map_rev. destruct (rev (cc_conds c)); reflexivity. Qed.
Lemma paths_length : forall t cs, length (paths cs t) = n_nodes t.
Proof. induction t as [v|v x l IHl r IHr]; intros cs; simpl; auto. rewrite app_length, IHl, IHr. auto. Qed.
Lemma times_app v l l' : times v (l ++ l') = times v l + times v l'.
Proof. apply count_occ_app. Qed.
Lemma counter_app l l' v : counter (l ++ l') v = counter l v + counter l' v.
Proof. apply count_occ_app. Qed.
Lemma counter_cons o l v : counter (o :: l) v = (if oeq_dec o (Some v) then 1 else 0) + counter l v.
Proof. unfold counter. simpl. destruct (oeq_dec o (Some v)); auto. Qed.
Lemma oeq_some a v : (if oeq_dec (Some a) (Some v) then 1 else 0) = (if Nat.eq_dec a v then 1 else 0).
Proof. destruct (oeq_dec _ _), (Nat.eq_dec _ _); auto; congruence. Qed.
Lemma paths_counter v : forall t cs, counter (map last_var (paths cs t)) v = (if oeq_dec (last_var cs) (Some v) then 1 else 0) + 2 * times v (split_vars t).
Proof.
  induction t as [w|w x l IHl r IHr]; intros cs; cbn [paths map split_vars]; rewrite counter_cons.
  - unfold counter, times. simpl. auto.
  - rewrite map_app, counter_app, IHl, IHr, !last_var_app. cbn [rl_var]. rewrite oeq_some.
    assert (E : times v (w :: split_vars l ++ split_vars r) = (if Nat.eq_dec w v then 1 else 0) + (times v (split_vars l) + times v (split_vars r))).
    { unfold times. simpl. rewrite count_occ_app. destruct (Nat.eq_dec w v); auto. }
    rewrite E. lia.
Qed.
Lemma counter_perm l l' v : Permutation l l' -> counter l v = counter l' v.
Proof. intros H. unfold counter. apply (Permutation_count_occ oeq_dec); auto. Qed.
Lemma node_variables_spec h : forall ids ps, map (stored_path h) ids = map Some ps -> node_variables h ids = Ok (map last_var ps).
Proof.
  induction ids as [|i ids IH]; intros [|q ps] E; try discriminate; auto. simpl in E. injection E as E1 E2. simpl.
  unfold stored_path in E1. destruct (h_get h i) as [[k [s|c] d]|]; try discriminate. injection E1 as <-. rewrite (IH _ E2). cbn [rbind map].
  now rewrite <- splitting_last.
Qed.
Lemma perm_some {A B} (f : A -> option B) ids ps : Permutation (map f ids) (map Some ps) -> exists ps', map f ids = map Some ps' /\ Permutation ps' ps.
Proof.
  intros H. apply Permutation_map_inv in H. destruct H as (l&E&Hp). exists l. split; auto. now apply Permutation_sym.
Qed.
Lemma tree_variables_spec h : forall ts sts, Forall2 (fun t st => Permutation (map (stored_path h) (tr_nodes t)) (map Some (paths [] st))) ts sts ->
  exists l, tree_variables h ts = Ok l /\ length l = list_sum (map n_nodes sts) /\ (forall v, counter l v = 2 * times v (flat_map split_vars sts)).
Proof.
  induction 1 as [|t st ts sts H _ (l&E&L&C)].
  - exists []. split; auto.
  - apply perm_some in H as (ps&Ep&Hp). exists (map last_var ps ++ l). simpl. rewrite (node_variables_spec _ _ _ Ep). cbn [rbind]. rewrite E. cbn [rbind].
    split; auto. split.
    + rewrite app_length, map_length, (Permutation_length Hp), paths_length, L. auto.
    + intros v. rewrite counter_app, C, (counter_perm _ (map last_var (paths [] st))) by (apply Permutation_map; auto).
      rewrite paths_counter, times_app. change (last_var []) with (@None nat). destruct (oeq_dec None (Some v)); [discriminate|]. lia.
Qed.
Lemma sample_variables_spec n : forall ss tss, Forall2 (consists_of n) ss tss ->
  exists l, sample_variables ss = Ok l /\ length l = list_sum (map n_nodes (concat tss)) /\
    (forall v, counter l v = 2 * times v (flat_map split_vars (concat tss))).
Proof.
  induction 1 as [|[h s] ts ss tss (H&_) _ (l&E&L&C)].
  - exists []. auto.
  - destruct (tree_variables_spec _ _ _ H) as (l1&E1&L1&C1). exists (l1 ++ l). cbn [sample_variables]. simpl in E1. rewrite E1. cbn [rbind]. rewrite E. cbn [rbind].
    split; auto. cbn [concat]. split.
    + rewrite app_length, map_app, list_sum_app, L1, L. auto.
    + intros v. rewrite counter_app, C, C1, flat_map_app, times_app. lia.
Qed.

(** ** the proportions dictionary *)
Lemma dict_set_keys {A} k (a : A) d : map fst (dict_set k a d) = if in_dec Nat.eq_dec k (map fst d) then map fst d else map fst d ++ [k].
Proof.
  induction d as [|(k',a') d IH]; simpl; auto. destruct (Nat.eqb_spec k k') as [->|Hk]; simpl.
  - destruct (Nat.eq_dec k' k'); [auto|congruence].
  - rewrite IH. destruct (Nat.eq_dec k' k); [congruence|]. destruct (in_dec Nat.eq_dec k (map fst d)); auto.
Qed.
Definition prop_of (l : list (option nat)) (c : nat) : R := if (counter l c =? 0) then 0%R else (INR (counter l c) / INR (length l))%R.
Lemma dict_set_good {A} (f : nat -> A) k d : (forall e, In e d -> snd e = f (fst e)) -> forall e, In e (dict_set k (f k) d) -> snd e = f (fst e).
Proof.
  induction d as [|(k',a') d IH]; intros H e; simpl; [intros [<-|[]]; auto|]. destruct (Nat.eqb_spec k k') as [->|Hk]; intros [<-|Hin]; auto.
  - apply H; simpl; auto.
  - apply (H (k', a')); simpl; auto.
  - apply IH; auto. intros; apply H; simpl; auto.
Qed.
Lemma proportions_spec l : forall cs d, NoDup (map fst d) -> (forall e, In e d -> snd e = prop_of l (fst e)) ->
  let fp := proportions_of l cs d in
  NoDup (map fst fp) /\ (forall e, In e fp -> snd e = prop_of l (fst e)) /\ (forall k, In k (map fst fp) <-> In k (map fst d) \/ In k cs) /\
  (NoDup (map fst d ++ cs) -> map fst fp = map fst d ++ cs).
Proof.
  induction cs as [|c cs IH]; intros d Hn Hd; cbn [proportions_of]; cbv zeta.
  - split; auto. split; auto. split; [simpl; tauto|]. intros _. now rewrite app_nil_r.
  - fold (prop_of l c). pose proof (dict_set_keys c (prop_of l c) d) as Ek. destruct (IH (dict_set c (prop_of l c) d)) as (A&B&C&D).
    + rewrite Ek. destruct (in_dec _ _ _); auto. apply NoDup_app_disj. split; [auto|]. split; [repeat constructor; simpl; tauto|].
      intros x H1 [<-|[]]. tauto.
    + apply (dict_set_good (prop_of l)); auto.
    + split; auto. split; auto. split.
      * intros k. rewrite C, Ek. simpl. destruct (in_dec _ _ _) as [Hi|Hi].
        -- split; [tauto|]. intros [?|[<-|?]]; auto.
        -- rewrite in_app_iff. simpl. tauto.
      * intros Hnd. assert (Hc : ~ In c (map fst d)).
        { apply NoDup_remove_2 in Hnd. intros H. apply Hnd, in_app_iff. auto. }
        destruct (in_dec _ _ _) as [Hi|_]; [tauto|]. rewrite D; rewrite Ek, <- app_assoc; auto.
Qed.
Lemma counted_spec l : NoDup (counted l) /\ StronglySorted lt (counted l) /\ forall v, In v (counted l) <-> counter l v <> 0.
Proof.
  unfold counted. assert (Hn : NoDup (nsort (nodup Nat.eq_dec (flat_map (fun o : option nat => match o with Some v => [v] | None => [] end) l)))).
  { eapply Permutation_NoDup; [apply Permutation_sym, nsort_perm|apply NoDup_nodup]. }
  split; auto. split; [apply sorted_nodup_lt; auto; apply nsort_sorted|]. intros v.
  assert (E : In v (nsort (nodup Nat.eq_dec (flat_map (fun o : option nat => match o with Some v => [v] | None => [] end) l))) <-> In (Some v) l).
  { etransitivity; [split; [apply (Permutation_in _ (nsort_perm _))|apply (Permutation_in _ (Permutation_sym (nsort_perm _)))]|].
    rewrite nodup_In, in_flat_map. split; [intros ([w|]&H1&H2)|intros H; exists (Some v); simpl; auto]; [|destruct H2]. destruct H2 as [<-|[]]. auto. }
  rewrite E. unfold counter. rewrite (count_occ_In oeq_dec). lia.
Qed.

(** ** what the samples of a fit consist of *)
Lemma aok_paths h X oy a : forall cs d, aok h X oy cs d a -> Forall2 (fun i ps => exists k s d', h_get h i = Some (Nd k (SFull s) d') /\ map rule_of (cc_conds (sp_cc s)) = ps)
  (aids a) (paths cs (astree h a)).
Proof.
  induction a as [i|i v x l IHl r IHr]; intros cs d; simpl.
  - intros (w&s&E&H). constructor; [|constructor]. exists (KLeaf w), s, d. split; auto. apply (si_conds _ _ _ _ H).
  - intros ((s&E&H)&_&_&Hl&Hr). constructor; [exists (KDec (aroot l) (aroot r)), s, d; split; auto; apply (si_conds _ _ _ _ H)|].
    apply Forall2_app; eauto.
Qed.
Lemma aok_vars h X oy a : forall cs d, aok h X oy cs d a -> forall v, In v (split_vars (astree h a)) -> v < mx_ncols X.
Proof.
  induction a as [i|i w x l IHl r IHr]; intros cs d; simpl; [tauto|]. intros (_&_&Hw&Hl&Hr) v [<-|Hv]; auto. apply in_app_iff in Hv as [Hv|Hv]; eauto.
Qed.
Lemma rule_of_eq : forall l, map (fun q => Rl (sc_var q) (sc_val q) (match sc_op q with OpLe => true | _ => false end)) l = map rule_of l.
Proof. intros l. apply map_ext. intros q. unfold rule_of. destruct (sc_op q); reflexivity. Qed.
Lemma perm_path {A B} (P : A -> B -> Prop) (f : A -> option B) l l' ps : Permutation l l' -> Forall2 P l' ps ->
  (forall a b, In a l -> P a b -> f a = Some b) -> Permutation (map f l) (map Some ps).
Proof.
  intros Hp HF Hf. transitivity (map f l'); [apply Permutation_map; auto|].
  assert (E : map f l' = map Some ps); [|rewrite E; reflexivity].
  assert (Hf' : forall a b, In a l' -> P a b -> f a = Some b) by (intros a b Ha; apply Hf; apply (Permutation_in _ (Permutation_sym Hp)); auto).
  clear Hp Hf. induction HF as [|a b l0 l1 H _ IH]; simpl; auto. f_equal; [apply Hf'; simpl; auto|]. apply IH. intros; apply Hf'; simpl; auto.
Qed.
Lemma stripped_tree h h0 X oy t0 a t : tree_inv h0 X oy t0 a -> Forall2 (fun i i' => stripped h i h0 i') (tr_nodes t) (tr_nodes t0) ->
  Permutation (map (stored_path h) (tr_nodes t)) (map Some (paths [] (astree h0 a))).
Proof.
  intros H HF. pose proof (aok_paths _ _ _ _ [] 0 (ti_ok _ _ _ _ _ H)) as Hp. 
  set (live_path := fun i => match h_get h0 i with Some (Nd _ (SFull s) _) => Some (map rule_of (cc_conds (sp_cc s))) | _ => None end).
  assert (E : map (stored_path h) (tr_nodes t) = map live_path (tr_nodes t0)).
  { clear - HF. induction HF as [|i i' l l' (n&n'&c&s&E1&E2&E3&E4&E5&_) _ IH]; simpl; auto. f_equal; auto.
    unfold stored_path, live_path. rewrite E1, E3. destruct n as [k sp d], n' as [k' sp' d']. simpl in *. subst. rewrite rule_of_eq. congruence. }
  rewrite E. eapply perm_path; [apply (ti_perm _ _ _ _ _ H)|exact Hp|]. intros i ps _ (k&s&d'&E1&E2). unfold live_path. rewrite E1. congruence.
Qed.
Lemma aok_depths h X oy a : forall cs d, aok h X oy cs d a -> d = length cs -> forall i, In i (aids a) ->
  exists k s d', h_get h i = Some (Nd k (SFull s) d') /\ d' = length (cc_conds (sp_cc s)).
Proof.
  assert (L : forall cs s, sinv X oy cs s -> length (cc_conds (sp_cc s)) = length cs).
  { intros cs s H. rewrite <- (map_length rule_of), (si_conds _ _ _ _ H). auto. }
  induction a as [j|j v x l IHl r IHr]; intros cs d; simpl.
  - intros (w&s&E&H) -> i [<-|[]]. exists (KLeaf w), s, (length cs). split; auto. symmetry. apply L; auto.
  - intros ((s&E&H)&_&_&Hl&Hr) -> i [<-|Hi]; [exists (KDec (aroot l) (aroot r)), s, (length cs); split; auto; symmetry; apply L; auto|].
    apply in_app_iff in Hi as [Hi|Hi]; [eapply (IHl _ _ Hl)|eapply (IHr _ _ Hr)]; auto; rewrite app_length; simpl; lia.
Qed.
Lemma stripped_depths h h0 X oy t0 a t : tree_inv h0 X oy t0 a -> Forall2 (fun i i' => stripped h i h0 i') (tr_nodes t) (tr_nodes t0) ->
  forall i, In i (tr_nodes t) -> exists nd ps, h_get h i = Some nd /\ stored_path h i = Some ps /\ nd_depth nd = length ps.
Proof.
  intros H HF i Hi. destruct (forall2_in_l _ _ _ HF i Hi) as (i'&Hi'&n&n'&c&s&E1&E2&E3&E4&E5&_&E6).
  apply (ti_in _ _ _ _ _ _ H) in Hi'. destruct (aok_depths _ _ _ _ [] 0 (ti_ok _ _ _ _ _ H) eq_refl i' Hi') as (k&s'&d'&E7&E8).
  rewrite E3 in E7. injection E7 as ->. simpl in E4, E6. injection E4 as ->. eexists; eexists. split; [exact E1|].
  unfold stored_path. rewrite E1. destruct n as [kn sn dn]. simpl in E2, E6. subst. split; [reflexivity|]. rewrite map_length. simpl. congruence.
Qed.
Lemma minv_consists X ys e m As h s : minv X ys None e m As -> sample_of h s m -> consists_of (mx_ncols X) (h, s) (map (astree (m_heap m)) As).
Proof.
  intros H (_&Hc&Hp). pose proof (mi_st _ _ _ _ _ _ H) as Hs. assert (HlA := ms_len _ _ _ _ _ _ Hs). split; [|split; [|split]].
  - simpl. assert (Ht : forall j t a, nth_error (m_trees m) j = Some t -> nth_error As j = Some a -> exists oy, tree_inv (m_heap m) X oy t a).
    { intros j t a H1 H2. destruct (ms_tree _ _ _ _ _ _ Hs _ _ _ H1 H2) as (oy&Hi&_). eauto. }
    revert Hc Ht HlA. generalize (sm_trees s) (m_trees m) As. induction l as [|t l IH]; intros l0 A Hc Ht HlA; inversion Hc as [|? t0 ? l0' H1 H2]; subst.
    + destruct A; [constructor|discriminate].
    + destruct A as [|a A]; [discriminate|]. cbn [map]. constructor.
      * destruct (Ht 0 t0 a eq_refl eq_refl) as (oy&Hi). eapply stripped_tree; eauto.
      * eapply IH; eauto. intros j t' a' E1 E2. apply (Ht (S j)); auto.
  - simpl. intros t i Hti Hi. destruct (forall2_in_l _ _ _ Hc t Hti) as (t0&Ht0&HF). apply In_nth_error in Ht0 as (j&Ht0).
    destruct (nth_error_both _ As j t0 (eq_sym HlA) Ht0) as (a&Ha). destruct (ms_tree _ _ _ _ _ _ Hs _ _ _ Ht0 Ha) as (oy&Hinv&_). eapply stripped_depths; eauto.
  - intros st v Hin Hv. apply in_map_iff in Hin as (a&<-&Ha). apply In_nth_error in Ha as (j&Ha).
    destruct (nth_error_both _ (m_trees m) j a HlA Ha) as (t&Ht). destruct (ms_tree _ _ _ _ _ _ Hs _ _ _ Ht Ha) as (oy&Hi&_).
    eapply aok_vars; [apply (ti_ok _ _ _ _ _ Hi)|exact Hv].
  - intros X' Hx. simpl. rewrite Hp, (minv_out _ _ _ _ _ _ _ H Hx). eexists. split; [reflexivity|]. split; [apply map_length|].
    intros k Hk Hr. rewrite nth_map_in with (d := []) by auto. rewrite map_map. f_equal. apply map_ext. intros a. unfold out_value. now rewrite Hr.
Qed.
Lemma state_consists X ys p m h s : ok_state X ys p m -> sample_of h s m -> exists ts, length ts = pa_ntrees p /\ consists_of (mx_ncols X) (h, s) ts.
Proof.
  intros (As&e&H&_&Hl) Hs. exists (map (astree (m_heap m)) As). split; [|eapply minv_consists; eauto].
  rewrite map_length, <- Hl. apply (ms_len _ _ _ _ _ _ (mi_st _ _ _ _ _ _ H)).
Qed.
Lemma chain_consists s X y e r : chain_ran s X y e r -> forall sm, In sm (ch_models (snd e)) ->
  exists ts, length ts = pa_ntrees (sk_par s) /\ consists_of (mx_ncols X) (fst e, sm) ts.
Proof.
  intros (hs&m&m'&r'&kept&_&_&_&(F1&F2&_)&_) sm Hin. destruct (forall2_in_l _ _ _ F2 sm Hin) as (st&Hst&Hs).
  rewrite Forall_forall in F1. specialize (F1 st Hst). eapply state_consists; eauto.
Qed.
Lemma choose_trees n k : forall ss, (forall e, In e ss -> exists ts, length ts = k /\ consists_of n e ts) ->
  exists tss, Forall2 (consists_of n) ss tss /\ Forall (fun ts => length ts = k) tss.
Proof.
  induction ss as [|e ss IH]; intros H; [exists []; auto|]. destruct (H e (or_introl eq_refl)) as (ts&L&C).
  destruct IH as (tss&A&B); [intros; apply H; simpl; auto|]. exists (ts :: tss). auto.
Qed.
Lemma runs_consist s X y es rs : Forall2 (chain_ran s X y) es rs -> exists tss, Forall2 (consists_of (mx_ncols X)) (all_samples es) tss /\
  Forall (fun ts => length ts = pa_ntrees (sk_par s)) tss.
Proof.
  intros H. apply choose_trees. intros [h sm] Hin. unfold all_samples in Hin. apply in_flat_map in Hin as (e&He&Hin). apply in_map_iff in Hin as (sm'&[= <- <-]&Hsm).
  destruct (forall2_right _ _ _ H e He) as (r&Hr). eapply chain_consists; eauto.
Qed.
Lemma fit_consists b s h X y rs s' : no_nan X -> length y = length (mx_rows X) -> fit b s h X y rs = Ok s' ->
  exists tss, holds_trees (mx_ncols X) s' tss /\ Forall (fun ts => length ts = pa_ntrees (sk_par s)) tss.
Proof.
  intros Hn Hl Hf. destruct (fit_spec _ _ _ _ _ _ _ Hn Hl Hf) as (d&m&es&_&_&_&_&_&_&_&_&HF&Es&_).
  destruct (runs_consist _ _ _ _ _ HF) as (tss&A&B). exists tss. split; auto. exists (all_samples es). auto.
Qed.
