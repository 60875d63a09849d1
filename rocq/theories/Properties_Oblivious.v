(** Property C63: bartpy/samplers/oblivioustrees.  A tree is reached from a one-leaf tree by any history of
    proposals, accepted or not, steps, new leaf values, new targets and predictions ([ob_reached], SpecOblivious.v). *)
From Coq Require Import Reals Lra Permutation.
From Verif Require Import Base Fl Ext MData MSplit MTree MSampler MHist MTreeHist MOblivious Spec SpecTree SpecSampler SpecOblivious LFl LList PData PSplit PDataProps PCond PTree PPred PTreeHist PTreeProps PTreeProps2 PSampler PSampler2 PModel7 POblivious POblivious2 POblivious3 POblivious4 POblivious5 Properties_Sampler.

(** ** A concrete history: 1 < 2 < 3 < 4; the root is split at 2, both leaves have two rows and are "unsplittable" *)
Definition ox_X : matrix := Mx 1 [[fz 1]; [fz 2]; [fz 3]; [fz 4]].
Definition ox_y : list R := [10; 10; -10; -10]%R.
Lemma ox_no_nan : no_nan ox_X.
Proof. intros r v Hr Hv. simpl in Hr, Hv. destruct v as [|v]; [|lia]. repeat (destruct Hr as [<-|Hr]; [discriminate|]); destruct Hr. Qed.
Definition ob_state (X : matrix) (y : list R) (os : list ob_op) : res (heap * tree) :=
  let! s := root_split X y false in ob_run (fst (start_tree h_empty s)) (snd (start_tree h_empty s)) os.
Definition got (r : res (heap * tree)) : heap * tree := match r with Ok ht => ht | _ => (h_empty, make_tree []) end.
Definition is_ok {A} (r : res A) : bool := match r with Ok _ => true | _ => false end.
Lemma ob_state_reached X y os : length y = length (mx_rows X) -> Forall (sane_ob_op (length y)) os -> is_ok (ob_state X y os) = true ->
  ob_reached X y false h_empty os (fst (got (ob_state X y os))) (snd (got (ob_state X y os))).
Proof.
  intros A B. unfold ob_state. destruct (root_split X y false) as [s| |] eqn:E; try discriminate. cbn [rbind].
  destruct (ob_run _ _ os) as [[h t]| |] eqn:Er; try discriminate. intros _. split; auto. split; auto. exists s. auto.
Qed.
(** split at 1: the right leaf {2,3,4} can be split again, the left leaf {1} cannot *)
Definition ox_1 : heap * tree := got (ob_state ox_X ox_y [OGrow [0; 0]]).
Definition ox_2 : heap * tree := got (ob_state ox_X ox_y [OGrow [0; 0]; OGrow [0; 0]]).
Example ox_1_reached : ob_reached ox_X ox_y false h_empty [OGrow [0; 0]] (fst ox_1) (snd ox_1).
Proof. apply ob_state_reached; [reflexivity|repeat constructor|vm_compute; reflexivity]. Qed.
Example ox_2_reached : ob_reached ox_X ox_y false h_empty [OGrow [0; 0]; OGrow [0; 0]] (fst ox_2) (snd ox_2).
Proof. apply ob_state_reached; [reflexivity|repeat constructor|vm_compute; reflexivity]. Qed.
Example ox_1_nodes : leaf_nodes (fst ox_1) (snd ox_1) = [1; 2] /\ map (is_splittable (fst ox_1)) [1; 2] = [false; true].
Proof. vm_compute. auto. Qed.
Example ox_2_nodes : leaf_nodes (fst ox_2) (snd ox_2) = [4; 5; 7; 8] /\ decision_nodes (fst ox_2) (snd ox_2) = [3; 6; 9] /\
   map (is_splittable (fst ox_2)) [3; 6; 9] = [true; false; true].
Proof. vm_compute. auto. Qed.

(** ** C63 *)
(** After any history the tree is a perfect binary tree: all leaves at one depth k, 2^k leaves, 2^k - 1 decisions. *)
Theorem C63_perfect : forall X y nrm h0 os h t, no_nan X -> ob_reached X y nrm h0 os h t ->
  exists k, perfect_tree h t k /\ length (leaf_nodes h t) = 2 ^ k /\ S (length (decision_nodes h t)) = 2 ^ k /\
    forall j, In j (leaf_nodes h t) -> node_depth h j = Ok k.
Proof.
  intros X y nrm h0 os h t Hn Hr. destruct (ob_reached_oinv _ _ _ _ _ _ _ Hn Hr) as (y'&k&o&H). exists k.
  split; [eapply oinv_perfect; eauto|].
  destruct (full_count _ _ (oi_full _ _ _ _ _ _ H)) as [F1 F2].
  split; [rewrite (Permutation_length (oleaf_nodes_perm _ _ _ _ _ _ H)); auto|].
  split; [rewrite (Permutation_length (odec_nodes_perm _ _ _ _ _ _ H)); auto|].
  intros j Hj. apply (leaf_ogr _ _ _ _ _ _ _ H) in Hj as (cj&dj&Hj). pose proof (ogr_depth _ _ _ _ _ _ _ (oi_full _ _ _ _ _ _ H) Hj) as ->.
  destruct (ogr_ok _ _ _ _ _ _ _ _ _ (oi_ok _ _ _ _ _ _ H) Hj) as (w&s&E&_). unfold node_depth. now rewrite E.
Qed.
Print Assumptions C63_perfect.
(** Every training row is held by a leaf and every leaf holds a row. *)
Theorem C63_covered : forall X y nrm h0 os h t, no_nan X -> ob_reached X y nrm h0 os h t ->
  (forall i, i < length (mx_rows X) -> exists j, In j (leaf_nodes h t) /\ leaf_holds h j i) /\
  (mx_rows X <> [] -> forall j, In j (leaf_nodes h t) -> exists i, i < length (mx_rows X) /\ leaf_holds h j i).
Proof.
  intros X y nrm h0 os h t Hn Hr. destruct (ob_reached_oinv _ _ _ _ _ _ _ Hn Hr) as (y'&k&o&H). split.
  - intros i Hi. destruct (ogr_cover h X (Some y') o (nth i (mx_rows X) []) Hn) with (cs := @nil rule) (d := 0%nat) as (j&cj&dj&A&B); [apply nth_In; auto|apply H|reflexivity|].
    exists j. split; [apply (leaf_ogr _ _ _ _ _ _ _ H); eauto|]. apply (ogr_holds _ _ _ _ _ _ _ _ _ i H A). auto.
  - intros Hne j Hj. apply (leaf_ogr _ _ _ _ _ _ _ H) in Hj as (cj&dj&Hj).
    assert (N0 : nonempty X []). { destruct (mx_rows X) as [|z zs] eqn:Er; [congruence|]. exists z. rewrite Er. split; [simpl; auto|reflexivity]. }
    pose proof (ogr_oreg _ _ _ _ _ _ Hj) as Hj'. destruct (oreg_nonempty _ _ _ _ _ _ _ _ _ (oi_ok _ _ _ _ _ _ H) N0 Hj') as (row&Hrow&Hk).
    apply In_nth with (d := []) in Hrow as (a&Ha&Era). exists a. split; auto. apply (ogr_holds _ _ _ _ _ _ _ _ _ a H Hj). rewrite Era. auto.
Qed.
Print Assumptions C63_covered.
(** Two leaves that share a row hold the same rows, and neither can be split. *)
Theorem C63_same_or_disjoint : forall X y nrm h0 os h t j j' i, no_nan X -> ob_reached X y nrm h0 os h t ->
  In j (leaf_nodes h t) -> In j' (leaf_nodes h t) -> j <> j' -> leaf_holds h j i -> leaf_holds h j' i ->
  (forall a, leaf_holds h j a <-> leaf_holds h j' a) /\ is_splittable h j = false /\ is_splittable h j' = false.
Proof.
  intros X y nrm h0 os h t j j' i Hn Hr Hj Hj' Hd Ha Hb. destruct (ob_reached_oinv _ _ _ _ _ _ _ Hn Hr) as (y'&k&o&H).
  apply (leaf_ogr _ _ _ _ _ _ _ H) in Hj as (cj&dj&Hj). apply (leaf_ogr _ _ _ _ _ _ _ H) in Hj' as (cj'&dj'&Hj').
  apply (ogr_holds _ _ _ _ _ _ _ _ _ i H Hj) in Ha as [Hi Ka]. apply (ogr_holds _ _ _ _ _ _ _ _ _ i H Hj') in Hb as [_ Kb].
  destruct (common_row h X (Some y') o (nth i (mx_rows X) []) Hn (nth_In _ _ Hi) [] 0 (oi_ok _ _ _ _ _ _ H) _ _ _ _ _ _ Hj Hj' Ka Kb) as [|(<-&Hop&_)]; [congruence|].
  split; [intros a; rewrite (ogr_holds _ _ _ _ _ _ _ _ _ a H Hj), (ogr_holds _ _ _ _ _ _ _ _ _ a H Hj'); tauto|].
  pose proof (ogr_splittable _ _ _ _ _ _ _ _ _ Hn H Hj) as S1. pose proof (ogr_splittable _ _ _ _ _ _ _ _ _ Hn H Hj') as S2.
  split; [destruct (is_splittable h j)|destruct (is_splittable h j')]; auto; tauto.
Qed.
Print Assumptions C63_same_or_disjoint.
(** The leaves partition the rows exactly when every decision node could be split. *)
Theorem C63_partition_iff : forall X y nrm h0 os h t, no_nan X -> mx_rows X <> [] -> ob_reached X y nrm h0 os h t ->
  (forall i, i < length (mx_rows X) -> exists j, In j (leaf_nodes h t) /\ leaf_holds h j i /\
     forall j', In j' (leaf_nodes h t) -> leaf_holds h j' i -> j' = j) <->
  (forall i, In i (decision_nodes h t) -> is_splittable h i = true).
Proof.
  intros X y nrm h0 os h t Hn Hne Hr. destruct (ob_reached_oinv _ _ _ _ _ _ _ Hn Hr) as (y'&k&o&H).
  pose proof (C63_covered _ _ _ _ _ _ _ Hn Hr) as [Hcov _].
  pose proof (odec_nodes_perm _ _ _ _ _ _ H) as Hp. split.
  - intros Hu i Hi. destruct (is_splittable h i) eqn:E; auto. exfalso.
    assert (Hi' : In i (odecids o)) by (eapply Permutation_in; eauto).
    destruct (unsplittable_duplicates _ _ _ _ _ _ _ Hn Hne H Hi' E) as (j&j'&a&Hd&Hj&Hj'&Ha&A&B). destruct (Hu a Ha) as (m&_&_&Hm). rewrite (Hm j Hj A), (Hm j' Hj' B) in Hd. auto.
  - intros Hs i Hi. destruct (Hcov i Hi) as (j&Hj&Hh). exists j. split; auto. split; auto. intros j' Hj' Hh'.
    apply (leaf_ogr _ _ _ _ _ _ _ H) in Hj as (cj&dj&Hj). apply (leaf_ogr _ _ _ _ _ _ _ H) in Hj' as (cj'&dj'&Hj').
    apply (ogr_holds _ _ _ _ _ _ _ _ _ i H Hj) in Hh as [_ Ka]. apply (ogr_holds _ _ _ _ _ _ _ _ _ i H Hj') in Hh' as [_ Kb].
    destruct (common_row h X (Some y') o (nth i (mx_rows X) []) Hn (nth_In _ _ Hi) [] 0 (oi_ok _ _ _ _ _ _ H) _ _ _ _ _ _ Hj Hj' Ka Kb) as [|(_&_&z&Hz&Ez)]; [auto|].
    rewrite Hs in Ez; [discriminate|]. eapply Permutation_in; [symmetry; exact Hp|auto].
Qed.
Print Assumptions C63_partition_iff.
Example C63_case : (decision_nodes (fst ox_1) (snd ox_1) = [3] /\ is_splittable (fst ox_1) 3 = true) /\ is_splittable (fst ox_2) 6 = false.
Proof. vm_compute. auto. Qed.

(** A step grows every leaf, or prunes every prunable node, or changes nothing. *)
Theorem C63_step : forall X y nrm h0 os h t sigma p r om h1 t1 r1 k, no_nan X -> ob_reached X y nrm h0 os h t -> perfect_tree h t k ->
  ob_step h t sigma p r = Ok (om, h1, t1, r1) ->
  match om with
  | None => t1 = t /\ forall j, In j (tr_nodes t) -> h_get h1 j = h_get h j
  | Some ms => (Forall2 grow_of (leaf_nodes h t) ms /\ perfect_tree h1 t1 (S k)) \/
               (Forall2 prune_of (prunable_decision_nodes h t) ms /\ perfect_tree h1 t1 (pred k))
  end.
Proof.
  intros X y nrm h0 os h t sigma p r om h1 t1 r1 k Hn Hr Hpf E. destruct (ob_reached_oinv _ _ _ _ _ _ _ Hn Hr) as (y'&k'&o&H).
  assert (k' = k) as -> by (eapply perfect_depth; [eapply oinv_perfect; eauto|auto]).
  pose proof (ob_step_ok _ _ _ _ _ _ _ _ _ _ _ _ _ Hn H E) as G.
  assert (F2 : forall (f : entry -> mutation) (P : nat -> mutation -> Prop) ps, (forall en, P (en_e en) (f en)) -> Forall2 P (map en_e ps) (map f ps)) by (intros f P ps Hf; induction ps; simpl; constructor; auto).
  destruct om as [ms|].
  - destruct G as [(ps&o1&->&<-&G)|(ps&o1&->&<-&G)]; [left|right]; (split; [apply F2; intros en; split; reflexivity|eapply oinv_perfect; eauto]).
  - destruct G as (->&_&_&G). split; auto. intros j Hj. apply G. apply (oi_below _ _ _ _ _ _ H). now apply (oi_same _ _ _ _ _ _ H).
Qed.
Print Assumptions C63_step.

(** An accepted grow has split every leaf that can be split; each of the others was made by a "<=" condition, or its
    rows all differ in the column of the ">" condition it was made by. *)
Theorem C63_accepted_grow : forall X y nrm h0 os h t sigma p r ms h1 t1 r1, no_nan X -> ob_reached X y nrm h0 os h t ->
  ob_step h t sigma p r = Ok (Some ms, h1, t1, r1) -> Forall2 grow_of (leaf_nodes h t) ms ->
  forall j, In j (leaf_nodes h t) -> scorable X h j.
Proof.
  intros X y nrm h0 os h t sigma p r ms h1 t1 r1 Hn Hr E Hg j Hj. destruct (ob_reached_oinv _ _ _ _ _ _ _ Hn Hr) as (y'&k&o&H).
  unfold scorable. destruct (is_splittable h j) eqn:Es; auto. right.
  unfold ob_step in E. destruct (ob_sample h t sigma p r) as [[[om h2] r2]| |] eqn:Eo; try discriminate. cbn [rbind] in E.
  destruct om as [ms'|]; [|discriminate]. destruct (mutate_all h2 t ms') as [[h3 t3]| |]; try discriminate. cbn [rbind] in E. injection E as -> _ _ _.
  destruct (Forall2_in_l _ _ _ _ Hg Hj) as (m&Hm&Hmg). eapply accepted_leaf; eauto.
Qed.
Print Assumptions C63_accepted_grow.
(** If all leaves are like that, the log ratio of the grow is, summed over the leaves, the log likelihood ratio, the
    log odds of the two moves and the log prior odds: the probability of the chosen columns and values cancels. *)
Theorem C63_grow_ratio : forall X y nrm h0 os h t idx ms h1 idx1 sigma p k, no_nan X -> mx_rows X <> [] -> ob_reached X y nrm h0 os h t ->
  perfect_tree h t k -> ob_grow_mutations h t idx = Ok (ms, h1, idx1) -> (forall j, In j (leaf_nodes h t) -> scorable X h j) ->
  usual p -> (0 < sigma)%R ->
  exists Ls, Forall2 (fun m L => log_likihood_ratio h1 m sigma p = Ok (XFin L)) ms Ls /\ length Ls = 2 ^ k /\
    ob_ratio h1 ms sigma p = Ok (XFin (rsum Ls + INR (2 ^ k) * (ln (pa_pprune p / pa_pgrow p) + log_structure_odds (pa_alpha p) (pa_beta p) k))).
Proof.
  intros X y nrm h0 os h t idx ms h1 idx1 sigma p k Hn Hne Hr Hpf E Hsc Hp Hs. destruct (ob_reached_oinv _ _ _ _ _ _ _ Hn Hr) as (y'&k'&o&H).
  assert (k' = k) as -> by (eapply perfect_depth; [eapply oinv_perfect; eauto|auto]). eapply ob_grow_ratio; eauto.
Qed.
Print Assumptions C63_grow_ratio.
(** The log ratio of a prune is the mirror image: summed over the decision nodes both of whose children are leaves,
    the log likelihood ratio, the log odds of the two moves and minus the log prior odds of a split one level up. *)
Theorem C63_prune_ratio : forall X y nrm h0 os h t ms h1 sigma p k, no_nan X -> mx_rows X <> [] -> ob_reached X y nrm h0 os h t ->
  perfect_tree h t (S k) -> ob_prune_mutations h t = Ok (ms, h1) -> (forall j, In j (prunable_decision_nodes h t) -> scorable X h j) ->
  usual p -> (0 < sigma)%R ->
  exists Ls, Forall2 (fun m L => log_likihood_ratio h1 m sigma p = Ok (XFin L)) ms Ls /\ length Ls = 2 ^ k /\
    ob_ratio h1 ms sigma p = Ok (XFin (rsum Ls + INR (2 ^ k) * (ln (pa_pgrow p / pa_pprune p) - log_structure_odds (pa_alpha p) (pa_beta p) k))).
Proof.
  intros X y nrm h0 os h t ms h1 sigma p k Hn Hne Hr Hpf E Hsc Hp Hs. destruct (ob_reached_oinv _ _ _ _ _ _ _ Hn Hr) as (y'&k'&o&H).
  assert (k' = S k) as -> by (eapply perfect_depth; [eapply oinv_perfect; eauto|auto]). eapply ob_prune_ratio; eauto.
Qed.
Print Assumptions C63_prune_ratio.
Lemma scorable_le X h j : option_map sc_op (last_condition h j) = Some OpLe -> scorable X h j.
Proof. destruct (last_condition h j) as [c|] eqn:E; [|discriminate]. simpl. intros Q. injection Q as Q. right. eauto. Qed.
(** In [ox_2] the nodes 6, which is not splittable, and 9, which is, are pruned together. *)
Example C63_prune_ratio_case : prunable_decision_nodes (fst ox_2) (snd ox_2) = [6; 9] /\ is_ok (ob_prune_mutations (fst ox_2) (snd ox_2)) = true /\
  forall j, In j [6; 9] -> scorable ox_X (fst ox_2) j.
Proof.
  split; [vm_compute; reflexivity|]. split; [vm_compute; reflexivity|]. intros j [<-|[<-|[]]].
  - apply scorable_le. vm_compute. reflexivity.
  - left. vm_compute. reflexivity.
Qed.
Lemma ob_step_stuck h X oy t k o i sigma p bs idx us ns gs : no_nan X -> oinv h X oy t k o ->
  leaf_nodes h t = [i] -> is_splittable h i = false -> 0 < pa_limit p ->
  ob_step h t sigma p (Rng (true :: bs) idx us ns gs) = Raise EAttributeError.
Proof.
  intros Hn H El Hs Hlim.
  pose proof (Permutation_length (oleaf_nodes_perm _ _ _ _ _ _ H)) as Hl. rewrite El in Hl. destruct (full_count _ _ (oi_full _ _ _ _ _ _ H)) as [F1 _].
  destruct k as [|k]; [|exfalso; simpl in Hl; rewrite F1 in Hl; simpl in Hl; pose proof (Nat.pow_nonzero 2 k); lia].
  destruct o as [j|]; [|destruct (oi_full _ _ _ _ _ _ H)].
  assert (j = i). { assert (A : In i (leaf_nodes h t)) by (rewrite El; simpl; auto). apply (leaf_nodes_in _ _ _ _ _ _ H) in A as [A|[]]. auto. } subst j.
  destruct (oi_ok _ _ _ _ _ _ H) as (w&s&E&Hsi).
  assert (Eg : exists ms h1 idx1, ob_grow_mutations h t idx = Ok (ms, h1, idx1)).
  { unfold ob_grow_mutations. rewrite El. cbn [ob_grows]. unfold ob_split_node. rewrite Hs, E.
    destruct (h_alloc h (Nd (KLeaf 0%R) (SFull s) (0 + 1))) as [a ha] eqn:E1.
    destruct (h_alloc ha (Nd (KLeaf 0%R) (SFull s) (0 + 1))) as [b hb] eqn:E2.
    destruct (h_alloc hb (Nd (KDec a b) (SFull s) 0)) as [c hc] eqn:E3.
    destruct (alloc3 _ _ _ _ _ _ _ _ _ _ E1 E2 E3) as (_&_&_&_&Hold&_). cbn [rbind]. unfold grow_mutation, is_leaf.
    rewrite Hold by (apply (oi_below _ _ _ _ _ _ H); simpl; auto). rewrite E. simpl. eauto. }
  destruct Eg as (ms&h1&idx1&Eg).
  destruct (ob_grow_ok _ _ _ _ _ _ _ _ _ _ Hn H Eg) as (_&_&Hold&ps&_&_&->&Hes&_&HB&_). rewrite El in Hes.
  destruct ps as [|en [|? ?]]; try discriminate. injection Hes as He. destruct (HB en) as (ci&di&Hi&Hok); [simpl; auto|].
  destruct Hi as [Q|[]]. injection Q as Q1 <- <-. destruct Hok as ((su&Eu&_)&Hq&(wl&sl&Ell&Hsl)&_).
  assert (Hen : en_q en = None).
  { destruct (en_q en) as [[v x]|] eqn:Eq; auto. exfalso. assert (A : is_splittable h i = true); [|congruence].
    apply (ogr_splittable h X oy t 0 (OLeaf i) i [] 0 Hn H); [simpl; auto|]. simpl in Hq. exists v, x. tauto. }
  unfold ob_step, ob_sample. destruct (pa_limit p) as [|n]; [lia|]. cbn [ob_propose rg_method rg_index]. rewrite Eg. cbn [rbind].
  unfold ob_ratio. cbn [map ob_ratio_from]. unfold ob_log_ratio, ob_log_transition, ob_log_grow_transition. cbn [g_mut mu_kind mu_existing mu_updated].
  unfold ob_log_split. assert (Ed : dec_most_recent h1 (en_u en) = None).
  { unfold dec_most_recent, left_child. simpl in Eu, Ell. rewrite Eu, Ell. unfold split_most_recent, cc_most_recent. simpl.
    rewrite Hen in Hsl. simpl in Hsl. pose proof (si_conds _ _ _ _ Hsl) as Hc. destruct (cc_conds (sp_cc sl)); [reflexivity|discriminate]. }
  rewrite Ed. reflexivity.
Qed.
(** A grow proposed for a data set whose root cannot be split fails: the root has no condition to fall back on. *)
Theorem C63_unsplittable_root : forall X y nrm h0 os h t i sigma p bs idx us ns gs, no_nan X -> ob_reached X y nrm h0 os h t ->
  leaf_nodes h t = [i] -> is_splittable h i = false -> 0 < pa_limit p ->
  ob_step h t sigma p (Rng (true :: bs) idx us ns gs) = Raise EAttributeError.
Proof.
  intros X y nrm h0 os h t i sigma p bs idx us ns gs Hn Hr El Hs Hlim. destruct (ob_reached_oinv _ _ _ _ _ _ _ Hn Hr) as (y'&k&o&H).
  eapply ob_step_stuck; eauto.
Qed.
Print Assumptions C63_unsplittable_root.
(** A prune proposed for a one-leaf tree has no mutation; its ratio is 0 and it is rejected for every draw u in [0,1). *)
Theorem C63_empty_prune : forall X y nrm h0 os h t i sigma p bs idx u us ns gs, no_nan X -> ob_reached X y nrm h0 os h t ->
  leaf_nodes h t = [i] -> 0 < pa_limit p -> (0 <= u)%R ->
  ob_step h t sigma p (Rng (false :: bs) idx (u :: us) ns gs) = Ok (None, h, t, Rng bs idx us ns gs).
Proof.
  intros X y nrm h0 os h t i sigma p bs idx u us ns gs Hn Hr El Hlim Hu. destruct (ob_reached_oinv _ _ _ _ _ _ _ Hn Hr) as (y'&k&o&H).
  assert (Ep : prunable_decision_nodes h t = []).
  { destruct (prunable_decision_nodes h t) as [|z l] eqn:E; auto. exfalso.
    assert (Hz : In z (decision_nodes h t)) by (assert (A : In z (prunable_decision_nodes h t)) by (rewrite E; simpl; auto); unfold prunable_decision_nodes in A; apply filter_In in A; tauto).
    pose proof (Permutation_length (oleaf_nodes_perm _ _ _ _ _ _ H)) as Hl. pose proof (Permutation_length (odec_nodes_perm _ _ _ _ _ _ H)) as Hd.
    destruct (full_count _ _ (oi_full _ _ _ _ _ _ H)) as [F1 F2]. rewrite El in Hl. simpl in Hl. destruct (decision_nodes h t); [destruct Hz|]. simpl in Hd. lia. }
  unfold ob_step, ob_sample. destruct (pa_limit p) as [|n]; [lia|]. cbn [ob_propose rg_method rg_index]. unfold ob_prune_mutations. rewrite Ep. cbn [ob_prunes rbind].
  unfold ob_ratio. cbn [ob_ratio_from rbind rng_set_index rng_set_method rg_unif]. unfold accepts. simpl xltb. destruct (Rlt_dec u 0); [lra|]. reflexivity.
Qed.
Print Assumptions C63_empty_prune.
(** A data set of two rows: the root is "unsplittable" although the rows differ. *)
Example C63_root_case : let ht := got (ob_state (Mx 1 [[fz 1]; [fz 2]]) [1; 2]%R []) in
  ob_reached (Mx 1 [[fz 1]; [fz 2]]) [1; 2]%R false h_empty [] (fst ht) (snd ht) /\ leaf_nodes (fst ht) (snd ht) = [0] /\ is_splittable (fst ht) 0 = false.
Proof. split; [apply ob_state_reached; [reflexivity|repeat constructor|vm_compute; reflexivity]|]. vm_compute. auto. Qed.

(** predict(): every row gets the value of the last leaf in the leaf list that holds it. *)
Theorem C63_predict_last_leaf : forall X y nrm h0 os h t out t', no_nan X -> ob_reached X y nrm h0 os h t -> tr_fresh t = false ->
  tree_predict h t = Ok (out, t') ->
  length out = length (mx_rows X) /\ forall i, i < length (mx_rows X) -> exists j, last_holder h t i j /\ leaf_value h j = Some (nth i out 0%R).
Proof.
  intros X y nrm h0 os h t out t' Hn Hr Hf E. destruct (ob_reached_oinv _ _ _ _ _ _ _ Hn Hr) as (y'&k&o&H).
  destruct (opredict_last _ _ _ _ _ _ _ _ Hn H Hf E) as [A B]. split; auto. intros i Hi. destruct (B i Hi) as (L1&j&L2&C&D&F&G). exists j. split; auto. exists L1, L2. auto.
Qed.
Print Assumptions C63_predict_last_leaf.
Lemma out_last h X oy t k o out : no_nan X -> oinv h X oy t k o -> (forall r, In r (mx_rows X) -> row_clean (mx_ncols X) r = true) ->
  length out = length (mx_rows X) ->
  (forall i, i < length (mx_rows X) -> lastval (fun j => leaf_holds h j i) (leaf_value h) (leaf_nodes h t) (nth i out 0%R)) ->
  tree_predict_out h t X = Ok out.
Proof.
  intros Hn H Hc A B. unfold tree_predict_out.
  destruct (oout_loop h X oy t k o X H (Nat.le_refl _) (leaf_nodes h t) (repeat 0%R (length (mx_rows X))) (incl_refl _) (repeat_length _ _)) as (b'&Eb&Lb&Gb).
  rewrite Eb. f_equal. apply list_ext_nth; [congruence|]. intros i Hi. rewrite Lb in Hi. destruct (B i Hi) as (L1&j&L2&EL&Hh&Hno&Hv).
  assert (Hrow : row_clean (mx_ncols X) (nth i (mx_rows X) []) = true) by (apply Hc, nth_In; auto).
  assert (Hsame : forall j, In j (leaf_nodes h t) -> (exists cj dj, In (j, (cj, dj)) (ogr [] 0 o) /\ (row_clean (mx_ncols X) (nth i (mx_rows X) []) && kept cj (nth i (mx_rows X) []))%bool = true) <-> leaf_holds h j i).
  { intros z Hz. rewrite Hrow. simpl. split.
    - intros (cj&dj&Hj&K). apply (ogr_holds _ _ _ _ _ _ _ _ _ i H Hj). auto.
    - intros Hz'. apply (leaf_ogr _ _ _ _ _ _ _ H) in Hz as (cj&dj&Hj). exists cj, dj. split; auto. apply (ogr_holds _ _ _ _ _ _ _ _ _ i H Hj) in Hz'. tauto. }
  destruct (Gb i Hi) as [(M1&j'&M2&EM&Hh'&Hno'&Hv')|[Q _]].
  - assert (j' = j).
    { assert (Hj : In j (M1 ++ j' :: M2)) by (rewrite <- EM, EL; apply in_elt). assert (Hj' : In j' (L1 ++ j :: L2)) by (rewrite <- EL, EM; apply in_elt).
      assert (Hj0 : In j (leaf_nodes h t)) by (rewrite EL; apply in_elt). assert (Hj0' : In j' (leaf_nodes h t)) by (rewrite EM; apply in_elt).
      pose proof (proj1 (Hsame j' Hj0') Hh') as K'. pose proof (proj2 (Hsame j Hj0) Hh) as K.
      destruct (Nat.eq_dec j' j) as [|Hd]; auto. exfalso.
      assert (Hin : In j M1). { apply in_app_iff in Hj as [|[?|Hj]]; auto; [congruence|]. exfalso. exact (Hno' j Hj K). }
      assert (Hin' : In j' L1). { apply in_app_iff in Hj' as [|[?|Hj']]; auto; [congruence|]. exfalso. exact (Hno j' Hj' K'). }
      rewrite EL in EM. assert (ND : NoDup (L1 ++ j :: L2)). { rewrite <- EL. unfold leaf_nodes. apply NoDup_filter. apply H. }
      clear -EM Hin Hin' ND Hd. revert M1 EM Hin. induction L1 as [|z L1 IH]; intros M1 EM Hin; [destruct Hin'|].
      inversion ND; subst. destruct M1 as [|z' M1]; simpl in EM.
      - destruct Hin.
      - injection EM as -> EM. destruct Hin as [->|Hin]; [apply H1; apply in_elt|]. destruct Hin' as [->|Hin'].
        + apply H1. rewrite EM. apply in_elt.
        + eapply IH; eauto. }
    subst j'. congruence.
  - exfalso. assert (Hj : In j (leaf_nodes h t)) by (rewrite EL; apply in_elt). pose proof (proj2 (Hsame j Hj) Hh) as (cj&dj&Hjj&K). rewrite (Q j cj dj Hj Hjj) in K. discriminate.
Qed.
(** predict(X) on the training matrix is the same list as predict(). *)
Theorem C63_predict_out_agrees : forall X y nrm h0 os h t out t', no_nan X -> ob_reached X y nrm h0 os h t -> tr_fresh t = false ->
  (forall r, In r (mx_rows X) -> row_clean (mx_ncols X) r = true) ->
  tree_predict h t = Ok (out, t') -> tree_predict_out h t X = Ok out.
Proof.
  intros X y nrm h0 os h t out t' Hn Hr Hf Hc E. destruct (ob_reached_oinv _ _ _ _ _ _ _ Hn Hr) as (y'&k&o&H).
  destruct (opredict_last _ _ _ _ _ _ _ _ Hn H Hf E) as [A B]. eapply out_last; eauto.
Qed.
Print Assumptions C63_predict_out_agrees.
(** Leaves 4 and 5 both hold row 0; whatever value leaf 4 is given, the prediction is that of leaf 5. *)
Example C63_predict_case :
  let ht := got (ob_state ox_X ox_y [OGrow [0; 0]; OGrow [0; 0]; OSetValue 4 (5%R); OSetValue 5 (7%R)]) in
  ob_reached ox_X ox_y false h_empty [OGrow [0; 0]; OGrow [0; 0]; OSetValue 4 (5%R); OSetValue 5 (7%R)] (fst ht) (snd ht) /\
  tr_fresh (snd ht) = false /\
  (match tree_predict (fst ht) (snd ht) with Ok (out, _) => Some out | _ => None end) = Some [7; 0; 0; 0]%R.
Proof. split; [apply ob_state_reached; [reflexivity|repeat constructor|vm_compute; reflexivity]|]. vm_compute. auto. Qed.

(** ** The intended readings fail *)
(** With the right parameters two accepted steps from the root lead to two leaves that hold the same row. *)
Lemma run_grow h t idx h2 t2 : ob_do h t (OGrow idx) = Ok (h2, t2) -> exists ms h1 idx1, ob_grow_mutations h t idx = Ok (ms, h1, idx1) /\ mutate_all h1 t ms = Ok (h2, t2).
Proof. simpl. destruct (ob_grow_mutations h t idx) as [[[ms h1] idx1]| |]; try discriminate. cbn [rbind]. eauto. Qed.
Definition ox_p : params := Pa 1 (/ 2) 0 (/ 2) 3 1 (/ 2) (/ 2) 1.
Lemma ox_usual : usual ox_p.
Proof. unfold usual, ox_p; simpl. repeat split; try lra. lia. Qed.
Lemma got_ok r : is_ok r = true -> r = Ok (fst (got r), snd (got r)).
Proof. destruct r as [[h t]| |]; simpl; auto; discriminate. Qed.
Definition accepted_twice (X : matrix) (y : list R) (h : heap) (t : tree) : Prop :=
  exists p r1 r2, usual p /\ (pa_pgrow p + pa_pprune p = 1)%R /\ ob_reached X y false h_empty [OStep 1 p r1; OStep 1 p r2] h t /\
    Forall (fun u => (0 <= u < 1)%R) (rg_unif r1 ++ rg_unif r2).
Lemma two_grows X y a b h0 t0 h1 t1 h2 t2 : no_nan X -> mx_rows X <> [] -> length y = length (mx_rows X) ->
  ob_state X y [] = Ok (h0, t0) -> ob_state X y [OGrow a] = Ok (h1, t1) -> ob_state X y [OGrow a; OGrow b] = Ok (h2, t2) ->
  (forall j, In j (leaf_nodes h0 t0) -> scorable X h0 j) -> (forall j, In j (leaf_nodes h1 t1) -> scorable X h1 j) ->
  accepted_twice X y h2 t2.
Proof.
  intros Hn Hne Hl. unfold ob_state. destruct (root_split X y false) as [s| |] eqn:Es; try discriminate. cbn [rbind ob_run]. intros Q0. injection Q0 as Ex Ey.
  destruct (ob_do (fst (start_tree h_empty s)) (snd (start_tree h_empty s)) (OGrow a)) as [[h1' t1']| |] eqn:E1; try discriminate. cbn [rbind]. intros Q1. injection Q1 as -> ->.
  destruct (ob_do h1 t1 (OGrow b)) as [[h2' t2']| |] eqn:E2; try discriminate. cbn [rbind]. intros Q2. injection Q2 as -> ->. intros S0 S1.
  assert (H0 : oinv (fst (start_tree h_empty s)) X (Some (start_target y false)) (snd (start_tree h_empty s)) 0 (OLeaf (h_next h_empty))) by (apply start_oinv; auto).
  assert (R1 : ob_reached X y false h_empty [OGrow a] h1 t1). { split; auto. split; [repeat constructor|]. exists s. split; auto. cbn [ob_run]. rewrite E1. reflexivity. }
  destruct (ob_reached_oinv _ _ _ _ _ _ _ Hn R1) as (y1&k1&o1&H1).
  destruct (run_grow _ _ _ _ _ E1) as (ms1&g1&i1&G1&M1). destruct (run_grow _ _ _ _ _ E2) as (ms2&g2&i2&G2&M2).
  assert (Hsig : (0 < 1)%R) by lra. assert (Hlim : 0 < pa_limit ox_p) by (simpl; lia). rewrite <- Ex, <- Ey in S0.
  destruct (grow_accept _ _ _ _ _ _ _ _ _ _ 1%R ox_p _ _ Hn Hne H0 G1 M1 S0 ox_usual Hsig Hlim) as (m1&A1).
  destruct (grow_accept _ _ _ _ _ _ _ _ _ _ 1%R ox_p _ _ Hn Hne H1 G2 M2 S1 ox_usual Hsig Hlim) as (m2&A2).
  set (M := Rmax m1 m2). pose proof (Rmax_l m1 m2) as L1. pose proof (Rmax_r m1 m2) as L2. fold M in L1, L2.
  assert (HeM := exp_pos M). set (g := (/ (1 + exp M))%R). set (q := (exp M / (1 + exp M))%R).
  assert (Hg : (0 < g)%R) by (apply Rinv_0_lt_compat; lra). assert (Hq : (0 < q)%R) by (apply Rdiv_lt_0_compat; lra).
  assert (Hln : ln (q / g) = M). { replace (q / g)%R with (exp M) by (unfold q, g; field; lra). apply ln_exp. }
  assert (Hu : (0 < 1)%R) by lra.
  specialize (A1 g q 0%R Hg Hq ltac:(rewrite Hln; auto) Hu). specialize (A2 g q 0%R Hg Hq ltac:(rewrite Hln; auto) Hu).
  exists (with_moves ox_p g q), (Rng [true] a [0%R] [] []), (Rng [true] b [0%R] [] []).
  split; [unfold usual, with_moves; simpl; repeat split; auto; try lra|].
  split; [unfold with_moves, g, q; simpl; field; lra|]. split; [|simpl; repeat constructor; lra].
  split; [auto|]. split; [repeat constructor|]. exists s. split; auto. cbn [ob_run ob_do]. rewrite A1. cbn [rbind]. rewrite A2. reflexivity.
Qed.
Lemma holds_mask h j i : option_map (fun s => nth_error (d_mask (sp_data s)) i) (node_split h j) = Some (Some false) -> leaf_holds h j i.
Proof. unfold leaf_holds, in_node. destruct (node_split h j) as [s|]; [|discriminate]. simpl. intros Q. injection Q as Q. eauto. Qed.
Definition ox_0 : heap * tree := got (ob_state ox_X ox_y []).
Lemma ox_accepted : accepted_twice ox_X ox_y (fst ox_2) (snd ox_2).
Proof.
  apply (two_grows ox_X ox_y [0; 0] [0; 0] (fst ox_0) (snd ox_0) (fst ox_1) (snd ox_1) (fst ox_2) (snd ox_2)).
  - exact ox_no_nan.
  - discriminate.
  - reflexivity.
  - apply got_ok. vm_compute. reflexivity.
  - apply got_ok. vm_compute. reflexivity.
  - apply got_ok. vm_compute. reflexivity.
  - assert (E : leaf_nodes (fst ox_0) (snd ox_0) = [0] /\ is_splittable (fst ox_0) 0 = true) by (vm_compute; auto). destruct E as [-> E]. intros j [<-|[]]. left. exact E.
  - destruct ox_1_nodes as [-> _]. intros j [<-|[<-|[]]].
    + apply scorable_le. vm_compute. reflexivity.
    + left. vm_compute. reflexivity.
Qed.
Theorem C63_partition_refuted : exists X y sigma p r1 r2 h t j j' i, no_nan X /\ usual p /\ (pa_pgrow p + pa_pprune p = 1)%R /\ (0 < sigma)%R /\
  ob_reached X y false h_empty [OStep sigma p r1; OStep sigma p r2] h t /\ Forall (fun u => (0 <= u < 1)%R) (rg_unif r1 ++ rg_unif r2) /\
  In j (leaf_nodes h t) /\ In j' (leaf_nodes h t) /\ j <> j' /\ leaf_holds h j i /\ leaf_holds h j' i.
Proof.
  destruct ox_accepted as (p&r1&r2&A&B&C&D). exists ox_X, ox_y, 1%R, p, r1, r2, (fst ox_2), (snd ox_2), 4, 5, 0.
  split; [exact ox_no_nan|]. split; [exact A|]. split; [exact B|]. split; [lra|]. split; [exact C|]. split; [exact D|].
  destruct ox_2_nodes as [-> _]. split; [simpl; auto|]. split; [simpl; auto|]. split; [discriminate|].
  split; apply holds_mask; vm_compute; reflexivity.
Qed.
Print Assumptions C63_partition_refuted.
(** The decision nodes of one level need not test the same condition, nor even the same column. *)
Definition oy_X : matrix := Mx 2 [[fz 1; fz 1]; [fz 2; fz 2]; [fz 3; fz 3]; [fz 4; fz 1]; [fz 5; fz 2]; [fz 6; fz 3]].
Lemma oy_no_nan : no_nan oy_X.
Proof. intros r v Hr Hv. simpl in Hr, Hv. destruct v as [|[|v]]; [| |lia]; repeat (destruct Hr as [<-|Hr]; [discriminate|]); destruct Hr. Qed.
Definition oy_2 : heap * tree := got (ob_state oy_X [1; 2; 3; 4; 5; 6]%R [OGrow [0; 2]; OGrow [0; 0; 1; 0]]).
Lemma two_columns h i j a b : option_map sc_var (dec_most_recent h i) = Some a -> option_map sc_var (dec_most_recent h j) = Some b -> a <> b ->
  exists ci cj, dec_most_recent h i = Some ci /\ dec_most_recent h j = Some cj /\ sc_var ci <> sc_var cj.
Proof.
  destruct (dec_most_recent h i) as [ci|]; [|discriminate]. destruct (dec_most_recent h j) as [cj|]; [|discriminate]. simpl.
  intros Q1 Q2 Hd. injection Q1 as <-. injection Q2 as <-. eauto.
Qed.
Theorem C63_oblivious_refuted : exists X y os h t i j d, no_nan X /\ ob_reached X y false h_empty os h t /\
  In i (decision_nodes h t) /\ In j (decision_nodes h t) /\ node_depth h i = Ok d /\ node_depth h j = Ok d /\
  exists ci cj, dec_most_recent h i = Some ci /\ dec_most_recent h j = Some cj /\ sc_var ci <> sc_var cj.
Proof.
  exists oy_X, [1; 2; 3; 4; 5; 6]%R, [OGrow [0; 2]; OGrow [0; 0; 1; 0]], (fst oy_2), (snd oy_2), 6, 9, 1.
  split; [exact oy_no_nan|]. split; [apply ob_state_reached; [reflexivity|repeat constructor|vm_compute; reflexivity]|].
  assert (D : decision_nodes (fst oy_2) (snd oy_2) = [3; 6; 9]) by (vm_compute; reflexivity). rewrite D. clear D.
  split; [simpl; auto|]. split; [simpl; auto|]. split; [vm_compute; reflexivity|]. split; [vm_compute; reflexivity|].
  apply (two_columns (fst oy_2) 6 9 0 1); [vm_compute; reflexivity|vm_compute; reflexivity|discriminate].
Qed.
Print Assumptions C63_oblivious_refuted.
