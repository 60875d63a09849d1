(** Properties C20-C28, C39 and C40 (see Properties_Tree.v). *)
From Coq Require Import Reals Lra Permutation.
From Verif Require Import Base Fl Ext MData MSplit MTree MSampler MHist MTreeHist Spec SpecTree LFl LList
  PData PSplit PDataProps PCond PTree PPred PTreeHist PTreeProps Properties_Tree.

(** ** C20 *)
Theorem C20_grow_then_prune_restores : forall X y nrm h0 os h t i v x h1 t1 p,
  no_nan X -> tree_reached X y nrm h0 os h t -> x <> FNaN ->
  tree_do h t (TGrow i v x) = Ok (h1, t1) ->
  (* p is the decision node just created *)
  In p (tr_nodes t1) -> is_dec h1 p = true -> ~ In p (tr_nodes t) ->
  exists h2 t2, tree_do h1 t1 (TPrune p) = Ok (h2, t2) /\
  exists i' others w s s' d,
    Permutation (tr_nodes t) (i :: others) /\ Permutation (tr_nodes t2) (i' :: others) /\
    h_get h i = Some (Nd (KLeaf w) (SFull s) d) /\ h_get h2 i' = Some (Nd (KLeaf 0%R) (SFull s') d) /\
    same_rows_target s s' /\
    forall j, In j others -> h_get h2 j = option_map (redirected i i') (h_get h j).
Proof.
  intros X y nrm h0 os h t i v x h1 t1 p Hn Hr Hx Hd Hp Hpd Hpn.
  destruct (tree_reached_inv _ _ _ _ _ _ _ Hn Hr) as (a&H&_).
  destruct (grow_prune_step _ _ _ _ _ _ _ _ _ _ _ Hn H Hx Hd Hp Hpd Hpn)
    as (h2&t2&E&i'&others&w&s&s'&d&ci&A1&A2&A3&A4&A5&A6&_).
  exists h2, t2. split; auto. exists i', others, w, s, s', d. auto 10.
Qed.
Print Assumptions C20_grow_then_prune_restores.
(** seen from outside: predictions change only on the rows of the restored leaf, where they are 0 *)
Theorem C20_predictions : forall X y nrm h0 os h t i s v x h1 t1 p h2 t2 X' q q2 k,
  no_nan X -> tree_reached X y nrm h0 os h t -> x <> FNaN -> node_split h i = Some s ->
  tree_do h t (TGrow i v x) = Ok (h1, t1) ->
  In p (tr_nodes t1) -> is_dec h1 p = true -> ~ In p (tr_nodes t) ->
  tree_do h1 t1 (TPrune p) = Ok (h2, t2) ->
  mx_ncols X <= mx_ncols X' -> k < length (mx_rows X') ->
  row_clean (mx_ncols X) (nth k (mx_rows X') []) = true ->
  tree_predict_out h t X' = Ok q -> tree_predict_out h2 t2 X' = Ok q2 ->
  nth k q2 0%R = if on_path s (nth k (mx_rows X') []) then 0%R else nth k q 0%R.
Proof.
  intros X y nrm h0 os h t i s v x h1 t1 p h2 t2 X' q q2 k Hn Hr Hx Hs Hd Hp Hpd Hpn Hd2 Hc Hk Hcl Hq Hq2.
  destruct (tree_reached_inv _ _ _ _ _ _ _ Hn Hr) as (a&H&_).
  destruct (grow_prune_step _ _ _ _ _ _ _ _ _ _ _ Hn H Hx Hd Hp Hpd Hpn)
    as (h2'&t2'&E&i'&others&w&s1&s'&d&ci&A1&A2&A3&A4&A5&A6&A7&A8&A9).
  rewrite E in Hd2. injection Hd2 as -> ->.
  unfold node_split in Hs. rewrite A3 in Hs. injection Hs as ->.
  rewrite (tree_predict_out_spec _ _ _ _ _ _ H Hc) in Hq. injection Hq as <-.
  rewrite (tree_predict_out_spec _ _ _ _ _ _ A7 Hc) in Hq2. injection Hq2 as <-.
  rewrite !nth_map_in with (d := []) by auto. set (r := nth k (mx_rows X') []) in *.
  unfold out_value. rewrite Hcl, !walk_leaf.
  rewrite (on_path_kept X _ ci s r A9 Hcl), (kept_leaf _ _ _ _ _ _ _ _ _ H A8 Hcl).
  - assert (Hil : In i (aleafids a)).
    { assert (Hi : In i (aids a)) by (apply (ti_in _ _ _ _ _ _ H); eapply Permutation_in; [symmetry; exact A1|simpl; auto]).
      destruct (aok_leaf_iff _ _ _ _ _ _ _ (ti_ok _ _ _ _ _ H) Hi (ti_nodup _ _ _ _ _ H)) as [B _].
      apply B. unfold is_leaf. now rewrite A3. }
    assert (Hnd : ~ In i (adecids a)).
    { pose proof (Permutation_NoDup (aids_perm a) (ti_nodup _ _ _ _ _ H)) as Hd'.
      apply NoDup_app_disj in Hd' as (_&_&Hdis). intros ?. apply (Hdis i); auto. }
    rewrite (aleaf_of_subst_leaf i i' r a Hnd).
    destruct (Nat.eqb_spec (aleaf_of a r) i) as [Ei|Ei].
    + unfold hvalue, leaf_value. now rewrite A4.
    + assert (Ho : In (aleaf_of a r) others).
      { assert (Hin : In (aleaf_of a r) (i :: others)).
        { eapply Permutation_in; [exact A1|]. apply (ti_in _ _ _ _ _ _ H). apply aids_incl. left. apply aleaf_of_in. }
        destruct Hin as [?|?]; [congruence|auto]. }
      unfold hvalue, leaf_value. rewrite A6 by auto.
      destruct (h_get h (aleaf_of a r)) as [[[w'|l' r'] s'' d'']|]; auto.
  - intros c Hc'. pose proof (afind_rules _ _ _ _ _ _ _ _ _ _ (ti_ok _ _ _ _ _ H) A8 (Forall_nil _)) as Hru.
    rewrite <- (si_conds _ _ _ _ A9), Forall_forall in Hru. apply (Hru (rule_of c)). now apply in_map.
Qed.
Print Assumptions C20_predictions.
Definition nodes_of (r : res (heap * tree)) : option (list nat) :=
  match r with Ok (_, t) => Some (tr_nodes t) | _ => None end.
Definition tx_grown := tree_do tx_h tx_t (TGrow 1 0 (fz 2)).
Example C20_case :
  nodes_of tx_grown = Some [3; 4; 5; 6; 10; 11; 12] /\ match tx_grown with
  | Ok (h1, t1) => is_dec h1 12 = true /\ nodes_of (tree_do h1 t1 (TPrune 12)) = Some [3; 4; 5; 6; 13]
  | _ => False end.
Proof. vm_compute. auto. Qed.

(** ** C21: [e] is the node named by the mutation, [u] its replacement *)
Theorem C21_mutation_is_local : forall X y nrm h0 os h t o h' t',
  no_nan X -> tree_reached X y nrm h0 os h t -> sane_tree_op (length y) o -> mutates o ->
  tree_do h t o = Ok (h', t') ->
  exists e u, In e (tr_nodes t) /\ ~ In e (tr_nodes t') /\ h_next h <= u /\ In u (tr_nodes t') /\
    (forall i v x, o = TGrow i v x -> e = i) /\ (forall i, o = TPrune i -> e = i) /\
    forall j n, j < h_next h -> h_get h j = Some n ->
      h_get h' j = Some n \/
      In j (tr_nodes t) /\ j <> e /\ h_get h' j = Some (redirected e u n).
Proof.
  intros X y nrm h0 os h t o h' t' Hn Hr Hs Hm Hd.
  pose proof Hr as (Hlen&_). rewrite Hlen in Hs.
  destruct (tree_reached_inv _ _ _ _ _ _ _ Hn Hr) as (a&H&_).
  assert (Hgrow : forall i v x p h1 m, x <> FNaN ->
    split_node h i (fresh_le v x) (fresh_gt v x) = Ok (p, h1) -> grow_mutation h1 i p = Ok m ->
    done (mutate h1 t m) = Ok (h', t') ->
    In i (tr_nodes t) /\ ~ In i (tr_nodes t') /\ h_next h <= p /\ In p (tr_nodes t') /\
    forall j n, j < h_next h -> h_get h j = Some n -> h_get h' j = Some n \/
      In j (tr_nodes t) /\ j <> i /\ h_get h' j = Some (redirected i p n)).
  { intros i v x p h1 m Hx Hsp Hg Hdo.
    destruct (grow_full _ _ _ _ _ _ _ _ _ _ _ _ Hn H Hx Hsp Hg Hdo) as (Hi&Hl&->&Hp0&Hnx&l1&Hrm&Er&Hinv&Hget).
    injection Er as -> ->. simpl. pose proof (perm_remove _ _ _ Hrm (ti_tnodup _ _ _ _ _ H)) as Hpr.
    pose proof (nodes_below _ _ _ _ _ _ H Hi) as Hib.
    split; auto. split.
    { rewrite in_app_iff, Hpr. simpl. intuition lia. }
    split; [lia|]. split; [apply in_app_iff; simpl; auto|].
    intros j n Hj Ej. rewrite Hget by auto. destruct (mem j l1) eqn:Em; [|auto].
    right. apply mem_in, Hpr in Em. split; [tauto|]. split; [tauto|]. rewrite Ej. simpl. now rewrite redirected_relink. }
  assert (Hprune : forall i n0 m, h_get h i = Some n0 ->
    let h1 := snd (h_alloc h (Nd (KLeaf 0%R) (nd_split n0) (nd_depth n0))) in
    prune_mutation h1 i (h_next h) = Ok m -> done (mutate h1 t m) = Ok (h', t') ->
    In i (tr_nodes t) /\ ~ In i (tr_nodes t') /\ h_next h <= h_next h /\ In (h_next h) (tr_nodes t') /\
    forall j n, j < h_next h -> h_get h j = Some n -> h_get h' j = Some n \/
      In j (tr_nodes t) /\ j <> i /\ h_get h' j = Some (redirected i (h_next h) n)).
  { intros i n0 m Eg h1 Hp Hdo. destruct (prune_full _ _ _ _ _ _ _ _ _ H Eg Hp Hdo) as (Hi&Hl&->).
    destruct (prune_step _ _ _ _ _ _ H Hi Hl) as (v&x&jl&jr&s&d&ci&Hf&Hg&Hss&Hpm&l1&l2&l3&Hr1&Hr2&Hr3&Hmut&Hinv&Hget).
    rewrite Eg in Hg. injection Hg as ->.
    change (done (mutate (snd (h_alloc h (Nd (KLeaf 0%R) (SFull s) d))) t (Mu MPrune i (h_next h))) = Ok (h', t')) in Hdo.
    rewrite Hmut in Hdo. simpl in Hdo. injection Hdo as <- <-.
    pose proof (perm_remove _ _ _ Hr1 (ti_tnodup _ _ _ _ _ H)) as Hpr.
    assert (Hsub : forall j, In j l3 -> In j (tr_nodes t) /\ j <> i).
    { intros j Hj. apply Hpr. eapply remove_first_incl; [exact Hr2|]. eapply remove_first_incl; [exact Hr3|]. auto. }
    pose proof (nodes_below _ _ _ _ _ _ H Hi) as Hib. simpl tr_nodes.
    split; auto. split.
    { rewrite in_app_iff. intros [Hx|[Hx|[]]]; [apply Hsub in Hx; tauto|lia]. }
    split; [lia|]. split; [apply in_app_iff; simpl; auto|].
    intros j n Hj Ej. rewrite Hget by auto. destruct (mem j l3) eqn:Em; [|auto].
    right. apply mem_in, Hsub in Em. split; [tauto|]. split; [tauto|]. rewrite Ej. simpl. now rewrite redirected_relink. }
  destruct o as [i v x|i|idx|idx|idx|idx|i w|y0|]; cbn [mutates] in Hm; try tauto; cbn [tree_do] in Hd.
  - destruct (split_node h i (fresh_le v x) (fresh_gt v x)) as [[p h1]| |] eqn:E1; try discriminate. cbn [rbind] in Hd.
    destruct (grow_mutation h1 i p) as [m| |] eqn:E2; try discriminate. cbn [rbind] in Hd.
    destruct (Hgrow _ _ _ _ _ _ Hs E1 E2 Hd) as (B1&B2&B3&B4&B5). exists i, p.
    repeat split; auto; [intros ? ? ? E; now injection E|discriminate].
  - destruct (h_get h i) as [n|] eqn:Eg; try discriminate. unfold h_alloc in Hd at 1.
    destruct (prune_mutation _ i (h_next h)) as [m| |] eqn:E2; try discriminate. cbn [rbind] in Hd.
    destruct (Hprune _ _ _ Eg E2 Hd) as (B1&B2&B3&B4&B5). exists i, (h_next h).
    repeat split; auto; [discriminate|intros ? E; now injection E].
  - destruct (sample_grow_mutation h t idx) as [[[m h1] idx']| |] eqn:E; try discriminate. cbn [rbind] in Hd.
    apply sample_grow_spec in E as (i&v&x&p&s&i1&i2&Hi&Es&Hv&Hrv&Hsp&Hg).
    destruct (splittable_leaf _ _ _ _ _ _ H Hi) as (w&s0&d0&ci&Hi'&Hl&Hf&Eg&Hs0&_).
    unfold node_split in Es. rewrite Eg in Es. injection Es as ->.
    destruct (sampled_fills _ _ _ _ _ _ _ _ Hn Hs0 Hrv) as (Hx&_).
    destruct (Hgrow _ _ _ _ _ _ Hx Hsp Hg Hd) as (B1&B2&B3&B4&B5). exists i, p.
    repeat split; auto; discriminate.
  - destruct (sample_prune_mutation h t idx) as [[[m h1] idx']| |] eqn:E; try discriminate. cbn [rbind] in Hd.
    apply sample_prune_spec in E as (i&n&Hi&Eg&->&Hpm).
    destruct (Hprune _ _ _ Eg Hpm Hd) as (B1&B2&B3&B4&B5). exists i, (h_next h).
    repeat split; auto; discriminate.
Qed.
Print Assumptions C21_mutation_is_local.
Example C21_case : nodes_of (tree_do tx_h tx_t (TPrune 6)) = Some [1; 3; 10].
Proof. vm_compute. reflexivity. Qed.

(** ** C22 *)
Theorem C22_prunable_nodes : forall h t j,
  In j (prunable_decision_nodes h t) <->
  In j (tr_nodes t) /\ exists l r, left_child h j = Some l /\ right_child h j = Some r /\
    is_leaf h l = true /\ is_leaf h r = true.
Proof.
  intros h t j. unfold prunable_decision_nodes, decision_nodes. rewrite !filter_In, <- is_prunable_iff.
  split; [tauto|]. intros [H1 H2]. split; auto. split; auto. now apply prunable_dec.
Qed.
Print Assumptions C22_prunable_nodes.
Theorem C22_only_stumps_unprunable : forall X y nrm h0 os h t,
  no_nan X -> tree_reached X y nrm h0 os h t ->
  (prunable_decision_nodes h t = [] <-> exists j, tr_nodes t = [j] /\ is_leaf h j = true).
Proof.
  intros X y nrm h0 os h t Hn Hr. destruct (tree_reached_inv _ _ _ _ _ _ _ Hn Hr) as (a&H&_). split.
  - intros E. destruct (adecids a) as [|b l] eqn:Ed.
    + destruct a as [i|]; [|discriminate]. exists i. 
      pose proof (ti_perm _ _ _ _ _ H) as P. simpl in P. apply Permutation_sym, Permutation_length_1_inv in P.
      split; auto. destruct (ti_ok _ _ _ _ _ H) as (w&s&E'&_). unfold is_leaf. now rewrite E'.
    + exfalso. destruct (prunable_exists _ _ _ _ _ _ (ti_ok _ _ _ _ _ H)) as (j&Hj&Hp); [congruence|].
      assert (Hin : In j (prunable_decision_nodes h t)).
      { apply C22_prunable_nodes. split; [apply (ti_in _ _ _ _ _ _ H); auto|]. now apply is_prunable_iff. }
      rewrite E in Hin. auto.
  - intros (j&E&Hl). unfold prunable_decision_nodes, decision_nodes. rewrite E. simpl.
    unfold is_leaf, is_dec in *. destruct (h_get h j) as [[[w|l r] s d]|]; auto; discriminate.
Qed.
Print Assumptions C22_only_stumps_unprunable.
Example C22_case : prunable_decision_nodes tx_h tx_t = [6].
Proof. vm_compute. reflexivity. Qed.

(** ** C23 *)
Theorem C23_prune_mutation_checked : forall h e u,
  (exists l r, left_child h e = Some l /\ right_child h e = Some r /\ is_leaf h l = true /\ is_leaf h r = true) /\
    prune_mutation h e u = Ok (Mu MPrune e u) \/
  ~ (exists l r, left_child h e = Some l /\ right_child h e = Some r /\ is_leaf h l = true /\ is_leaf h r = true) /\
    prune_mutation h e u = Raise ETypeError.
Proof.
  intros h e u. rewrite <- is_prunable_iff. unfold prune_mutation. destruct (is_prunable h e) eqn:E.
  - left. rewrite (prunable_dec _ _ E). auto.
  - right. split; [discriminate|]. now rewrite orb_true_r.
Qed.
Print Assumptions C23_prune_mutation_checked.
Theorem C23_grow_mutation_checked : forall h e u,
  (is_leaf h e = true /\ grow_mutation h e u = Ok (Mu MGrow e u)) \/
  (is_leaf h e = false /\ grow_mutation h e u = Raise ETypeError).
Proof. intros h e u. unfold grow_mutation. destruct (is_leaf h e); simpl; auto. Qed.
Print Assumptions C23_grow_mutation_checked.
(** proposals made from a reachable tree fail only for lack of a candidate (or of draws) *)
Theorem C23_proposals_never_rejected : forall X y nrm h0 os h t idx,
  no_nan X -> tree_reached X y nrm h0 os h t ->
  (forall e, sample_grow_mutation h t idx = Raise e -> e = ENoSplittableVariable /\ splittable_leaf_nodes h t = []) /\
  (forall e, sample_prune_mutation h t idx = Raise e -> e = ENoPrunableNode /\ prunable_decision_nodes h t = []).
Proof.
  intros X y nrm h0 os h t idx Hn Hr. destruct (tree_reached_inv _ _ _ _ _ _ _ Hn Hr) as (a&H&_). split; intros e.
  - unfold sample_grow_mutation, random_splittable_leaf_node.
    destruct (splittable_leaf_nodes h t) as [|n ns] eqn:En.
    { simpl. intros E; injection E as <-. auto. }
    destruct (np_choice 0 (n :: ns) idx) as [[i i1]| |] eqn:E1; try discriminate.
    2:{ unfold np_choice in E1. destruct idx; discriminate. }
    cbn [rbind]. apply np_choice_in in E1. rewrite <- En in E1.
    destruct (splittable_leaf _ _ _ _ _ _ H E1) as (w&s&d&ci&Hi&Hl&Hf&Eg&Hs&Hsp).
    unfold sample_split_node, node_data, node_split. rewrite Eg. unfold sample_split_condition.
    pose proof Hsp as Hsp'. apply (any_meaning X _ ci s Hs) in Hsp' as (v0&Hv0).
    destruct (np_choice 0 (fst (splittable_variables (d_X (sp_data s)))) i1) as [[v i2]| |] eqn:E2; try discriminate.
    2:{ unfold np_choice in E2. destruct (fst (splittable_variables _)); [destruct Hv0|]. destruct i1; discriminate. }
    cbn [rbind]. apply np_choice_in in E2.
    destruct (random_splittable_value (d_X (sp_data s)) v i2) as [[x i3]| |] eqn:E3; try discriminate.
    + cbn [rbind]. change (SC v x OpLe None None) with (fresh_le v x). change (SC v x OpGt None None) with (fresh_gt v x).
      destruct (sampled_fills _ _ _ _ _ _ _ _ Hn Hs E3) as (Hx&_).
      apply (offered_varies X _ ci s Hn Hs) in E2 as (Hv&_).
      destruct (split_node_total h X _ i w s d ci v x Hn Eg Hs Hx Hv) as (p&h1&Esp&Egm).
      { eapply nodes_below; eauto. }
      rewrite Esp. cbn [rbind]. rewrite Egm. discriminate.
    + apply (rsv_raises X _ ci s Hn Hs) in E3 as [_ E3]. tauto.
  - unfold sample_prune_mutation, random_prunable_decision_node.
    destruct (prunable_decision_nodes h t) as [|n ns] eqn:En.
    { simpl. intros E; injection E as <-. auto. }
    destruct (np_choice 0 (n :: ns) idx) as [[i i1]| |] eqn:E1; try discriminate.
    2:{ unfold np_choice in E1. destruct idx; discriminate. }
    cbn [rbind]. apply np_choice_in in E1. rewrite <- En in E1. apply C22_prunable_nodes in E1 as [Hi Hp].
    apply is_prunable_iff in Hp.
    destruct (prune_step _ _ _ _ _ _ H Hi Hp) as (v&x&jl&jr&s&d&ci&Hf&Hg&Hss&Hpm&_).
    rewrite Hg. unfold h_alloc at 1. simpl nd_split. simpl nd_depth. unfold h_alloc in Hpm. simpl snd in Hpm.
    rewrite Hpm. discriminate.
Qed.
Print Assumptions C23_proposals_never_rejected.

(** ** C24 *)
Theorem C24_absent_node_rejected : forall h t m,
  mu_kind m <> MOther -> ~ In (mu_existing m) (tr_nodes t) ->
  mutate h t m = (h, Tr (tr_nodes t) false (tr_pred t), Some EValueError).
Proof.
  intros h t m Hk Hn. unfold mutate. pose proof (remove_first_spec (mu_existing m) (tr_nodes t)) as Hs.
  destruct (remove_first (mu_existing m) (tr_nodes t)) as [l|].
  - destruct Hs as (l1&l2&E&_). rewrite E in Hn. exfalso. apply Hn, in_app_iff. simpl; auto.
  - destruct (mu_kind m); auto; congruence.
Qed.
Print Assumptions C24_absent_node_rejected.
(** a prune whose children are not both listed raises ValueError after the node was removed *)
Theorem C24_half_done_prune : forall h t e u l r,
  In e (tr_nodes t) -> left_child h e = Some l -> right_child h e = Some r ->
  l <> e -> r <> e -> l <> r ->
  ~ (In l (tr_nodes t) /\ In r (tr_nodes t)) -> NoDup (tr_nodes t) ->
  exists t', mutate h t (Mu MPrune e u) = (h, t', Some EValueError) /\ ~ In e (tr_nodes t').
Proof.
  intros h t e u l r He Hl Hr Hle Hre Hlr Hno Hnd. unfold mutate. simpl.
  destruct (remove_first_perm e (tr_nodes t) He) as (l1&E1&P1). rewrite E1, Hl, Hr. simpl.
  pose proof (perm_remove _ _ _ E1 Hnd) as H1.
  assert (Hn1 : NoDup l1).
  { pose proof (remove_first_spec e (tr_nodes t)) as Hs. rewrite E1 in Hs. destruct Hs as (b1&b2&E&->&_).
    rewrite E in Hnd. eapply NoDup_remove_1; eauto. }
  destruct (remove_first l l1) as [l2|] eqn:E2.
  - destruct (remove_first r l2) as [l3|] eqn:E3.
    + exfalso. apply Hno. pose proof (remove_first_spec l l1) as S2. rewrite E2 in S2. destruct S2 as (b1&b2&F1&F2&_).
      pose proof (remove_first_spec r l2) as S3. rewrite E3 in S3. destruct S3 as (c1&c2&F3&F4&_). split.
      * apply H1. rewrite F1, in_app_iff. simpl; auto.
      * apply H1. assert (Hr2 : In r l2) by (rewrite F3, in_app_iff; simpl; auto). eapply remove_first_incl; eauto.
    + eexists. split; [reflexivity|]. simpl. intros Hin. apply (remove_first_incl _ _ _ _ E2) in Hin. apply H1 in Hin. tauto.
  - eexists. split; [reflexivity|]. simpl. intros Hin. apply H1 in Hin. tauto.
Qed.
Print Assumptions C24_half_done_prune.
Definition bad_heap : heap :=
  match root_split tx_X tx_y false with
  | Ok s => fst (start_tree (snd (h_alloc (snd (h_alloc h_empty (Nd (KLeaf 0%R) (SFull s) 1))) (Nd (KLeaf 0%R) (SFull s) 1))) s)
  | _ => h_empty end.
Theorem C24_not_atomic_refuted : exists h t m t',
  mutate h t m = (h, t', Some EValueError) /\ In (mu_existing m) (tr_nodes t) /\ tr_nodes t' <> tr_nodes t.
Proof.
  exists (h_set bad_heap 2 (Nd (KDec 0 1) (SCond (CC [] [])) 0)), (make_tree [2]), (Mu MPrune 2 7). eexists.
  split; [reflexivity|]. simpl. split; [auto|discriminate].
Qed.
Print Assumptions C24_not_atomic_refuted.
