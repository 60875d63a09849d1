(** Properties C25-C28, C39 and C40 (see Properties_Tree.v). *)
From Coq Require Import Reals Lra Permutation.
From Verif Require Import Base Fl Ext MData MSplit MTree MSampler MHist MTreeHist Spec SpecTree LFl LList
  PData PSplit PDataProps PCond PTree PPred PTreeHist PTreeProps PTreeProps2 Properties_Tree Properties_Tree2.

(** ** C25 *)
Theorem C25_current_values : forall X y nrm h0 os h t v t',
  no_nan X -> tree_reached X y nrm h0 os h t -> cache_current os ->
  tree_predict h t = Ok (v, t') ->
  exists root ids st, unfolds h root 0 ids st /\ Permutation (tr_nodes t) ids /\
    v = map (walk st) (mx_rows X).
Proof.
  intros X y nrm h0 os h t v t' Hn Hr Hc Hp. destruct (tree_reached_inv _ _ _ _ _ _ _ Hn Hr) as (a&H&_).
  pose proof (cache_current_ok _ _ _ _ _ _ _ Hn Hr Hc) as Hok.
  rewrite (predict_correct _ _ _ _ _ _ _ Hn H Hok Hp).
  exists (aroot a), (aids a), (astree h a). split; [eapply aok_unfolds; apply H|]. split; [apply H|reflexivity].
Qed.
Print Assumptions C25_current_values.
(** set_value after a prediction goes unnoticed *)
Theorem C25_set_value_ignored : forall h t v t1 i w,
  tree_predict h t = Ok (v, t1) -> tree_predict (set_value h i w) t1 = Ok (v, t1).
Proof.
  intros h t v t1 i w. unfold tree_predict. destruct (if tr_fresh t then _ else _) as [[p|]| |]; try discriminate.
  cbn [rbind]. intros E; injection E as <- <-. simpl. reflexivity.
Qed.
Print Assumptions C25_set_value_ignored.
Theorem C25_set_value_refuted : exists X y os h t v t' root ids st,
  no_nan X /\ tree_reached X y false h_empty os h t /\ tree_predict h t = Ok (v, t') /\
  unfolds h root 0 ids st /\ Permutation (tr_nodes t) ids /\ v <> map (walk st) (mx_rows X).
Proof.
  exists (Mx 1 [[fz 1]]), [1%R], [TPredict; TSetValue 0 3%R].
  do 4 eexists. exists 0, [0], (SLeaf 3%R). split. { intros r v [<-|[]] Hv. destruct v; [discriminate|simpl in Hv; lia]. }
  split.
  { split; [reflexivity|]. split; [repeat constructor|]. eexists. split; reflexivity. }
  split. { reflexivity. }
  split. { eapply uf_leaf. reflexivity. }
  split. { reflexivity. }
  simpl. intros E. injection E as E. revert E. lra.
Qed.
Print Assumptions C25_set_value_refuted.

(** ** C26 *)
Theorem C26_first_prediction : forall X y nrm h0 os h t,
  no_nan X -> tree_reached X y nrm h0 os h t -> Forall no_predict os ->
  exists i0 s0, hd_error (tr_nodes t) = Some i0 /\ node_split h i0 = Some s0 /\
   ((forall i, i < length (mx_rows X) -> in_node s0 i) /\ (exists v t', tree_predict h t = Ok (v, t')) \/
    (exists i, i < length (mx_rows X) /\ ~ in_node s0 i) /\ tree_predict h t = Raise EIndexError).
Proof.
  intros X y nrm h0 os h t Hn Hr Hp. destruct (tree_reached_inv _ _ _ _ _ _ _ Hn Hr) as (a&H&_).
  destruct (never_predicted _ _ _ _ _ _ _ Hr Hp) as [Hf Hpn].
  destruct (first_predict _ _ _ _ _ Hn H Hf Hpn) as (i0&s0&k&d&[(E1&E2&E3&E4)|(E1&E2&E3&E4)]);
    exists i0, s0; unfold node_split; rewrite E2; auto 10.
Qed.
Print Assumptions C26_first_prediction.
(** in particular after a first accepted grow proposal, whatever quiet calls come before and after *)
Theorem C26_fails_after_first_grow : forall X y nrm h0 os1 idx os2 h t,
  no_nan X -> tree_reached X y nrm h0 (os1 ++ TSampleGrow idx :: os2) h t ->
  Forall no_predict (os1 ++ os2) -> Forall (fun o => ~ mutates o) (os1 ++ os2) ->
  tree_predict h t = Raise EIndexError.
Proof.
  intros X y nrm h0 os1 idx os2 h t Hn Hr Hp Hm.
  apply Forall_app in Hp as [Hp1 Hp2]. apply Forall_app in Hm as [Hm1 Hm2].
  assert (Hpp : Forall no_predict (os1 ++ TSampleGrow idx :: os2)).
  { apply Forall_app. split; auto. constructor; simpl; auto. }
  assert (Hprop : Forall proposed_op (os1 ++ TSampleGrow idx :: os2)).
  { assert (Hq : forall l, Forall (fun o => ~ mutates o) l -> Forall proposed_op l).
    { intros l Hl. eapply Forall_impl; [|exact Hl]. intros o Ho. destruct o; simpl in *; auto. }
    apply Forall_app. split; auto. constructor; simpl; auto. }
  destruct (C26_first_prediction _ _ _ _ _ _ _ Hn Hr Hpp) as (i0&s0&Ehd&Es0&[[Hall _]|[_ E]]); [|auto].
  exfalso. pose proof Hr as (Hlen&Hs&s&Hroot&Hrun). rewrite Hlen in Hs.
  apply Forall_app in Hs as [Hs1 Hs2]. inversion Hs2 as [|? ? Hsg Hs2']; subst.
  pose proof (start_inv X y nrm h0 s Hlen Hroot) as H0.
  rewrite tree_run_app in Hrun.
  destruct (tree_run _ _ os1) as [[h1 t1]| |] eqn:E1; try discriminate. cbn [rbind] in Hrun. simpl in Hrun.
  destruct (sample_grow_mutation h1 t1 idx) as [[[m h2] idx']| |] eqn:Eg; try discriminate. cbn [rbind] in Hrun.
  destruct (done (mutate h2 t1 m)) as [[h3 t3]| |] eqn:Ed; try discriminate. cbn [rbind] in Hrun.
  destruct (quiet_run X os1 Hn _ _ _ _ _ _ H0 Hs1 Hm1 E1) as [N1 _].
  destruct (tree_run_inv X os1 Hn _ _ _ _ _ _ H0 Hs1 E1) as (a1&H1&_).
  assert (H3 : exists y3 a3, tree_inv h3 X (Some y3) t3 a3).
  { destruct (tree_run_inv X [TSampleGrow idx] Hn h1 _ t1 a1 h3 t3 H1) as (a3&H3&_);
      [constructor; auto|simpl; rewrite Eg; cbn [rbind]; rewrite Ed; reflexivity|eauto]. }
  destruct H3 as (y3&a3&H3).
  destruct (quiet_run X os2 Hn _ _ _ _ _ _ H3 Hs2' Hm2 Hrun) as [N3 L3].
  pose proof Eg as Eg'. apply sample_grow_spec in Eg as (i&v&x&p&s1&i1&i2&Hi&Es&Hv&Hrv&Hsp&Hg).
  destruct (splittable_leaf _ _ _ _ _ _ H1 Hi) as (w&s1'&d1&ci&Hi'&Hl&Hf&Egi&Hs0&_).
  unfold node_split in Es. rewrite Egi in Es. injection Es as ->.
  destruct (sampled_fills _ _ _ _ _ _ _ _ Hn Hs0 Hrv) as (Hx&(rl&Hrl&_)&_).
  destruct (grow_full _ _ _ _ _ _ _ _ _ _ _ _ Hn H1 Hx Hsp Hg Ed) as (_&_&_&Hpe&Hnx&l1&Hrm&Er&_).
  injection Er as Eh3 Et3. pose proof (nodes_below _ _ _ _ _ _ H1 Hi') as Hib.
  simpl in N1. rewrite N1 in Hrm, Hi'. simpl in Hi'. destruct Hi' as [Hi'|[]].
  rewrite <- Hi' in Hrm. simpl in Hrm. rewrite Nat.eqb_refl in Hrm. injection Hrm as <-.
  assert (Nt : tr_nodes t = [h_next h1; S (h_next h1); p]). { rewrite N3, Et3. reflexivity. }
  rewrite Nt in Ehd. injection Ehd as <-.
  apply split_node_spec in Hsp as (k&s2&d2&s'&sl&sr&Egi'&Hsc&_&_&Hold&Hgl&Hgr&Hgp).
  assert (Lf : forall j, In j [h_next h1; S (h_next h1)] -> In j (leaf_nodes h t)).
  { intros j Hj. unfold leaf_nodes. apply filter_In. split; [rewrite Nt; simpl in *; tauto|].
    rewrite L3 by (rewrite <- N3, Nt; simpl in *; tauto). unfold is_leaf. rewrite Eh3, relink_get by lia.
    destruct Hj as [<-|[<-|[]]]; rewrite ?Hgl, ?Hgr; destruct (mem _ _); reflexivity. }
  assert (Hne : mx_rows X <> []) by (intros E; rewrite E in Hrl; destruct Hrl).
  destruct (C17_no_empty_leaf _ _ _ _ _ _ _ _ Hn Hne Hr Hprop (Lf (S (h_next h1)) ltac:(simpl; auto))) as (k0&Hk0).
  assert (Hlt : k0 < length (mx_rows X)).
  { destruct (tree_reached_inv _ _ _ _ _ _ _ Hn Hr) as (af&Hf'&_). 
    eapply holds_iff in Hk0; eauto; [apply Hk0|apply Lf; simpl; auto]. }
  destruct (C17_rows_in_exactly_one_leaf _ _ _ _ _ _ _ k0 Hn Hr Hlt) as (j&_&_&Hu).
  assert (h_next h1 = j) by (apply Hu; [apply Lf; simpl; auto|exists s0; split; auto]).
  assert (S (h_next h1) = j) by (apply Hu; [apply Lf; simpl; auto|auto]).
  lia.
Qed.
Print Assumptions C26_fails_after_first_grow.
Definition tx_first : heap * tree :=
  match root_split tx_X tx_y false with
  | Ok s => match tree_run (fst (start_tree h_empty s)) (snd (start_tree h_empty s)) [TSampleGrow [0; 0; 2]; TUpdateY tx_y] with
            | Ok ht => ht | _ => (h_empty, make_tree []) end
  | _ => (h_empty, make_tree [])
  end.
Example C26_case : tree_reached tx_X tx_y false h_empty ([] ++ TSampleGrow [0; 0; 2] :: [TUpdateY tx_y]) (fst tx_first) (snd tx_first) /\
  tree_predict (fst tx_first) (snd tx_first) = Raise EIndexError.
Proof.
  split.
  - split; [reflexivity|]. split; [repeat constructor|]. eexists. split; [reflexivity|]. reflexivity.
  - vm_compute. reflexivity.
Qed.
(** the failed call leaves its wrong-sized buffer behind (predict_buffer below is the buffer the call
    allocated), so the next prediction fails too: stated for any buffer of the wrong size *)
Theorem C26_wrong_buffer_is_never_repaired : forall X y nrm h0 os h t b,
  no_nan X -> tree_reached X y nrm h0 os h t -> tr_fresh t = false -> length b <> length (mx_rows X) ->
  tree_predict h (Tr (tr_nodes t) false (Some b)) = Raise EIndexError.
Proof.
  intros X y nrm h0 os h t b Hn Hr Hf Hb. destruct (tree_reached_inv _ _ _ _ _ _ _ Hn Hr) as (a&H&_).
  assert (H' : tree_inv h X (Some (last_tree_target (start_target y nrm) os)) (Tr (tr_nodes t) false (Some b)) a).
  { destruct H as [A B C D]. split; auto. }
  destruct (tree_predict_spec _ _ _ _ _ Hn H' eq_refl) as (b'&Eb&E). rewrite E.
  unfold start_buffer in Eb. simpl in Eb. injection Eb as <-.
  destruct (Nat.eqb_spec (length b) (length (mx_rows X))); [contradiction|reflexivity].
Qed.
Print Assumptions C26_wrong_buffer_is_never_repaired.

(** ** C27 *)
Theorem C27_in_sample_equals_out_of_sample : forall X y nrm h0 os h t v t',
  clean X -> tree_reached X y nrm h0 os h t -> cache_current os ->
  tree_predict h t = Ok (v, t') -> tree_predict_out h t X = Ok v.
Proof.
  intros X y nrm h0 os h t v t' Hcl Hr Hc Hp.
  assert (Hn : no_nan X) by (intros r c Hr' Hc'; apply (Hcl r c Hr' Hc')).
  destruct (tree_reached_inv _ _ _ _ _ _ _ Hn Hr) as (a&H&_).
  pose proof (cache_current_ok _ _ _ _ _ _ _ Hn Hr Hc) as Hok.
  rewrite (predict_correct _ _ _ _ _ _ _ Hn H Hok Hp), (tree_predict_out_spec _ _ _ _ _ _ H (le_n _)).
  f_equal. unfold insample. apply map_ext_in. intros r Hr'. unfold out_value.
  replace (row_clean (mx_ncols X) r) with true; auto. symmetry. apply row_clean_iff. intros c Hc'. apply Hcl; auto.
Qed.
Print Assumptions C27_in_sample_equals_out_of_sample.
Example C27_case : cache_current tx_os /\ answer (tree_predict tx_h tx_t) = tree_predict_out tx_h tx_t tx_X.
Proof.
  split; [|vm_compute; reflexivity]. right.
  exists [TPredict; TSampleGrow [0; 0; 2]; TSetValue 1 7%R; TPredict], (TSampleGrow [1; 0; 0]), [TDiscardGrow [0; 0; 0]; TPredict].
  repeat split; repeat constructor.
Qed.

(** ** C28 *)
Theorem C28_update_y : forall X y nrm h0 os h t y',
  no_nan X -> tree_reached X y nrm h0 os h t -> length y' = length (mx_rows X) ->
  exists h', tree_update_y h t (Some y') = Ok (h', Tr (tr_nodes t) false (tr_pred t)) /\
    (forall j, ~ In j (tr_nodes t) -> h_get h' j = h_get h j) /\
    (forall j, In j (tr_nodes t) -> exists k s s' d tc,
       h_get h j = Some (Nd k (SFull s) d) /\ h_get h' j = Some (Nd k (SFull s') d) /\
       sp_cc s' = sp_cc s /\ d_X (sp_data s') = d_X (sp_data s) /\
       t_y (d_y (sp_data s')) = Some y' /\
       summed_y (d_y (sp_data s')) = Ok (sum_over (in_nodeb s) y' (length y'), tc)).
Proof.
  intros X y nrm h0 os h t y' Hn Hr Hl. destruct (tree_reached_inv _ _ _ _ _ _ _ Hn Hr) as (a&H&_).
  destruct (update_y_step _ _ _ _ _ (Some y') H) as (h1&E&_&G&H1). { intros y1 E; injection E as <-; auto. }
  exists h1. split; auto. split.
  - intros j Hj. rewrite G. destruct (mem j (tr_nodes t)) eqn:Em; auto. apply mem_in in Em. tauto.
  - intros j Hj. pose proof (G j) as Gj. rewrite (proj2 (mem_in _ _) Hj) in Gj.
    destruct (ti_node _ _ _ _ _ _ j (ti_ok _ _ _ _ _ H1) (proj1 (ti_in _ _ _ _ _ _ H) Hj)) as (k&s'&d&cj&E'&Hs').
    destruct (ti_node _ _ _ _ _ _ j (ti_ok _ _ _ _ _ H) (proj1 (ti_in _ _ _ _ _ _ H) Hj)) as (k0&s&d0&cj0&E0&Hs).
    rewrite E0, E' in Gj. simpl in Gj. injection Gj as -> -> ->.
    exists k0, s. eexists. exists d0.
    destruct (sum_exact X (Some y') cj _ Hs' y' eq_refl) as (Ey&tc&Esum).
    exists tc. split; auto. split; [exact E'|]. split; auto. split; auto. split; auto.
    rewrite Hl. exact Esum.
Qed.
Print Assumptions C28_update_y.
Example C28_case : match tree_update_y tx_h tx_t (Some [1; 1; 1; 1; 1; 1]%R) with Ok (h', _) => is_leaf h' 4 = true | _ => False end.
Proof. vm_compute. reflexivity. Qed.

(** ** C39 *)
Theorem C39_proposals_legal : forall X y nrm h0 os h t limit r m h1 r1,
  no_nan X -> tree_reached X y nrm h0 os h t ->
  propose limit h t r = Ok (m, h1, r1) ->
  (legal_grow X h t m h1 \/ legal_prune h t m h1) /\
  (forall j, j < h_next h -> h_get h1 j = h_get h j).
Proof.
  intros X y nrm h0 os h t limit r m h1 r1 Hn Hr E. destruct (tree_reached_inv _ _ _ _ _ _ _ Hn Hr) as (a&H&_).
  destruct (propose_legal _ _ _ _ _ _ _ _ _ _ Hn H E) as [A [B C]]. auto.
Qed.
Print Assumptions C39_proposals_legal.
Definition kind_of (x : res (mutation * heap * rng)) : option mutation :=
  match x with Ok (m, _, _) => Some m | _ => None end.
Example C39_case : kind_of (propose 5 tx_h tx_t (Rng [true] [0; 0; 0] [] [] [])) = Some (Mu MGrow 1 12) /\
  kind_of (propose 5 tx_h tx_t (Rng [false] [0] [] [] [])) = Some (Mu MPrune 6 10).
Proof. vm_compute. auto. Qed.

(** ** C40 *)
(** no move: propose uses up the method draws, then ends in RecursionError *)
Theorem C40_no_move_never_returns : forall limit h t r,
  splittable_leaf_nodes h t = [] -> prunable_decision_nodes h t = [] ->
  propose limit h t r = if limit <=? length (rg_method r) then Raise ERecursionError else NoDraws.
Proof.
  induction limit as [|limit IH]; intros h t r Hs Hp; simpl; auto.
  destruct (rg_method r) as [|b bs] eqn:Em; auto.
  assert (E : (if b then sample_grow_mutation h t (rg_index r) else sample_prune_mutation h t (rg_index r)) =
     if b then Raise ENoSplittableVariable else Raise ENoPrunableNode).
  { unfold sample_grow_mutation, random_splittable_leaf_node, sample_prune_mutation, random_prunable_decision_node.
    rewrite Hs, Hp. destruct b; reflexivity. }
  rewrite E. destruct b; rewrite IH; auto.
Qed.
Print Assumptions C40_no_move_never_returns.
(** every reachable tree without split candidates and with one node is such a tree; with at most two
    training rows there is no other *)
Theorem C40_two_row_training_sets : forall X y nrm h0 os h t limit r,
  no_nan X -> length (mx_rows X) <= 2 -> tree_reached X y nrm h0 os h t -> Forall proposed_op os ->
  splittable_leaf_nodes h t = [] /\ prunable_decision_nodes h t = [] /\
  propose limit h t r = (if limit <=? length (rg_method r) then Raise ERecursionError else NoDraws).
Proof.
  intros X y nrm h0 os h t limit r Hn Hl Hr Hprop.
  assert (Hno : forall h t y1 a, tree_inv h X (Some y1) t a -> splittable_leaf_nodes h t = []).
  { clear - Hn Hl. intros h t y1 a H. destruct (splittable_leaf_nodes h t) as [|i l] eqn:E; auto. exfalso.
    destruct (splittable_leaf _ _ _ _ _ i H) as (w&s&d&ci&_&_&_&_&Hs&Hsp); [rewrite E; simpl; auto|].
    apply (any_meaning X _ ci s Hs) in Hsp as (v&Hv). rewrite (two_rows_nothing X _ ci s Hn Hs) in Hv; auto.
    assert (Hle : forall p k, count p k <= k) by (induction k; simpl; auto; destruct (p k); lia).
    eapply Nat.le_trans; [apply Hle|auto]. }
  assert (Hp : prunable_decision_nodes h t = []).
  { apply (C22_only_stumps_unprunable _ _ _ _ _ _ _ Hn Hr).
    pose proof Hr as (Hlen&Hs&s&Hroot&Hrun). rewrite Hlen in Hs.
    pose proof (start_inv X y nrm h0 s Hlen Hroot) as H0.
    assert (Hst : exists j, tr_nodes (snd (start_tree h0 s)) = [j] /\ is_leaf (fst (start_tree h0 s)) j = true).
    { exists (h_next h0). unfold start_tree, is_leaf. simpl. rewrite Nat.eqb_refl. auto. }
    revert H0 Hst Hrun Hprop Hs. generalize (fst (start_tree h0 s)) (snd (start_tree h0 s)).
    generalize (start_target y nrm). generalize (ALeaf (h_next h0)).
    clear Hroot Hr. induction os as [|o os IH]; intros a0 y0 h1 t1 H0 Hst Hrun Hpr Hsn; simpl in Hrun.
    - injection Hrun as <- <-. auto.
    - inversion Hpr as [|? ? Hpo Hpos]; subst. inversion Hsn as [|? ? Hso Hsos]; subst.
      destruct (tree_do h1 t1 o) as [[h2 t2]| |] eqn:Ed; try discriminate. cbn [rbind] in Hrun.
      assert (Hm : ~ mutates o).
      { intros Hm. assert (Hpn : prunable_decision_nodes h1 t1 = []).
        { destruct Hst as (j&Ej&Hlf). unfold prunable_decision_nodes, decision_nodes. rewrite Ej. simpl.
          unfold is_leaf, is_dec in *. destruct (h_get h1 j) as [[[w|l1 r1] s1 d1]|]; auto; discriminate. }
        destruct o; simpl in Hm, Hpo; try tauto; simpl in Ed;
          unfold sample_grow_mutation, random_splittable_leaf_node, sample_prune_mutation, random_prunable_decision_node in Ed;
          rewrite ?(Hno _ _ _ _ H0), ?Hpn in Ed; simpl in Ed; discriminate. }
      destruct (quiet_step _ _ _ _ _ _ _ _ Hn H0 Hso Hm Ed) as [E1 E2].
      destruct (tree_run_inv X [o] Hn h1 _ t1 a0 h2 t2 H0) as (a2&H2'&_); [constructor; auto|simpl; rewrite Ed; auto|].
      apply (IH a2 _ h2 t2 H2'); auto. destruct Hst as (j&Ej&Hlf). exists j. rewrite E1, E2; auto. rewrite Ej; simpl; auto. }
  destruct (tree_reached_inv _ _ _ _ _ _ _ Hn Hr) as (a&H&_).
  split; [eapply Hno; eauto|]. split; auto. apply C40_no_move_never_returns; auto. eapply Hno; eauto.
Qed.
Print Assumptions C40_two_row_training_sets.
Lemma choose_first {A} (d x : A) l : choose d (x :: l) 0 = x.
Proof. unfold choose. rewrite Nat.mod_0_l by discriminate. reflexivity. Qed.
(** a move exists: some draws make propose return *)
Theorem C40_some_draw_returns : forall X y nrm h0 os h t limit,
  no_nan X -> tree_reached X y nrm h0 os h t -> 0 < limit ->
  splittable_leaf_nodes h t <> [] \/ decision_nodes h t <> [] ->
  exists r m h1 r1, propose limit h t r = Ok (m, h1, r1).
Proof.
  intros X y nrm h0 os h t limit Hn Hr Hl Hm. destruct (tree_reached_inv _ _ _ _ _ _ _ Hn Hr) as (a&H&_).
  destruct limit as [|limit]; [lia|]. destruct Hm as [Hm|Hm].
  - destruct (splittable_leaf_nodes h t) as [|i ns] eqn:En; [congruence|].
    destruct (splittable_leaf _ _ _ _ _ i H) as (w&s&d&ci&Hi&Hlf&Hf&Eg&Hs&Hsp); [rewrite En; simpl; auto|].
    pose proof Hsp as Hsp'. apply (any_meaning X _ ci s Hs) in Hsp' as (v0&Hv0).
    destruct (fst (splittable_variables (d_X (sp_data s)))) as [|v vs] eqn:Ev; [destruct Hv0|].
    assert (Hvin : In v (fst (splittable_variables (d_X (sp_data s))))) by (rewrite Ev; simpl; auto).
    destruct (rsv_escape X _ ci s Hn Hs v Hvin) as (dd&_&Hdd).
    assert (Hmax : exists mm c', max_value_of_column (d_X (sp_data s)) v = Ok (mm, c')).
    { destruct (max_value_of_column (d_X (sp_data s)) v) as [[mm c']|e|] eqn:Emx; [eauto| |].
      - exfalso. pose proof Hvin as Hv1. apply (offered_varies X _ ci s Hn Hs) in Hv1 as (Hvc&k&_&Hk&_).
        apply (max_raises X _ ci s Hn Hs v e Hvc) in Emx as [_ Emx]. exact (Emx k Hk).
      - exfalso. unfold max_value_of_column in Emx. destruct (_ <=? _); [discriminate|].
        destruct (nth v (cm_max (d_X (sp_data s))) None); [discriminate|].
        unfold list_max in Emx. destruct (get_column (d_X (sp_data s)) v); discriminate. }
    destruct Hmax as (mm&c'&Emx).
    destruct (Hdd [] [] mm c' Emx (Forall_nil _)) as (x&Ex). simpl in Ex.
    exists (Rng [true] [0; 0; dd] [] [] []). simpl. unfold sample_grow_mutation, random_splittable_leaf_node.
    rewrite En. unfold np_choice at 1. cbn [rbind]. rewrite choose_first.
    unfold sample_split_node, node_data, node_split. rewrite Eg. unfold sample_split_condition. rewrite Ev.
    unfold np_choice at 1. cbn [rbind]. rewrite choose_first. rewrite Ex. cbn [rbind].
    change (SC v x OpLe None None) with (fresh_le v x). change (SC v x OpGt None None) with (fresh_gt v x).
    destruct (sampled_fills _ _ _ _ _ _ _ _ Hn Hs Ex) as (Hx&_).
    apply (offered_varies X _ ci s Hn Hs) in Hvin as (Hv&_).
    destruct (split_node_total h X _ i w s d ci v x Hn Eg Hs Hx Hv) as (p&h1&Esp&Egm).
    { eapply nodes_below; eauto. }
    rewrite Esp. cbn [rbind]. rewrite Egm. cbn [rbind]. eauto.
  - assert (Hpn : prunable_decision_nodes h t <> []).
    { intros E. apply (C22_only_stumps_unprunable _ _ _ _ _ _ _ Hn Hr) in E as (j&Ej&Hlf). apply Hm.
      unfold decision_nodes. rewrite Ej. simpl. unfold is_leaf, is_dec in *.
      destruct (h_get h j) as [[[w|l r] s d]|]; auto; discriminate. }
    destruct (sample_prune_mutation h t [0]) as [[[m h1] r1]|e|] eqn:E.
    + exists (Rng [false] [0] [] [] []). simpl. rewrite E. eauto.
    + exfalso. apply (proj2 (C23_proposals_never_rejected _ _ _ _ _ _ _ [0] Hn Hr)) in E as [_ E]. auto.
    + exfalso. revert E. unfold sample_prune_mutation, random_prunable_decision_node.
      destruct (prunable_decision_nodes h t) as [|i ns]; [congruence|]. unfold np_choice. cbn [rbind].
      destruct (h_get h _) as [n|]; [|discriminate]. unfold h_alloc at 1, prune_mutation. destruct (negb _ || negb _); discriminate.
Qed.
Print Assumptions C40_some_draw_returns.
Example C40_case : exists s, root_split (Mx 1 [[fz 1]; [fz 2]]) [1; 2]%R false = Ok s /\
  propose 3 (fst (start_tree h_empty s)) (snd (start_tree h_empty s)) (Rng [true; false; true; true] [0; 0; 0] [] [] []) = Raise ERecursionError.
Proof. eexists. split; [reflexivity|]. vm_compute. reflexivity. Qed.
