(** Properties C72, C74 and C75: which moves the tree sampler can propose, how likely it proposes them, and what the
    transition ratio makes of that. *)
From Coq Require Import Reals Lra Permutation.
From Verif Require Import Base Fl Ext MData MSplit MTree MSampler MHist MTreeHist Spec SpecTree SpecSampler SpecPropose LFl LList
  PData PSplit PDataProps PCond PTree PPred PTreeHist PTreeProps PTreeProps2 PSampler PSampler2 PSampler3 PPropose PPropose2 PCounts PPropose3
  Properties_Tree Properties_Sampler.
Local Open Scope R_scope.

Lemma may_grow_splittable h X y t a i v x : tree_inv h X (Some y) t a -> may_grow X h t i v x -> In i (splittable_leaf_nodes h t).
Proof.
  intros H (Hi&s&Es&Hv&_). destruct (leaf_region _ _ _ _ _ _ H Hi) as (cs&d&w&s'&_&Eg&Hs).
  unfold node_split in Es. rewrite Eg in Es. injection Es as ->. unfold splittable_leaf_nodes. apply filter_In. split; auto.
  unfold is_splittable, node_data, node_split. rewrite Eg. apply (any_meaning X _ cs s Hs). eauto.
Qed.
Lemma sampled_may_grow h X y t a ds m h1 ds' : no_nan X -> tree_inv h X (Some y) t a -> sample_grow_mutation h t ds = Ok (m, h1, ds') ->
  exists c, dec_most_recent h1 (mu_updated m) = Some c /\ mu_kind m = MGrow /\ may_grow X h t (mu_existing m) (sc_var c) (sc_val c).
Proof.
  intros Hn H E. destruct (grow_view _ _ _ _ _ _ _ _ _ Hn H E) as (i&u&l&r&cs&d&v&x&->&Hf&Hch&Haf&Hin&_&_&Hsp&_).
  destruct (family_recent _ _ _ _ _ _ _ _ _ _ _ Hf) as (c&Ec&<-&<-&_). exists c. split; auto. split; auto.
  apply sample_grow_spec in E as (i'&v'&x'&p'&s&i1&i2&Hi&Es&Hv&Hrv&Hsp'&Hg). 
  assert (i' = i) by (unfold grow_mutation in Hg; destruct (is_leaf h1 i'); simpl in Hg; [|discriminate]; injection Hg; auto). subst i'.
  destruct (splittable_leaf _ _ _ _ _ _ H Hi) as (w&s0&d0&ci&Hi'&Hl&Hf0&Eg&Hs0&_). rewrite Haf in Hf0. injection Hf0 as <- <-.
  assert (s0 = s) as -> by (unfold node_split in Es; rewrite Eg in Es; congruence).
  split; [unfold leaf_nodes; now apply filter_In|]. exists s. split; auto.
  destruct (sampled_fills _ _ _ _ _ _ _ _ Hn Hs0 Hrv) as (Hx&F1&F2).
  assert (Hvx : v' = sc_var c /\ x' = sc_val c).
  { pose proof (split_node_spec _ _ _ _ _ _ Hsp') as (k&s1&d1&s2&sl&sr&G1&G2&G3&G4&G5&G6&G7&G8). rewrite Eg in G1. injection G1 as <- <- <-.
    destruct (split_children_sinv _ _ _ _ _ _ _ _ _ Hn Hx Hs0 G2) as (_&_&Hsl&_). destruct (sinv_recent _ _ _ _ _ Hsl) as (c'&Ec'&Erc).
    assert (u = p') by (unfold grow_mutation in Hg; destruct (is_leaf h1 i); simpl in Hg; [|discriminate]; injection Hg; auto). subst.
    assert (Ed : dec_most_recent h1 (S (S (h_next h))) = Some c') by (unfold dec_most_recent, left_child; rewrite G8, G6; exact Ec').
    rewrite Ec in Ed. injection Ed as <-. unfold rule_of in Erc. injection Erc as -> -> _. auto. }
  destruct Hvx as [-> ->]. split; auto. apply (chosen_rows X _ cs s _ _ Hn Hs0 Hch F2).
Qed.

(** ** C72 *)
(** A grow can be proposed (by the right draws) exactly if it splits a leaf in an offered column, at a value a row of
    the leaf has, with another row of the leaf above it. *)
Theorem C72_grow : forall X y nrm h0 os h t limit i v x, no_nan X -> tree_reached X y nrm h0 os h t -> (0 < limit)%nat ->
  ((exists r m h1 r1 c, propose limit h t r = Ok (m, h1, r1) /\ mu_kind m = MGrow /\ mu_existing m = i /\
      dec_most_recent h1 (mu_updated m) = Some c /\ sc_var c = v /\ sc_val c = x) <-> may_grow X h t i v x).
Proof.
  intros X y nrm h0 os h t limit i v x Hn Hr Hl. destruct (tree_reached_inv _ _ _ _ _ _ _ Hn Hr) as (a&H&_). split.
  - intros (r&m&h1&r1&c&E&Hk&<-&Ec&<-&<-). apply propose_cases in E as [(idx'&E&_)|(idx'&E&_)].
    + destruct (sampled_may_grow _ _ _ _ _ _ _ _ _ Hn H E) as (c'&Ec'&_&Hm). rewrite Ec in Ec'. injection Ec' as <-. exact Hm.
    + exfalso. destruct (prune_view _ _ _ _ _ _ _ _ _ H E) as (i&l&r'&cs&d&v&x&->&_). discriminate.
  - intros Hm. pose proof (may_grow_splittable _ _ _ _ _ _ _ _ H Hm) as Hi. destruct Hm as (Hlf&s&Es&Hv&Hx&Hb).
    destruct (splittable_leaf _ _ _ _ _ _ H Hi) as (w&s0&d&ci&_&_&_&Eg&Hs&_).
    assert (s0 = s) as -> by (unfold node_split in Es; rewrite Eg in Es; congruence).
    pose proof (grow_chance h X _ t a i v x s Hn H Hi Es Hv Hx Hb) as Hc.
    destruct (rsv_share X (Some (last_tree_target (start_target y nrm) os)) ci s v x (rows_in X s) 0 Hn Hs Hv Hx Hb) as (Hc1&Hc2&_); [|exists 1%nat; lia|].
    { destruct Hx as (jx&Hjx&_). apply count_pos with (i := jx); [apply (in_node_lt X _ ci s Hs); exact Hjx|apply in_nodeb_iff; exact Hjx]. }
    apply chance_pos in Hc as (ds&Hds).
    + unfold proposes_grow in Hds. destruct (sample_grow_mutation h t ds) as [[[m h1] ds']| |] eqn:E; try discriminate.
      destruct (sampled_may_grow _ _ _ _ _ _ _ _ _ Hn H E) as (c&Ec&Hk&_). rewrite Ec in Hds.
      apply andb_true_iff in Hds as [E1 Hds]. apply andb_true_iff in Hds as [E2 E3]. apply Nat.eqb_eq in E1, E2. apply feqb_eq in E3 as [E3 _].
      destruct limit as [|limit]; [lia|]. exists (Rng [true] ds [] [] []), m, h1. eexists _, c. cbn [propose rg_method rg_index]. rewrite E. auto 8.
    + assert (0 < INR (length (splittable_leaf_nodes h t))) by (apply lt_0_INR; destruct (splittable_leaf_nodes h t); [destruct Hi|simpl; lia]).
      assert (0 < INR (length (fst (splittable_variables (d_X (sp_data s)))))) by (apply lt_0_INR; destruct (fst (splittable_variables (d_X (sp_data s)))); [destruct Hv|simpl; lia]).
      assert (0 < INR (rows_with X s v x)) by (apply lt_0_INR; lia). assert (0 < INR (rows_below_max X s v)) by (apply lt_0_INR; lia).
      apply Rmult_lt_0_compat; [now apply Rinv_0_lt_compat|]. apply Rmult_lt_0_compat; [now apply Rinv_0_lt_compat|]. now apply Rdiv_lt_0_compat.
Qed.
Print Assumptions C72_grow.
Lemma may_prune_in h t i : may_prune h t i <-> In i (prunable_decision_nodes h t).
Proof.
  unfold may_prune, prunable_decision_nodes, decision_nodes. rewrite !filter_In, <- is_prunable_iff. split; [|tauto].
  intros [A B]. split; auto. split; auto. now apply prunable_dec.
Qed.
(** A prune can be proposed exactly of the decision nodes with two leaf children. *)
Theorem C72_prune : forall X y nrm h0 os h t limit i, no_nan X -> tree_reached X y nrm h0 os h t -> (0 < limit)%nat ->
  ((exists r m h1 r1, propose limit h t r = Ok (m, h1, r1) /\ mu_kind m = MPrune /\ mu_existing m = i) <-> may_prune h t i).
Proof.
  intros X y nrm h0 os h t limit i Hn Hr Hl. destruct (tree_reached_inv _ _ _ _ _ _ _ Hn Hr) as (a&H&_). split.
  - intros (r&m&h1&r1&E&Hk&<-). apply propose_cases in E as [(idx'&E&_)|(idx'&E&_)].
    + destruct (sampled_may_grow _ _ _ _ _ _ _ _ _ Hn H E) as (c'&Ec'&Hk'&_). rewrite Hk in Hk'. discriminate.
    + destruct (prune_view _ _ _ _ _ _ _ _ _ H E) as (i&l&r'&cs&d&v&x&->&_&_&_&Hin&_). now apply may_prune_in.
  - intros Hm. apply may_prune_in in Hm as Hi. pose proof (prune_chance _ _ _ _ _ _ H Hi) as Hc.
    apply chance_pos in Hc as (ds&Hds).
    + unfold proposes_prune in Hds. destruct (sample_prune_mutation h t ds) as [[[m h1] ds']| |] eqn:E; try discriminate. apply Nat.eqb_eq in Hds.
      destruct limit as [|limit]; [lia|]. exists (Rng [false] ds [] [] []), m, h1. eexists. cbn [propose rg_method rg_index]. rewrite E.
      split; [reflexivity|]. split; auto. destruct (prune_view _ _ _ _ _ _ _ _ _ H E) as (i'&l&r'&cs&d&v&x&->&_). reflexivity.
    + apply Rinv_0_lt_compat, lt_0_INR. destruct (prunable_decision_nodes h t); [destruct Hi|simpl; lia].
Qed.
Print Assumptions C72_prune.
(** The method is drawn again until it is possible: a tree that cannot be pruned is always grown, one that cannot be
    grown is always pruned, whatever the configured probabilities. *)
Theorem C72_only_possible_methods : forall limit h t r m h1 r1, propose limit h t r = Ok (m, h1, r1) ->
  (prunable_decision_nodes h t = [] -> mu_kind m = MGrow) /\ (splittable_leaf_nodes h t = [] -> mu_kind m = MPrune).
Proof.
  intros limit h t r m h1 r1 E. apply propose_cases in E as [(idx'&E&_)|(idx'&E&_)].
  - split.
    + intros _. apply sample_grow_spec in E as (i&v&x&p&s&i1&i2&_&_&_&_&_&Hg). unfold grow_mutation in Hg. destruct (is_leaf h1 i); simpl in Hg; [|discriminate]. now injection Hg as <-.
    + intros Z. apply sample_grow_spec in E as (i&v&x&p&s&i1&i2&Hi&_). rewrite Z in Hi. destruct Hi.
  - split.
    + intros Z. apply sample_prune_spec in E as (i&n&Hi&_). rewrite Z in Hi. destruct Hi.
    + intros _. apply sample_prune_spec in E as (i&n&_&_&_&Hp). unfold prune_mutation in Hp.
      match type of Hp with context [is_dec ?a i] => destruct (is_dec a i), (is_prunable a i) end; simpl in Hp; try discriminate. now injection Hp as <-.
Qed.
Print Assumptions C72_only_possible_methods.
(** the six-row training set of Properties_Sampler: the stump can be split at 1..5, not at 6 *)
Example C72_case : may_grow zx_X (fst zx_start) (snd zx_start) 0 0 (fz 5) /\ ~ may_grow zx_X (fst zx_start) (snd zx_start) 0 0 (fz 6) /\
  may_prune (fst (fst zx_after)) (snd (fst zx_after)) 3.
Proof.
  split; [|split].
  - split; [vm_compute; auto|]. eexists. split; [reflexivity|]. split; [vm_compute; auto|]. split; [exists 4%nat; split; vm_compute; reflexivity|].
    exists 5%nat. split; vm_compute; reflexivity.
  - intros (_&s&_&_&_&j&_&Hj). unfold value_in in Hj. do 6 (destruct j as [|j]; [vm_compute in Hj; discriminate|]). destruct j; vm_compute in Hj; discriminate.
  - split; [vm_compute; auto|]. eexists _, _. repeat split; vm_compute; reflexivity.
Qed.

(** ** C74 *)
(** The exact probability with which a legal grow is proposed (given that the method is grow). *)
Theorem C74_grow_probability : forall X y nrm h0 os h t i v x s, no_nan X -> tree_reached X y nrm h0 os h t ->
  may_grow X h t i v x -> node_split h i = Some s ->
  let q := / INR (length (splittable_leaf_nodes h t)) * (/ INR (length (fst (splittable_variables (d_X (sp_data s))))) *
             (INR (rows_with X s v x) / INR (rows_below_max X s v))) in
  chance (proposes_grow h t i v x) q /\ 0 < q /\ (0 < rows_with X s v x <= rows_below_max X s v)%nat /\ (rows_below_max X s v < rows_in X s)%nat.
Proof.
  intros X y nrm h0 os h t i v x s Hn Hr Hm Es q. destruct (tree_reached_inv _ _ _ _ _ _ _ Hn Hr) as (a&H&_).
  pose proof (may_grow_splittable _ _ _ _ _ _ _ _ H Hm) as Hi. destruct Hm as (Hlf&s'&Es'&Hv&Hx&Hb). rewrite Es in Es'. injection Es' as <-.
  destruct (splittable_leaf _ _ _ _ _ _ H Hi) as (w&s0&d&ci&_&_&_&Eg&Hs&_).
  assert (s0 = s) as -> by (unfold node_split in Es; rewrite Eg in Es; congruence).
  destruct (rsv_share X (Some (last_tree_target (start_target y nrm) os)) ci s v x (rows_in X s) 0 Hn Hs Hv Hx Hb) as (Hc1&Hc2&_); [|exists 1%nat; lia|].
  { destruct Hx as (jx&Hjx&_). apply count_pos with (i := jx); [apply (in_node_lt X _ ci s Hs); exact Hjx|apply in_nodeb_iff; exact Hjx]. }
  split; [apply (grow_chance h X _ t a i v x s Hn H Hi Es Hv Hx Hb)|]. split; [|split; lia].
  assert (0 < INR (length (splittable_leaf_nodes h t))) by (apply lt_0_INR; destruct (splittable_leaf_nodes h t); [destruct Hi|simpl; lia]).
  assert (0 < INR (length (fst (splittable_variables (d_X (sp_data s)))))) by (apply lt_0_INR; destruct (fst (splittable_variables (d_X (sp_data s)))); [destruct Hv|simpl; lia]).
  assert (0 < INR (rows_with X s v x)) by (apply lt_0_INR; lia). assert (0 < INR (rows_below_max X s v)) by (apply lt_0_INR; lia).
  apply Rmult_lt_0_compat; [now apply Rinv_0_lt_compat|]. apply Rmult_lt_0_compat; [now apply Rinv_0_lt_compat|]. now apply Rdiv_lt_0_compat.
Qed.
Print Assumptions C74_grow_probability.
(** Prunes are uniform over the prunable nodes. *)
Theorem C74_prune_probability : forall X y nrm h0 os h t i, no_nan X -> tree_reached X y nrm h0 os h t -> may_prune h t i ->
  chance (proposes_prune h t i) (/ INR (length (prunable_decision_nodes h t))) /\ (0 < length (prunable_decision_nodes h t))%nat.
Proof.
  intros X y nrm h0 os h t i Hn Hr Hm. destruct (tree_reached_inv _ _ _ _ _ _ _ Hn Hr) as (a&H&_). apply may_prune_in in Hm.
  split; [apply (prune_chance _ _ _ _ _ _ H Hm)|]. destruct (prunable_decision_nodes h t); [destruct Hm|simpl; lia].
Qed.
Print Assumptions C74_prune_probability.
(** a probability is unique *)
Theorem C74_chance_unique : forall P q q', chance P q -> chance P q' -> q = q'.
Proof. exact chance_unique. Qed.
Print Assumptions C74_chance_unique.
(** The code's value for the probability of the grow it proposes is smaller than the probability, by the share of
    the node's rows that are below the maximum of the column. *)
Theorem C74_code_understates : forall X y nrm h0 os h t idx m h1 idx1, no_nan X -> tree_reached X y nrm h0 os h t ->
  sample_grow_mutation h t idx = Ok (m, h1, idx1) ->
  exists c s l q, dec_most_recent h1 (mu_updated m) = Some c /\ node_split h (mu_existing m) = Some s /\
    log_probability_split_within_tree h1 t (mu_existing m) (mu_updated m) = Ok (XFin l) /\
    chance (proposes_grow h t (mu_existing m) (sc_var c) (sc_val c)) q /\
    exp l = q * (INR (rows_below_max X s (sc_var c)) / INR (rows_in X s)) /\ exp l < q.
Proof.
  intros X y nrm h0 os h t idx m h1 idx1 Hn Hr E. destruct (tree_reached_inv _ _ _ _ _ _ _ Hn Hr) as (a&H&_).
  destruct (sampled_may_grow _ _ _ _ _ _ _ _ _ Hn H E) as (c&Ec&Hk&Hm). pose proof Hm as (_&s&Es&_). exists c, s.
  destruct (C74_grow_probability _ _ _ _ _ _ _ _ _ _ _ Hn Hr Hm Es) as (Hc&Hq&Hw&Hbm). cbv zeta in *.
  pose proof (may_grow_splittable _ _ _ _ _ _ _ _ H Hm) as Hspl.
  destruct (grow_view _ _ _ _ _ _ _ _ _ Hn H E) as (i&u&l&r&cs&d&v&x&->&Hf&Hch&Haf&Hin&Hfr&_&Hsp&_). cbn [mu_existing mu_updated] in *.
  destruct (family_recent _ _ _ _ _ _ _ _ _ _ _ Hf) as (c'&Ec'&<-&<-&_). rewrite Ec in Ec'. injection Ec' as <-.
  pose proof Hf as (ke&se&_&_&_&_&_&Ee&_).
  assert (Hse : se = s).
  { destruct (splittable_leaf _ _ _ _ _ _ H Hspl) as (w&s0&d0&ci&Hi'&_&_&Eg&_). destruct Hfr as [_ Hold].
    rewrite Hold in Ee by (eapply nodes_below; eauto). unfold node_split in Es. rewrite Eg in Es, Ee. congruence. } subst se.
  destruct (pick_exact _ _ _ _ _ _ _ _ _ _ _ _ _ Hn Hf Hch Ee) as (Hv&_&Hri&Ep).
  destruct (frame_lists _ _ _ _ _ _ H Hfr) as (_&E1&_&_).
  assert (HL : 0 < INR (length (splittable_leaf_nodes h t))) by (apply lt_0_INR; destruct (splittable_leaf_nodes h t); [destruct Hspl|simpl; lia]).
  assert (HV : 0 < INR (length (fst (splittable_variables (d_X (sp_data s)))))) by (apply lt_0_INR; destruct (fst (splittable_variables (d_X (sp_data s)))); [destruct Hv|simpl; lia]).
  assert (HW : 0 < INR (rows_with X s (sc_var c) (sc_val c))) by (apply lt_0_INR; lia). assert (HB : 0 < INR (rows_below_max X s (sc_var c))) by (apply lt_0_INR; lia).
  assert (HR : INR (rows_below_max X s (sc_var c)) < INR (rows_in X s)) by (apply lt_INR; lia).
  eexists _, _. split; auto. split; auto. split.
  { unfold log_probability_split_within_tree. rewrite Ep. cbn [rbind]. unfold n_splittable_leaf_nodes. rewrite E1. rewrite xlog_fin by auto. simpl. reflexivity. }
  split; [exact Hc|].
  set (L := INR (length (splittable_leaf_nodes h t))) in *. set (V := INR (length (fst (splittable_variables (d_X (sp_data s)))))) in *.
  set (W := INR (rows_with X s (sc_var c) (sc_val c))) in *. set (B := INR (rows_below_max X s (sc_var c))) in *. set (R0 := INR (rows_in X s)) in *.
  assert (Ex : exp (- ln L + ln (/ V * (W / R0))) = / L * (/ V * (W / B)) * (B / R0)).
  { assert (HP : 0 < / V * (W / R0)) by (apply Rmult_lt_0_compat; [now apply Rinv_0_lt_compat|]; apply Rdiv_lt_0_compat; lra).
    rewrite exp_plus, exp_Ropp, (exp_ln L HL), (exp_ln _ HP). field. lra. }
  split; [exact Ex|]. apply (Rle_lt_trans _ _ _ (Req_le _ _ Ex)). rewrite <- (Rmult_1_r (/ L * (/ V * (W / B)))) at 2. apply Rmult_lt_compat_l; auto.
  apply (Rmult_lt_reg_r R0); [lra|]. unfold Rdiv. rewrite Rmult_assoc, Rinv_l by lra. lra.
Qed.
Print Assumptions C74_code_understates.
Lemma zx_may : may_grow zx_X (fst zx_start) (snd zx_start) 0 0 (fz 2).
Proof.
  split; [vm_compute; auto|]. eexists. split; [reflexivity|]. split; [vm_compute; auto|]. split; [exists 1%nat; split; vm_compute; reflexivity|].
  exists 2%nat. split; vm_compute; reflexivity.
Qed.
(** six rows 1..6: each of 1..5 is proposed with probability 1/5; the code assumes 1/6 *)
Example C74_case : chance (proposes_grow (fst zx_start) (snd zx_start) 0 0 (fz 2)) (/ 5) /\
  exists l, log_probability_split_within_tree zx_h1 (snd zx_start) (mu_existing zx_m) (mu_updated zx_m) = Ok (XFin l) /\ exp l = / 6.
Proof.
  pose proof zx_may as Hm. pose proof Hm as (_&s&Es&_).
  assert (Z : forall s, node_split (fst zx_start) 0 = Some s -> length (fst (splittable_variables (d_X (sp_data s)))) = 1%nat /\
    rows_with zx_X s 0 (fz 2) = 1%nat /\ rows_below_max zx_X s 0 = 5%nat /\ rows_in zx_X s = 6%nat).
  { assert (G : option_map (fun s => (length (fst (splittable_variables (d_X (sp_data s)))), rows_with zx_X s 0 (fz 2), rows_below_max zx_X s 0, rows_in zx_X s))
                (node_split (fst zx_start) 0) = Some (1, 1, 5, 6)%nat) by (vm_compute; reflexivity).
    intros s' E'. rewrite E' in G. cbn [option_map] in G. injection G as G1 G2 G3 G4. exact (conj G1 (conj G2 (conj G3 G4))). }
  assert (HL : length (splittable_leaf_nodes (fst zx_start) (snd zx_start)) = 1%nat) by (vm_compute; reflexivity).
  destruct (C74_grow_probability _ _ _ _ _ _ _ _ _ _ _ zx_no_nan zx_reached Hm Es) as (Hc&_). cbv zeta in Hc.
  destruct (Z s Es) as (E1&E2&E3&E4). rewrite HL, E1, E2, E3 in Hc.
  assert (Hq : / INR 1 * (/ INR 1 * (INR 1 / INR 5)) = / 5) by (simpl; field). rewrite Hq in Hc. split; auto.
  destruct (C74_code_understates _ _ _ _ _ _ _ _ _ _ _ zx_no_nan zx_reached zx_grow_ok) as (c&s'&l&q&Ec&Es'&El&Hq'&Ex&_).
  assert (Em : mu_existing zx_m = 0%nat) by (vm_compute; reflexivity). rewrite Em in Es', Hq'.
  assert (Evx : option_map (fun c => (sc_var c, sc_val c)) (dec_most_recent zx_h1 (mu_updated zx_m)) = Some (0%nat, fz 2)) by (vm_compute; reflexivity).
  rewrite Ec in Evx. cbn [option_map] in Evx. injection Evx as Ev Ew. rewrite Ev, Ew in Hq'. rewrite (chance_unique _ _ _ Hq' Hc) in Ex.
  destruct (Z s' Es') as (F1&F2&F3&F4). rewrite Ev, F3, F4 in Ex. exists l. split; auto. rewrite Ex. simpl. field.
Qed.

(** ** C75 *)
(** The log transition ratio of a grow, against the log of the exact Hastings ratio (configured probability of the
    method times exact probability of the move, backwards over forwards). *)
Theorem C75_grow : forall X y nrm h0 os h t idx m h1 idx1 h2 t2 p, no_nan X -> tree_reached X y nrm h0 os h t ->
  sample_grow_mutation h t idx = Ok (m, h1, idx1) -> mutate h1 t m = (h2, t2, None) -> 0 < pa_pgrow p -> 0 < pa_pprune p ->
  let n := length (prunable_decision_nodes h t) in let n2 := length (prunable_decision_nodes h2 t2) in
  exists c s qf qb, dec_most_recent h1 (mu_updated m) = Some c /\ node_split h (mu_existing m) = Some s /\
    chance (proposes_grow h t (mu_existing m) (sc_var c) (sc_val c)) qf /\ chance (proposes_prune h2 t2 (mu_updated m)) qb /\ 0 < qf /\ 0 < qb /\
    log_transition_ratio h1 t m p =
      Ok (XFin (ln (pa_pprune p * qb / (pa_pgrow p * qf)) + ln (INR n2 / INR (n + 1)) + ln (INR (rows_in X s) / INR (rows_below_max X s (sc_var c))))) /\
    (0 < rows_below_max X s (sc_var c) < rows_in X s)%nat /\
    (sibling_is_leaf h t (mu_existing m) -> n2 = n) /\ (~ sibling_is_leaf h t (mu_existing m) -> n2 = (n + 1)%nat).
Proof.
  intros X y nrm h0 os h t idx m h1 idx1 h2 t2 p Hn Hr E Hmut Hpg Hpp n n2. destruct (tree_reached_inv _ _ _ _ _ _ _ Hn Hr) as (a&H&_).
  destruct (sampled_may_grow _ _ _ _ _ _ _ _ _ Hn H E) as (c&Ec&Hk&Hm). pose proof Hm as (Hleaf&s&Es&_).
  destruct (C74_grow_probability _ _ _ _ _ _ _ _ _ _ _ Hn Hr Hm Es) as (Hc&Hq&Hw&Hbm). cbv zeta in *.
  destruct (C74_code_understates _ _ _ _ _ _ _ _ _ _ _ Hn Hr E) as (c'&s'&l&q&Ec'&Es'&El&Hc'&Ex&_). rewrite Ec in Ec'. injection Ec' as <-. rewrite Es in Es'. injection Es' as <-.
  pose proof (chance_unique _ _ _ Hc' Hc) as Eq. rewrite <- Eq in Hq. clear Hc Eq. rename Hc' into Hc.
  destruct (grow_view _ _ _ _ _ _ _ _ _ Hn H E) as (i&u&li&ri&cs&d&v&x&->&Hf&Hch&Haf&Hin&Hfr&Hx&Hsp&Hg&_). cbn [mu_existing mu_updated] in *.
  destruct (grown_find _ _ _ _ _ _ _ _ _ _ _ _ _ Hn H Hx Hsp Hg Hmut) as (_&_&Hu&Hup&a2&H2&_).
  assert (Hup' : In u (prunable_decision_nodes h2 t2)) by (unfold prunable_decision_nodes, decision_nodes; rewrite !filter_In; split; auto; split; auto; now apply prunable_dec).
  pose proof (prune_chance _ _ _ _ _ _ H2 Hup') as Hcb. fold n2 in Hcb.
  assert (Hn2 : (0 < n2)%nat) by (unfold n2; destruct (prunable_decision_nodes h2 t2); [destruct Hup'|simpl; lia]).
  destruct (grow_counts _ _ _ _ _ _ _ _ _ _ _ _ _ Hn H Hx Hleaf Hsp Hg Hmut) as (Hcnt&_). fold n n2 in Hcnt.
  exists c, s, q, (/ INR n2). split; auto. split; auto. split; [exact Hc|]. split; [exact Hcb|]. split; auto.
  apply lt_0_INR in Hn2 as Hn2'. split; [now apply Rinv_0_lt_compat|]. split.
  - destruct (frame_lists _ _ _ _ _ _ H Hfr) as (_&_&_&E2).
    unfold log_transition_ratio, log_grow_transition_ratio. cbn [mu_kind mu_existing mu_updated]. rewrite El. cbn [rbind]. unfold py_div.
    destruct (Req_EM_T (pa_pgrow p) 0); [lra|]. cbn [rbind]. unfold n_prunable_decision_nodes. rewrite E2. fold n.
    assert (Hn1 : 0 < INR (n + 1)) by (apply lt_0_INR; lia).
    rewrite (xlog_fin (INR (n + 1))), (xlog_fin (pa_pprune p / pa_pgrow p)) by (auto; now apply Rdiv_lt_0_compat). simpl. f_equal. f_equal.
    assert (HB : 0 < INR (rows_below_max X s (sc_var c))) by (apply lt_0_INR; lia). assert (HR : 0 < INR (rows_in X s)) by (apply lt_0_INR; lia).
    assert (Hl : l = ln q + ln (INR (rows_below_max X s (sc_var c))) - ln (INR (rows_in X s))).
    { rewrite <- (ln_exp l), Ex, ln_mult, ln_div; auto; [lra|]. now apply Rdiv_lt_0_compat. }
    rewrite Hl. rewrite !ln_div; auto; try (apply Rmult_lt_0_compat; auto; now apply Rinv_0_lt_compat).
    rewrite !ln_mult, ln_Rinv; auto; [lra|]. now apply Rinv_0_lt_compat.
  - split; [lia|]. rewrite (sibling_iff _ _ _ _ _ _ H). destruct (apar i a); simpl in Hcnt; split; intros; try congruence; lia.
Qed.
Print Assumptions C75_grow.
(** ... of a prune (at least two splittable leaves; fewer: C38). *)
Theorem C75_prune : forall X y nrm h0 os h t idx m h1 idx1 h2 t2 p, no_nan X -> mx_rows X <> [] -> tree_reached X y nrm h0 os h t -> Forall proposed_op os ->
  sample_prune_mutation h t idx = Ok (m, h1, idx1) -> mutate h1 t m = (h2, t2, None) -> (2 <= length (splittable_leaf_nodes h t))%nat ->
  0 < pa_pgrow p -> 0 < pa_pprune p ->
  let n := length (splittable_leaf_nodes h t) in let n2 := length (splittable_leaf_nodes h2 t2) in
  exists c s l r qf qb, dec_most_recent h (mu_existing m) = Some c /\ node_split h (mu_existing m) = Some s /\
    left_child h (mu_existing m) = Some l /\ right_child h (mu_existing m) = Some r /\
    chance (proposes_prune h t (mu_existing m)) qf /\ chance (proposes_grow h2 t2 (mu_updated m) (sc_var c) (sc_val c)) qb /\ 0 < qf /\ 0 < qb /\
    log_transition_ratio h1 t m p =
      Ok (XFin (ln (pa_pgrow p * qb / (pa_pprune p * qf)) + ln (INR n2 / (INR n - 1)) - ln (INR (rows_in X s) / INR (rows_below_max X s (sc_var c))))) /\
    (0 < rows_below_max X s (sc_var c) < rows_in X s)%nat /\
    (n2 + (if is_splittable h l then 1 else 0) + (if is_splittable h r then 1 else 0) = n + 1)%nat.
Proof.
  intros X y nrm h0 os h t idx m h1 idx1 h2 t2 p Hn Hne Hr Hpo E Hmut Hns Hpg Hpp n n2.
  destruct (tree_reached_inv _ _ _ _ _ _ _ Hn Hr) as (a&H&Hfil&_). specialize (Hfil Hpo Hne).
  destruct (prune_view _ _ _ _ _ _ _ _ _ H E) as (i&li&ri&cs&d&v&x&->&Hf&Haf&Hch&Hin&Hfr&Hgm). specialize (Hch Hfil). cbn [mu_existing mu_updated] in *.
  pose proof E as E0. apply sample_prune_spec in E0 as (i'&nn&Hi'&Egi&Eh1&Hpm).
  assert (i' = i).
  { unfold prune_mutation in Hpm. match type of Hpm with context [is_dec ?b i'] => destruct (is_dec b i'), (is_prunable b i') end; simpl in Hpm; try discriminate. now injection Hpm. } subst i'.
  assert (Hmut0 := Hmut). rewrite Eh1 in Hmut0, Hpm.
  destruct (prune_counts _ _ _ _ _ _ _ _ _ _ H Egi Hpm Hmut0) as (ci&d'&v'&x'&jl&jr&s&a2&Haf'&El&Er&Enn&Hs&H2&_&Es2&Hul&_&Hcnt).
  rewrite Haf in Haf'. injection Haf' as <- <- <- <- <- <-.
  assert (Es : node_split h i = Some s) by (unfold node_split; rewrite Egi, Enn; reflexivity).
  destruct (family_recent _ _ _ _ _ _ _ _ _ _ _ Hf) as (c&Ec&Ev&Ew&_).
  assert (Ec0 : dec_most_recent h i = Some c).
  { destruct Hfr as [_ Hold]. assert (Hii : (i < h_next h)%nat) by (eapply nodes_below; eauto; unfold prunable_decision_nodes, decision_nodes in Hin; rewrite !filter_In in Hin; tauto).
    assert (Hll : (li < h_next h)%nat).
    { apply (ti_below _ _ _ _ _ H). apply (afind_sub _ _ _ _ _ _ _ Haf). simpl; auto. }
    revert Ec. unfold dec_most_recent, left_child. rewrite (Hold i Hii), Egi, Enn. cbv iota. now rewrite (Hold li Hll). }
  assert (Eu : h_get h1 (h_next h) = Some (Nd (KLeaf 0) (SFull s) d)) by (rewrite Eh1, Enn; simpl; now rewrite Nat.eqb_refl).
  destruct (pick_exact _ _ _ _ _ _ _ _ _ _ _ _ _ Hn Hf Hch Eu) as (Hv&Hw&Hri&Ep).
  assert (Hrows : (exists j, in_node s j /\ value_in X j v = x) /\ (exists j, in_node s j /\ flt x (value_in X j v) = true)).
  { apply (chosen_rows X _ cs s v x Hn Hs Hch). pose proof (filled_afind _ _ _ _ _ _ _ _ Hfil Haf) as (_&_&F). exact F. }
  destruct Hrows as [Hx Hb].
  assert (Hm : may_grow X h2 t2 (h_next h) v x) by (split; auto; exists s; auto).
  pose proof (may_grow_splittable _ _ _ _ _ _ _ _ H2 Hm) as Hspl.
  pose proof (grow_chance _ _ _ _ _ _ _ _ _ Hn H2 Hspl Es2 Hv Hx Hb) as Hcb. fold n2 in Hcb.
  destruct (rsv_share X _ cs s v x (rows_in X s) 0 Hn Hs Hv Hx Hb) as (Hc1&Hc2&_); [auto|exists 1%nat; lia|].
  pose proof (prune_chance _ _ _ _ _ _ H Hin) as Hcf.
  exists c, s, li, ri. eexists _, _. split; auto. split; auto. split; auto. split; auto. split; [exact Hcf|]. rewrite Ev, Ew. split; [exact Hcb|].
  set (N := INR (length (prunable_decision_nodes h t))) in *. assert (HN : 0 < N) by (unfold N; apply lt_0_INR; destruct (prunable_decision_nodes h t); [destruct Hin|simpl; lia]).
  assert (HV : 0 < INR (length (fst (splittable_variables (d_X (sp_data s)))))) by (apply lt_0_INR; destruct (fst (splittable_variables (d_X (sp_data s)))); [destruct Hv|simpl; lia]).
  assert (HW : 0 < INR (rows_with X s v x)) by (apply lt_0_INR; lia). assert (HB : 0 < INR (rows_below_max X s v)) by (apply lt_0_INR; lia).
  assert (HR : 0 < INR (rows_in X s)) by (apply lt_0_INR; lia).
  assert (Hn2 : 0 < INR n2) by (unfold n2; apply lt_0_INR; destruct (splittable_leaf_nodes h2 t2); [destruct Hspl|simpl; lia]).
  set (V := INR (length (fst (splittable_variables (d_X (sp_data s)))))) in *. set (W := INR (rows_with X s v x)) in *. set (B := INR (rows_below_max X s v)) in *. set (R0 := INR (rows_in X s)) in *.
  assert (Hqb : 0 < / INR n2 * (/ V * (W / B))) by (repeat apply Rmult_lt_0_compat; auto using Rinv_0_lt_compat).
  split; [now apply Rinv_0_lt_compat|]. split; auto. split.
  - destruct (frame_lists _ _ _ _ _ _ H Hfr) as (_&E1&_&E2).
    unfold log_transition_ratio, log_prune_transition_ratio. cbn [mu_kind mu_existing mu_updated]. rewrite Hgm, Ep. cbn [rbind]. unfold py_div.
    destruct (Req_EM_T (pa_pprune p) 0); [lra|]. cbn [rbind]. unfold n_prunable_decision_nodes, n_splittable_leaf_nodes. rewrite E1, E2. fold n. fold N.
    destruct (Nat.eqb_spec n 1) as [Z|_]; [unfold n in Z; lia|].
    assert (Hn1 : 0 < INR n - 1) by (assert (2 <= INR n) by (change 2 with (INR 2); apply le_INR; exact Hns); lra).
    rewrite (xlog_fin (INR n - 1)), (xlog_fin N), (xlog_fin (pa_pgrow p / pa_pprune p)) by (auto; now apply Rdiv_lt_0_compat). simpl. f_equal. f_equal.
    assert (0 < / V) by now apply Rinv_0_lt_compat. assert (0 < / INR n2) by now apply Rinv_0_lt_compat. assert (0 < / N) by now apply Rinv_0_lt_compat.
    assert (0 < W / B) by now apply Rdiv_lt_0_compat. assert (0 < W / R0) by now apply Rdiv_lt_0_compat. assert (0 < / V * (W / B)) by now apply Rmult_lt_0_compat.
    rewrite (ln_div (pa_pgrow p * _)) by (apply Rmult_lt_0_compat; auto). rewrite (ln_div (INR n2)), (ln_div R0 B), (ln_div (pa_pgrow p)) by auto.
    rewrite !ln_mult by auto. rewrite !ln_div, !ln_Rinv by auto. lra.
  - split; [lia|]. revert Hcnt. fold n n2. unfold b2n. replace (is_splittable h2 (h_next h)) with true; [intros; lia|].
    unfold splittable_leaf_nodes in Hspl. apply filter_In in Hspl as [_ Hspl]. congruence.
Qed.
Print Assumptions C75_prune.
(** Six rows, one column: the ratio of the first grow is not the Hastings ratio. *)
Theorem C75_hastings_refuted : exists X y h t idx m h1 idx1 h2 t2 p c qf qb g,
  no_nan X /\ tree_reached X y false h_empty [] h t /\ usual p /\
  sample_grow_mutation h t idx = Ok (m, h1, idx1) /\ mutate h1 t m = (h2, t2, None) /\ dec_most_recent h1 (mu_updated m) = Some c /\
  chance (proposes_grow h t (mu_existing m) (sc_var c) (sc_val c)) qf /\ chance (proposes_prune h2 t2 (mu_updated m)) qb /\
  log_transition_ratio h1 t m p = Ok (XFin g) /\ g > ln (pa_pprune p * qb / (pa_pgrow p * qf)).
Proof.
  destruct (C75_grow _ _ _ _ _ _ _ _ _ _ _ _ _ zx_p zx_no_nan zx_reached zx_grow_ok zx_after_eq ltac:(simpl; lra) ltac:(simpl; lra))
    as (c&s&qf&qb&Ec&Es&Hf&Hb&Hqf&Hqb&Er&Hrb&_).
  exists zx_X, zx_y, (fst zx_start), (snd zx_start), [0; 0; 1]%nat, zx_m, zx_h1, [], (fst (fst zx_after)), (snd (fst zx_after)), zx_p, c, qf, qb. eexists.
  split; [apply zx_no_nan|]. split; [apply zx_reached|]. split; [apply zx_usual|]. split; [apply zx_grow_ok|]. split; [apply zx_after_eq|].
  split; auto. split; auto. split; auto. split; [exact Er|].
  assert (N1 : length (prunable_decision_nodes (fst zx_start) (snd zx_start)) = 0%nat) by (vm_compute; reflexivity).
  assert (N2 : length (prunable_decision_nodes (fst (fst zx_after)) (snd (fst zx_after))) = 1%nat) by (vm_compute; reflexivity).
  rewrite N1, N2. change (INR (0 + 1)) with 1. change (INR 1) with 1. replace (1 / 1) with 1 by field. rewrite ln_1.
  assert (0 < INR (rows_below_max zx_X s (sc_var c))) by (apply lt_0_INR; lia). assert (INR (rows_below_max zx_X s (sc_var c)) < INR (rows_in zx_X s)) by (apply lt_INR; lia).
  rewrite (ln_div (INR (rows_in zx_X s))) by lra. assert (ln (INR (rows_below_max zx_X s (sc_var c))) < ln (INR (rows_in zx_X s))) by (apply ln_increasing; lra). lra.
Qed.
Print Assumptions C75_hastings_refuted.
(** a tree with two splittable leaves, so that the prune theorem applies; and the first leaf's sibling is a leaf *)
Definition wx_s : heap * tree := match tree_run (fst zx_start) (snd zx_start) [TSampleGrow [0; 0; 2]%nat] with Ok q => q | _ => zx_start end.
Lemma wx_reached : tree_reached zx_X zx_y false h_empty [TSampleGrow [0; 0; 2]%nat] (fst wx_s) (snd wx_s).
Proof.
  destruct zx_reached as (Hl&_&s&Hro&Hrun). split; auto. split; [repeat constructor|]. exists s. split; auto.
  assert (Est : start_tree h_empty s = zx_start) by (unfold zx_start; now rewrite Hro). rewrite Est. unfold wx_s.
  assert (G : okb (tree_run (fst zx_start) (snd zx_start) [TSampleGrow [0; 0; 2]%nat]) = true) by (vm_compute; reflexivity).
  destruct (tree_run (fst zx_start) (snd zx_start) [TSampleGrow [0; 0; 2]%nat]) as [[a b]| |]; try discriminate. reflexivity.
Qed.
Example C75_prune_case : exists m h1 h2 t2, sample_prune_mutation (fst wx_s) (snd wx_s) [0]%nat = Ok (m, h1, []) /\ mutate h1 (snd wx_s) m = (h2, t2, None) /\
  length (splittable_leaf_nodes (fst wx_s) (snd wx_s)) = 2%nat /\ length (splittable_leaf_nodes h2 t2) = 1%nat.
Proof.
  assert (G : match sample_prune_mutation (fst wx_s) (snd wx_s) [0]%nat with
              | Ok (m, h1, i) => Some (i, snd (mutate h1 (snd wx_s) m), length (splittable_leaf_nodes (fst (fst (mutate h1 (snd wx_s) m))) (snd (fst (mutate h1 (snd wx_s) m)))))
              | _ => None end = Some ([], None, 1%nat)) by (vm_compute; reflexivity).
  destruct (sample_prune_mutation (fst wx_s) (snd wx_s) [0]%nat) as [[[m h1] i]| |]; try discriminate.
  destruct (mutate h1 (snd wx_s) m) as [[h2 t2] e] eqn:Em. cbn [fst snd] in G. injection G as -> -> G. exists m, h1, h2, t2. split; [reflexivity|]. split; [exact Em|]. split; [vm_compute; reflexivity|exact G].
Qed.
Example C75_sibling_case : exists i, In i (splittable_leaf_nodes (fst wx_s) (snd wx_s)) /\ sibling_is_leaf (fst wx_s) (snd wx_s) i.
Proof.
  exists 1%nat. split; [vm_compute; auto|]. exists 3%nat. split; [|vm_compute; auto]. split; [vm_compute; auto|]. eexists _, _. repeat split; vm_compute; reflexivity.
Qed.
