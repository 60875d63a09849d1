(** Which draws lead to which proposal, and how often. *)
From Coq Require Import Reals Lra Permutation.
From Verif Require Import Base Fl Ext MData MSplit MTree MSampler MHist MTreeHist Spec SpecTree SpecPropose LFl LList
  PData PSplit PDataProps PCond PTree PPred PTreeHist PTreeProps PTreeProps2 PSampler PSampler2 PPropose.
Local Open Scope R_scope.

Definition rsv_gives (s : split) (v : nat) (x : fl) (ds : list nat) : bool :=
  match random_splittable_value (d_X (sp_data s)) v ds with Ok (z, _) => feqb z x | _ => false end.
Lemma proposes_cons h X y t a i v x d1 d2 ds : no_nan X -> tree_inv h X (Some y) t a -> splittable_leaf_nodes h t <> [] ->
  proposes_grow h t i v x (d1 :: d2 :: ds) =
  (let j := choose 0%nat (splittable_leaf_nodes h t) d1 in
   Nat.eqb j i && match node_split h j with
                  | Some s => let w := choose 0%nat (fst (splittable_variables (d_X (sp_data s)))) d2 in Nat.eqb w v && rsv_gives s w x ds
                  | None => false end)%bool.
Proof.
  intros Hn H Hne. unfold proposes_grow, sample_grow_mutation, random_splittable_leaf_node.
  destruct (splittable_leaf_nodes h t) as [|n0 ns] eqn:En; [congruence|]. unfold np_choice at 1. cbn [rbind].
  assert (Hj : In (choose 0%nat (n0 :: ns) d1) (splittable_leaf_nodes h t)) by (rewrite En; apply choose_in; discriminate).
  set (j := choose 0%nat (n0 :: ns) d1) in *. clearbody j. cbv zeta.
  destruct (splittable_leaf _ _ _ _ _ _ H Hj) as (w&s&d&ci&Hjt&Hl&Hf&Eg&Hs&Hany).
  assert (Es : node_split h j = Some s) by (unfold node_split; now rewrite Eg). unfold sample_split_node, node_data. rewrite Es.
  unfold sample_split_condition.
  apply (any_meaning X _ ci s Hs) in Hany as (v0&Hv0).
  destruct (fst (splittable_variables (d_X (sp_data s)))) as [|u0 us] eqn:Ev; [destruct Hv0|]. unfold np_choice. cbn [rbind].
  assert (Hw : In (choose 0%nat (u0 :: us) d2) (fst (splittable_variables (d_X (sp_data s))))) by (rewrite Ev; apply choose_in; discriminate).
  set (u := choose 0%nat (u0 :: us) d2) in *. clearbody u. unfold rsv_gives.
  destruct (random_splittable_value (d_X (sp_data s)) u ds) as [[z rest]| |] eqn:Er; cbn [rbind]; try (rewrite !andb_false_r; reflexivity).
  change (SC u z OpLe None None) with (fresh_le u z). change (SC u z OpGt None None) with (fresh_gt u z).
  destruct (sampled_fills _ _ _ _ _ _ _ _ Hn Hs Er) as (Hz&_). apply (offered_iff X _ ci s Hn Hs) in Hw as (Hu&_).
  destruct (split_node_total h X y j w s d ci u z Hn Eg Hs Hz Hu) as (p&h1&Esp&Eg1); [eapply nodes_below; eauto|].
  rewrite Esp. cbn [rbind]. rewrite Eg1. cbn [rbind mu_existing mu_updated].
  pose proof Esp as Esp0. apply split_node_spec in Esp0 as (k&s0&d0&s'&sl&sr&Eg'&Hsc&->&Hnx&Hold&Hgl&Hgr&Hgp).
  rewrite Eg in Eg'. injection Eg' as <- <- <-. destruct (split_children_sinv _ _ _ _ _ _ _ _ _ Hn Hz Hs Hsc) as (_&_&Hsl&_).
  destruct (sinv_recent _ _ _ _ _ Hsl) as (c&Ec&Erc). 
  assert (Em : dec_most_recent h1 (S (S (h_next h))) = Some c) by (unfold dec_most_recent, left_child; rewrite Hgp, Hgl; exact Ec). rewrite Em.
  unfold rule_of in Erc. injection Erc as -> -> _. reflexivity.
Qed.
Lemma vars_nodup c : NoDup (fst (splittable_variables c)).
Proof. simpl. unfold true_indices. apply NoDup_filter, seq_NoDup. Qed.
Lemma splittable_nodup h X oy t a : tree_inv h X oy t a -> NoDup (splittable_leaf_nodes h t).
Proof. intros H. unfold splittable_leaf_nodes, leaf_nodes. apply NoDup_filter, NoDup_filter. eapply ti_tnodup; eauto. Qed.
Lemma grow_share h X y t a i v x s B k : no_nan X -> tree_inv h X (Some y) t a -> In i (splittable_leaf_nodes h t) -> node_split h i = Some s ->
  In v (fst (splittable_variables (d_X (sp_data s)))) -> (0 < B)%nat ->
  Nat.divide (length (splittable_leaf_nodes h t)) B -> Nat.divide (length (fst (splittable_variables (d_X (sp_data s))))) B ->
  share B (S (S k)) (proposes_grow h t i v x) =
  / INR (length (splittable_leaf_nodes h t)) * (/ INR (length (fst (splittable_variables (d_X (sp_data s))))) * share B k (rsv_gives s v x)).
Proof.
  intros Hn H Hi Es Hv HB D1 D2. assert (Hne : splittable_leaf_nodes h t <> []) by (intros E; rewrite E in Hi; destruct Hi).
  assert (Hvn : fst (splittable_variables (d_X (sp_data s))) <> []) by (intros E; rewrite E in Hv; destruct Hv).
  set (V := fst (splittable_variables (d_X (sp_data s)))) in *. set (q := share B k (rsv_gives s v x)).
  rewrite share_S by auto.
  rewrite (total_ext _ (fun d => (fun j => if Nat.eqb j i then / INR (length V) * q else 0) (choose 0%nat (splittable_leaf_nodes h t) d))).
  - rewrite (mean_choose (fun j => if Nat.eqb j i then / INR (length V) * q else 0) 0%nat) by auto.
    rewrite rsum_pick by (auto; eapply splittable_nodup; eauto). unfold Rdiv. lra.
  - intros d1 _. cbn beta. rewrite share_S by auto.
    rewrite (total_ext _ (fun d2 => (fun w => if Nat.eqb (choose 0%nat (splittable_leaf_nodes h t) d1) i then (if Nat.eqb w v then q else 0) else 0) (choose 0%nat V d2))).
    + rewrite (mean_choose (fun w => if Nat.eqb (choose 0%nat (splittable_leaf_nodes h t) d1) i then (if Nat.eqb w v then q else 0) else 0) 0%nat) by auto.
      destruct (Nat.eqb_spec (choose 0%nat (splittable_leaf_nodes h t) d1) i) as [E|E].
      * rewrite rsum_pick by (auto; apply vars_nodup). unfold Rdiv. lra.
      * assert (Z : forall l : list nat, rsum (map (fun _ => 0) l) = 0) by (unfold rsum; induction l; simpl; lra). rewrite Z. unfold Rdiv. lra.
    + intros d2 _. cbn beta.
      rewrite (share_ext B k _ _ (fun ds => proposes_cons h X y t a i v x d1 d2 ds Hn H Hne)). cbv zeta.
      destruct (Nat.eqb_spec (choose 0%nat (splittable_leaf_nodes h t) d1) i) as [E|E]; [|apply share_false].
      rewrite E, Es. fold V. simpl andb. destruct (Nat.eqb_spec (choose 0%nat V d2) v) as [->|E2]; [|apply share_false]. reflexivity.
Qed.
Lemma count_le_n p n : (count p n <= n)%nat.
Proof. induction n; simpl; auto. destruct (p n); lia. Qed.
Lemma count_ext_in p q n : (forall i, (i < n)%nat -> p i = q i) -> count p n = count q n.
Proof. induction n; simpl; intros H; auto. rewrite IHn by (intros; apply H; lia). rewrite (H n) by lia. reflexivity. Qed.
Lemma count_parts p q n : (count p n = count (fun i => p i && q i) n + count (fun i => p i && negb (q i)) n)%nat.
Proof. induction n; simpl; auto. rewrite IHn. destruct (p n), (q n); simpl; lia. Qed.
Lemma column_facts X oy cs s v : no_nan X -> sinv X oy cs s -> In v (fst (splittable_variables (d_X (sp_data s)))) ->
  exists m, (forall ds, random_splittable_value (d_X (sp_data s)) v ds = value_loop (get_column (d_X (sp_data s)) v) m ds) /\
    (exists j, in_node s j /\ value_in X j v = m) /\ (forall j, in_node s j -> fle (value_in X j v) m = true) /\ is_nan m = false /\
    (rows_in X s = rows_with X s v m + rows_below_max X s v)%nat.
Proof.
  intros Hn Hs Hv. destruct (rsv_unfold X oy cs s Hn Hs v [] Hv) as (m&Hm&_). exists m.
  split. { intros ds. destruct (rsv_unfold X oy cs s Hn Hs v ds Hv) as (m'&Hm'&E). rewrite Hm in Hm'. injection Hm' as <-. exact E. }
  pose proof (si_c _ _ _ _ Hs) as Hc. pose proof (si_X _ _ _ _ Hs) as HX. pose proof Hv as Hv0.
  apply (offered_varies X oy cs s Hn Hs) in Hv as (Hvc&_).
  assert (Hcol: Forall (fun x => is_nan x = false) (get_column (d_X (sp_data s)) v)).
  { unfold get_column. rewrite HX. apply column_no_nan; auto. }
  pose proof (list_max_spec _ Hcol) as Hl. rewrite Hm in Hl. destruct Hl as [Hm1 Hm2].
  assert (Hnm : is_nan m = false) by (rewrite Forall_forall in Hcol; auto).
  apply in_column in Hm1 as (j&Hj&Ej); [|apply (cvd_len _ Hc)]. rewrite HX in Ej.
  assert (Hall : forall i, in_node s i -> fle (value_in X i v) m = true).
  { intros i Hi. apply Hm2. apply in_column; [apply (cvd_len _ Hc)|]. exists i. rewrite HX. auto. }
  split; [exists j; split; [exact Hj|exact Ej]|]. split; auto. split; auto.
  unfold rows_in, rows_with, rows_below_max. rewrite (count_parts _ (fun i => feqb (value_in X i v) m)). f_equal.
  apply count_ext_in. intros i Hi. destruct (in_nodeb s i) eqn:Eb; auto. simpl. apply in_nodeb_iff in Eb. pose proof (Hall i Eb) as Hle.
  assert (Hjl : (j < length (mx_rows X))%nat) by (apply (in_node_lt X oy cs s Hs); exact Hj).
  destruct (feqb (value_in X i v) m) eqn:Ef.
  - apply feqb_eq in Ef as [-> _]. symmetry. apply not_true_is_false. intros Hex. apply existsb_exists in Hex as (z&_&Hz).
    apply andb_true_iff in Hz as [Hz1 Hz2]. apply in_nodeb_iff in Hz1. apply Hall in Hz1.
    revert Hz1 Hz2. generalize (value_in X z v). intros q Hz1 Hz2. pose proof (fle_not_nan _ _ Hz1) as [Hqn _].
    rewrite fle_negb in Hz1 by auto. rewrite Hz2 in Hz1. discriminate.
  - simpl. symmetry. apply existsb_exists. exists j. split; [apply in_seq; lia|]. apply andb_true_iff. split; [apply in_nodeb_iff; exact Hj|].
    rewrite Ej. apply fle_flt_or_eq; auto. intros E. rewrite E in Ef. rewrite feqb_refl in Ef by auto. discriminate.
Qed.
Lemma rsv_share X oy cs s v x B k : no_nan X -> sinv X oy cs s -> In v (fst (splittable_variables (d_X (sp_data s)))) ->
  (exists j, in_node s j /\ value_in X j v = x) -> (exists j, in_node s j /\ flt x (value_in X j v) = true) ->
  (0 < B)%nat -> Nat.divide (rows_in X s) B ->
  (0 < rows_with X s v x <= rows_below_max X s v)%nat /\ (rows_below_max X s v < rows_in X s)%nat /\
  share B k (rsv_gives s v x) = INR (rows_with X s v x) / INR (rows_below_max X s v) *
    (1 - ((INR (rows_in X s) - INR (rows_below_max X s v)) / INR (rows_in X s)) ^ k).
Proof.
  intros Hn Hs Hv (jx&Hjx&Ex) (jb&Hjb&Hlt) HB Hd.
  destruct (column_facts X oy cs s v Hn Hs Hv) as (m&Hr&(jm&Hjm&Em)&Hall&Hnm&Hsum).
  assert (Hxm : flt x m = true) by (eapply flt_fle_trans; [exact Hlt|auto]). pose proof (flt_neq _ _ Hxm) as Hne.
  pose proof (flt_not_nan _ _ Hxm) as [Hxn _].
  assert (Hlt' : forall j, in_node s j -> (j < length (mx_rows X))%nat) by (intros j Hj; apply (in_node_lt X oy cs s Hs); exact Hj).
  assert (Hw : (0 < rows_with X s v x)%nat).
  { apply count_pos with (i := jx); auto. apply andb_true_iff. split; [apply in_nodeb_iff; auto|]. rewrite Ex. now apply feqb_refl. }
  assert (Hwm : (0 < rows_with X s v m)%nat).
  { apply count_pos with (i := jm); auto. apply andb_true_iff. split; [apply in_nodeb_iff; auto|]. rewrite Em. now apply feqb_refl. }
  assert (Hwb : (rows_with X s v x <= rows_below_max X s v)%nat).
  { unfold rows_with, rows_below_max. assert (M : forall p q n, (forall i, (i < n)%nat -> p i = true -> q i = true) -> (count p n <= count q n)%nat).
    { intros p q n. induction n as [|n IH]; intros Hpq; simpl; auto. assert (count p n <= count q n)%nat by (apply IH; auto). destruct (p n) eqn:Ep; [rewrite (Hpq n) by auto|]; destruct (q n); lia. }
    apply M. intros i Hi Hb. apply andb_true_iff in Hb as [Hb Hf]. rewrite Hb. apply feqb_eq in Hf as [-> _]. simpl. apply existsb_exists. exists jb.
    split; [apply in_seq; specialize (Hlt' jb Hjb); lia|]. apply andb_true_iff. split; [apply in_nodeb_iff; auto|auto]. }
  split; [lia|]. split; [lia|].
  pose proof (column_length X oy cs s Hs v) as Hcl. fold (rows_in X s) in Hcl.
  assert (Hcm : count_eq (get_column (d_X (sp_data s)) v) m = rows_with X s v m) by (apply (count_eq_spec X oy cs s Hs)).
  assert (Hcx : count_eq (get_column (d_X (sp_data s)) v) x = rows_with X s v x) by (apply (count_eq_spec X oy cs s Hs)).
  assert (E : forall ds, rsv_gives s v x ds = loop_gives (get_column (d_X (sp_data s)) v) m x ds) by (intros ds; unfold rsv_gives, loop_gives; now rewrite Hr).
  rewrite (share_ext _ _ _ _ E), loop_closed.
  - rewrite Hcm, Hcx, Hcl, Hsum, plus_INR. replace (INR (rows_with X s v m) + INR (rows_below_max X s v) - INR (rows_with X s v m)) with (INR (rows_below_max X s v)) by lra.
    replace (INR (rows_with X s v m) + INR (rows_below_max X s v) - INR (rows_below_max X s v)) with (INR (rows_with X s v m)) by lra. reflexivity.
  - intros E0. rewrite E0 in Hcl. simpl in Hcl. lia.
  - auto.
  - rewrite Hcl. auto.
  - apply feqb_neq; auto.
  - intros z _ Hz. apply feqb_eq in Hz as [-> _]. rewrite feqb_sym. apply feqb_neq; auto.
  - rewrite Hcm, Hcl. lia.
Qed.
Lemma grow_chance h X y t a i v x s : no_nan X -> tree_inv h X (Some y) t a -> In i (splittable_leaf_nodes h t) -> node_split h i = Some s ->
  In v (fst (splittable_variables (d_X (sp_data s)))) -> (exists j, in_node s j /\ value_in X j v = x) -> (exists j, in_node s j /\ flt x (value_in X j v) = true) ->
  chance (proposes_grow h t i v x) (/ INR (length (splittable_leaf_nodes h t)) * (/ INR (length (fst (splittable_variables (d_X (sp_data s))))) *
    (INR (rows_with X s v x) / INR (rows_below_max X s v)))).
Proof.
  intros Hn H Hi Es Hv Hx Hb. destruct (splittable_leaf _ _ _ _ _ _ H Hi) as (w&s0&d&ci&_&_&_&Eg&Hs&_).
  assert (s0 = s) as -> by (unfold node_split in Es; rewrite Eg in Es; congruence).
  destruct (rsv_share X (Some y) ci s v x (rows_in X s) 0 Hn Hs Hv Hx Hb) as (Hc1&Hc2&_); [|exists 1%nat; lia|].
  { destruct Hx as (jx&Hjx&_). apply count_pos with (i := jx); [apply (in_node_lt X (Some y) ci s Hs); exact Hjx|apply in_nodeb_iff; exact Hjx]. }
  assert (Hl : (0 < length (splittable_leaf_nodes h t))%nat) by (destruct (splittable_leaf_nodes h t); [destruct Hi|simpl; lia]).
  assert (Hvl : (0 < length (fst (splittable_variables (d_X (sp_data s)))))%nat) by (destruct (fst (splittable_variables (d_X (sp_data s)))); [destruct Hv|simpl; lia]).
  exists (length (splittable_leaf_nodes h t) * (length (fst (splittable_variables (d_X (sp_data s)))) * rows_in X s))%nat. split; [apply Nat.mul_pos_pos; [|apply Nat.mul_pos_pos]; auto; lia|].
  intros B HB HD.
  assert (D1 : Nat.divide (length (splittable_leaf_nodes h t)) B) by (eapply Nat.divide_trans; [|exact HD]; apply Nat.divide_factor_l).
  assert (D2 : Nat.divide (length (fst (splittable_variables (d_X (sp_data s))))) B).
  { eapply Nat.divide_trans; [|exact HD]. apply Nat.divide_mul_r, Nat.divide_factor_l. }
  assert (D3 : Nat.divide (rows_in X s) B) by (eapply Nat.divide_trans; [|exact HD]; apply Nat.divide_mul_r, Nat.divide_factor_r).
  apply shift2_cv. set (r := (INR (rows_in X s) - INR (rows_below_max X s v)) / INR (rows_in X s)).
  assert (Hr : 0 <= r < 1).
  { assert (0 < INR (rows_below_max X s v)) by (apply lt_0_INR; lia). assert (INR (rows_below_max X s v) < INR (rows_in X s)) by (apply lt_INR; lia).
    unfold r. split; [apply Rlt_le, Rdiv_lt_0_compat; lra|]. apply (Rmult_lt_reg_r (INR (rows_in X s))); [lra|]. unfold Rdiv. rewrite Rmult_assoc, Rinv_l by lra. lra. }
  pose proof (geometric_cv (/ INR (length (splittable_leaf_nodes h t)) * / INR (length (fst (splittable_variables (d_X (sp_data s))))))
    (INR (rows_with X s v x) / INR (rows_below_max X s v)) r Hr) as Hcv.
  rewrite <- Rmult_assoc. intros e He. destruct (Hcv e He) as (N&HN). exists N. intros n Hn0. specialize (HN n Hn0).
  rewrite (grow_share h X y t a i v x s B n Hn H Hi Es Hv HB D1 D2).
  destruct (rsv_share X (Some y) ci s v x B n Hn Hs Hv Hx Hb HB D3) as (_&_&->). fold r. rewrite <- Rmult_assoc. exact HN.
Qed.
Lemma chance_unique P q q' : chance P q -> chance P q' -> q = q'.
Proof.
  intros (N&HN&H) (N'&HN'&H'). assert (Hp : (0 < N * N')%nat) by nia.
  eapply UL_sequence; [apply (H (N * N')%nat)|apply (H' (N * N')%nat)]; auto; [apply Nat.divide_factor_l|apply Nat.divide_factor_r].
Qed.
Lemma prune_total h X oy t a i : tree_inv h X oy t a -> In i (prunable_decision_nodes h t) -> exists s d,
  h_get h i = Some s /\ prune_mutation (snd (h_alloc h (Nd (KLeaf 0) (nd_split s) d))) i (h_next h) = Ok (Mu MPrune i (h_next h)) /\ d = nd_depth s.
Proof.
  intros H Hi. unfold prunable_decision_nodes, decision_nodes in Hi. rewrite !filter_In in Hi. destruct Hi as [[Hi _] Hp].
  destruct (prune_step _ _ _ _ _ _ H Hi Hp) as (v&x&jl&jr&s&d&ci&Hf&Hg&Hss&Hpm&_). exists (Nd (KDec jl jr) (SFull s) d), d. auto.
Qed.
Lemma prune_chance h X oy t a i : tree_inv h X oy t a -> In i (prunable_decision_nodes h t) ->
  chance (proposes_prune h t i) (/ INR (length (prunable_decision_nodes h t))).
Proof.
  intros H Hi. assert (Hne : prunable_decision_nodes h t <> []) by (intros E; rewrite E in Hi; destruct Hi).
  exists (length (prunable_decision_nodes h t)). split; [destruct (prunable_decision_nodes h t); [congruence|simpl; lia]|].
  intros B HB HD. apply shift1_cv. intros k. rewrite share_S by auto.
  rewrite (total_ext _ (fun d => (fun j => if Nat.eqb j i then 1 else 0) (choose 0%nat (prunable_decision_nodes h t) d))).
  - rewrite (mean_choose (fun j => if Nat.eqb j i then 1 else 0) 0%nat) by auto.
    rewrite rsum_pick; [unfold Rdiv; lra| |auto]. unfold prunable_decision_nodes, decision_nodes. apply NoDup_filter, NoDup_filter. eapply ti_tnodup; eauto.
  - intros d _. cbn beta. set (j := choose 0%nat (prunable_decision_nodes h t) d).
    assert (Hj : In j (prunable_decision_nodes h t)) by (apply choose_in; auto).
    rewrite (share_ext _ _ _ (fun _ => Nat.eqb j i)).
    + destruct (Nat.eqb j i); [now apply share_true|apply share_false].
    + intros ds. unfold proposes_prune, sample_prune_mutation, random_prunable_decision_node.
      destruct (prunable_decision_nodes h t) as [|n0 ns] eqn:En; [congruence|]. unfold np_choice. cbn [rbind]. fold j. rewrite <- En in Hj.
      destruct (prune_total _ _ _ _ _ _ H Hj) as (nd&dd&Eg&Ep&->). rewrite Eg. unfold h_alloc in Ep |- *. cbn [snd] in Ep. rewrite Ep. reflexivity.
Qed.
