(** Invariants of models: whole Gibbs steps. *)
From Coq Require Import Reals Lra Permutation.
From Verif Require Import Base Fl Ext MData MSplit MTree MSampler MHist MTreeHist MModel MModelHist Spec SpecTree SpecSampler SpecModel LFl LList
  PData PSplit PDataProps PCond PTree PPred PTreeHist PTreeProps PTreeProps2 PSampler PSampler2 PSampler3 PModel PModel2 PModel3 PModel4.

(** ** an accepted proposal changes the node list; sizes *)
Lemma sampled_new h X y t a o h' t' : no_nan X -> tree_inv h X (Some y) t a ->
  match o with TSampleGrow _ | TSamplePrune _ => True | _ => False end -> tree_do h t o = Ok (h', t') -> tr_nodes t' <> tr_nodes t.
Proof.
  intros Hnan H Ho Hd E.
  assert (Hnew : exists q, In q (tr_nodes t') /\ h_next h <= q).
  { destruct o as [i v x|i|idx|idx|idx|idx|i w|y0|]; try tauto; cbn [tree_do] in Hd.
    - destruct (sample_grow_mutation h t idx) as [[[m h1] idx']| |] eqn:Es; try discriminate. cbn [rbind] in Hd.
      apply sample_grow_spec in Es as (i&v&x&p&s&i1&i2&Hi&Es&Hv&Hr&Hsp&Hg).
      unfold splittable_leaf_nodes, leaf_nodes in Hi. apply filter_In in Hi as [Hi _]. apply filter_In in Hi as [Hi Hl].
      pose proof (proj1 (ti_in _ _ _ _ _ _ H) Hi) as Hia. destruct (afind_in a [] 0 i Hia) as ([[ci di] ai]&Hf).
      pose proof (afind_leaf _ _ _ _ _ _ _ _ _ _ (ti_ok _ _ _ _ _ H) Hf Hl) as ->.
      pose proof (afind_aok _ _ _ _ _ _ _ _ _ _ (ti_ok _ _ _ _ _ H) Hf) as (w&s0&Eg&Hs0).
      unfold node_split in Es. rewrite Eg in Es. injection Es as ->.
      destruct (sampled_fills _ _ _ _ _ _ _ _ Hnan Hs0 Hr) as (Hx&_).
      destruct (grow_full _ _ _ _ _ _ _ _ _ _ _ _ Hnan H Hx Hsp Hg Hd) as (_&_&_&Hp&Hn&l1&_&Er&_).
      injection Er as _ ->. exists (h_next h). simpl. split; [apply in_app_iff; simpl; auto|lia].
    - destruct (sample_prune_mutation h t idx) as [[[m h1] idx']| |] eqn:Es; try discriminate. cbn [rbind] in Hd.
      apply sample_prune_spec in Es as (i&n&Hi&Eg&->&Hpm).
      destruct (prune_full _ _ _ _ _ _ _ _ _ H Eg Hpm Hd) as (Hi'&Hl&->).
      destruct (prune_step _ _ _ _ _ _ H Hi' Hl) as (v&x&jl&jr&s&d&ci&Hf&Hg&Hs&_&l1&l2&l3&_&_&_&Hmut&_).
      rewrite Eg in Hg. injection Hg as ->.
      change (done (mutate (snd (h_alloc h (Nd (KLeaf 0%R) (SFull s) d))) t (Mu MPrune i (h_next h))) = Ok (h', t')) in Hd.
      rewrite Hmut in Hd. simpl in Hd. injection Hd as _ <-. exists (h_next h). simpl. split; [apply in_app_iff; simpl; auto|lia]. }
  destruct Hnew as (q&Hq&Hle). rewrite E in Hq. apply (nodes_below _ _ _ _ _ _ H) in Hq. lia.
Qed.
Lemma remove_first_length i (l l1 : list nat) : remove_first i l = Some l1 -> length l = S (length l1).
Proof.
  revert l1; induction l as [|x l IH]; simpl; intros l1; [discriminate|]. destruct (Nat.eqb i x).
  - now intros [= <-].
  - destruct (remove_first i l) as [l2|]; [|discriminate]. intros [= <-]. simpl. f_equal. auto.
Qed.
Lemma mutate_size h t m h' t' : mutate h t m = (h', t', None) -> length (tr_nodes t') <= length (tr_nodes t) + 2.
Proof.
  unfold mutate. destruct (mu_kind m).
  - destruct (remove_first (mu_existing m) (tr_nodes t)) as [l1|] eqn:E1; [|discriminate].
    destruct (left_child h (mu_updated m)); [|discriminate].
    destruct (right_child h (mu_updated m)); [|discriminate]. intros E; injection E as <- <-. simpl.
    apply remove_first_length in E1. rewrite app_length. simpl. lia.
  - destruct (remove_first (mu_existing m) (tr_nodes t)) as [l1|] eqn:E1; [|discriminate].
    destruct (remove_id (left_child h (mu_existing m)) l1) as [l2|] eqn:E2; [|discriminate].
    destruct (remove_id (right_child h (mu_existing m)) l2) as [l3|] eqn:E3; [|discriminate].
    intros E; injection E as <- <-. simpl.
    apply remove_first_length in E1. unfold remove_id in *. destruct (left_child h (mu_existing m)); [|discriminate].
    destruct (right_child h (mu_existing m)); [|discriminate]. apply remove_first_length in E2, E3. rewrite app_length. simpl. lia.
  - intros E; injection E as <- <-. simpl. lia.
Qed.
Lemma tree_step_accept h t sigma p r om h1 t1 r1 X y a : no_nan X -> tree_inv h X (Some y) t a ->
  tree_step h t sigma p r = Ok (om, h1, t1, r1) ->
  (om = None -> tr_nodes t1 = tr_nodes t) /\ (om <> None -> tr_nodes t1 <> tr_nodes t) /\ length (tr_nodes t1) <= length (tr_nodes t) + 2.
Proof.
  intros Hn H.
  unfold tree_step, tree_sample. destruct (propose (pa_limit p) h t r) as [[[m h2] r2]| |] eqn:Ep; try discriminate. cbn [rbind].
  destruct (log_probability_ratio h2 t m sigma p) as [L| |]; try discriminate. cbn [rbind].
  destruct (rg_unif r2) as [|u us]; try discriminate. cbn [rbind].
  destruct (accepts u L).
  2: { intros E. injection E as <- <- <- <-. split; [auto|]. split; [tauto|lia]. }
  destruct (mutate h2 t m) as [[h3 t3] [x|]] eqn:Em; intros E'; try discriminate. injection E' as <- <- <- _.
  split; [discriminate|]. split; [intros _|eapply mutate_size; eauto].
  apply propose_cases in Ep as [(idx'&E&_)|(idx'&E&_)].
  - apply (sampled_new h X y t a (TSampleGrow (rg_index r)) h3 t3 Hn H I). cbn [tree_do]. rewrite E. cbn [rbind]. now rewrite Em.
  - apply (sampled_new h X y t a (TSamplePrune (rg_index r)) h3 t3 Hn H I). cbn [tree_do]. rewrite E. cbn [rbind]. now rewrite Em.
Qed.

Definition nodes_of (m : model) (k : nat) : list nat := match nth_error (m_trees m) k with Some t => tr_nodes t | None => [] end.
Definition leaves_of (m : model) (k : nat) : list nat :=
  match nth_error (m_trees m) k with Some t => leaf_nodes (m_heap m) t | None => [] end.
Definition changed (m m' : model) (k : nat) : bool := if list_eq_dec Nat.eq_dec (nodes_of m k) (nodes_of m' k) then false else true.
Lemma lkeeps_of k m m' : length (m_trees m') = length (m_trees m) -> lkeeps k m m' -> nodes_of m' k = nodes_of m k /\ leaves_of m' k = leaves_of m k.
Proof.
  intros Hl H. unfold nodes_of, leaves_of. destruct (nth_error (m_trees m) k) as [t|] eqn:E.
  - destruct (H t E) as (t'&->&->&->). auto.
  - apply nth_error_None in E. rewrite <- Hl in E. apply nth_error_None in E. rewrite E. auto.
Qed.
Lemma changed_ext m m' n n' k : nodes_of m k = nodes_of n k -> nodes_of m' k = nodes_of n' k -> changed m m' k = changed n n' k.
Proof. unfold changed. now intros -> ->. Qed.
Lemma changed_ext_in ks m m' n n' : (forall k, In k ks -> nodes_of m k = nodes_of n k /\ nodes_of m' k = nodes_of n' k) ->
  map (fun k => (KyTree, changed m m' k)) ks = map (fun k => (KyTree, changed n n' k)) ks.
Proof. intros H. apply map_ext_in. intros k Hk. f_equal. now apply changed_ext; apply H. Qed.

Lemma call_tree_bool X y e m fr j As r b a m' r' : no_nan X -> ginv X y e m fr (GTree j) As ->
  call m fr ThTree r = Ok (b, a, m', r') -> b = changed m m' j /\ length (nodes_of m' j) <= length (nodes_of m j) + 2.
Proof.
  intros Hn [H Hf]. unfold call. rewrite Hf. destruct (nth_error (m_trees m) j) as [t|] eqn:Et; [|discriminate].
  destruct (tree_step _ t _ _ r) as [[[[om h1] t1] r1]| |] eqn:Es; try discriminate. cbn [rbind]. intros E. injection E as <- _ <- _.
  pose proof (mi_st _ _ _ _ _ _ H) as Hs. destruct (nth_error_both _ As j t (eq_sym (ms_len _ _ _ _ _ _ Hs)) Et) as (a0&Ha).
  destruct (ms_tree _ _ _ _ _ _ Hs _ _ _ Et Ha) as ([ty|]&Hi&Hoy); [|now destruct (Hoy eq_refl)].
  destruct (tree_step_accept _ _ _ _ _ _ _ _ _ _ _ _ Hn Hi Es) as (A1&A2&A3).
  unfold changed, nodes_of. rewrite Et. simpl. rewrite set_nth_error, Nat.eqb_refl, Et. split; auto.
  destruct (list_eq_dec Nat.eq_dec (tr_nodes t) (tr_nodes t1)) as [E|E]; destruct om; auto.
  - exfalso. apply A2; [discriminate|auto].
  - exfalso. apply E. symmetry. auto.
Qed.

(** ** ModelSampler.step *)
Lemma pc_dec pc : pc = GSigma \/ pc <> GSigma.
Proof. destruct pc; auto; right; discriminate. Qed.
Definition turn (mf : model) (k : nat) : list act := DoTree k :: map DoLeaf (leaves_of mf k).
Definition tail_acts (mf : model) (n j : nat) : list act := flat_map (turn mf) (seq j (n - j)) ++ [DoSigma].
Definition rest_acts (mf : model) (n : nat) (pc : gpc) : list act :=
  match pc with
  | GStart => tail_acts mf n 0
  | GTree j => map DoLeaf (leaves_of mf j) ++ tail_acts mf n (S j)
  | GLeaf j rest => map DoLeaf rest ++ tail_acts mf n (S j)
  | GSigma => []
  end.
Definition first_open (n : nat) (pc : gpc) : nat := match pc with GStart => 0 | GTree j | GLeaf j _ => S j | GSigma => n end.
Definition settled (pc : gpc) (k : nat) : Prop := match pc with GStart => False | GTree j | GLeaf j _ => k <= j | GSigma => True end.
Lemma tail_acts_step mf n j : tail_acts mf n j = match succ_pc n j with
  | GTree _ => DoTree j :: map DoLeaf (leaves_of mf j) ++ tail_acts mf n (S j) | _ => [DoSigma] end.
Proof.
  unfold tail_acts, succ_pc. destruct (Nat.ltb_spec j n) as [H|H].
  - replace (n - j) with (S (n - S j)) by lia. simpl. now rewrite <- app_assoc.
  - replace (n - j) with 0 by lia. reflexivity.
Qed.
Lemma drive_spec X y e : no_nan X -> forall fuel m fr pc As r log acts mf rf, ginv X y e m fr pc As ->
  drive fuel m fr pc r = Ok (log, acts, mf, rf) ->
  exists As', minv X y None e mf As' /\ m_pred mf <> None /\ same m mf /\ (Forall (filled X []) As -> Forall (filled X []) As') /\ (forall k, settled pc k -> lkeeps k m mf) /\
    acts = rest_acts mf (length (m_trees m)) pc /\
    log = map (fun k => (KyTree, changed m mf k)) (seq (first_open (length (m_trees m)) pc) (length (m_trees m) - first_open (length (m_trees m)) pc)).
Proof.
  intros Hn. induction fuel as [|fuel IH]; intros m fr pc As r log acts mf rf Hg; [discriminate|]. cbn [drive].
  destruct (pc_dec pc) as [->|Hpc].
  { simpl. intros E. injection E as <- <- <- <-. destruct Hg as [Hg Hp]. exists As. rewrite Nat.sub_diag. simpl. auto 10 using same_refl, lkeeps_refl. }
  destruct (gen_next_spec _ _ _ _ _ _ _ Hn Hg Hpc) as (fr1&m1&->&Hfr&Hg1&Hsm1&Hlk1&Es1). cbn [rbind].
  set (pc1 := pc_next m pc) in *.
  assert (Hns : pc1 <> GStart).
  { unfold pc1, pc_next, succ_pc. clear. destruct pc as [|j|j [|i rest]|]; try congruence.
    - destruct (_ <? _); congruence.
    - destruct (nth_error _ _); [|congruence]. destruct (leaf_nodes _ _); [destruct (_ <? _)|]; congruence.
    - destruct (_ <? _); congruence. }
  destruct (yields pc1) as [ky th] eqn:Ey.
  destruct (call m1 fr1 th r) as [[[[b a] m2] r1]| |] eqn:Ec; try discriminate. cbn [rbind].
  assert (Hth : th = snd (yields pc1)) by now rewrite Ey.
  destruct (call_spec _ _ _ _ _ _ _ _ _ _ _ _ Hn Hg1 Hns ltac:(rewrite <- Hth; exact Ec)) as (As2&Hg2&Hsm2&Hfl2&Hact).
  destruct (drive fuel m2 fr1 pc1 r1) as [[[[log2 acts2] m3] r2]| |] eqn:Ed; try discriminate. cbn [rbind].
  intros E. injection E as <- <- <- <-.
  destruct (IH _ _ _ _ _ _ _ _ _ Hg2 Ed) as (As'&H'&Hp'&Hsm3&Hfl3&Hlk3&Ha&El).
  assert (Hlen1 : length (m_trees m1) = length (m_trees m)) by apply Hsm1.
  assert (Hlen2 : length (m_trees m2) = length (m_trees m)) by (transitivity (length (m_trees m1)); [apply Hsm2|auto]).
  assert (Hlen3 : length (m_trees m3) = length (m_trees m)) by (transitivity (length (m_trees m2)); [apply Hsm3|auto]).
  rewrite Hlen2 in *.
  assert (Hlk2 : forall k, (forall j, pc1 = GTree j -> k <> j) -> lkeeps k m1 m2).
  { intros k Hk. destruct pc1; destruct Hact as [_ Hact]; auto. }
  exists As'. split; auto. split; auto. split; [eapply same_trans; [eauto|eapply same_trans; eauto]|]. split; [auto|].
  assert (Hset : forall k, settled pc k -> settled pc1 k /\ forall j, pc1 = GTree j -> k <> j).
  { intros k Hk. unfold pc1, pc_next, succ_pc. destruct pc as [|j|j rest|]; simpl in Hk; [tauto| | |congruence].
    - destruct (nth_error _ _); [|split; [exact I|congruence]]. destruct (leaf_nodes _ _); [|simpl; split; [auto|congruence]].
      destruct (_ <? _); simpl; split; auto; try lia; intros j' [= <-]; lia.
    - destruct rest; [|simpl; split; [auto|congruence]]. destruct (_ <? _); simpl; split; auto; try lia; intros j' [= <-]; lia. }
  assert (HL : forall k, settled pc k -> lkeeps k m m3).
  { intros k Hk. destruct (Hset k Hk). eapply lkeeps_trans; [apply Hlk1|]. eapply lkeeps_trans; [apply Hlk2|apply Hlk3]; auto. }
  split; auto.
  (* nodes of the trees whose turn has not come *)
  assert (Hleaf : forall i, leaf_next m pc = Some i -> (forall j r0, pc1 = GLeaf j r0 -> a = DoLeaf i)).
  { intros i Hi j r0 E. rewrite E in Hact. destruct Hact as [(i'&Hi'&->) _]. rewrite (Hfr i Hi) in Hi'. congruence. }
  assert (Hsucc : forall j, pc1 = succ_pc (length (m_trees m)) j ->
    a :: acts2 = tail_acts m3 (length (m_trees m)) j /\
    (if match pc1 with GTree _ => true | _ => false end then b = changed m m3 j else True)).
  { intros j Ej. rewrite tail_acts_step, <- Ej, Ha. unfold succ_pc in Ej. destruct (Nat.ltb_spec j (length (m_trees m))).
    - rewrite Ej in Hact |- *. destruct Hact as [-> Hlk]. simpl. split; auto.
      assert (Hb : b = changed m1 m2 j). { rewrite Ej in *. simpl in Hth. subst th. eapply call_tree_bool; eauto. }
      rewrite Hb. apply changed_ext.
      + now destruct (lkeeps_of j m m1 Hlen1 (Hlk1 j)).
      + destruct (lkeeps_of j m2 m3) as [E _]; [congruence| |now rewrite E]. apply Hlk3. rewrite Ej. simpl. auto.
    - rewrite Ej in Hact |- *. destruct Hact as [-> _]. simpl. auto. }
  assert (Hnodes : forall k, (forall j, pc1 = GTree j -> k <> j) -> nodes_of m k = nodes_of m2 k).
  { intros k Hk. destruct (lkeeps_of k m m2) as [E _]; [congruence| |now rewrite E]. eapply lkeeps_trans; [apply Hlk1|]. apply Hlk2; auto. }
  assert (Hlog : forall j, j = first_open (length (m_trees m)) pc -> pc1 = succ_pc (length (m_trees m)) j ->
    (match trace_log ky b with Some b0 => (ky, b0) :: log2 | None => log2 end) =
    map (fun k => (KyTree, changed m m3 k)) (seq j (length (m_trees m) - j))).
  { intros j _ Ej. destruct (Hsucc j Ej) as [_ Hb]. rewrite El. unfold succ_pc in Ej. destruct (Nat.ltb_spec j (length (m_trees m))) as [Hj|Hj].
    - rewrite Ej in *. simpl in Ey. injection Ey as <- <-. simpl trace_log. cbn iota. simpl first_open.
      replace (length (m_trees m) - j) with (S (length (m_trees m) - S j)) by lia. simpl seq. simpl map. f_equal; [congruence|].
      apply changed_ext_in. intros k Hk. apply in_seq in Hk. split; auto. symmetry. apply Hnodes. intros j' [= <-]. lia.
    - rewrite Ej in *. simpl in Ey. injection Ey as <- <-. simpl. rewrite Nat.sub_diag. replace (length (m_trees m) - j) with 0 by lia. reflexivity. }
  assert (Hsame : forall j rest, pc1 = GLeaf j rest ->
    (match trace_log ky b with Some b0 => (ky, b0) :: log2 | None => log2 end) =
    map (fun k => (KyTree, changed m m3 k)) (seq (S j) (length (m_trees m) - S j))).
  { intros j rest Ej. rewrite El, Ej in *. simpl in Ey. injection Ey as <- <-. simpl.
    apply changed_ext_in. intros k Hk. split; auto. symmetry. apply Hnodes. intros j' E'. congruence. }
  unfold pc1, pc_next in Hsucc, Hlog, Hsame, Hleaf.
  destruct pc as [|j|j rest|]; [| | |congruence].
  - destruct (Hsucc 0 eq_refl) as [E _]. split; [exact E|]. apply Hlog; reflexivity.
  - simpl rest_acts. simpl first_open. destruct Hg as [Hg Hft].
    pose proof (mi_st _ _ _ _ _ _ Hg) as Hs. pose proof (ms_op _ _ _ _ _ _ Hs _ eq_refl) as Hj. rewrite (ms_len _ _ _ _ _ _ Hs) in Hj.
    assert (Hlv : leaves_of m3 j = leaves_of m j) by (apply lkeeps_of; [auto|apply HL; simpl; auto]). rewrite Hlv. unfold leaves_of.
    destruct (nth_error (m_trees m) j) as [t|] eqn:Et; [|apply nth_error_None in Et; lia].
    destruct (leaf_nodes (m_heap m) t) as [|i rest] eqn:Eln.
    + destruct (Hsucc (S j) eq_refl) as [E _]. split; [exact E|]. apply Hlog; reflexivity.
    + split; [|eapply Hsame; reflexivity]. simpl. rewrite (Hleaf i) with (j := j) (r0 := rest); [|simpl; rewrite Et, Eln; reflexivity|reflexivity].
      f_equal. rewrite Ha. unfold pc1, pc_next. rewrite Et, Eln. reflexivity.
  - simpl rest_acts. simpl first_open. destruct rest as [|i rest].
    + destruct (Hsucc (S j) eq_refl) as [E _]. split; [exact E|]. apply Hlog; reflexivity.
    + split; [|eapply Hsame; reflexivity]. simpl. rewrite (Hleaf i) with (j := j) (r0 := rest); [|reflexivity|reflexivity].
      f_equal. rewrite Ha. reflexivity.
Qed.
