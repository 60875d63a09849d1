(** Invariants of models sampled with the oblivious tree sampler: whole Gibbs steps, enough iterations, abandoned
    steps, copies, new models, histories. *)
From Coq Require Import Reals Lra Permutation.
From Verif Require Import Base Fl Ext MData MSplit MTree MSampler MHist MTreeHist MModel MModelHist MOblivious MObModel Spec SpecTree SpecSampler SpecModel SpecOblivious LFl LList
  PData PSplit PDataProps PCond PTree PPred PTreeHist PTreeProps PTreeProps2 PSampler PSampler2 PSampler3 PModel PModel2 PModel3 PModel4 PModel5 PModel6 PModel7 POblivious POblivious2 POblivious3 POblivious4 POblivious5 PObModel PObModel2.

(** ** ModelSampler.step *)
Lemma edrive X y e : no_nan X -> forall fuel m fr pc r log acts mf rf, egi X y e m fr pc -> udraws r ->
  ob_drive fuel m fr pc r = Ok (log, acts, mf, rf) ->
  einv X y None e mf /\ m_pred mf <> None /\ same m mf /\ udraws rf /\ (forall k, settled pc k -> lkeeps k m mf) /\
    acts = rest_acts mf (length (m_trees m)) pc /\
    log = map (fun k => (KyTree, changed m mf k)) (seq (first_open (length (m_trees m)) pc) (length (m_trees m) - first_open (length (m_trees m)) pc)).
Proof.
  intros Hn. induction fuel as [|fuel IH]; intros m fr pc r log acts mf rf Hg Hu; [discriminate|]. cbn [ob_drive].
  destruct (pc_dec pc) as [->|Hpc].
  { simpl. intros E. injection E as <- <- <- <-. destruct Hg as [Hg Hp]. rewrite Nat.sub_diag. simpl. auto 10 using same_refl, lkeeps_refl. }
  destruct (egen_next _ _ _ _ _ _ Hn Hg Hpc) as (fr1&m1&->&Hfr&Hg1&Hsm1&Hlk1&Es1). cbn [rbind].
  set (pc1 := pc_next m pc) in *.
  assert (Hns : pc1 <> GStart).
  { unfold pc1, pc_next, succ_pc. clear. destruct pc as [|j|j [|i rest]|]; try congruence.
    - destruct (_ <? _); congruence.
    - destruct (nth_error _ _); [|congruence]. destruct (leaf_nodes _ _); [destruct (_ <? _)|]; congruence.
    - destruct (_ <? _); congruence. }
  destruct (yields pc1) as [ky th] eqn:Ey.
  destruct (ob_call m1 fr1 th r) as [[[[b a] m2] r1]| |] eqn:Ec; try discriminate. cbn [rbind].
  assert (Hth : th = snd (yields pc1)) by now rewrite Ey.
  destruct (ecall _ _ _ _ _ _ _ _ _ _ _ Hn Hg1 Hns Hu ltac:(rewrite <- Hth; exact Ec)) as (Hg2&Hsm2&Hu2&Hact).
  destruct (ob_drive fuel m2 fr1 pc1 r1) as [[[[log2 acts2] m3] r2]| |] eqn:Ed; try discriminate. cbn [rbind].
  intros E. injection E as <- <- <- <-.
  destruct (IH _ _ _ _ _ _ _ _ Hg2 Hu2 Ed) as (H'&Hp'&Hsm3&Hu3&Hlk3&Ha&El).
  assert (Hlen1 : length (m_trees m1) = length (m_trees m)) by apply Hsm1.
  assert (Hlen2 : length (m_trees m2) = length (m_trees m)) by (transitivity (length (m_trees m1)); [apply Hsm2|auto]).
  assert (Hlen3 : length (m_trees m3) = length (m_trees m)) by (transitivity (length (m_trees m2)); [apply Hsm3|auto]).
  rewrite Hlen2 in *.
  assert (Hlk2 : forall k, (forall j, pc1 = GTree j -> k <> j) -> lkeeps k m1 m2).
  { intros k Hk. destruct pc1; destruct Hact as [_ Hact]; auto. now apply Hact, Hk. }
  split; auto. split; auto. split; [eapply same_trans; [eauto|eapply same_trans; eauto]|]. split; [auto|].
  assert (Hset : forall k, settled pc k -> settled pc1 k /\ forall j, pc1 = GTree j -> k <> j).
  { intros k Hk. unfold pc1, pc_next, succ_pc. destruct pc as [|j|j rest|]; simpl in Hk; [tauto| | |congruence].
    - destruct (nth_error _ _); [|split; [exact I|congruence]]. destruct (leaf_nodes _ _); [|simpl; split; [auto|congruence]].
      destruct (_ <? _); simpl; split; auto; try lia; intros j' [= <-]; lia.
    - destruct rest; [|simpl; split; [auto|congruence]]. destruct (_ <? _); simpl; split; auto; try lia; intros j' [= <-]; lia. }
  assert (HL : forall k, settled pc k -> lkeeps k m m3).
  { intros k Hk. destruct (Hset k Hk). eapply lkeeps_trans; [apply Hlk1|]. eapply lkeeps_trans; [apply Hlk2|apply Hlk3]; auto. }
  split; auto.
  (* nodes of the trees whose turn has not come *)
  assert (Hleaf : forall i, leaf_next m pc = Some i -> (forall j r0, pc1 = GLeaf j r0 -> a = DoLeaf i)).
  { intros i Hi j r0 E. rewrite E in Hact. destruct Hact as [(i'&Hi'&->) _]. rewrite (Hfr i Hi) in Hi'. congruence. }
  assert (Hsucc : forall j, pc1 = succ_pc (length (m_trees m)) j ->
    a :: acts2 = tail_acts m3 (length (m_trees m)) j /\
    (if match pc1 with GTree _ => true | _ => false end then b = changed m m3 j else True)).
  { intros j Ej. rewrite tail_acts_step, <- Ej, Ha. unfold succ_pc in Ej. destruct (Nat.ltb_spec j (length (m_trees m))).
    - rewrite Ej in Hact |- *. destruct Hact as (->&Hlk&Hb&_). simpl. split; auto.
      rewrite Hb. apply changed_ext.
      + now destruct (lkeeps_of j m m1 Hlen1 (Hlk1 j)).
      + destruct (lkeeps_of j m2 m3) as [E _]; [congruence| |now rewrite E]. apply Hlk3. rewrite Ej. simpl. auto.
    - rewrite Ej in Hact |- *. destruct Hact as [-> _]. simpl. auto. }
  assert (Hnodes : forall k, (forall j, pc1 = GTree j -> k <> j) -> nodes_of m k = nodes_of m2 k).
  { intros k Hk. destruct (lkeeps_of k m m2) as [E _]; [congruence| |now rewrite E]. eapply lkeeps_trans; [apply Hlk1|]. apply Hlk2; auto. }
  assert (Hlog : forall j, j = first_open (length (m_trees m)) pc -> pc1 = succ_pc (length (m_trees m)) j ->
    (match trace_log ky b with Some b0 => (ky, b0) :: log2 | None => log2 end) =
    map (fun k => (KyTree, changed m m3 k)) (seq j (length (m_trees m) - j))).
  { intros j _ Ej. destruct (Hsucc j Ej) as [_ Hb]. rewrite El. unfold succ_pc in Ej. destruct (Nat.ltb_spec j (length (m_trees m))) as [Hj|Hj].
    - rewrite Ej in *. simpl in Ey. injection Ey as <- <-. simpl trace_log. cbn iota. simpl first_open.
      replace (length (m_trees m) - j) with (S (length (m_trees m) - S j)) by lia. simpl seq. simpl map. f_equal; [congruence|].
      apply changed_ext_in. intros k Hk. apply in_seq in Hk. split; auto. symmetry. apply Hnodes. intros j' [= <-]. lia.
    - rewrite Ej in *. simpl in Ey. injection Ey as <- <-. simpl. rewrite Nat.sub_diag. replace (length (m_trees m) - j) with 0 by lia. reflexivity. }
  assert (Hsame : forall j rest, pc1 = GLeaf j rest ->
    (match trace_log ky b with Some b0 => (ky, b0) :: log2 | None => log2 end) =
    map (fun k => (KyTree, changed m m3 k)) (seq (S j) (length (m_trees m) - S j))).
  { intros j rest Ej. rewrite El, Ej in *. simpl in Ey. injection Ey as <- <-. simpl.
    apply changed_ext_in. intros k Hk. split; auto. symmetry. apply Hnodes. intros j' E'. congruence. }
  unfold pc1, pc_next in Hsucc, Hlog, Hsame, Hleaf.
  destruct pc as [|j|j rest|]; [| | |congruence].
  - destruct (Hsucc 0 eq_refl) as [E _]. split; [exact E|]. apply Hlog; reflexivity.
  - simpl rest_acts. simpl first_open. destruct Hg as [Hg Hft].
    pose proof (ei_st _ _ _ _ _ Hg) as Hs. pose proof (es_op _ _ _ _ _ Hs _ eq_refl) as Hj.
    assert (Hlv : leaves_of m3 j = leaves_of m j) by (apply lkeeps_of; [auto|apply HL; simpl; auto]). rewrite Hlv. unfold leaves_of.
    destruct (nth_error (m_trees m) j) as [t|] eqn:Et; [|apply nth_error_None in Et; lia].
    destruct (leaf_nodes (m_heap m) t) as [|i rest] eqn:Eln.
    + destruct (Hsucc (S j) eq_refl) as [E _]. split; [exact E|]. apply Hlog; reflexivity.
    + split; [|eapply Hsame; reflexivity]. simpl. rewrite (Hleaf i) with (j := j) (r0 := rest); [|simpl; rewrite Et, Eln; reflexivity|reflexivity].
      f_equal. rewrite Ha. unfold pc1, pc_next. rewrite Et, Eln. reflexivity.
  - simpl rest_acts. simpl first_open. destruct rest as [|i rest].
    + destruct (Hsucc (S j) eq_refl) as [E _]. split; [exact E|]. apply Hlog; reflexivity.
    + split; [|eapply Hsame; reflexivity]. simpl. rewrite (Hleaf i) with (j := j) (r0 := rest); [|reflexivity|reflexivity].
      f_equal. rewrite Ha. reflexivity.
Qed.

(** ** enough iterations *)
Definition eweight (ts : list tree) : nat := fold_right (fun t n => 1 + 3 * length (tr_nodes t) + n) 0 ts.
Definition eneed_tail (m : model) (j : nat) : nat := 2 + eweight (skipn j (m_trees m)).
Definition eneed (m : model) (pc : gpc) : nat :=
  match pc with
  | GStart => eneed_tail m 0
  | GTree j => length (leaves_of m j) + eneed_tail m (S j)
  | GLeaf j rest => length rest + eneed_tail m (S j)
  | GSigma => 1
  end.
Lemma eweight_ext ts ts' : map tr_nodes ts = map tr_nodes ts' -> eweight ts = eweight ts'.
Proof.
  revert ts'; induction ts as [|t ts IH]; intros [|t' ts'] H; simpl in *; try discriminate; auto.
  injection H as E H. rewrite E, (IH ts'); auto.
Qed.
Lemma eneed_tail_keeps m m' j : length (m_trees m') = length (m_trees m) -> (forall k, j <= k -> lkeeps k m m') -> eneed_tail m' j = eneed_tail m j.
Proof.
  intros Hl H. unfold eneed_tail. f_equal. apply eweight_ext. apply nth_error_ext_eq. intros k. rewrite !nth_error_map, !nth_error_skipn.
  destruct (nth_error (m_trees m) (j + k)) as [t|] eqn:E.
  - destruct (H (j + k) ltac:(lia) t E) as (t'&->&E2&_). simpl. now rewrite E2.
  - apply nth_error_None in E. rewrite <- Hl in E. apply nth_error_None in E. now rewrite E.
Qed.
Lemma eneed_tail_step m j : j < length (m_trees m) -> eneed_tail m j = 1 + 3 * length (nodes_of m j) + eneed_tail m (S j).
Proof.
  intros Hj. unfold eneed_tail, nodes_of. revert Hj. generalize (m_trees m). clear. induction j as [|j IH]; intros [|t ts] H; cbn [length] in H; try lia.
  - cbn [skipn nth_error]. change (eweight (t :: ts)) with (1 + 3 * length (tr_nodes t) + eweight ts). lia.
  - cbn [skipn nth_error]. apply IH. lia.
Qed.
Lemma eneed_pos m pc : 1 <= eneed m pc.
Proof. destruct pc; unfold eneed, eneed_tail; lia. Qed.
Lemma eneed_dec X y e m fr pc fr1 m1 th r b a m2 r1 : no_nan X -> egi X y e m fr pc -> pc <> GSigma -> udraws r ->
  gen_next m fr pc = Ok (Some (yields (pc_next m pc)), pc_next m pc, fr1, m1) -> th = snd (yields (pc_next m pc)) ->
  ob_call m1 fr1 th r = Ok (b, a, m2, r1) -> S (eneed m2 (pc_next m pc)) <= eneed m pc.
Proof.
  intros Hn Hg Hpc Hu Egn Hth Ec. subst th.
  destruct (egen_next _ _ _ _ _ _ Hn Hg Hpc) as (fr1'&m1'&Egn'&Hfr&Hg1&Hsm1&Hlk1&Es1). rewrite Egn in Egn'. injection Egn' as <- <-.
  pose proof (pc_next_started m pc Hpc) as Hns.
  destruct (ecall _ _ _ _ _ _ _ _ _ _ _ Hn Hg1 Hns Hu Ec) as (Hg2&Hsm2&Hu2&Hact).
  assert (Hlen1 : length (m_trees m1) = length (m_trees m)) by apply Hsm1.
  assert (Hlen2 : length (m_trees m2) = length (m_trees m)) by (transitivity (length (m_trees m1)); [apply Hsm2|auto]).
  assert (Hlk2 : forall k, (forall j, pc_next m pc = GTree j -> k <> j) -> lkeeps k m m2).
  { intros k Hk. eapply lkeeps_trans; [apply Hlk1|]. destruct (pc_next m pc); destruct Hact as [_ Hact]; auto. now apply Hact, Hk. }
  assert (Hsucc : forall j, pc_next m pc = succ_pc (length (m_trees m)) j -> S (eneed m2 (pc_next m pc)) <= eneed_tail m j).
  { intros j Ej. unfold succ_pc in Ej. destruct (Nat.ltb_spec j (length (m_trees m))) as [Hj|Hj]; rewrite Ej in *.
    - destruct Hact as (_&_&_&Hsz). unfold node_count in Hsz.
      destruct (lkeeps_of j m m1 Hlen1 (Hlk1 j)) as [En _]. rewrite En in Hsz.
      assert (Hpos : 1 <= length (nodes_of m j)).
      { rewrite <- En. destruct Hg1 as [Hg1 _]. unfold nodes_of. destruct (nth_error (m_trees m1) j) as [t|] eqn:Et; [|apply nth_error_None in Et; lia].
        destruct (es_tree _ _ _ _ _ (ei_st _ _ _ _ _ Hg1) _ _ Et) as (oy&k&o&Hi&_). pose proof (oinv_size _ _ _ _ _ _ Hi) as Z. pose proof (Nat.pow_nonzero 2 k).
        simpl in Z. lia. }
      rewrite (eneed_tail_step m j Hj). simpl eneed. rewrite (eneed_tail_keeps m m2 (S j)); [lia|auto|].
      intros k Hk. apply Hlk2. intros j' [= <-]. lia.
    - unfold eneed, eneed_tail. lia. }
  destruct pc as [|j|j rest|]; [| | |congruence].
  - apply Hsucc. reflexivity.
  - destruct Hg as [Hg Hft].
    pose proof (ei_st _ _ _ _ _ Hg) as Hs. pose proof (es_op _ _ _ _ _ Hs _ eq_refl) as Hj.
    simpl eneed at 2. simpl pc_next in *. unfold leaves_of. destruct (nth_error (m_trees m) j) as [t|] eqn:Et; [|apply nth_error_None in Et; lia].
    destruct (leaf_nodes (m_heap m) t) as [|i rest] eqn:Eln.
    + simpl. apply Hsucc. reflexivity.
    + simpl. rewrite (eneed_tail_keeps m m2 (S j)); auto. intros k Hk. apply Hlk2. intros j' E'. congruence.
  - destruct rest as [|i rest].
    + simpl eneed at 2. simpl pc_next in *. apply Hsucc. reflexivity.
    + simpl. rewrite (eneed_tail_keeps m m2 (S j)); auto. intros k Hk. apply Hlk2. intros j' E'. simpl in E'. congruence.
Qed.
Lemma edrive_enough X y e : no_nan X -> forall f f' m fr pc r, egi X y e m fr pc -> udraws r ->
  eneed m pc <= f -> eneed m pc <= f' -> ob_drive f m fr pc r = ob_drive f' m fr pc r.
Proof.
  intros Hn. induction f as [|f IH]; intros f' m fr pc r Hg Hu H1 H2; [pose proof (eneed_pos m pc); lia|].
  destruct f' as [|f']; [pose proof (eneed_pos m pc); lia|]. cbn [ob_drive].
  destruct (pc_dec pc) as [->|Hpc]; [reflexivity|].
  destruct (egen_next _ _ _ _ _ _ Hn Hg Hpc) as (fr1&m1&Egn&Hfr&Hg1&Hsm1&Hlk1&Es1). rewrite Egn. cbn [rbind].
  destruct (yields (pc_next m pc)) as [ky th] eqn:Ey.
  destruct (ob_call m1 fr1 th r) as [[[[b a] m2] r1]| |] eqn:Ec; try reflexivity. cbn [rbind].
  assert (Hth : th = snd (yields (pc_next m pc))) by now rewrite Ey.
  rewrite <- Ey in Egn. pose proof (eneed_dec _ _ _ _ _ _ _ _ _ _ _ _ _ _ Hn Hg Hpc Hu Egn Hth Ec) as Hdec.
  destruct (ecall _ _ _ _ _ _ _ _ _ _ _ Hn Hg1 (pc_next_started m pc Hpc) Hu ltac:(rewrite <- Hth; exact Ec)) as (Hg2&_&Hu2&_).
  rewrite (IH f' m2 fr1 (pc_next m pc) r1 Hg2 Hu2) by lia. reflexivity.
Qed.

(** ** a Gibbs step broken off *)
Lemma edrive_for X y e : no_nan X -> forall n m fr pc r m' fr' pc' r', egi X y e m fr pc -> udraws r ->
  ob_drive_for n m fr pc r = Ok (m', fr', pc', r') -> egi X y e m' fr' pc' /\ same m m'.
Proof.
  intros Hn. induction n as [|n IH]; intros m fr pc r m' fr' pc' r' Hg Hu; cbn [ob_drive_for].
  - intros E. injection E as <- <- <- <-. auto using same_refl.
  - destruct (pc_dec pc) as [->|Hpc].
    { simpl. intros E. injection E as <- <- <- <-. auto using same_refl. }
    destruct (egen_next _ _ _ _ _ _ Hn Hg Hpc) as (fr1&m1&->&Hfr&Hg1&Hsm1&Hlk1&Es1). cbn [rbind].
    destruct (yields (pc_next m pc)) as [ky th] eqn:Ey.
    destruct (ob_call m1 fr1 th r) as [[[[b a] m2] r1]| |] eqn:Ec; try discriminate. cbn [rbind].
    assert (Hth : th = snd (yields (pc_next m pc))) by now rewrite Ey.
    destruct (ecall _ _ _ _ _ _ _ _ _ _ _ Hn Hg1 (pc_next_started m pc Hpc) Hu ltac:(rewrite <- Hth; exact Ec)) as (Hg2&Hsm2&Hu2&Hact).
    intros Hd. destruct (IH _ _ _ _ _ _ _ _ Hg2 Hu2 Hd) as (Hg'&Hsm'). split; auto.
    eapply same_trans; [eauto|eapply same_trans; eauto].
Qed.
Lemma egi_open X y e m fr pc : egi X y e m fr pc -> einv X y (open_of pc) e m.
Proof. destruct pc; simpl; tauto. Qed.
Lemma ehalf_step X y e n b m r m' pc : no_nan X -> einv X y None e m -> udraws r -> ob_half_step n b m r = Ok (m', pc) ->
  einv X y (open_of pc) e m' /\ same m m'.
Proof.
  intros Hn H Hu. unfold ob_half_step. destruct (ob_drive_for n m (Fr None None) GStart r) as [[[[m1 fr1] pc1] r1]| |] eqn:Ed; try discriminate. cbn [rbind].
  destruct (edrive_for X y e Hn n m (Fr None None) GStart r _ _ _ _ H Hu Ed) as (Hg&Hsm). destruct b.
  - destruct (pc_dec pc1) as [->|Hpc].
    + simpl. intros E. injection E as <- <-. apply egi_open in Hg. auto.
    + destruct (egen_next _ _ _ _ _ _ Hn Hg Hpc) as (fr2&m2&->&_&Hg2&Hsm2&_). cbn [rbind]. intros E. injection E as <- <-.
      apply egi_open in Hg2. split; auto. eapply same_trans; eauto.
  - intros E. injection E as <- <-. apply egi_open in Hg. auto.
Qed.

(** ** copies *)
Lemma einv_nodes X y op e m t q : einv X y op e m -> In t (m_trees m) -> In q (tr_nodes t) ->
  q < h_next (m_heap m) /\ exists k s d, h_get (m_heap m) q = Some (Nd k (SFull s) d).
Proof.
  intros H Ht Hq. apply In_nth_error in Ht as (j&Ht). destruct (es_tree _ _ _ _ _ (ei_st _ _ _ _ _ H) _ _ Ht) as (oy&k&o&Hi&_).
  split; [eapply onodes_below; eauto|]. apply (oi_same _ _ _ _ _ _ Hi) in Hq.
  destruct (osub o [] 0 q (oi_nodup _ _ _ _ _ _ Hi) Hq) as (o'&cs'&d'&Er&Hin&_&_&Hok).
  specialize (Hok _ _ _ (oi_ok _ _ _ _ _ _ Hi)). destruct o' as [q'|q' w l r]; simpl in Er; subst q'.
  - destruct Hok as (w&s&Eg&Hsv). eauto.
  - destruct Hok as ((s&Eg&Hsv)&_). eauto.
Qed.
Lemma einv_heap X y op e m h' : einv X y op e m -> h_next (m_heap m) <= h_next h' ->
  (forall q, q < h_next (m_heap m) -> h_get h' q = h_get (m_heap m) q) ->
  einv X y op e (m_set_trees m h' (m_trees m)) /\ same m (m_set_trees m h' (m_trees m)) /\ forall k, lkeeps k m (m_set_trees m h' (m_trees m)).
Proof.
  intros H Hn Hg.
  assert (Hids : forall t q, In t (m_trees m) -> In q (tr_nodes t) -> h_get h' q = h_get (m_heap m) q).
  { intros t q Ht Hq. apply Hg. eapply einv_nodes; eauto. }
  assert (Hins : forall t, In t (m_trees m) -> oshow h' (length (mx_rows X)) t = oshow (m_heap m) (length (mx_rows X)) t).
  { intros t Ht. apply oshow_ext; auto. intros q Hq. eauto. }
  assert (Hcol : forall i, ecol h' (length (mx_rows X)) (m_trees m) i = ecol (m_heap m) (length (mx_rows X)) (m_trees m) i).
  { intros i. unfold ecol. apply map_ext_in. intros t Ht. now rewrite Hins. }
  split; [|split].
  - destruct H as [A B C D E F G T]. split; simpl; auto.
    + destruct A as [A1 A2 A3 A4 A5]. split; auto.
      * intros j t Ht. destruct (A1 j t Ht) as (oy&k&o&Hi&Ho). exists oy, k, o. split; auto. eapply oinv_heap; eauto.
        intros q Hq. eapply Hids; [eapply nth_error_In; eauto|auto].
      * intros j t Ht Hf. rewrite Hins by (eapply nth_error_In; eauto). eauto.
    + intros pr Hp. destruct (B pr Hp) as [B1 B2]. split; auto. intros i Hi. rewrite Hcol. auto.
    + intros j Hj. destruct (T j Hj) as (t&k&o&ty&Ht&Hi&Hty). exists t, k, o, ty. split; [auto|]. split; [|auto].
      eapply oinv_heap; eauto. intros q Hq. eapply Hids; [eapply nth_error_In; eauto|auto].
  - unfold same, mkeeps; simpl. repeat split; auto.
  - intros k t Ht. exists t. simpl. split; auto. split; auto. apply leaf_nodes_ext; auto. intros q Hq. apply is_leaf_ext.
    eapply Hids; [eapply nth_error_In; eauto|auto].
Qed.
Lemma edeep_copy X y op e m : einv X y op e m ->
  exists s m', deep_copy_model m = Ok (s, m') /\ einv X y op e m' /\ same m m' /\ (forall k, lkeeps k m m') /\ m_pred m' = m_pred m /\
    m_sigma m' = m_sigma m /\ m_trees m' = m_trees m /\ sm_sigma s = m_sigma m /\ same_conditions (m_heap m') (sm_trees s) (m_heap m) (m_trees m) /\ stored m' s /\
    (forall X', sample_predict (m_heap m') s X' = trees_predict_out (m_heap m) (m_trees m) X') /\
    (forall q, q < h_next (m_heap m) -> h_get (m_heap m') q = h_get (m_heap m) q).
Proof.
  intros H. unfold deep_copy_model.
  destruct (copy_trees_spec (m_trees m) (m_heap m)) as (ts'&h'&->&Hn&Hg&Hr&Hf); [intros t i Ht Hi; eapply einv_nodes; eauto|].
  cbn [rbind]. destruct (einv_heap _ _ _ _ _ h' H Hn Hg) as (H'&Hsm&Hlk).
  exists (Sm ts' (m_sigma m)), (m_set_trees m h' (m_trees m)). split; [reflexivity|]. split; [exact H'|]. split; [exact Hsm|]. split; [exact Hlk|]. split; [reflexivity|].
  split; [reflexivity|]. split; [reflexivity|]. split; [reflexivity|]. split; [simpl; apply copied_conditions; exact Hf|]. split; [|split; [|exact Hg]].
  - intros q (t&Ht&Hq). simpl in *. specialize (Hr t q Ht Hq). split; [lia|]. intros (t0&Ht0&Hq0). simpl in Ht0.
    destruct (einv_nodes _ _ _ _ _ _ _ H Ht0 Hq0). lia.
  - intros X'. simpl. apply trees_predict_out_ext. eapply Forall2_impl_in; [|exact Hf]. intros t t' _ _ Hc. now apply copied_predict.
Qed.

(** ** new models *)
Lemma estart X y normalize h0 sigma p m : length y = length (mx_rows X) -> start_model X y normalize h0 sigma p = Ok m ->
  einv X (start_target y normalize) None (fun _ => 0%R) m /\ length (m_trees m) = pa_ntrees p /\ m_par m = p /\ m_sigma m = sigma /\ m_pred m = None.
Proof.
  intros Hl Hm. destruct (start_model_spec _ _ _ _ _ _ _ Hl Hm) as (A&B&C&D&E&F&G). split; [|split; [rewrite B, map_length, seq_length; auto|auto]]. destruct A as [A1 A2 A3 A4 A5 A6 A7 A8]. split; auto; try discriminate; [|rewrite G; discriminate].
  assert (Hnth : forall j t, nth_error (m_trees m) j = Some t -> exists q, nth_error (seq (h_next h0) (pa_ntrees p)) j = Some q /\ t = make_tree [q]).
  { intros j t. rewrite B, nth_error_map. destruct (nth_error _ j) as [q|]; [|discriminate]. intros [= <-]. eauto. }
  split; try discriminate.
  - intros j t Ht. destruct (Hnth _ _ Ht) as (q&Hq&->). exists None, 0, (OLeaf q). split; [|discriminate].
    pose proof (nth_error_In _ _ Hq) as Hin. destruct (C q Hin) as (s&Es&Hs).
    constructor; simpl; auto; try (repeat constructor; simpl; tauto).
    + eauto.
    + intros z [<-|[]]. assert (Ha : nth_error (map ALeaf (seq (h_next h0) (pa_ntrees p))) j = Some (ALeaf q)) by now rewrite nth_error_map, Hq.
      destruct (ms_tree _ _ _ _ _ _ A1 _ _ _ Ht Ha) as (oy&Hi&_). eapply (ti_below _ _ _ _ _ Hi). simpl; auto.
  - intros i j t u q Ht Hu. destruct (Hnth _ _ Ht) as (a&Ha&->). destruct (Hnth _ _ Hu) as (b&Hb&->). simpl. intros [->|[]] [->|[]].
    apply (proj1 (NoDup_nth_error _) (seq_NoDup (pa_ntrees p) (h_next h0))); [apply nth_error_Some; congruence|congruence].
  - intros j t Ht Hf. destruct (Hnth _ _ Ht) as (q&Hq&->). discriminate.
  - intros j t Ht. destruct (Hnth _ _ Ht) as (q&Hq&->). right. split; auto. split; [auto|]. exists q. reflexivity.
Qed.

(** ** histories *)
Definition ob_ok (o : ob_model_op) : Prop := match o with BStep r | BHalf _ _ r => udraws r | _ => True end.
Definition ob_ends (o : ob_model_op) : Prop := match o with BHalf _ _ _ => False | _ => True end.
Lemma ob_do_spec X y e m o m' : no_nan X -> einv X y None e m -> ob_ok o -> ob_model_do m o = Ok m' ->
  exists e', einv X y None e' m' /\ same m m' /\ (ob_ends o -> e' = e).
Proof.
  intros Hn H Ho. destruct o as [r| | |n b r]; cbn [ob_model_do].
  - unfold ob_gibbs_step. destruct (ob_drive _ m _ GStart r) as [[[[log a] m1] r1]| |] eqn:Ed; try discriminate. cbn [rbind]. intros E. injection E as <-.
    destruct (edrive X y e Hn _ m (Fr None None) GStart r _ _ _ _ H Ho Ed) as (H'&_&Hsm&_). eauto.
  - destruct (emodel_predict _ _ _ _ Hn H) as (v&m1&->&_&_&H'&Hsm&_). cbn [rbind]. intros E. injection E as <-. eauto.
  - destruct (edeep_copy _ _ _ _ _ H) as (s&m1&->&H'&Hsm&_). cbn [rbind]. intros E. injection E as <-. eauto.
  - destruct (ob_half_step n b m r) as [[m1 pc]| |] eqn:Eh; try discriminate. cbn [rbind]. intros E. injection E as <-.
    destruct (ehalf_step _ _ _ _ _ _ _ _ _ Hn H Ho Eh) as (H'&Hsm). destruct (open_of pc) as [j|] eqn:Eo.
    + apply einv_abandon in H'. eexists. split; [exact H'|]. split; auto. intros [].
    + exists e. split; auto.
Qed.
Lemma ob_run_spec X y : no_nan X -> forall os e m m', einv X y None e m -> Forall ob_ok os -> ob_model_run m os = Ok m' ->
  exists e', einv X y None e' m' /\ same m m' /\ (Forall ob_ends os -> e' = e).
Proof.
  intros Hn. induction os as [|o os IH]; intros e m m' H Ho; cbn [ob_model_run].
  - intros E. injection E as <-. exists e. auto using same_refl.
  - inversion Ho; subst. destruct (ob_model_do m o) as [m1| |] eqn:Ed; try discriminate. cbn [rbind]. intros Hr.
    destruct (ob_do_spec _ _ _ _ _ _ Hn H H2 Ed) as (e1&H1&Hsm1&He1). destruct (IH _ _ _ H1 H3 Hr) as (e2&H2'&Hsm2&He2).
    exists e2. split; auto. split; [eapply same_trans; eauto|]. intros Hf. inversion Hf; subst. rewrite He2, He1; auto.
Qed.
