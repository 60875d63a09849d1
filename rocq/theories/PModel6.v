(** Invariants of models: number of iterations, abandoned steps, passes, copies, histories. *)
From Coq Require Import Reals Lra Permutation.
From Verif Require Import Base Fl Ext MData MSplit MTree MSampler MHist MTreeHist MModel MModelHist Spec SpecTree SpecSampler SpecModel LFl LList
  PData PSplit PDataProps PCond PTree PPred PTreeHist PTreeProps PTreeProps2 PSampler PSampler2 PSampler3 PModel PModel2 PModel3 PModel4 PModel5.

(** ** enough iterations *)
Definition weight (ts : list tree) : nat := fold_right (fun t n => 3 + length (tr_nodes t) + n) 0 ts.
Definition need_tail (m : model) (j : nat) : nat := 2 + weight (skipn j (m_trees m)).
Definition need (m : model) (pc : gpc) : nat :=
  match pc with
  | GStart => need_tail m 0
  | GTree j => length (leaves_of m j) + need_tail m (S j)
  | GLeaf j rest => length rest + need_tail m (S j)
  | GSigma => 1
  end.
Lemma weight_ext ts ts' : map tr_nodes ts = map tr_nodes ts' -> weight ts = weight ts'.
Proof.
  revert ts'; induction ts as [|t ts IH]; intros [|t' ts'] H; simpl in *; try discriminate; auto.
  injection H as E H. rewrite E, (IH ts'); auto.
Qed.
Lemma nth_error_skipn {A} (l : list A) j k : nth_error (skipn j l) k = nth_error l (j + k).
Proof. revert l; induction j; intros [|x l]; simpl; auto. now destruct k. Qed.
Lemma need_tail_keeps m m' j : length (m_trees m') = length (m_trees m) -> (forall k, j <= k -> lkeeps k m m') -> need_tail m' j = need_tail m j.
Proof.
  intros Hl H. unfold need_tail. f_equal. apply weight_ext. apply nth_error_ext_eq. intros k. rewrite !nth_error_map, !nth_error_skipn.
  destruct (nth_error (m_trees m) (j + k)) as [t|] eqn:E.
  - destruct (H (j + k) ltac:(lia) t E) as (t'&->&E2&_). simpl. now rewrite E2.
  - apply nth_error_None in E. rewrite <- Hl in E. apply nth_error_None in E. now rewrite E.
Qed.
Lemma need_tail_step m j : j < length (m_trees m) -> need_tail m j = 3 + length (nodes_of m j) + need_tail m (S j).
Proof.
  intros Hj. unfold need_tail, nodes_of. revert Hj. generalize (m_trees m). clear. induction j as [|j IH]; intros [|t ts] H; simpl in *; try lia.
  specialize (IH ts ltac:(lia)). simpl in IH. lia.
Qed.
Lemma leaves_le m j : length (leaves_of m j) <= length (nodes_of m j).
Proof. unfold leaves_of, nodes_of. destruct (nth_error _ _); [apply filter_length_le|auto]. Qed.
Lemma need_pos m pc : 1 <= need m pc.
Proof. destruct pc; unfold need, need_tail; lia. Qed.
Lemma pc_next_started m pc : pc <> GSigma -> pc_next m pc <> GStart.
Proof.
  unfold pc_next, succ_pc. destruct pc as [|j|j [|i rest]|]; try congruence; intros _.
  - destruct (_ <? _); congruence.
  - destruct (nth_error _ _); [|congruence]. destruct (leaf_nodes _ _); [destruct (_ <? _)|]; congruence.
  - destruct (_ <? _); congruence.
Qed.
Lemma need_dec X y e m fr pc As fr1 m1 th r b a m2 r1 : no_nan X -> ginv X y e m fr pc As -> pc <> GSigma ->
  gen_next m fr pc = Ok (Some (yields (pc_next m pc)), pc_next m pc, fr1, m1) -> th = snd (yields (pc_next m pc)) ->
  call m1 fr1 th r = Ok (b, a, m2, r1) -> S (need m2 (pc_next m pc)) <= need m pc.
Proof.
  intros Hn Hg Hpc Egn Hth Ec. subst th.
  destruct (gen_next_spec _ _ _ _ _ _ _ Hn Hg Hpc) as (fr1'&m1'&Egn'&Hfr&Hg1&Hsm1&Hlk1&Es1). rewrite Egn in Egn'. injection Egn' as <- <-.
  pose proof (pc_next_started m pc Hpc) as Hns.
  destruct (call_spec _ _ _ _ _ _ _ _ _ _ _ _ Hn Hg1 Hns Ec) as (As2&Hg2&Hsm2&Hfl2&Hact).
  assert (Hlen1 : length (m_trees m1) = length (m_trees m)) by apply Hsm1.
  assert (Hlen2 : length (m_trees m2) = length (m_trees m)) by (transitivity (length (m_trees m1)); [apply Hsm2|auto]).
  assert (Hlk2 : forall k, (forall j, pc_next m pc = GTree j -> k <> j) -> lkeeps k m m2).
  { intros k Hk. eapply lkeeps_trans; [apply Hlk1|]. destruct (pc_next m pc); destruct Hact as [_ Hact]; auto. }
  assert (Hsucc : forall j, pc_next m pc = succ_pc (length (m_trees m)) j -> S (need m2 (pc_next m pc)) <= need_tail m j).
  { intros j Ej. unfold succ_pc in Ej. destruct (Nat.ltb_spec j (length (m_trees m))) as [Hj|Hj]; rewrite Ej in *.
    - simpl in Ec. destruct (call_tree_bool _ _ _ _ _ _ _ _ _ _ _ _ Hn Hg1 Ec) as [_ Hsz].
      destruct (lkeeps_of j m m1 Hlen1 (Hlk1 j)) as [En _]. rewrite En in Hsz. pose proof (leaves_le m2 j).
      rewrite (need_tail_step m j Hj). simpl. rewrite (need_tail_keeps m m2 (S j)); [lia|auto|].
      intros k Hk. apply Hlk2. intros j' [= <-]. lia.
    - unfold need, need_tail. lia. }
  destruct pc as [|j|j rest|]; [| | |congruence].
  - apply Hsucc. reflexivity.
  - destruct Hg as [Hg Hft].
    pose proof (mi_st _ _ _ _ _ _ Hg) as Hs. pose proof (ms_op _ _ _ _ _ _ Hs _ eq_refl) as Hj. rewrite (ms_len _ _ _ _ _ _ Hs) in Hj.
    simpl need at 2. simpl pc_next in *. unfold leaves_of. destruct (nth_error (m_trees m) j) as [t|] eqn:Et; [|apply nth_error_None in Et; lia].
    destruct (leaf_nodes (m_heap m) t) as [|i rest] eqn:Eln.
    + simpl. apply Hsucc. reflexivity.
    + simpl. rewrite (need_tail_keeps m m2 (S j)); auto. intros k Hk. apply Hlk2. intros j' E'. congruence.
  - destruct rest as [|i rest].
    + simpl need at 2. simpl pc_next in *. apply Hsucc. reflexivity.
    + simpl. rewrite (need_tail_keeps m m2 (S j)); auto. intros k Hk. apply Hlk2. intros j' E'. simpl in E'. congruence.
Qed.
Lemma drive_enough X y e : no_nan X -> forall f f' m fr pc As r, ginv X y e m fr pc As ->
  need m pc <= f -> need m pc <= f' -> drive f m fr pc r = drive f' m fr pc r.
Proof.
  intros Hn. induction f as [|f IH]; intros f' m fr pc As r Hg H1 H2; [pose proof (need_pos m pc); lia|].
  destruct f' as [|f']; [pose proof (need_pos m pc); lia|]. cbn [drive].
  destruct (pc_dec pc) as [->|Hpc]; [reflexivity|].
  destruct (gen_next_spec _ _ _ _ _ _ _ Hn Hg Hpc) as (fr1&m1&Egn&Hfr&Hg1&Hsm1&Hlk1&Es1). rewrite Egn. cbn [rbind].
  destruct (yields (pc_next m pc)) as [ky th] eqn:Ey.
  destruct (call m1 fr1 th r) as [[[[b a] m2] r1]| |] eqn:Ec; try reflexivity. cbn [rbind].
  assert (Hth : th = snd (yields (pc_next m pc))) by now rewrite Ey.
  rewrite <- Ey in Egn. pose proof (need_dec _ _ _ _ _ _ _ _ _ _ _ _ _ _ _ Hn Hg Hpc Egn Hth Ec) as Hdec.
  destruct (call_spec _ _ _ _ _ _ _ _ _ _ _ _ Hn Hg1 (pc_next_started m pc Hpc) ltac:(rewrite <- Hth; exact Ec)) as (As2&Hg2&_).
  rewrite (IH f' m2 fr1 (pc_next m pc) As2 r1 Hg2) by lia. reflexivity.
Qed.

(** ** a Gibbs step broken off *)
Lemma drive_for_spec X y e : no_nan X -> forall n m fr pc As r m' fr' pc' r', ginv X y e m fr pc As ->
  drive_for n m fr pc r = Ok (m', fr', pc', r') -> exists As', ginv X y e m' fr' pc' As' /\ same m m' /\ (Forall (filled X []) As -> Forall (filled X []) As').
Proof.
  intros Hn. induction n as [|n IH]; intros m fr pc As r m' fr' pc' r' Hg; cbn [drive_for].
  - intros E. injection E as <- <- <- <-. exists As. auto using same_refl.
  - destruct (pc_dec pc) as [->|Hpc].
    { simpl. intros E. injection E as <- <- <- <-. exists As. auto using same_refl. }
    destruct (gen_next_spec _ _ _ _ _ _ _ Hn Hg Hpc) as (fr1&m1&->&Hfr&Hg1&Hsm1&Hlk1&Es1). cbn [rbind].
    destruct (yields (pc_next m pc)) as [ky th] eqn:Ey.
    destruct (call m1 fr1 th r) as [[[[b a] m2] r1]| |] eqn:Ec; try discriminate. cbn [rbind].
    assert (Hns : pc_next m pc <> GStart).
    { unfold pc_next, succ_pc. clear. destruct pc as [|j|j [|i rest]|]; try congruence.
      - destruct (_ <? _); congruence.
      - destruct (nth_error _ _); [|congruence]. destruct (leaf_nodes _ _); [destruct (_ <? _)|]; congruence.
      - destruct (_ <? _); congruence. }
    assert (Hth : th = snd (yields (pc_next m pc))) by now rewrite Ey.
    destruct (call_spec _ _ _ _ _ _ _ _ _ _ _ _ Hn Hg1 Hns ltac:(rewrite <- Hth; exact Ec)) as (As2&Hg2&Hsm2&Hfl2&Hact).
    intros Hd. destruct (IH _ _ _ _ _ _ _ _ _ Hg2 Hd) as (As'&Hg'&Hsm'&Hfl'). exists As'. split; auto. split; auto.
    eapply same_trans; [eauto|eapply same_trans; eauto].
Qed.
Lemma ginv_open X y e m fr pc As : ginv X y e m fr pc As -> minv X y (open_of pc) e m As.
Proof. destruct pc; simpl; tauto. Qed.
Lemma half_step_spec X y e n b m As r m' pc : no_nan X -> minv X y None e m As -> half_step n b m r = Ok (m', pc) ->
  exists As', minv X y (open_of pc) e m' As' /\ same m m' /\ (Forall (filled X []) As -> Forall (filled X []) As').
Proof.
  intros Hn H. unfold half_step. destruct (drive_for n m (Fr None None) GStart r) as [[[[m1 fr1] pc1] r1]| |] eqn:Ed; try discriminate. cbn [rbind].
  destruct (drive_for_spec X y e Hn n m (Fr None None) GStart As r _ _ _ _ H Ed) as (As1&Hg&Hsm&Hfl). destruct b.
  - destruct (pc_dec pc1) as [->|Hpc].
    + simpl. intros E. injection E as <- <-. apply ginv_open in Hg. exists As1. auto.
    + destruct (gen_next_spec _ _ _ _ _ _ _ Hn Hg Hpc) as (fr2&m2&->&_&Hg2&Hsm2&_). cbn [rbind]. intros E. injection E as <- <-.
      apply ginv_open in Hg2. exists As1. split; auto. split; auto. eapply same_trans; eauto.
  - intros E. injection E as <- <-. apply ginv_open in Hg. exists As1. auto.
Qed.

(** ** passes by other consumers *)
Lemma on_tree_spec X y e j : no_nan X -> forall os m As m', minv X y (Some j) e m As -> Forall visit_op os ->
  on_tree m j os = Ok m' -> exists As', minv X y (Some j) e m' As' /\ same m m'.
Proof.
  intros Hn. unfold on_tree. induction os as [|o os IH]; intros m As m' H Hv.
  - destruct (nth_error (m_trees m) j) as [t|] eqn:Et; [|discriminate]. simpl. rewrite (set_nth_same _ _ _ Et).
    intros E. injection E as <-. exists As. destruct m; simpl in *. split; auto. apply same_refl.
  - inversion Hv; subst. destruct (nth_error (m_trees m) j) as [t|] eqn:Et; [|discriminate]. cbn [tree_run].
    destruct (tree_do (m_heap m) t o) as [[h1 t1]| |] eqn:Ed; try discriminate. cbn [rbind]. 
    destruct (visit_minv _ _ _ _ _ _ _ _ _ _ Hn H Et H2 Ed) as (a'&H'&Hsm&_). intros Hr.
    destruct (IH _ _ m' H' H3) as (As'&Hm'&Hsm').
    + simpl. rewrite set_nth_error, Nat.eqb_refl, Et.
      destruct (tree_run h1 t1 os) as [[h2 t2]| |]; try discriminate. cbn [rbind] in Hr |- *. rewrite <- Hr. unfold m_set_trees. simpl.
      now rewrite set_nth_twice.
    + exists As'. split; auto. eapply same_trans; eauto.
Qed.
Lemma pass_from_spec X y e : no_nan X -> forall acts j m As m', minv X y None e m As -> m_pred m <> None ->
  Forall (Forall visit_op) acts -> j + length acts <= length (m_trees m) -> pass_from j acts m = Ok m' ->
  exists As', minv X y None e m' As' /\ same m m' /\ m_pred m' <> None.
Proof.
  intros Hn. induction acts as [|os acts IH]; intros j m As m' H Hp Hv Hl; cbn [pass_from].
  - intros E. injection E as <-. eauto using same_refl.
  - inversion Hv; subst. simpl in Hl.
    destruct (rt_open_spec _ _ _ _ _ j Hn H ltac:(lia) Hp) as (m1&tg&t1&->&H1&Hsm1&_). cbn [rbind].
    destruct (on_tree m1 j os) as [mx| |] eqn:Eo; try discriminate. cbn [rbind].
    destruct (on_tree_spec _ _ _ _ Hn _ _ _ _ H1 H2 Eo) as (As2&H2'&Hsm2).
    destruct (rt_close_spec _ _ _ _ _ _ Hn H2') as (m3&->&H3'&Hsm3&_&_&_&Hp3). cbn [rbind]. intros Hr.
    assert (Hsm : same m m3) by (eapply same_trans; [eauto|eapply same_trans; eauto]).
    destruct (IH (S j) m3 As2 m' H3' Hp3 H3) as (As'&H'&Hsm'&Hp'); auto.
    + destruct Hsm as (->&_). lia.
    + exists As'. split; auto. split; auto. eapply same_trans; eauto.
Qed.
Lemma pass_spec X y e m As acts m' : no_nan X -> minv X y None e m As -> Forall (Forall visit_op) acts ->
  length acts <= length (m_trees m) -> pass m acts = Ok m' -> exists As', minv X y None e m' As' /\ same m m' /\ m_pred m' <> None.
Proof.
  intros Hn H Hv Hl. unfold pass. destruct (rt_start_spec _ _ _ _ _ Hn H) as (m1&->&H1&Hsm&_&_&_&pr&Hp). cbn [rbind]. intros Hr.
  destruct (pass_from_spec _ _ _ Hn acts 0 _ _ _ H1 ltac:(congruence) Hv ltac:(destruct Hsm as (->&_); simpl; lia) Hr) as (As'&H'&Hsm'&Hp').
  exists As'. split; auto. split; auto. eapply same_trans; eauto.
Qed.
Lemma broken_pass_spec X y e m As acts os m' : no_nan X -> minv X y None e m As -> Forall (Forall visit_op) acts -> Forall visit_op os ->
  length acts < length (m_trees m) -> broken_pass m acts os = Ok m' ->
  exists As', minv X y (Some (length acts)) e m' As' /\ same m m'.
Proof.
  intros Hn H Hv Hvo Hl. unfold broken_pass. destruct (pass m acts) as [m1| |] eqn:Ep; try discriminate. cbn [rbind].
  destruct (pass_spec _ _ _ _ _ _ _ Hn H Hv ltac:(lia) Ep) as (As1&H1&Hsm1&Hp1).
  destruct (rt_open_spec _ _ _ _ _ (length acts) Hn H1 ltac:(destruct Hsm1 as (->&_); lia) Hp1) as (m2&tg&t1&->&H2&Hsm2&_). cbn [rbind].
  intros Ho. destruct (on_tree_spec _ _ _ _ Hn _ _ _ _ H2 Hvo Ho) as (As'&H'&Hsm'). exists As'. split; auto.
  eapply same_trans; [eauto|eapply same_trans; eauto].
Qed.
