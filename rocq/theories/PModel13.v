(** Steps that are collected before they are run; the steps of a run. *)
From Coq Require Import Reals Lra Permutation ZArith.
From Verif Require Import Base Fl Ext MData MSplit MTree MSampler MHist MTreeHist MModel MModelHist Spec SpecTree SpecSampler SpecModel LFl LList
  PData PSplit PDataProps PCond PTree PPred PTreeHist PTreeProps PTreeProps2 PSampler PSampler2 PSampler3
  PModel PModel2 PModel3 PModel4 PModel5 PModel6 PModel7 PModel8 PModel9 PModel10 PModel11 PModel12.

Lemma minv_leaves X y op e m As j : minv X y op e m As -> j < length (m_trees m) -> leaves_of m j <> [].
Proof.
  intros H Hj. pose proof (mi_st _ _ _ _ _ _ H) as Hs. unfold leaves_of.
  destruct (nth_error (m_trees m) j) as [t|] eqn:Et; [|apply nth_error_None in Et; lia].
  destruct (nth_error_both _ As j t (eq_sym (ms_len _ _ _ _ _ _ Hs)) Et) as (a&Ha).
  destruct (ms_tree _ _ _ _ _ _ Hs _ _ _ Et Ha) as (oy&Hi&_).
  assert (Hl : forall a cs d, aok (m_heap m) X oy cs d a -> exists q, In q (aids a) /\ is_leaf (m_heap m) q = true).
  { clear. induction a as [q|q v x l IHl r IHr]; intros cs d; simpl.
    - intros (w&s&E&_). exists q. split; auto. unfold is_leaf. now rewrite E.
    - intros (_&_&_&Hl&_). destruct (IHl _ _ Hl) as (q'&Hq&E). exists q'. split; auto. right. apply in_or_app. auto. }
  destruct (Hl a [] 0 (ti_ok _ _ _ _ _ Hi)) as (q&Hq&Eq).
  assert (Hin : In q (leaf_nodes (m_heap m) t)).
  { unfold leaf_nodes. apply filter_In. split; auto. now apply (ti_in _ _ _ _ _ _ Hi). }
  intros E. rewrite E in Hin. destruct Hin.
Qed.
Definition turn_steps (m : model) (k : nat) : list (skey * thunk) := (KyTree, ThTree) :: map (fun _ => (KyNode, ThLeaf)) (leaves_of m k).
Definition tail_steps (m : model) (n j : nat) : list (skey * thunk) := flat_map (turn_steps m) (seq j (n - j)) ++ [(KyNode, ThSigma)].
Definition rest_steps (m : model) (n : nat) (pc : gpc) : list (skey * thunk) :=
  match pc with
  | GStart => tail_steps m n 0
  | GTree j => map (fun _ => (KyNode, ThLeaf)) (leaves_of m j) ++ tail_steps m n (S j)
  | GLeaf j rest => map (fun _ => (KyNode, ThLeaf)) rest ++ tail_steps m n (S j)
  | GSigma => []
  end.
Lemma tail_steps_next m n j : tail_steps m n j = yields (succ_pc n j) :: rest_steps m n (succ_pc n j).
Proof.
  unfold tail_steps, succ_pc. destruct (Nat.ltb_spec j n) as [H|H].
  - replace (n - j) with (S (n - S j)) by lia. simpl. unfold tail_steps. now rewrite <- app_assoc.
  - replace (n - j) with 0 by lia. reflexivity.
Qed.
Lemma rest_steps_next X y op e m As pc : minv X y op e m As -> (forall j, pc = GTree j -> j < length (m_trees m)) -> pc <> GSigma ->
  rest_steps m (length (m_trees m)) pc = yields (pc_next m pc) :: rest_steps m (length (m_trees m)) (pc_next m pc).
Proof.
  intros H Hj Hpc. destruct pc as [|j|j [|i rest]|]; [| | | |congruence].
  - apply tail_steps_next.
  - specialize (Hj j eq_refl). pose proof (minv_leaves _ _ _ _ _ _ _ H Hj) as Hl. simpl. unfold leaves_of in *.
    destruct (nth_error (m_trees m) j) as [t|]; [|congruence]. destruct (leaf_nodes (m_heap m) t) as [|i rest]; [congruence|]. reflexivity.
  - simpl. apply tail_steps_next.
  - reflexivity.
Qed.
Lemma rest_steps_ext m m' n pc : (forall k, leaves_of m' k = leaves_of m k) -> rest_steps m' n pc = rest_steps m n pc.
Proof.
  intros H. assert (Ht : forall j, tail_steps m' n j = tail_steps m n j).
  { intros j. unfold tail_steps. f_equal. apply flat_map_ext. intros k. unfold turn_steps. now rewrite H. }
  destruct pc; simpl; rewrite ?Ht, ?H; auto.
Qed.
(** where the generator's variables stand *)
Definition at_leaf (m : model) (fr : frame) (pc : gpc) : Prop :=
  match pc with
  | GLeaf j rest => exists pre i, fr_leaf fr = Some i /\ leaves_of m j = pre ++ i :: rest
  | GSigma => 0 < length (m_trees m) -> fr_tree fr = Some (length (m_trees m) - 1) /\
      exists pre i, fr_leaf fr = Some i /\ leaves_of m (length (m_trees m) - 1) = pre ++ [i]
  | _ => True
  end.
Lemma gen_tree_frame m fr j : match gen_tree m fr j with Ok (_, GSigma, fr', _) => fr' = fr | _ => True end.
Proof.
  unfold gen_tree. destruct (j <? length (m_trees m)); [|auto]. destruct (rt_open m j); cbn [rbind]; auto.
Qed.
Lemma gen_next_at X y e m fr pc As fr' m' : no_nan X -> ginv X y e m fr pc As -> at_leaf m fr pc -> pc <> GSigma ->
  (pc = GStart \/ fr_tree fr = open_of pc) ->
  gen_next m fr pc = Ok (Some (yields (pc_next m pc)), pc_next m pc, fr', m') -> at_leaf m' fr' (pc_next m pc).
Proof.
  intros Hn Hg Ha Hpc Hfr E.
  destruct (gen_next_spec _ _ _ _ _ _ _ Hn Hg Hpc) as (fr1&m1&E'&Hlf&Hg1&Hsm1&Hlk1&_). rewrite E in E'. injection E' as <- <-.
  assert (Hlen : length (m_trees m') = length (m_trees m)) by apply Hsm1.
  assert (Hlv : forall k, leaves_of m' k = leaves_of m k) by (intros k; now apply lkeeps_of).
  pose proof (ginv_open _ _ _ _ _ _ _ Hg) as Hm.
  assert (Hlast : forall j, j < length (m_trees m) -> succ_pc (length (m_trees m)) (S j) = GSigma -> j = length (m_trees m) - 1).
  { intros j Hj. unfold succ_pc. destruct (Nat.ltb_spec (S j) (length (m_trees m))); [discriminate|]. intros _. lia. }
  destruct pc as [|j|j rest|]; [| | |congruence].
  - cbn [pc_next] in *. unfold succ_pc. destruct (Nat.ltb_spec 0 (length (m_trees m))); simpl; auto. lia.
  - destruct Hg as [H Hft]. pose proof (ms_op _ _ _ _ _ _ (mi_st _ _ _ _ _ _ H) _ eq_refl) as Hj.
    rewrite (ms_len _ _ _ _ _ _ (mi_st _ _ _ _ _ _ H)) in Hj.
    pose proof (minv_leaves _ _ _ _ _ _ _ H Hj) as Hl. unfold leaves_of in Hl. cbn [pc_next leaf_next] in *.
    destruct (nth_error (m_trees m) j) as [t|] eqn:Et; [|congruence]. destruct (leaf_nodes (m_heap m) t) as [|i rest] eqn:El; [congruence|].
    simpl. exists [], i. split; [apply Hlf; reflexivity|]. rewrite Hlv. unfold leaves_of. now rewrite Et, El.
  - destruct Hg as [H (Hft&_)]. pose proof (ms_op _ _ _ _ _ _ (mi_st _ _ _ _ _ _ H) _ eq_refl) as Hj.
    rewrite (ms_len _ _ _ _ _ _ (mi_st _ _ _ _ _ _ H)) in Hj. destruct Ha as (pre&i&Hi&El).
    destruct rest as [|i' rest]; cbn [pc_next leaf_next] in *.
    + destruct (succ_pc (length (m_trees m)) (S j)) as [|j'|j' rest'|] eqn:Es; try exact I.
      * unfold succ_pc in Es. destruct (_ <? _); discriminate.
      * intros _. rewrite Hlen. rewrite <- (Hlast j Hj Es). cbn [gen_next gen_leaves] in E.
        destruct (rt_close m j) as [m2| |]; try discriminate. cbn [rbind] in E.
        pose proof (gen_tree_frame m2 fr (S j)) as Hgf. rewrite E in Hgf. subst fr'. split; auto. exists pre, i. rewrite Hlv. auto.
    + exists (pre ++ [i]), i'. split; [apply Hlf; reflexivity|]. rewrite Hlv, El, <- app_assoc. reflexivity.
Qed.
Lemma need_next X y e m fr pc As fr' m' : no_nan X -> ginv X y e m fr pc As -> pc <> GSigma ->
  gen_next m fr pc = Ok (Some (yields (pc_next m pc)), pc_next m pc, fr', m') -> S (need m' (pc_next m pc)) <= need m pc.
Proof.
  intros Hn Hg Hpc E.
  destruct (gen_next_spec _ _ _ _ _ _ _ Hn Hg Hpc) as (fr1&m1&E'&Hlf&Hg1&Hsm1&Hlk1&_). rewrite E in E'. injection E' as <- <-.
  assert (Hlen : length (m_trees m') = length (m_trees m)) by apply Hsm1.
  assert (Hlv : forall k, leaves_of m' k = leaves_of m k) by (intros k; now apply lkeeps_of).
  assert (Hnt : forall j, need_tail m' j = need_tail m j) by (intros j; apply need_tail_keeps; auto).
  pose proof (leaves_le m) as Hle.
  assert (Hsucc : forall j, S (need m' (succ_pc (length (m_trees m)) j)) <= need_tail m j).
  { intros j. unfold succ_pc. destruct (Nat.ltb_spec j (length (m_trees m))) as [H|H].
    - cbn [need]. rewrite Hnt, Hlv, (need_tail_step m j H). specialize (Hle j). lia.
    - cbn [need]. unfold need_tail. lia. }
  destruct pc as [|j|j [|i rest]|]; [| | | |congruence].
  - apply Hsucc.
  - cbn [pc_next need]. unfold leaves_of. destruct (nth_error (m_trees m) j) as [t|] eqn:Et.
    + destruct (leaf_nodes (m_heap m) t) as [|i rest] eqn:El; [apply Hsucc|]. cbn [need]. rewrite Hnt. simpl. lia.
    + cbn [need]. unfold need_tail. simpl. lia.
  - cbn [pc_next need]. apply Hsucc.
  - cbn [pc_next need]. rewrite Hnt. simpl. lia.
Qed.
Lemma collect_spec X y e : no_nan X -> forall fuel m fr pc As, ginv X y e m fr pc As -> need m pc <= fuel ->
  (pc = GStart \/ at_leaf m fr pc) ->
  exists ths mf frf, collect fuel m fr pc = Ok (ths, mf, frf) /\ minv X y None e mf As /\ same m mf /\ (forall k, lkeeps k m mf) /\
    ths = rest_steps m (length (m_trees m)) pc /\
    (0 < length (m_trees m) -> fr_tree frf = Some (length (m_trees m) - 1) /\
      exists pre i, fr_leaf frf = Some i /\ leaves_of m (length (m_trees m) - 1) = pre ++ [i]).
Proof.
  intros Hn. induction fuel as [|fuel IH]; intros m fr pc As Hg Hf Ha; [pose proof (need_pos m pc); lia|]. cbn [collect].
  destruct (pc_dec pc) as [->|Hpc].
  { simpl. destruct Hg as [Hg Hp]. destruct Ha as [Ha|Ha]; [discriminate|]. exists [], m, fr.
    split; auto. split; auto. split; [apply same_refl|]. split; [intros; apply lkeeps_refl|]. split; auto. }
  destruct (gen_next_spec _ _ _ _ _ _ _ Hn Hg Hpc) as (fr1&m1&Egn&Hlf&Hg1&Hsm1&Hlk1&_).
  pose proof (need_next _ _ _ _ _ _ _ _ _ Hn Hg Hpc Egn) as Hneed. rewrite Egn. cbn [rbind].
  assert (Hlen : length (m_trees m1) = length (m_trees m)) by apply Hsm1.
  assert (Hlv : forall k, leaves_of m1 k = leaves_of m k) by (intros k; now apply lkeeps_of).
  assert (Ha1 : at_leaf m1 fr1 (pc_next m pc)).
  { eapply gen_next_at; eauto.
    - destruct Ha as [->|]; simpl; auto.
    - destruct pc; simpl in Hg |- *; auto; [right; apply Hg|right; apply Hg|congruence]. }
  destruct (IH m1 fr1 (pc_next m pc) As Hg1 ltac:(lia) (or_intror Ha1)) as (ths&mf&frf&->&Hmf&Hsmf&Hlkf&->&Hfin). cbn [rbind].
  eexists. exists mf, frf. split; [reflexivity|]. split; auto. split; [eapply same_trans; eauto|].
  split; [intros k; eapply lkeeps_trans; eauto|]. split.
  - rewrite Hlen, (rest_steps_ext m m1) by auto. symmetry.
    apply (rest_steps_next _ _ _ _ _ _ _ (ginv_open _ _ _ _ _ _ _ Hg)); auto.
    intros j ->. destruct Hg as [H _]. pose proof (ms_op _ _ _ _ _ _ (mi_st _ _ _ _ _ _ H) _ eq_refl) as Hj.
    now rewrite (ms_len _ _ _ _ _ _ (mi_st _ _ _ _ _ _ H)) in Hj.
  - rewrite Hlen, Hlv in Hfin. auto.
Qed.
