(** Proofs about MInit.v: whole trees and models. *)
From Coq Require Import Reals Lra Permutation ZArith.
From Verif Require Import Base Fl Ext MData MSplit MTree MSampler MHist MTreeHist MModel MModelHist MInit Spec SpecTree SpecSampler SpecModel SpecInit LFl LList
  PData PSplit PDataProps PCond PTree PPred PTreeHist PTreeProps PTreeProps2 PSampler PSampler2 PSampler3 PModel PModel2 PModel3 PInit.

Lemma encodes_walk T w : forall i ids s, encodes T i ids s -> sk_predicts T w i (walk s w).
Proof.
  induction 1 as [i v z El Er Ev|i l r f x il ir tl tr El Er Ef Ex Hl IHl Hr IHr]; simpl; [constructor; auto|].
  destruct (fle (cell w f) x) eqn:E; [eapply sp_left|eapply sp_right]; eauto.
Qed.
Lemma sk_predicts_unique T w i v : sk_predicts T w i v -> forall v', sk_predicts T w i v' -> v' = v.
Proof.
  induction 1; intros v' H'; inversion H'; subst; try congruence; try (exfalso; assert (Z.of_nat l = (-1)%Z) by congruence; lia);
    try (exfalso; assert (Z.of_nat l0 = (-1)%Z) by congruence; lia).
  - apply IHsk_predicts. assert (Z.of_nat l0 = Z.of_nat l) as E by congruence. apply Nat2Z.inj in E. now subst.
  - apply IHsk_predicts. assert (Z.of_nat r0 = Z.of_nat r) as E by congruence. apply Nat2Z.inj in E. now subst.
Qed.

Lemma map_sklearn_spec X y T st fuel h t i : no_nan X -> tree_inv h X (Some y) t (ALeaf i) -> sk_form T st -> splits st ->
  usable (mx_ncols X) st -> sheight st < fuel ->
  exists h' t' b, map_sklearn_tree fuel h t T = Ok (h', t') /\ tree_inv h' X (Some y) t' b /\ astree h' b = st /\
    tr_fresh t' = false /\ tr_pred t' = tr_pred t /\ stays h t h' t'.
Proof.
  intros Hn H (L1&L2&ids&He&Hnd) Hs Hu Hf.
  assert (Ht : tr_nodes t = [i]). { apply Permutation_length_1_inv. symmetry. exact (ti_perm _ _ _ _ _ H). }
  assert (H0 : 0 < length (sk_left T)) by (destruct He; apply nth_error_Some; congruence).
  unfold map_sklearn_tree. rewrite Ht. change 0%Z with (Z.of_nat 0). rewrite zput_nat by (now rewrite map_length). cbn [rbind].
  destruct (search_spec X y T Hn L1 L2 0 ids st He Hnd Hu fuel h t (ALeaf i) (put (map (fun _ => None) (sk_left T)) 0 (Some i)) i)
    as (h'&t'&n'&b&->&H'&Es&Hb&_&_&_&Hnx&Hp&Hfr&Hframe); auto; [now left|..].
  { rewrite put_nth by (now rewrite map_length). reflexivity. }
  { now rewrite put_length, map_length. }
  { destruct st; simpl; auto. destruct Hs. }
  cbn [rbind]. simpl in H'. rewrite Nat.eqb_refl in H'. exists h', t', b. split; auto. split; auto. split; auto.
  split; [destruct st; [destruct Hs|auto]|]. split; auto. split; auto. split; auto.
  intros j Hj. apply (ti_in _ _ _ _ _ _ H') in Hj. apply Hb in Hj as [->|Hj]; auto. left. rewrite Ht. simpl; auto.
Qed.

(** ** the loop over the trees of a model *)
Lemma import_minv X y e m As j t i T st fuel : no_nan X -> minv X y (Some j) e m As -> nth_error (m_trees m) j = Some t ->
  nth_error As j = Some (ALeaf i) -> importable X fuel T st ->
  exists h' t' b, map_sklearn_tree fuel (m_heap m) t T = Ok (h', t') /\ astree h' b = st /\
    let m' := m_set_trees m h' (set_nth j t' (m_trees m)) in
    minv X y (Some j) e m' (set_nth j b As) /\ same m m' /\
    (forall q, col h' X (set_nth j b As) q = set_nth j (nth q (insample h' X b) 0%R) (col (m_heap m) X As q)).
Proof.
  intros Hn H Et Ha (HT&Hsp&Hu&Hf). pose proof (mi_st _ _ _ _ _ _ H) as Hs. pose proof (ms_len _ _ _ _ _ _ Hs) as Hl.
  destruct (mi_target _ _ _ _ _ _ H j eq_refl) as (t0&a0&ty&Et0&Ha0&Hi&Lty&Nty).
  rewrite Et in Et0. injection Et0 as <-. rewrite Ha in Ha0. injection Ha0 as <-.
  destruct (map_sklearn_spec X ty T st fuel (m_heap m) t i Hn Hi HT Hsp Hu Hf) as (h'&t'&b&E&Hi'&Est&Hfr&Hp&Hst).
  assert (Hpr : m_pred m <> None) by (intros E0; destruct (mi_none _ _ _ _ _ _ H E0); discriminate).
  exists h', t', b. split; auto. split; auto.
  destruct (mst_upd X (Some j) (Some j) _ (m_pred m = None) _ _ As j t (ALeaf i) h' t' b (Some ty) Hs Et Ha Hst Hi') as [Hs' Hcol];
    auto; try discriminate.
  - rewrite Hfr. discriminate.
  - left. rewrite Hp. destruct (ms_buf _ _ _ _ _ _ Hs _ _ _ Et Ha) as [?|(_&E0&_)]; auto. congruence.
  - destruct (upd_keeps X (Some j) _ m As j t (ALeaf i) h' t' (m_pred m) Hs Et Ha Hst) as [Hsm Hlk].
    cbv zeta. split; [|split; [exact Hsm|exact Hcol]].
    assert (Hlt : j < length As) by (apply nth_error_Some; congruence).
    destruct H as [A B C D E' F G T']. split; simpl; auto.
    2: { intros j' [= <-]. exists t', b, ty. rewrite !set_nth_error, Nat.eqb_refl, Et, Ha. auto. }
    intros pr Hp'. destruct (B pr Hp') as [B1 B2]. split; auto. intros q Hq.
    rewrite B2, Hcol, rsum_set_nth by (rewrite ?col_length; auto). simpl. rewrite nth_set_nth by (rewrite col_length; auto). lra.
Qed.

Lemma set_nth_split {A} (x : A) : forall l j, j < length l -> firstn (S j) (set_nth j x l) = firstn j l ++ [x].
Proof. induction l as [|y l IH]; intros [|j]; simpl; intros H; try lia; auto. f_equal. apply IH. lia. Qed.

Lemma init_loop X y e fuel fit : no_nan X -> (forall h t, exists st, importable X fuel (fit h t) st) ->
  forall todo j m As, minv X y None e m As -> m_pred m <> None -> j + todo = length As ->
    (forall k, j <= k < length As -> exists q, nth_error As k = Some (ALeaf q)) ->
  exists m' As' sts, initialize_from (fun h t => map_sklearn_tree fuel h t (fit h t)) j todo m = Ok m' /\
    minv X y None e m' As' /\ same m m' /\ length sts = todo /\
    Forall (fun st => exists h t, importable X fuel (fit h t) st) sts /\
    (forall i, i < length (mx_rows X) ->
       col (m_heap m') X As' i = firstn j (col (m_heap m) X As i) ++ map (fun st => walk st (nth i (mx_rows X) [])) sts).
Proof.
  intros Hn Hfit. induction todo as [|todo IH]; intros j m As H Hp Hl Hleaf; cbn [initialize_from].
  - exists m, As, []. split; auto. split; auto. split; [apply same_refl|]. split; auto. split; auto.
    intros i Hi. simpl. rewrite app_nil_r, firstn_all2; auto. rewrite col_length. lia.
  - pose proof (ms_len _ _ _ _ _ _ (mi_st _ _ _ _ _ _ H)) as HlA.
    destruct (rt_open_spec X y e m As j Hn H ltac:(lia) Hp) as (m1&tg&t1&->&H1&Hsm1&_&_&Et1&_&_&_&_&Hc1&_). cbn [rbind]. rewrite Et1.
    destruct (Hleaf j ltac:(lia)) as (q&Hq). destruct (Hfit (m_heap m1) t1) as (st&Hst).
    destruct (import_minv X y e m1 As j t1 q _ st fuel Hn H1 Et1 Hq Hst) as (h2&t2&b&->&Eb&H2&Hsm2&Hc2). cbn [rbind].
    destruct (rt_close_spec X y e _ _ j Hn H2) as (m3&->&H3&Hsm3&_&_&Eh3&Hp3). cbn [rbind]. simpl in Eh3.
    destruct (IH (S j) m3 _ H3 Hp3) as (m'&As'&sts&->&H'&Hsm'&Ls&Fs&Hc').
    { rewrite set_nth_length. lia. }
    { intros k Hk. rewrite set_nth_length in Hk. rewrite set_nth_error. destruct (Nat.eqb_spec k j); [lia|]. apply Hleaf. lia. }
    exists m', As', (st :: sts). split; auto. split; auto.
    split; [eapply same_trans; [exact Hsm1|eapply same_trans; [exact Hsm2|eapply same_trans; eauto]]|].
    split; [simpl; lia|]. split; [constructor; eauto|].
    intros i Hi. rewrite Hc', Eh3, Hc2, set_nth_split by (rewrite ?col_length; lia). rewrite Hc1 by auto.
    rewrite <- app_assoc. simpl. f_equal. f_equal. rewrite insample_nth by auto. rewrite <- walk_leaf. now rewrite Eb.
Qed.
