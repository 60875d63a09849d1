(** Invariants of models sampled with the oblivious tree sampler: the generator of steps and whole Gibbs steps. *)
From Coq Require Import Reals Lra Permutation.
From Verif Require Import Base Fl Ext MData MSplit MTree MSampler MHist MTreeHist MModel MModelHist MOblivious MObModel Spec SpecTree SpecSampler SpecModel SpecOblivious LFl LList
  PData PSplit PDataProps PCond PTree PPred PTreeHist PTreeProps PTreeProps2 PSampler PSampler2 PSampler3 PModel PModel2 PModel3 PModel4 PModel5 PModel6 POblivious POblivious2 POblivious3 POblivious4 POblivious5 PObModel.

(** ** opening *)
Lemma ert_open X y e m j : no_nan X -> einv X y None e m -> j < length (m_trees m) -> m_pred m <> None ->
  exists m' target t', rt_open m j = Ok m' /\ einv X y (Some j) e m' /\ same m m' /\ (forall k, lkeeps k m m') /\ m_sigma m' = m_sigma m /\
    nth_error (m_trees m') j = Some t' /\ tr_fresh t' = false /\ has_target (m_heap m') t' target /\ length target = length (mx_rows X) /\
    (forall i, i < length (mx_rows X) ->
      nth i target 0%R = (nth i y 0 - (rsum (ecol (m_heap m) (length (mx_rows X)) (m_trees m) i) - nth j (ecol (m_heap m) (length (mx_rows X)) (m_trees m) i) 0) + e i)%R) /\
    (forall i, ecol (m_heap m') (length (mx_rows X)) (m_trees m') i = ecol (m_heap m) (length (mx_rows X)) (m_trees m) i) /\ m_pred m' <> None.
Proof.
  intros Hn H Hj Hp. pose proof (ei_st _ _ _ _ _ H) as Hs.
  destruct (nth_error (m_trees m) j) as [t|] eqn:Et; [|apply nth_error_None in Et; lia].
  destruct (m_pred m) as [pr|] eqn:Ep; [|congruence].
  destruct (ei_pred _ _ _ _ _ H pr Ep) as [Lpr Npr].
  unfold rt_open. rewrite Et, Ep, (emst_ready _ _ _ _ _ _ _ Hn Hs Et). cbn [rbind].
  pose proof (eshow_length _ _ _ _ _ _ _ Hn Hs Et) as Ls.
  destruct (vop_sum Rminus pr (oshow (m_heap m) (length (mx_rows X)) t) _ Lpr Ls) as (pr1&->&Lpr1&Npr1). cbn [rbind].
  unfold data_values. rewrite (ei_y _ _ _ _ _ H). cbn [rbind].
  destruct (vop_sum Rminus y pr1 _ (ei_ylen _ _ _ _ _ H) Lpr1) as (tg&->&Ltg&Ntg). cbn [rbind].
  destruct (es_tree _ _ _ _ _ Hs _ _ Et) as (oy&k0&o&Hi&_).
  destruct (update_y_full (m_heap m) X oy (ocached (m_heap m) (length (mx_rows X)) t) k0 o (Some tg)) as (h1&E1&I1&N1&G1&G2);
    [eapply oinv_tree; eauto|now intros y' [= <-]|].
  rewrite E1. cbn [rbind]. set (t2 := Tr (tr_nodes (ocached (m_heap m) (length (mx_rows X)) t)) false (tr_pred (ocached (m_heap m) (length (mx_rows X)) t))) in *.
  assert (Hst : stays (m_heap m) t h1 t2).
  { split; [lia|]. split; [|auto]. intros q Hq Hnq. apply G2. exact Hnq. }
  assert (Hins : oshow h1 (length (mx_rows X)) t2 = oshow (m_heap m) (length (mx_rows X)) t) by (apply (oshow_y _ _ (Some tg)); auto).
  destruct (emst_upd X None (Some j) _ (Some pr1 = None) _ _ j t h1 t2 (Some tg) k0 o Hs Et Hst I1) as [Hs' Hcol]; auto; try discriminate.
  - intros k Hk [= <-]. congruence.
  - left. simpl. eexists. split; [reflexivity|]. auto.
  - destruct (eupd_keeps X None _ m j t h1 t2 (Some pr1) Hs Et Hst) as [Hsm Hlk].
    assert (Hc : forall i, ecol h1 (length (mx_rows X)) (set_nth j t2 (m_trees m)) i = ecol (m_heap m) (length (mx_rows X)) (m_trees m) i).
    { intros i. rewrite Hcol, Hins. apply set_nth_same. unfold ecol. now rewrite nth_error_map, Et. }
    exists (m_set_pred (m_set_trees m h1 (set_nth j t2 (m_trees m))) (Some pr1)), tg, t2. split; [reflexivity|].
    split; [|split; [exact Hsm|split; [|split; [reflexivity|]]]].
    + destruct H. split; simpl; auto; try discriminate.
      * intros pr' [= <-]. split; auto. intros i Hi0. rewrite Hc, (ecol_nth _ _ _ _ _ _ Et), Npr1, Npr by auto. simpl. lra.
      * intros j' [= <-]. exists t2, k0, o, tg. rewrite set_nth_error, Nat.eqb_refl, Et. split; [auto|]. split; [auto|]. split; [auto|].
        intros pr' [= <-]. auto.
    + intros k. destruct (Nat.eq_dec k j) as [->|Hk]; [|now apply Hlk]. intros t0 Ht0. rewrite Et in Ht0. injection Ht0 as <-.
      simpl. rewrite set_nth_error, Nat.eqb_refl, Et. exists t2. split; auto. split; auto. apply leaf_nodes_ext; auto.
      intros q Hq. apply (y_set_leaf _ _ (Some tg)). now apply G1.
    + simpl. rewrite set_nth_error, Nat.eqb_refl, Et. split; auto. split; auto. split; [|split; [auto|split; [|split; [auto|discriminate]]]].
      * intros q Hq. apply (oi_same _ _ _ _ _ _ I1) in Hq.
        destruct (osub o [] 0 q (oi_nodup _ _ _ _ _ _ I1) Hq) as (o'&cs'&d'&Er&Hin&_&_&Hok).
        specialize (Hok _ _ _ (oi_ok _ _ _ _ _ _ I1)). destruct o' as [q'|q' w l r]; simpl in Er; subst q'.
        -- destruct Hok as (w&s&Eg&Hsv). exists s. unfold node_split. rewrite Eg. split; auto. apply (si_t _ _ _ _ Hsv).
        -- destruct Hok as ((s&Eg&Hsv)&_). exists s. unfold node_split. rewrite Eg. split; auto. apply (si_t _ _ _ _ Hsv).
      * intros i Hi0. rewrite Ntg, Npr1, Npr, (ecol_nth _ _ _ _ _ _ Et) by auto. simpl. lra.
Qed.

(** ** closing *)
Lemma ert_close X y e m j : no_nan X -> einv X y (Some j) e m ->
  exists m', rt_close m j = Ok m' /\ einv X y None e m' /\ same m m' /\ (forall k, lkeeps k m m') /\ m_sigma m' = m_sigma m /\
    m_heap m' = m_heap m /\ m_pred m' <> None.
Proof.
  intros Hn H. pose proof (ei_st _ _ _ _ _ H) as Hs.
  pose proof (es_op _ _ _ _ _ Hs _ eq_refl) as Hj.
  destruct (nth_error (m_trees m) j) as [t|] eqn:Et; [|apply nth_error_None in Et; lia].
  destruct (m_pred m) as [pr|] eqn:Ep; [|destruct (ei_none _ _ _ _ _ H Ep); discriminate].
  destruct (ei_pred _ _ _ _ _ H pr Ep) as [Lpr Npr].
  unfold rt_close. rewrite Et, Ep, (emst_ready _ _ _ _ _ _ _ Hn Hs Et). cbn [rbind].
  pose proof (eshow_length _ _ _ _ _ _ _ Hn Hs Et) as Ls.
  destruct (vop_sum Rplus pr (oshow (m_heap m) (length (mx_rows X)) t) _ Lpr Ls) as (pr1&->&Lpr1&Npr1). cbn [rbind].
  destruct (es_tree _ _ _ _ _ Hs _ _ Et) as (oy&k0&o&Hi&_).
  assert (Hst : stays (m_heap m) t (m_heap m) (ocached (m_heap m) (length (mx_rows X)) t)) by apply stays_refl.
  destruct (emst_upd X (Some j) None _ (Some pr1 = None) _ _ j t _ (ocached (m_heap m) (length (mx_rows X)) t) oy k0 o Hs Et Hst) as [Hs' Hcol];
    auto; try discriminate; try congruence.
  - eapply oinv_tree; eauto.
  - simpl. split; [reflexivity|discriminate].
  - left. simpl. eexists. split; [reflexivity|]. auto.
  - destruct (eupd_keeps X (Some j) _ m j t _ _ (Some pr1) Hs Et Hst) as [Hsm Hlk].
    assert (Hc : forall i, ecol (m_heap m) (length (mx_rows X)) (set_nth j (ocached (m_heap m) (length (mx_rows X)) t) (m_trees m)) i = ecol (m_heap m) (length (mx_rows X)) (m_trees m) i).
    { intros i. rewrite Hcol, oshow_cached. apply set_nth_same. unfold ecol. now rewrite nth_error_map, Et. }
    eexists. split; [reflexivity|]. split; [|split; [exact Hsm|split; [|split; [reflexivity|split; [reflexivity|discriminate]]]]].
    + destruct H. split; simpl; auto; try discriminate. intros pr' [= <-]. split; auto. intros i Hi0.
      rewrite Hc, Npr1, Npr by auto. simpl. rewrite (ecol_nth _ _ _ _ _ _ Et). lra.
    + intros k. destruct (Nat.eq_dec k j) as [->|Hk]; [|now apply Hlk]. intros t0 Ht0. rewrite Et in Ht0. injection Ht0 as <-.
      simpl. rewrite set_nth_error, Nat.eqb_refl, Et. eexists. split; [reflexivity|]. split; reflexivity.
Qed.

(** ** a pass given up while tree [j] is handed out *)
Lemma einv_abandon X y e m j : einv X y (Some j) e m ->
  einv X y None (fun i => e i + nth j (ecol (m_heap m) (length (mx_rows X)) (m_trees m) i) 0)%R m.
Proof.
  intros [A B C D E F G T]. split; auto.
  - destruct A as [A1 A2 A3 A4 A5]. split; auto; try discriminate.
    + intros k t Ht. destruct (A1 k t Ht) as (oy&q&o&Hi&_). exists oy, q, o. split; auto. discriminate.
    + intros k t Ht Hf. destruct (A3 k t Ht Hf). split; auto. discriminate.
  - intros pr Hp. destruct (B pr Hp) as [B1 B2]. split; auto. intros i Hi. rewrite B2 by auto. simpl. lra.
  - intros Hp. destruct (C Hp). discriminate.
  - discriminate.
Qed.

(** ** the tree handed out changes *)
Lemma evisit X y e m j t h1 t1 oy1 k1 o1 ty : no_nan X -> einv X y (Some j) e m -> nth_error (m_trees m) j = Some t ->
  oinv h1 X oy1 t1 k1 o1 -> oy1 = Some ty -> length ty = length (mx_rows X) ->
  (forall pr, m_pred m = Some pr -> forall i, i < length (mx_rows X) -> nth i ty 0%R = (nth i y 0 - nth i pr 0)%R) ->
  stays (m_heap m) t h1 t1 -> tr_pred t1 = tr_pred t -> (tr_fresh t = false -> tr_fresh t1 = false) ->
  let m' := m_set_trees m h1 (set_nth j t1 (m_trees m)) in
  einv X y (Some j) e m' /\ same m m' /\ (forall k, k <> j -> lkeeps k m m').
Proof.
  intros Hn H Et Hi' Ey Lty Nty Hst Hpd Hfr m'. subst oy1. pose proof (ei_st _ _ _ _ _ H) as Hs.
  assert (Hf : tr_fresh t = false).
  { destruct (tr_fresh t) eqn:Ef; auto. destruct (es_cache _ _ _ _ _ Hs _ _ Et Ef). congruence. }
  assert (Hpr : m_pred m <> None) by (intros E; destruct (ei_none _ _ _ _ _ H E); discriminate).
  destruct (emst_upd X (Some j) (Some j) _ (m_pred m = None) _ _ j t h1 t1 (Some ty) k1 o1 Hs Et Hst Hi') as [Hs' Hcol];
    auto; try discriminate.
  - rewrite (Hfr Hf). discriminate.
  - left. rewrite Hpd. destruct (es_buf _ _ _ _ _ Hs _ _ Et) as [?|(_&E&_)]; auto. congruence.
  - destruct (eupd_keeps X (Some j) _ m j t h1 t1 (m_pred m) Hs Et Hst) as [Hsm Hlk].
    split; [|split; [exact Hsm|exact Hlk]].
    assert (Hlt : j < length (m_trees m)) by (apply nth_error_Some; congruence).
    destruct H as [A B C D E F G T]. split; simpl; auto.
    2: { intros j' [= <-]. exists t1, k1, o1, ty. rewrite !set_nth_error, Nat.eqb_refl, Et. auto. }
    intros pr Hp. destruct (B pr Hp) as [B1 B2]. split; auto. intros i Hi0.
    rewrite B2, Hcol, rsum_set_nth by (rewrite ?ecol_length; auto). simpl. rewrite nth_set_nth by (rewrite ecol_length; auto). lra.
Qed.

(** ** draws *)
Definition udraws (r : rng) : Prop := Forall (fun u => 0 <= u)%R (rg_unif r).
Lemma ob_propose_unif n : forall h t r ms h1 r1, ob_propose n h t r = Ok (ms, h1, r1) -> rg_unif r1 = rg_unif r.
Proof.
  induction n as [|n IH]; intros h t r ms h1 r1; simpl; [discriminate|]. destruct (rg_method r) as [|b bs]; [discriminate|].
  match goal with |- match ?x with _ => _ end = _ -> _ => destruct x as [[[ms' h'] idx']|e|] end; [|destruct e; try discriminate|discriminate].
  - intros Q. injection Q as _ _ <-. reflexivity.
  - intros Q. apply IH in Q. exact Q.
  - intros Q. apply IH in Q. exact Q.
Qed.
Lemma ob_step_unif h t sigma p r om h1 t1 r1 : ob_step h t sigma p r = Ok (om, h1, t1, r1) -> udraws r -> udraws r1 /\
  (om = Some [] -> False).
Proof.
  unfold ob_step, ob_sample, udraws. destruct (ob_propose (pa_limit p) h t r) as [[[ms h'] r']| |] eqn:Ep; try discriminate. cbn [rbind].
  destruct (ob_ratio h' ms sigma p) as [x| |] eqn:Er; try discriminate. cbn [rbind].
  pose proof (ob_propose_unif _ _ _ _ _ _ _ Ep) as Eu. rewrite <- Eu. destruct (rg_unif r') as [|u us] eqn:Eus; [discriminate|]. cbn [rbind].
  destruct (accepts u x) eqn:Ea.
  - destruct (mutate_all h' t ms) as [[h2 t2]| |]; try discriminate. cbn [rbind]. intros Q; injection Q as <- _ _ <-. intros Hu. inversion Hu; subst.
    split; [auto|]. intros [= ->]. unfold ob_ratio in Er. simpl in Er. injection Er as <-. unfold accepts in Ea. simpl in Ea. destruct (Rlt_dec u 0); [lra|discriminate].
  - intros Q; injection Q as <- _ _ <-. intros Hu. inversion Hu; subst. split; [auto|discriminate].
Qed.

(** ** the generator *)
Definition egi (X : matrix) (y : list R) (e : nat -> R) (m : model) (fr : frame) (pc : gpc) : Prop :=
  match pc with
  | GStart => einv X y None e m
  | GSigma => einv X y None e m /\ m_pred m <> None
  | GTree j => einv X y (Some j) e m /\ fr_tree fr = Some j
  | GLeaf j rest => einv X y (Some j) e m /\ fr_tree fr = Some j /\
      exists t i, nth_error (m_trees m) j = Some t /\ fr_leaf fr = Some i /\ In i (leaf_nodes (m_heap m) t) /\ incl rest (leaf_nodes (m_heap m) t)
  end.
Lemma egen_tree X y e m fr j : no_nan X -> einv X y None e m -> m_pred m <> None ->
  exists fr' m', gen_tree m fr j = Ok (Some (yields (succ_pc (length (m_trees m)) j)), succ_pc (length (m_trees m)) j, fr', m') /\
    egi X y e m' fr' (succ_pc (length (m_trees m)) j) /\ same m m' /\ (forall k, lkeeps k m m') /\ m_sigma m' = m_sigma m.
Proof.
  intros Hn H Hp. unfold gen_tree, succ_pc. destruct (Nat.ltb_spec j (length (m_trees m))) as [Hj|Hj].
  - destruct (ert_open _ _ _ _ _ Hn H Hj Hp) as (m1&tg&t1&->&H1&Hsm&Hlk&Es&Et&_). cbn [rbind].
    eexists. eexists. split; [reflexivity|]. simpl. auto.
  - eexists. eexists. split; [reflexivity|]. simpl. auto 6 using same_refl, lkeeps_refl.
Qed.
Lemma egen_leaves X y e m fr j rest t : no_nan X -> einv X y (Some j) e m -> fr_tree fr = Some j ->
  nth_error (m_trees m) j = Some t -> incl rest (leaf_nodes (m_heap m) t) ->
  let pc' := match rest with i :: rest' => GLeaf j rest' | [] => succ_pc (length (m_trees m)) (S j) end in
  exists fr' m', gen_leaves m fr j rest = Ok (Some (yields pc'), pc', fr', m') /\
    (forall i rest', rest = i :: rest' -> fr_leaf fr' = Some i) /\
    egi X y e m' fr' pc' /\ same m m' /\ (forall k, lkeeps k m m') /\ m_sigma m' = m_sigma m.
Proof.
  intros Hn H Hf Ht Hr. destruct rest as [|i rest]; intros pc'; unfold gen_leaves; subst pc'.
  - destruct (ert_close _ _ _ _ _ Hn H) as (m1&->&H1&Hsm&Hlk&Es&_&Hp). cbn [rbind].
    destruct (egen_tree _ _ _ _ fr (S j) Hn H1 Hp) as (fr'&m'&->&Hg&Hsm'&Hlk'&Es').
    replace (length (m_trees m1)) with (length (m_trees m)) in * by (symmetry; apply Hsm).
    exists fr', m'. split; auto. split; [discriminate|]. split; auto. split; [eapply same_trans; eauto|]. split; [|congruence].
    intros k. eapply lkeeps_trans; eauto.
  - eexists. exists m. split; [reflexivity|]. split; [intros ? ? [= <- <-]; reflexivity|]. split.
    + simpl. split; auto. split; auto. exists t, i. split; auto. split; auto. split; [apply Hr; simpl; auto|]. intros q Hq. apply Hr; simpl; auto.
    + auto using same_refl, lkeeps_refl.
Qed.
Lemma egen_next X y e m fr pc : no_nan X -> egi X y e m fr pc -> pc <> GSigma ->
  exists fr' m', gen_next m fr pc = Ok (Some (yields (pc_next m pc)), pc_next m pc, fr', m') /\
    (forall i, leaf_next m pc = Some i -> fr_leaf fr' = Some i) /\
    egi X y e m' fr' (pc_next m pc) /\ same m m' /\ (forall k, lkeeps k m m') /\ m_sigma m' = m_sigma m.
Proof.
  intros Hn Hg Hpc. destruct pc as [|j|j rest|]; simpl in Hg; [| | |congruence].
  - unfold gen_next. destruct (ert_start _ _ _ _ Hn Hg) as (m1&->&H1&Hsm&Hlk&Es&_&pr&Hp). cbn [rbind].
    destruct (egen_tree _ _ _ _ fr 0 Hn H1) as (fr'&m'&->&Hg'&Hsm'&Hlk'&Es'); [congruence|].
    simpl. replace (length (m_trees m1)) with (length (m_trees m)) in * by (symmetry; apply Hsm).
    exists fr', m'. split; auto. split; [discriminate|]. split; auto. split; [eapply same_trans; eauto|]. split; [|congruence].
    intros k. eapply lkeeps_trans; eauto.
  - destruct Hg as [H Hf]. pose proof (ei_st _ _ _ _ _ H) as Hs. pose proof (es_op _ _ _ _ _ Hs _ eq_refl) as Hj.
    simpl. destruct (nth_error (m_trees m) j) as [t|] eqn:Et; [|apply nth_error_None in Et; lia].
    destruct (egen_leaves _ _ _ _ fr _ (leaf_nodes (m_heap m) t) _ Hn H Hf Et (incl_refl _)) as (fr'&m'&E&Hfr&Hrest).
    exists fr', m'. split; [exact E|]. split; [|exact Hrest].
    intros i Hi. destruct (leaf_nodes (m_heap m) t) as [|i' r'] eqn:El; [discriminate|]. injection Hi as <-. eapply Hfr; reflexivity.
  - destruct Hg as (H&Hf&t&i&Et&Hi&Hin&Hr). simpl.
    destruct (egen_leaves _ _ _ _ fr _ rest _ Hn H Hf Et Hr) as (fr'&m'&E&Hfr&Hrest).
    exists fr', m'. split; [destruct rest; exact E|]. split; [|destruct rest; exact Hrest].
    intros i' Hi'. destruct rest; [discriminate|]. injection Hi' as <-. eapply Hfr; reflexivity.
Qed.
Lemma esigma_step X y e m r m' r' : no_nan X -> einv X y None e m -> sigma_step m r = Ok (m', r') ->
  einv X y None e m' /\ same m m' /\ (forall k, lkeeps k m m') /\ m_heap m' = m_heap m /\ m_pred m' = m_pred m /\ rg_unif r' = rg_unif r.
Proof.
  intros Hn H. unfold sigma_step, residuals, data_values. rewrite (ei_y _ _ _ _ _ H). cbn [rbind].
  destruct (emodel_predict _ _ _ _ Hn H) as (v&m1&->&Lv&Nv&H1&Hsm&Hlk&E1&E2&E3&E4). cbn [rbind].
  destruct (vop_sum Rminus y v _ (ei_ylen _ _ _ _ _ H) Lv) as (d&->&Ld&Nd). cbn [rbind].
  destruct (Req_EM_T _ _); [discriminate|]. destruct (Rlt_dec _ _); [discriminate|]. destruct (Rlt_dec _ _); [discriminate|].
  destruct (rg_gamma r) as [|g gs]; [discriminate|]. destruct (sigma_value _); try discriminate. intros E. injection E as <- <-.
  split; [|split; [|split; [exact Hlk|split; [exact E3|split; [exact E1|reflexivity]]]]].
  - destruct H1. split; simpl; auto.
  - destruct Hsm as (A&B&C&D). exact (conj A (conj B (conj C D))).
Qed.
Lemma set_value_stays h t i w : In i (tr_nodes t) -> stays h t (set_value h i w) t.
Proof.
  intros Hi. split; [unfold set_value; destruct (h_get h i) as [[[v|] s d]|]; simpl; auto|]. split; [|auto].
  intros j Hj Hn. rewrite set_value_get. destruct (Nat.eqb_spec j i); [subst; contradiction|]. destruct (h_get h j) as [[[v|] s d]|]; auto.
Qed.
(** calling the lambda just produced *)
Definition node_count (m : model) (j : nat) : nat := length (nodes_of m j).
Lemma ecall X y e m fr pc r b a m' r' : no_nan X -> egi X y e m fr pc -> pc <> GStart -> udraws r ->
  ob_call m fr (snd (yields pc)) r = Ok (b, a, m', r') ->
  egi X y e m' fr pc /\ same m m' /\ udraws r' /\
    match pc with
    | GTree j => a = DoTree j /\ (forall k, k <> j -> lkeeps k m m') /\ b = changed m m' j /\ length (leaves_of m' j) <= S (node_count m j)
    | GLeaf _ _ => (exists i, fr_leaf fr = Some i /\ a = DoLeaf i) /\ forall k, lkeeps k m m'
    | _ => a = DoSigma /\ forall k, lkeeps k m m'
    end.
Proof.
  intros Hn Hg Hpc Hu. destruct pc as [|j|j rest|]; simpl in Hg; [congruence|..]; simpl yields; simpl snd; unfold ob_call.
  - destruct Hg as [H Hf]. rewrite Hf. destruct (nth_error (m_trees m) j) as [t|] eqn:Et; [|discriminate].
    destruct (ob_step _ t _ _ r) as [[[[om h1] t1] r1]| |] eqn:Es; try discriminate. cbn [rbind]. intros E. injection E as <- <- <- <-.
    destruct (ei_target _ _ _ _ _ H j eq_refl) as (t0&k0&o0&ty&Et0&Hi&Lty&Nty). rewrite Et in Et0. injection Et0 as <-.
    destruct (ob_step_full _ _ _ _ _ _ _ _ _ _ _ _ _ Hn Hi Es) as (k1&o1&Hi1&Hst&Hpd&Hfr&Hom).
    destruct (ob_step_unif _ _ _ _ _ _ _ _ _ Es Hu) as [Hu1 Hne].
    destruct (evisit _ _ _ _ _ _ _ _ _ _ _ _ Hn H Et Hi1 eq_refl Lty Nty Hst Hpd Hfr) as (H'&Hsm&Hlk).
    split; [split; auto|]. split; auto. split; auto. split; auto. split; [exact Hlk|].
    pose proof (oinv_size _ _ _ _ _ _ Hi) as Z0. pose proof (oinv_size _ _ _ _ _ _ Hi1) as Z1.
    assert (Hl1 : length (leaf_nodes h1 t1) = 2 ^ k1).
    { rewrite (Permutation_length (oleaf_nodes_perm _ _ _ _ _ _ Hi1)). apply (full_count _ _ (oi_full _ _ _ _ _ _ Hi1)). }
    unfold changed, node_count, leaves_of, nodes_of. rewrite Et. simpl. rewrite set_nth_error, Nat.eqb_refl, Et. rewrite Hl1.
    assert (Hk : k1 <= S k0 /\ (om <> None -> k1 <> k0) /\ (om = None -> t1 = t)).
    { destruct om as [ms|]; [|destruct Hom as (->&->&_); split; [lia|split; [congruence|auto]]]. split; [|split; [intros _|discriminate]].
      - destruct Hom as [[_ ->]|[_ [-> _]]]; lia.
      - destruct Hom as [[_ ->]|[Fp [-> _]]]; [lia|]. destruct k0 as [|k0]; [|simpl; lia]. exfalso. apply Hne.
        assert (P : prunable_decision_nodes (m_heap m) t = []).
        { pose proof (prunable_perm _ _ _ _ _ _ Hi) as P. rewrite (opr_zero _ _ _ (oi_full _ _ _ _ _ _ Hi)) in P. apply Permutation_nil. now symmetry. }
        rewrite P in Fp. inversion Fp. reflexivity. }
    destruct Hk as (Hk1&Hk2&Hk3). split.
    + destruct (list_eq_dec Nat.eq_dec (tr_nodes t) (tr_nodes t1)) as [E|E]; destruct om; auto.
      * exfalso. rewrite <- E in Z1. rewrite Z0 in Z1. apply Nat.pow_inj_r in Z1; [|lia]. apply Hk2; [discriminate|lia].
      * exfalso. apply E. now rewrite Hk3.
    + rewrite Z0. apply Nat.pow_le_mono_r; lia.
  - destruct Hg as (H&Hf&t&i&Et&Hi&Hin&Hr). unfold call. rewrite Hi. destruct (leaf_step _ i _ _ r) as [[h1 r1]| |] eqn:Es; try discriminate.
    cbn [rbind]. intros E. injection E as _ <- <- <-.
    destruct (leaf_step_op _ t _ _ _ _ _ _ Hin Es) as (w&_&Eh). subst h1.
    assert (Hu1 : udraws r1).
    { revert Es. unfold leaf_step. destruct (node_n _ i); try discriminate. cbn [rbind]. destruct (node_sum _ i); try discriminate. cbn [rbind].
      destruct (rg_norm r); try discriminate. destruct (leaf_sample _ _ _ _ _); try discriminate. intros E. injection E as _ <-. exact Hu. }
    destruct (ei_target _ _ _ _ _ H j eq_refl) as (t0&k0&o0&ty&Et0&Hoi&Lty&Nty). rewrite Et in Et0. injection Et0 as <-.
    destruct (evisit _ _ _ _ _ _ (set_value (m_heap m) i w) t _ _ _ _ Hn H Et (set_value_oinv _ _ _ _ _ _ i w Hoi) eq_refl Lty Nty) as (H'&Hsm&Hlk); auto.
    { apply set_value_stays, (leaf_in _ _ _ Hin). }
    rewrite (set_nth_same _ _ _ Et) in *.
    split; [|split; [exact Hsm|split; [exact Hu1|split; [eauto|]]]].
    + simpl. split; auto. split; auto. exists t, i. rewrite set_value_leaves. auto.
    + intros k. destruct (Nat.eq_dec k j) as [->|Hk]; [|now apply Hlk]. intros t0 Ht0. exists t0. simpl. split; auto. split; auto.
      apply set_value_leaves.
  - destruct Hg as [H Hp]. unfold call. destruct (sigma_step m r) as [[m1 r1]| |] eqn:Es; try discriminate. cbn [rbind]. intros E. injection E as _ <- <- <-.
    destruct (esigma_step _ _ _ _ _ _ _ Hn H Es) as (H'&Hsm&Hlk&_&Ep&Eu). simpl. rewrite Ep. unfold udraws. rewrite Eu. auto.
Qed.
