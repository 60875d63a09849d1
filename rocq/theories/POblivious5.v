(** The acceptance ratio of a prune proposal of the oblivious sampler. *)
From Coq Require Import Reals Lra Permutation.
From Verif Require Import Base Fl Ext MData MSplit MTree MSampler MHist MTreeHist MOblivious Spec SpecTree SpecSampler SpecOblivious LFl LList PData PSplit PDataProps PCond PTree PPred PTreeHist PTreeProps PTreeProps2 PSampler PSampler2 PModel7 POblivious POblivious2 POblivious3 POblivious4.
Local Open Scope R_scope.

Lemma oreg_last h X oy o : forall cs d o' ci di, ook h X oy cs d o -> In (o', (ci, di)) (oreg cs d o) ->
  ci = cs \/ exists cs' v x b, ci = cs' ++ [Rl v x b] /\ chosen X cs' v x /\ x <> FNaN.
Proof.
  induction o as [j|j q l IHl r IHr]; intros cs d o' ci di H Hi.
  - destruct Hi as [E|[]]. injection E as <- <- <-. auto.
  - destruct H as (_&Hq&Hl&Hr). simpl in Hi. destruct Hi as [E|Hi]; [injection E as <- <- <-; auto|]. apply in_app_iff in Hi as [Hi|Hi].
    + destruct (IHl _ _ _ _ _ Hl Hi) as [->|A]; auto. destruct q as [[v x]|]; simpl; auto. right. exists cs, v, x, true. simpl in Hq. tauto.
    + destruct (IHr _ _ _ _ _ Hr Hi) as [->|A]; auto. destruct q as [[v x]|]; simpl; auto. right. exists cs, v, x, false. simpl in Hq. tauto.
Qed.
Lemma opr_oreg o : forall cs d i a b ci di, In (i, ((a, b), (ci, di))) (opr cs d o) -> exists q, In (ONode i q (OLeaf a) (OLeaf b), (ci, di)) (oreg cs d o).
Proof.
  induction o as [j|j q l IHl r IHr]; intros cs d i a b ci di; [simpl; tauto|].
  destruct (two_leaves l r) as [(x&y&->&->&_)|Hn].
  - simpl. intros [E|[]]. injection E as <- <- <- <- <-. exists q. auto.
  - rewrite opr_node, in_app_iff by auto. simpl. intros [H|H]; [apply IHl in H as (q'&H)|apply IHr in H as (q'&H)]; exists q'; right; apply in_app_iff; auto.
Qed.
Lemma opr_depth o : forall k cs d i a b ci di, full k o -> In (i, ((a, b), (ci, di))) (opr cs d o) -> S di = (d + k)%nat.
Proof.
  induction o as [j|j q l IHl r IHr]; intros k cs d i a b ci di F; [simpl; tauto|]. destruct k as [|k]; [destruct F|]. destruct F as [Fl Fr].
  destruct (two_leaves l r) as [(x&y&->&->&_)|Hn].
  - simpl. intros [E|[]]. injection E as <- <- <- <- <-. destruct k; [lia|destruct Fl].
  - rewrite opr_node, in_app_iff by auto. intros [H|H]; [apply (IHl k) in H|apply (IHr k) in H]; auto; lia.
Qed.
Lemma opr_count o : forall k cs d, full (S k) o -> length (opr cs d o) = (2 ^ k)%nat.
Proof.
  induction o as [j|j q l IHl r IHr]; intros k cs d F; [destruct F|]. destruct F as [Fl Fr].
  destruct (two_leaves l r) as [(x&y&->&->&_)|Hn].
  - destruct k; [reflexivity|destruct Fl].
  - rewrite opr_node, app_length by auto. destruct k as [|k].
    + exfalso. destruct l; [|destruct Fl]. destruct r; [|destruct Fr]. destruct Hn; discriminate.
    + rewrite (IHl k), (IHr k) by auto. simpl. lia.
Qed.
Lemma opr_zero o cs d : full 0 o -> opr cs d o = [].
Proof. destruct o; simpl; tauto. Qed.
Lemma prune_log h1 h X oy t k o i a b q ci di u w s : no_nan X -> mx_rows X <> [] -> oinv h X oy t k o -> (forall j, (j < h_next h)%nat -> h_get h1 j = h_get h j) ->
  In (ONode i q (OLeaf a) (OLeaf b), (ci, di)) (oreg [] 0 o) -> h_get h1 u = Some (Nd (KLeaf w) (SFull s) di) -> sinv X oy ci s -> scorable X h i ->
  exists l, ob_log_split h1 u i = Ok (XFin l).
Proof.
  intros Hn Hne H Hold Hi Es1 Hs Hsc.
  pose proof (oreg_ok _ _ _ _ _ _ _ _ _ (oi_ok _ _ _ _ _ _ H) Hi) as ((si&Ei&Hsi)&Hq&(wl&sl&El&Hsl)&_). simpl in El.
  assert (Hlt : (i < h_next h)%nat).
  { apply (oi_below _ _ _ _ _ _ H). clear -Hi. revert Hi. generalize (@nil rule) 0%nat. induction o as [j|j q' l IHl r IHr]; intros cs d; simpl; [intros [E|[]]; discriminate|].
    intros [E|E]; [injection E as <- _ _ _ _ _; auto|]. right. apply in_app_iff in E as [E|E]; apply in_app_iff; [left|right]; eauto. }
  assert (Hla : (a < h_next h)%nat).
  { apply (oi_below _ _ _ _ _ _ H). clear -Hi. revert Hi. generalize (@nil rule) 0%nat. induction o as [j|j q' l IHl r IHr]; intros cs d; simpl; [intros [E|[]]; discriminate|].
    intros [E|E]; [injection E as <- _ -> _ _ _; simpl; auto|]. right. apply in_app_iff in E as [E|E]; apply in_app_iff; [left|right]; eauto. }
  assert (Eld : dec_most_recent h1 i = cc_most_recent (sp_cc sl)) by (unfold dec_most_recent, left_child; rewrite !Hold, Ei by auto; simpl; rewrite Hold, El by auto; reflexivity).
  unfold ob_log_split, node_data, node_split. rewrite Eld, Es1. cbn [option_map].
  assert (Fin : forall v x c, cc_most_recent (sp_cc sl) = Some c -> sc_var c = v -> sc_val c = x ->
     (exists q c', proportion_of_value_in_variable (d_X (sp_data s)) v x = Ok (q, c') /\ exists l, xlog q = XFin l) ->
     exists l, match cc_most_recent (sp_cc sl) with Some s0 => let! (q, _) := proportion_of_value_in_variable (d_X (sp_data s)) (sc_var s0) (sc_val s0) in Ok (xlog q) | None => Raise EAttributeError end = Ok (XFin l)).
  { intros v x c -> <- <- (q0&c'&->&l&E). cbn [rbind]. rewrite E. eauto. }
  destruct q as [[v x]|] eqn:Eq; simpl in Hq, Hsl.
  - destruct (sinv_recent _ _ _ _ _ Hsl) as (c&Ec&Erc). assert (Hc2 : sc_var c = v /\ sc_val c = x) by (unfold rule_of in Erc; injection Erc as -> -> _; auto).
    destruct Hc2 as [<- <-]. apply (Fin _ _ c Ec eq_refl eq_refl). destruct Hq as ((Hv&(r0&Hr0&Hk0&Hx0)&_)&_).
    apply In_nth with (d := []) in Hr0 as (z&Hz&<-). eapply (occurs_log X oy ci s); eauto. apply (in_node_kept _ _ _ _ _ Hs). auto.
  - assert (Hsp : is_splittable h i = false).
    { destruct (is_splittable h i) eqn:E; auto. unfold is_splittable, node_data, node_split in E. rewrite Ei in E. apply (splittable_open X oy ci si Hn Hsi) in E. tauto. }
    destruct Hsc as [Hsc|(c&Ec&Hc)]; [congruence|]. unfold last_condition, node_split in Ec. rewrite Ei in Ec. unfold split_most_recent in Ec.
    destruct (oreg_last _ _ _ _ _ _ _ _ _ (oi_ok _ _ _ _ _ _ H) Hi) as [->|(cs'&v&x&b'&->&Hch&Hx)].
    { exfalso. pose proof (si_conds _ _ _ _ Hsi) as Hcl. unfold cc_most_recent in Ec. destruct (cc_conds (sp_cc si)); discriminate. }
    destruct (sinv_recent _ _ _ _ _ Hsi) as (c0&Ec0&Hr0). rewrite Ec in Ec0. injection Ec0 as <-.
    destruct (sinv_recent _ _ _ _ _ Hsl) as (c'&Ec'&Hr'). assert (Hc2 : sc_var c' = v /\ sc_val c' = x) by (unfold rule_of in Hr'; injection Hr' as -> -> _; auto).
    assert (Hc3 : sc_var c = v) by (unfold rule_of in Hr0; injection Hr0 as -> _ _; auto).
    destruct Hc2 as [Hv' Hx']. apply (Fin v x c' Ec' Hv' Hx'). destruct Hch as (Hv&(r0&Hrr&Hk0&Hx0)&_).
    destruct Hc as [Hle|Hd].
    + assert (b' = true) as -> by (unfold rule_of in Hr0; rewrite Hle in Hr0; injection Hr0 as _ _ <-; auto).
      apply In_nth with (d := []) in Hrr as (z&Hz&<-). apply (occurs_log X oy (cs' ++ [Rl v x true]) s v x z); auto. apply (in_node_kept _ _ _ _ _ Hs). split; auto.
      rewrite kept_snoc, Hk0. unfold excluded. simpl. rewrite Hx0. apply not_nan in Hx. rewrite fgt_negb by auto. rewrite fle_refl by auto. reflexivity.
    + assert (N0 : nonempty X []). { destruct (mx_rows X) as [|z zs] eqn:Er; [congruence|]. exists z. rewrite Er. split; [simpl; auto|reflexivity]. }
      destruct (oreg_nonempty _ _ _ _ _ _ _ _ _ (oi_ok _ _ _ _ _ _ H) N0 Hi) as (row&Hrow&Hk).
      apply In_nth with (d := []) in Hrow as (z&Hz&Era). apply (distinct_log X oy (cs' ++ [Rl v x b']) s v x z); auto.
      * apply (in_node_kept _ _ _ _ _ Hs). rewrite Era. auto.
      * assert (Hsame : forall m, in_node s m -> in_node si m) by (intros m Hm; apply (in_node_kept _ _ _ _ _ Hsi); apply (in_node_kept _ _ _ _ _ Hs); auto).
        intros m j Hi1 Hj1 E. rewrite <- Hc3 in E. apply Hd; auto; unfold leaf_holds, node_split; rewrite Ei; eauto.
Qed.
Lemma prune_node_ratio h1 X y ci di i a b q u w s l sigma p : good p -> 0 < sigma ->
  ook h1 X (Some y) ci di (ONode i q (OLeaf a) (OLeaf b)) -> h_get h1 u = Some (Nd (KLeaf w) (SFull s) di) -> sinv X (Some y) ci s -> ob_log_split h1 u i = Ok (XFin l) ->
  exists L, log_likihood_ratio h1 (Mu MPrune i u) sigma p = Ok (XFin L) /\
    ob_log_ratio h1 (Mu MPrune i u) sigma p = Ok (XFin (ln (pa_pgrow p / pa_pprune p) + L - log_structure_odds (pa_alpha p) (pa_beta p) di)).
Proof.
  intros Hp Hsg ((si&Ei&Hsi)&Hq&(wl&sl&Ell&Hsl)&(wr&sr&Err&Hsr)) Eu Hsu El. simpl in Ei, Ell, Err.
  assert (Ech : get_children h1 i = Ok (a, b)) by (unfold get_children, left_child, right_child; now rewrite Ei).
  assert (HL : exists L, log_likihood_ratio h1 (Mu MPrune i u) sigma p = Ok (XFin L)).
  { unfold log_likihood_ratio. cbn [mu_kind mu_existing mu_updated]. rewrite Ech. cbn [rbind]. unfold log_grow_ratio_nodes.
    rewrite (node_n_spec _ _ _ _ _ _ _ _ Eu Hsu), (node_n_spec _ _ _ _ _ _ _ _ Ell Hsl), (node_n_spec _ _ _ _ _ _ _ _ Err Hsr).
    rewrite (node_sum_spec _ _ _ _ _ _ _ _ Eu Hsu), (node_sum_spec _ _ _ _ _ _ _ _ Ell Hsl), (node_sum_spec _ _ _ _ _ _ _ _ Err Hsr). cbn [rbind].
    destruct Hp as [(_&_&Hk&_) Hnt]. rewrite sigma_m_fin by auto. rewrite log_grow_ratio_fin; eauto using tau_pos. simpl xneg. eauto. }
  destruct HL as (L&HL). exists L. split; auto.
  unfold ob_log_ratio, ob_log_transition, ob_log_prune_transition, ob_log_tree, ob_log_tree_prune. rewrite HL. cbn [mu_kind mu_existing mu_updated].
  assert (Eg : grow_mutation h1 u i = Ok (Mu MGrow u i)) by (unfold grow_mutation, is_leaf; rewrite Eu; reflexivity).
  rewrite El, Ech, Eg. cbn [rbind]. unfold node_depth. rewrite Ei, Eu, Ell. cbn [rbind nd_depth].
  unfold py_div. destruct (Req_EM_T (pa_pprune p) 0) as [E0|_]; [destruct Hp as [(_&_&_&_&Hg) _]; lra|]. cbn [rbind].
  rewrite xlog_fin by (destruct Hp as [(_&_&_&Hg&Hpr) _]; apply Rdiv_lt_0_compat; auto). rewrite !not_split_fin, !split_fin by auto.
  repeat rewrite ?xsub_fin, ?xadd_fin. f_equal. f_equal. unfold log_structure_odds. lra.
Qed.
Lemma ob_prune_ratio h X y t k o ms h1 sigma p : no_nan X -> mx_rows X <> [] -> oinv h X (Some y) t (S k) o ->
  ob_prune_mutations h t = Ok (ms, h1) -> (forall j, In j (prunable_decision_nodes h t) -> scorable X h j) -> good p -> 0 < sigma ->
  exists Ls, Forall2 (fun m L => log_likihood_ratio h1 m sigma p = Ok (XFin L)) ms Ls /\ length Ls = (2 ^ k)%nat /\
    ob_ratio h1 ms sigma p = Ok (XFin (rsum Ls + INR (2 ^ k) * (ln (pa_pgrow p / pa_pprune p) - log_structure_odds (pa_alpha p) (pa_beta p) k))).
Proof.
  intros Hn Hne H E Hsc Hp Hsg. destruct (ob_prune_ok _ _ _ _ _ _ H) as (ps&h1'&h2&t2&E'&H1&_&Hold&Hes&HA&_). rewrite E in E'. injection E' as -> <-.
  assert (HL : exists Ls, Forall2 (fun en L => log_likihood_ratio h1 (p_mut en) sigma p = Ok (XFin L) /\
     ob_log_ratio h1 (p_mut en) sigma p = Ok (XFin (ln (pa_pgrow p / pa_pprune p) + L - log_structure_odds (pa_alpha p) (pa_beta p) k))) ps Ls).
  { apply Forall_exists2. intros en Hen. assert (Hin : In (en_e en) (prunable_decision_nodes h t)) by (rewrite <- Hes; now apply in_map).
    pose proof (Permutation_in _ (prunable_perm _ _ _ _ _ _ H) Hin) as Hi. apply in_map_iff in Hi as ([i [[a b] [ci di]]]&Ei&Hi). simpl in Ei. subst i.
    destruct (HA _ _ _ _ _ Hi) as (en'&Hen'&Ee&_&_&w&s&Eu&Hs).
    assert (en' = en). { assert (Nd1 : NoDup (map en_e ps)) by (rewrite Hes; apply NoDup_filter, NoDup_filter, H). clear -Nd1 Hen Hen' Ee.
      induction ps as [|z ps IH]; [destruct Hen|]. simpl in Nd1. inversion Nd1; subst. destruct Hen as [->|Hen], Hen' as [->|Hen']; auto; exfalso; apply H1; [rewrite <- Ee|rewrite Ee]; now apply in_map. }
    subst en'. pose proof (opr_depth _ _ _ _ _ _ _ _ _ (oi_full _ _ _ _ _ _ H) Hi) as Hd. simpl in Hd. injection Hd as ->.
    destruct (opr_oreg _ _ _ _ _ _ _ _ Hi) as (q&Hreg).
    destruct (prune_log h1 h X (Some y) t (S k) o (en_e en) a b q ci k (en_u en) w s) as (l&El); auto.
    eapply prune_node_ratio; eauto. eapply oreg_ok; [apply H1|eauto]. }
  destruct HL as (Ls&HL). exists Ls.
  assert (Hlen : length Ls = (2 ^ k)%nat).
  { apply Forall2_length in HL as Hl. rewrite <- Hl, <- (map_length en_e ps), Hes. rewrite (Permutation_length (prunable_perm _ _ _ _ _ _ H)), map_length. apply opr_count, H. }
  split; [clear -HL; induction HL; simpl; constructor; tauto|]. split; auto.
  unfold ob_ratio. set (c := ln (pa_pgrow p / pa_pprune p) - log_structure_odds (pa_alpha p) (pa_beta p) k).
  rewrite (ob_ratio_sum h1 sigma p (map p_mut ps) (map (fun L => L + c) Ls)).
  - f_equal. f_equal. rewrite Rplus_0_l, <- Hlen. clear. induction Ls as [|L Ls IH]; [unfold rsum; simpl; lra|]. unfold rsum in *. simpl fold_right. simpl map. simpl fold_right. rewrite IH.
    change (length (L :: Ls)) with (S (length Ls)). rewrite S_INR. lra.
  - clear -HL. induction HL as [|en L ps Ls [_ E] HL IH]; simpl; constructor; auto. rewrite E. f_equal. f_equal. unfold c. lra.
Qed.
