(** The acceptance ratio of the oblivious sampler, and predictions. *)
From Coq Require Import Reals Lra Permutation.
From Verif Require Import Base Fl Ext MData MSplit MTree MSampler MHist MTreeHist MOblivious Spec SpecTree SpecSampler SpecOblivious LFl LList PData PSplit PDataProps PCond PTree PPred PTreeHist PTreeProps PTreeProps2 PSampler PSampler2 PModel7 POblivious POblivious2 POblivious3.
Local Open Scope R_scope.

(** where the conditions of a leaf come from *)
Lemma ogr_last h X oy o : forall cs d i ci di, ook h X oy cs d o -> In (i, (ci, di)) (ogr cs d o) ->
  ci = cs \/ exists cs' v x b, ci = cs' ++ [Rl v x b] /\ chosen X cs' v x /\ x <> FNaN.
Proof.
  induction o as [j|j q l IHl r IHr]; intros cs d i ci di H Hi.
  - destruct Hi as [E|[]]. injection E as <- <- <-. auto.
  - destruct H as (_&Hq&Hl&Hr). simpl in Hi. apply in_app_iff in Hi as [Hi|Hi].
    + destruct (IHl _ _ _ _ _ Hl Hi) as [->|A]; auto. destruct q as [[v x]|]; simpl; auto. right. exists cs, v, x, true. simpl in Hq. tauto.
    + destruct (IHr _ _ _ _ _ Hr Hi) as [->|A]; auto. destruct q as [[v x]|]; simpl; auto. right. exists cs, v, x, false. simpl in Hq. tauto.
Qed.
(** the probability of the chosen value, when the value occurs or the column has distinct values *)
Lemma occurs_log X oy cs s v x a : no_nan X -> sinv X oy cs s -> (v < mx_ncols X)%nat -> in_node s a -> value_in X a v = x ->
  exists q c', proportion_of_value_in_variable (d_X (sp_data s)) v x = Ok (q, c') /\ exists l, xlog q = XFin l.
Proof.
  intros Hn Hs Hv Ha Hx. destruct (proportion_occurring X _ cs s Hn Hs v x a Hv Ha Hx) as (c'&E). do 2 eexists. split; [exact E|].
  eexists. apply xlog_fin. apply Rdiv_lt_0_compat; apply lt_0_INR; apply count_pos with (i := a).
  - eapply in_node_lt; eauto.
  - apply andb_true_iff. split; [apply in_nodeb_iff; auto|]. rewrite Hx. apply feqb_refl. rewrite <- Hx. apply not_nan, Hn; auto. apply nth_In. eapply in_node_lt; eauto.
  - eapply in_node_lt; eauto.
  - apply in_nodeb_iff; auto.
Qed.
Lemma distinct_log X oy cs s v x a : no_nan X -> sinv X oy cs s -> (v < mx_ncols X)%nat -> in_node s a ->
  (forall i j, in_node s i -> in_node s j -> value_in X i v = value_in X j v -> i = j) ->
  exists q c', proportion_of_value_in_variable (d_X (sp_data s)) v x = Ok (q, c') /\ exists l, xlog q = XFin l.
Proof.
  intros Hn Hs Hv Ha Hd. destruct (is_column_unique_total (d_X (sp_data s)) v) as (b&c2&E); [unfold cm_nfeat; rewrite (si_X _ _ _ _ Hs); auto|].
  assert (Hb : b = true) by (apply (unique_meaning X _ _ _ Hs) in E as (_&A); apply A; auto). subst b.
  unfold proportion_of_value_in_variable. rewrite E. cbn [rbind]. do 2 eexists. split; [reflexivity|].
  assert (Hp : (0 < count (in_nodeb s) (length (mx_rows X)))%nat) by (apply count_pos with (i := a); [eapply in_node_lt; eauto|apply in_nodeb_iff; auto]).
  pose proof E as E'. apply is_column_unique_spec in E' as (_&_&_&(_&_&Hob)); [|apply (si_c _ _ _ _ Hs)].
  rewrite Hob, (n_obsv_exact X _ _ _ Hs), <- INR_IZR_INZ. apply lt_0_INR in Hp.
  rewrite xdiv_fin by lra. eexists. apply xlog_fin. apply Rdiv_lt_0_compat; lra.
Qed.
Lemma scorable_log h1 h X oy t k o ci di en : no_nan X -> mx_rows X <> [] -> oinv h X oy t k o -> (forall j, (j < h_next h)%nat -> h_get h1 j = h_get h j) ->
  In (en_e en, (ci, di)) (ogr [] 0 o) -> ook h1 X oy ci di (onew en) -> scorable X h (en_e en) ->
  exists l, ob_log_split h1 (en_e en) (en_u en) = Ok (XFin l).
Proof.
  intros Hn Hne H Hold Hi Hok Hsc.
  destruct (ogr_ok _ _ _ _ _ _ _ _ _ (oi_ok _ _ _ _ _ _ H) Hi) as (w&s&Es&Hs).
  assert (Hlt : (en_e en < h_next h)%nat) by (apply (oi_below _ _ _ _ _ _ H), oids_incl; left; rewrite <- (ogr_ids o [] 0); apply in_map_iff; exists (en_e en, (ci, di)); auto).
  assert (Es1 : h_get h1 (en_e en) = Some (Nd (KLeaf w) (SFull s) di)) by (rewrite Hold by auto; auto).
  destruct Hok as ((su&Eu&Hsu)&Hq&(wl&sl&El&Hsl)&_). simpl in Eu, El.
  assert (Eld : dec_most_recent h1 (en_u en) = cc_most_recent (sp_cc sl)) by (unfold dec_most_recent, left_child; rewrite Eu, El; reflexivity).
  unfold ob_log_split, node_data, node_split. rewrite Eld, Es1. cbn [option_map].
  assert (Fin : forall v x c, cc_most_recent (sp_cc sl) = Some c -> sc_var c = v -> sc_val c = x ->
     (exists q c', proportion_of_value_in_variable (d_X (sp_data s)) v x = Ok (q, c') /\ exists l, xlog q = XFin l) ->
     exists l, match cc_most_recent (sp_cc sl) with Some s0 => let! (q, _) := proportion_of_value_in_variable (d_X (sp_data s)) (sc_var s0) (sc_val s0) in Ok (xlog q) | None => Raise EAttributeError end = Ok (XFin l)).
  { intros v x c -> <- <- (q&c'&->&l&E). cbn [rbind]. rewrite E. eauto. }
  destruct (en_q en) as [[v x]|] eqn:Eq; simpl in Hq, Hsl.
  - destruct (sinv_recent _ _ _ _ _ Hsl) as (c&Ec&Erc). assert (Hc2 : sc_var c = v /\ sc_val c = x) by (unfold rule_of in Erc; injection Erc as -> -> _; auto).
    destruct Hc2 as [<- <-]. apply (Fin _ _ c Ec eq_refl eq_refl). destruct Hq as ((Hv&(r0&Hr0&Hk0&Hx0)&_)&_).
    apply In_nth with (d := []) in Hr0 as (a&Ha&<-). eapply (occurs_log X oy ci s); eauto. apply (in_node_kept _ _ _ _ _ Hs). auto.
  - assert (Hsp : is_splittable h (en_e en) = false).
    { destruct (is_splittable h (en_e en)) eqn:E; auto. apply (ogr_splittable _ _ _ _ _ _ _ _ _ Hn H Hi) in E. tauto. }
    destruct Hsc as [Hsc|(c&Ec&Hc)]; [congruence|]. unfold last_condition, node_split in Ec. rewrite Es in Ec. unfold split_most_recent in Ec.
    destruct (ogr_last _ _ _ _ _ _ _ _ _ (oi_ok _ _ _ _ _ _ H) Hi) as [->|(cs'&v&x&b&->&Hch&Hx)].
    { exfalso. pose proof (si_conds _ _ _ _ Hs) as Hcl. unfold cc_most_recent in Ec. destruct (cc_conds (sp_cc s)); discriminate. }
    destruct (sinv_recent _ _ _ _ _ Hs) as (c0&Ec0&Hr0). rewrite Ec in Ec0. injection Ec0 as <-.
    destruct (sinv_recent _ _ _ _ _ Hsl) as (c'&Ec'&Hr'). assert (Hc2 : sc_var c' = v /\ sc_val c' = x) by (unfold rule_of in Hr'; injection Hr' as -> -> _; auto).
    assert (Hc3 : sc_var c = v) by (unfold rule_of in Hr0; injection Hr0 as -> _ _; auto).
    destruct Hc2 as [Hv' Hx']. apply (Fin v x c' Ec' Hv' Hx'). destruct Hch as (Hv&(r0&Hrr&Hk0&Hx0)&_).
    destruct Hc as [Hle|Hd].
    + assert (b = true) as -> by (unfold rule_of in Hr0; rewrite Hle in Hr0; injection Hr0 as _ _ <-; auto).
      apply In_nth with (d := []) in Hrr as (a&Ha&<-). apply (occurs_log X oy (cs' ++ [Rl v x true]) s v x a); auto. apply (in_node_kept _ _ _ _ _ Hs). split; auto.
      rewrite kept_snoc, Hk0. unfold excluded. simpl. rewrite Hx0. apply not_nan in Hx. rewrite fgt_negb by auto. rewrite fle_refl by auto. reflexivity.
    + assert (N0 : nonempty X []). { destruct (mx_rows X) as [|z zs] eqn:Er; [congruence|]. exists z. rewrite Er. split; [simpl; auto|reflexivity]. }
      apply ogr_oreg in Hi as Hi'. destruct (oreg_nonempty _ _ _ _ _ _ _ _ _ (oi_ok _ _ _ _ _ _ H) N0 Hi') as (row&Hrow&Hk).
      apply In_nth with (d := []) in Hrow as (a&Ha&Era). apply (distinct_log X oy (cs' ++ [Rl v x b]) s v x a); auto.
      * apply (in_node_kept _ _ _ _ _ Hs). rewrite Era. auto.
      * intros i j Hi1 Hj1 E. rewrite <- Hc3 in E. apply Hd; auto; unfold leaf_holds, node_split; rewrite Es; eauto.
Qed.
(** the ratio of one leaf *)
Lemma grow_leaf_ratio h1 X y ci di en w s l sigma p : good p -> 0 < sigma -> h_get h1 (en_e en) = Some (Nd (KLeaf w) (SFull s) di) -> sinv X (Some y) ci s ->
  ook h1 X (Some y) ci di (onew en) -> ob_log_split h1 (en_e en) (en_u en) = Ok (XFin l) ->
  exists L, log_likihood_ratio h1 (g_mut en) sigma p = Ok (XFin L) /\
    ob_log_ratio h1 (g_mut en) sigma p = Ok (XFin (ln (pa_pprune p / pa_pgrow p) + L + log_structure_odds (pa_alpha p) (pa_beta p) di)).
Proof.
  intros Hp Hsg Ee Hs Hok El. pose proof Hok as ((su&Eu&Hsu)&Hq&(wl&sl&Ell&Hsl)&(wr&sr&Err&Hsr)). simpl in Eu, Ell, Err.
  assert (Ech : get_children h1 (en_u en) = Ok (en_l en, en_r en)) by (unfold get_children, left_child, right_child; now rewrite Eu).
  assert (HL : exists L, log_likihood_ratio h1 (g_mut en) sigma p = Ok (XFin L)).
  { unfold log_likihood_ratio. cbn [g_mut mu_kind mu_existing mu_updated]. rewrite Ech. cbn [rbind]. unfold log_grow_ratio_nodes.
    rewrite (node_n_spec _ _ _ _ _ _ _ _ Ee Hs), (node_n_spec _ _ _ _ _ _ _ _ Ell Hsl), (node_n_spec _ _ _ _ _ _ _ _ Err Hsr).
    rewrite (node_sum_spec _ _ _ _ _ _ _ _ Ee Hs), (node_sum_spec _ _ _ _ _ _ _ _ Ell Hsl), (node_sum_spec _ _ _ _ _ _ _ _ Err Hsr). cbn [rbind].
    destruct Hp as [(_&_&Hk&_) Hnt]. rewrite sigma_m_fin by auto. rewrite log_grow_ratio_fin; eauto using tau_pos. }
  destruct HL as (L&HL). exists L. split; auto.
  unfold ob_log_ratio, ob_log_transition, ob_log_grow_transition, ob_log_tree, ob_log_tree_grow. rewrite HL. cbn [g_mut mu_kind mu_existing mu_updated].
  rewrite El, Ech. cbn [rbind]. unfold node_depth. rewrite Ee, Eu, Ell, Err. cbn [rbind nd_depth].
  unfold py_div. destruct (Req_EM_T (pa_pgrow p) 0) as [E0|_]; [destruct Hp as [(_&_&_&Hg&_) _]; lra|]. cbn [rbind].
  rewrite xlog_fin by (destruct Hp as [(_&_&_&Hg&Hpr) _]; apply Rdiv_lt_0_compat; auto). rewrite !not_split_fin, !split_fin by auto.
  rewrite !xsub_fin, !xadd_fin, !xsub_fin, !xadd_fin. f_equal. f_equal. unfold log_structure_odds. lra.
Qed.
Lemma ob_ratio_sum h sigma p ms xs : Forall2 (fun m x => ob_log_ratio h m sigma p = Ok (XFin x)) ms xs -> forall acc,
  ob_ratio_from (XFin acc) h ms sigma p = Ok (XFin (acc + rsum xs)).
Proof.
  induction 1 as [|m x ms xs E H IH]; intros acc; simpl.
  - unfold rsum. simpl. now rewrite Rplus_0_r.
  - rewrite E. cbn [rbind]. simpl xadd. rewrite IH. unfold rsum. simpl. now rewrite Rplus_assoc.
Qed.
Lemma Forall_exists2 {A B} (P : A -> B -> Prop) l : (forall a, In a l -> exists b, P a b) -> exists m, Forall2 P l m.
Proof.
  induction l as [|a l IH]; intros H; [exists []; constructor|]. destruct (H a) as (b&Hb); [simpl; auto|]. destruct IH as (m&Hm); [intros; apply H; simpl; auto|].
  exists (b :: m). constructor; auto.
Qed.
Lemma ob_grow_ratio h X y t k o idx ms h1 idx1 sigma p : no_nan X -> mx_rows X <> [] -> oinv h X (Some y) t k o ->
  ob_grow_mutations h t idx = Ok (ms, h1, idx1) -> (forall j, In j (leaf_nodes h t) -> scorable X h j) -> good p -> 0 < sigma ->
  exists Ls, Forall2 (fun m L => log_likihood_ratio h1 m sigma p = Ok (XFin L)) ms Ls /\ length Ls = (2 ^ k)%nat /\
    ob_ratio h1 ms sigma p = Ok (XFin (rsum Ls + INR (2 ^ k) * (ln (pa_pprune p / pa_pgrow p) + log_structure_odds (pa_alpha p) (pa_beta p) k))).
Proof.
  intros Hn Hne H E Hsc Hp Hsg. destruct (ob_grow_ok _ _ _ _ _ _ _ _ _ _ Hn H E) as (_&_&Hold&ps&h3&t3&->&Hes&_&HB&_).
  assert (HL : exists Ls, Forall2 (fun en L => log_likihood_ratio h1 (g_mut en) sigma p = Ok (XFin L) /\
     ob_log_ratio h1 (g_mut en) sigma p = Ok (XFin (ln (pa_pprune p / pa_pgrow p) + L + log_structure_odds (pa_alpha p) (pa_beta p) k))) ps Ls).
  { apply Forall_exists2. intros en Hen. destruct (HB en Hen) as (ci&di&Hi&Hok).
    destruct (ogr_ok _ _ _ _ _ _ _ _ _ (oi_ok _ _ _ _ _ _ H) Hi) as (w&s&Es&Hs).
    pose proof (ogr_depth _ _ _ _ _ _ _ (oi_full _ _ _ _ _ _ H) Hi) as Hd. simpl in Hd.
    assert (Hlt : (en_e en < h_next h)%nat) by (apply (oi_below _ _ _ _ _ _ H), oids_incl; left; rewrite <- (ogr_ids o [] 0); apply in_map_iff; exists (en_e en, (ci, di)); auto).
    destruct (scorable_log h1 h X (Some y) t k o ci di en) as (l&El); auto.
    { apply Hsc. rewrite <- Hes. now apply in_map. }
    rewrite Hd in *. eapply grow_leaf_ratio; eauto. rewrite Hold by auto. eauto. }
  destruct HL as (Ls&HL). exists Ls.
  assert (Hlen : length Ls = (2 ^ k)%nat).
  { apply Forall2_length in HL as Hl. rewrite <- Hl, <- (map_length en_e ps), Hes. rewrite (Permutation_length (oleaf_nodes_perm _ _ _ _ _ _ H)). apply full_count, H. }
  split; [clear -HL; induction HL; simpl; constructor; tauto|]. split; auto.
  unfold ob_ratio. set (c := ln (pa_pprune p / pa_pgrow p) + log_structure_odds (pa_alpha p) (pa_beta p) k).
  rewrite (ob_ratio_sum h1 sigma p (map g_mut ps) (map (fun L => L + c) Ls)).
  - f_equal. f_equal. rewrite Rplus_0_l, <- Hlen. clear. induction Ls as [|L Ls IH]; [unfold rsum; simpl; lra|]. unfold rsum in *. simpl fold_right. simpl map. simpl fold_right. rewrite IH.
    change (length (L :: Ls)) with (S (length Ls)). rewrite S_INR. lra.
  - clear -HL. induction HL as [|en L ps Ls [_ E] HL IH]; simpl; constructor; auto. rewrite E. f_equal. f_equal. unfold c. lra.
Qed.
(** whatever finite likelihood ratios: with a small enough probability of growing the proposal is accepted *)
Lemma with_moves_lik h m sigma p g q : log_likihood_ratio h m sigma (with_moves p g q) = log_likihood_ratio h m sigma p.
Proof. reflexivity. Qed.
Lemma grow_accept h X y t k o idx ms h1 idx1 sigma p h2 t2 : no_nan X -> mx_rows X <> [] -> oinv h X (Some y) t k o ->
  ob_grow_mutations h t idx = Ok (ms, h1, idx1) -> mutate_all h1 t ms = Ok (h2, t2) -> (forall j, In j (leaf_nodes h t) -> scorable X h j) -> good p -> 0 < sigma ->
  (0 < pa_limit p)%nat ->
  exists M, forall g q u, 0 < g -> 0 < q -> M <= ln (q / g) -> u < 1 ->
    ob_step h t sigma (with_moves p g q) (Rng [true] idx [u] [] []) = Ok (Some ms, h2, t2, Rng [] idx1 [] [] []).
Proof.
  intros Hn Hne H E Em Hsc Hp Hsg Hlim.
  destruct (ob_grow_ratio _ _ _ _ _ _ _ _ _ _ _ _ Hn Hne H E Hsc Hp Hsg) as (Ls&HL&_&_).
  set (c := log_structure_odds (pa_alpha p) (pa_beta p) k). set (N := INR (2 ^ k)).
  assert (HN : 0 < N) by (unfold N; apply lt_0_INR; pose proof (Nat.pow_nonzero 2 k); lia).
  exists ((1 - rsum Ls) / N - c). intros g q u Hg Hq HM Hu.
  assert (Hp' : good (with_moves p g q)) by (destruct Hp as [(A&B&C&_) D]; unfold good; simpl; auto 10).
  destruct (ob_grow_ratio _ _ _ _ _ _ _ _ _ _ _ _ Hn Hne H E Hsc Hp' Hsg) as (Ls'&HL'&_&Er).
  assert (Ls' = Ls).
  { clear -HL HL'. revert Ls HL. induction HL' as [|m L ms Ls' E HL' IH]; intros Ls HL; inversion HL; subst; auto. rewrite with_moves_lik in E. rewrite E in H1. injection H1 as <-. f_equal. auto. }
  subst Ls'. unfold ob_step, ob_sample. destruct (pa_limit p) as [|n] eqn:El; [lia|]. simpl pa_limit. rewrite El. cbn [ob_propose rg_method rg_index]. rewrite E. cbn [rbind].
  rewrite Er. cbn [rbind rng_set_index rng_set_method rg_unif pa_alpha pa_beta with_moves pa_pprune pa_pgrow].
  unfold accepts. simpl xltb. destruct (Rlt_dec u _) as [_|Hb]; [rewrite Em; reflexivity|]. exfalso. apply Hb. fold c. fold N.
  assert (1 - rsum Ls <= N * (ln (q / g) + c)).
  { replace (1 - rsum Ls) with (N * ((1 - rsum Ls) / N)) by (field; lra). apply Rmult_le_compat_l; lra. }
  simpl pa_pprune. simpl pa_pgrow. simpl pa_alpha. simpl pa_beta. lra.
Qed.
(** ** predictions *)
(** the value a list of leaves gives a row: the last leaf that holds it *)
Definition lastval (P : nat -> Prop) (v : nat -> option R) (L : list nat) (x : R) : Prop :=
  exists L1 j L2, L = L1 ++ j :: L2 /\ P j /\ (forall j', In j' L2 -> ~ P j') /\ v j = Some x.
Lemma opredict_loop h X oy t k o n0 : oinv h X oy t k o -> forall L b, incl L (leaf_nodes h t) -> length b = length (mx_rows X) ->
  exists b', predict_loop h n0 L (Some b) = Ok (Some b') /\ length b' = length (mx_rows X) /\
    forall i, (i < length (mx_rows X))%nat -> lastval (fun j => leaf_holds h j i) (leaf_value h) L (nth i b' 0) \/ ((forall j, In j L -> ~ leaf_holds h j i) /\ nth i b' 0 = nth i b 0).
Proof.
  intros H. induction L as [|j L IH]; intros b Hin Hb; simpl.
  - exists b. split; [reflexivity|]. split; [exact Hb|]. intros i Hi. right. split; [tauto|reflexivity].
  - assert (Hj : In j (leaf_nodes h t)) by (apply Hin; simpl; auto). apply (leaf_ogr _ _ _ _ _ _ _ H) in Hj as (cj&dj&Hj).
    destruct (ogr_ok _ _ _ _ _ _ _ _ _ (oi_ok _ _ _ _ _ _ H) Hj) as (w&s&E&Hs). rewrite E.
    rewrite (cond_in_length _ _ _ _ Hs), Hb, Nat.eqb_refl. simpl.
    assert (Hl : length (split_condition_in s) = length b) by (rewrite (cond_in_length _ _ _ _ Hs); auto).
    destruct (IH (assign_where (split_condition_in s) w b)) as (b'&Eb&Lb&Gb); [intros z Hz; apply Hin; simpl; auto|rewrite assign_where_length; auto|].
    exists b'. split; auto. split; auto. intros i Hi. destruct (Gb i Hi) as [(L1&j'&L2&->&A)|[A B]].
    + left. exists (j :: L1), j', L2. auto.
    + rewrite B, assign_where_nth, (cond_in _ _ _ _ _ Hs Hi) by (auto; lia). pose proof (ogr_holds _ _ _ _ _ _ _ _ _ i H Hj) as Hh.
      destruct (kept cj (nth i (mx_rows X) [])).
      * left. exists [], j, L. split; [reflexivity|]. split; [tauto|]. split; auto. unfold leaf_value. now rewrite E.
      * right. split; auto. intros z [<-|Hz]; auto. intros F. apply Hh in F. destruct F; discriminate.
Qed.
Lemma opredict_last h X oy t k o out t' : no_nan X -> oinv h X oy t k o -> tr_fresh t = false -> tree_predict h t = Ok (out, t') ->
  length out = length (mx_rows X) /\ forall i, (i < length (mx_rows X))%nat -> lastval (fun j => leaf_holds h j i) (leaf_value h) (leaf_nodes h t) (nth i out 0).
Proof.
  intros Hn H Hf. unfold tree_predict. rewrite Hf.
  assert (Hcov : forall i, (i < length (mx_rows X))%nat -> exists j, In j (leaf_nodes h t) /\ leaf_holds h j i).
  { intros i Hi. destruct (ogr_cover h X oy o (nth i (mx_rows X) []) Hn) with (cs := @nil rule) (d := 0%nat) as (j&cj&dj&A&B); [apply nth_In; auto|apply H|reflexivity|].
    exists j. split; [apply (leaf_ogr _ _ _ _ _ _ _ H); eauto|]. apply (ogr_holds _ _ _ _ _ _ _ _ _ i H A). auto. }
  assert (Hgo : forall b out, predict_loop h (hd_error (tr_nodes t)) (leaf_nodes h t) (Some b) = Ok (Some out) ->
     length out = length (mx_rows X) /\ forall i, (i < length (mx_rows X))%nat -> lastval (fun j => leaf_holds h j i) (leaf_value h) (leaf_nodes h t) (nth i out 0)).
  { intros b out' E. assert (Hb : length b = length (mx_rows X)).
    { destruct (leaf_nodes h t) as [|j L] eqn:EL.
      - exfalso. pose proof (oleaf_nodes_perm _ _ _ _ _ _ H) as P. rewrite EL in P. apply Permutation_nil in P. pose proof (full_count _ _ (oi_full _ _ _ _ _ _ H)) as F. rewrite P in F. simpl in F. pose proof (Nat.pow_nonzero 2 k). lia.
      - assert (Hj : In j (leaf_nodes h t)) by (rewrite EL; simpl; auto). apply (leaf_ogr _ _ _ _ _ _ _ H) in Hj as (cj&dj&Hj).
        destruct (ogr_ok _ _ _ _ _ _ _ _ _ (oi_ok _ _ _ _ _ _ H) Hj) as (w&s&Ej&Hs). cbn [predict_loop rbind] in E. rewrite Ej in E.
        rewrite (cond_in_length _ _ _ _ Hs) in E. destruct (Nat.eqb_spec (length (mx_rows X)) (length b)); [auto|discriminate]. }
    destruct (opredict_loop _ _ _ _ _ _ (hd_error (tr_nodes t)) H (leaf_nodes h t) b (incl_refl _) Hb) as (b'&E'&Lb&G). rewrite E in E'. injection E' as <-.
    split; auto. intros i Hi. destruct (G i Hi) as [A|[A _]]; auto. destruct (Hcov i Hi) as (j&Hj&Hh). exfalso. apply (A j); auto. }
  destruct (predict_loop h (hd_error (tr_nodes t)) (leaf_nodes h t) (tr_pred t)) as [[v|]| |] eqn:E; try discriminate. cbn [rbind]. intros Q. injection Q as <- <-.
  destruct (tr_pred t) as [b|]; [eapply Hgo; eauto|].
  destruct (leaf_nodes h t) as [|j L] eqn:EL; [discriminate|]. cbn [predict_loop] in E.
  destruct (hd_error (tr_nodes t)) as [i0|]; [|discriminate]. destruct (node_data h i0) as [d|]; [|discriminate].
  destruct (pz (cm_nobsv (d_X d)) <? 0)%Z; [discriminate|]. eapply Hgo. exact E.
Qed.
(** out of sample: the same rule on the rows of any other matrix *)
Lemma oout_loop h X oy t k o X' : oinv h X oy t k o -> (mx_ncols X <= mx_ncols X')%nat ->
  forall L b, incl L (leaf_nodes h t) -> length b = length (mx_rows X') ->
  exists b', out_loop h X' L b = Ok b' /\ length b' = length (mx_rows X') /\
    forall i, (i < length (mx_rows X'))%nat ->
      lastval (fun j => exists cj dj, In (j, (cj, dj)) (ogr [] 0 o) /\ (row_clean (mx_ncols X) (nth i (mx_rows X') []) && kept cj (nth i (mx_rows X') []))%bool = true) (leaf_value h) L (nth i b' 0) \/
      ((forall j cj dj, In j L -> In (j, (cj, dj)) (ogr [] 0 o) -> (row_clean (mx_ncols X) (nth i (mx_rows X') []) && kept cj (nth i (mx_rows X') []))%bool = false) /\ nth i b' 0 = nth i b 0).
Proof.
  intros H Hc. induction L as [|j L IH]; intros b Hin Hb; simpl.
  - exists b. split; [reflexivity|]. split; [exact Hb|]. intros i Hi. right. split; [tauto|reflexivity].
  - assert (Hj : In j (leaf_nodes h t)) by (apply Hin; simpl; auto). apply (leaf_ogr _ _ _ _ _ _ _ H) in Hj as (cj&dj&Hj).
    destruct (ogr_ok _ _ _ _ _ _ _ _ _ (oi_ok _ _ _ _ _ _ H) Hj) as (w&s&E&Hs). rewrite E. simpl nsplit_cc.
    rewrite (cc_out _ _ _ _ X' Hs Hc). cbn [rbind]. set (cd := map _ (mx_rows X')).
    assert (Hl : length cd = length b) by (unfold cd; rewrite map_length; auto).
    destruct (IH (assign_where cd w b)) as (b'&Eb&Lb&Gb); [intros z Hz; apply Hin; simpl; auto|rewrite assign_where_length; auto|].
    exists b'. split; auto. split; auto. intros i Hi. destruct (Gb i Hi) as [(L1&j'&L2&->&A)|[A B]].
    + left. exists (j :: L1), j', L2. auto.
    + rewrite B, assign_where_nth by (auto; lia). unfold cd. rewrite nth_map_in with (d := []) by auto.
      assert (Hu : forall c' d', In (j, (c', d')) (ogr [] 0 o) -> c' = cj).
      { intros c' d' Hj'. destruct (ogr_ok _ _ _ _ _ _ _ _ _ (oi_ok _ _ _ _ _ _ H) Hj') as (w'&s'&E'&Hs'). rewrite E in E'. injection E' as <- <- <-.
        pose proof (si_conds _ _ _ _ Hs) as Q1. pose proof (si_conds _ _ _ _ Hs') as Q2. congruence. }
      destruct (row_clean (mx_ncols X) (nth i (mx_rows X') []) && kept cj (nth i (mx_rows X') []))%bool eqn:Ek.
      * left. exists [], j, L. split; [reflexivity|]. split; [eauto|]. split; [|unfold leaf_value; now rewrite E].
        intros j' Hj' (c'&d'&Hjj&F). rewrite (A j' c' d' Hj' Hjj) in F. discriminate.
      * right. split; auto. intros z c' d' [<-|Hz] Hzz; [rewrite (Hu _ _ Hzz); auto|eauto].
Qed.
(** the depth of a perfect tree is determined by its node list *)
Lemma perfect_size h : forall k i d ids, perfect h i d k ids -> S (length ids) = (2 ^ S k)%nat.
Proof.
  induction k as [|k IH]; intros i d ids Hp; [inversion Hp; reflexivity|].
  inversion Hp as [|? ? ? l r s il ir E A B]; subst. apply IH in A, B. simpl length. rewrite app_length. simpl in *. lia.
Qed.
Lemma perfect_depth h t k k' : perfect_tree h t k -> perfect_tree h t k' -> k = k'.
Proof.
  intros (r&ids&A&N&_&S1) (r'&ids'&A'&N'&_&S2). apply perfect_size in A, A'.
  assert (length ids = length ids') by (apply Permutation_length, NoDup_Permutation; auto; intros z; rewrite <- S1, <- S2; tauto).
  assert (E : (2 ^ S k = 2 ^ S k')%nat) by lia. apply Nat.pow_inj_r in E; lia.
Qed.
