(** Estimators fitted with the oblivious tree sampler: predictions, and fits that succeed. *)
From Coq Require Import Reals Lra Permutation ZArith Lia.
From Verif Require Import Base Fl Ext MData MSplit MTree MSampler MHist MTreeHist MModel MModelHist MSklearn MOblivious MObModel MObSklearn Spec SpecTree SpecSampler SpecModel SpecSklearn SpecOblivious SpecObModel SpecObSklearn LFl LList
  PData PSplit PDataProps PCond PTree PPred PTreeHist PTreeProps PTreeProps2 PSampler PSampler2 PSampler3 PModel PModel2 PModel3 PModel4 PModel5 PModel6 PModel7 PModel8 PModel9 PModel10 PModel11 PModel12
  PSklearn PSklearn2 PSklearn3 POblivious POblivious2 POblivious3 POblivious4 POblivious5 PObModel PObModel2 PObModel3 PObModel4 PObModel5 PObSklearn Properties_Oblivious Properties_ObModel.
Local Open Scope R_scope.

(** ** predictions for new rows *)
Lemma clean_cover h X oy o r : (forall v, (v < mx_ncols X)%nat -> cell r v <> FNaN) -> forall cs d, ook h X oy cs d o -> kept cs r = true ->
  exists j cj dj, In (j, (cj, dj)) (ogr cs d o) /\ kept cj r = true.
Proof.
  intros Hr. induction o as [i|i q l IHl r0 IHr]; intros cs d H Hk; [exists i, cs, d; simpl; auto|].
  destruct H as (_&Hq&Hl&Hrr). simpl ogr. destruct q as [[v x]|]; simpl in *.
  - destruct Hq as ((Hv&_)&Hx&_).
    assert (A : kept (cs ++ [Rl v x (fle (cell r v) x)]) r = true).
    { rewrite kept_snoc, Hk. unfold excluded. simpl. assert (Hc : is_nan (cell r v) = false) by (apply not_nan, Hr; auto). apply not_nan in Hx.
      destruct (fle (cell r v) x) eqn:E; simpl; rewrite ?fgt_negb, ?E by auto; auto. }
    destruct (fle (cell r v) x).
    + destruct (IHl _ _ Hl A) as (j&cj&dj&B&C). exists j, cj, dj. rewrite in_app_iff. auto.
    + destruct (IHr _ _ Hrr A) as (j&cj&dj&B&C). exists j, cj, dj. rewrite in_app_iff. auto.
  - destruct (IHl _ _ Hl Hk) as (j&cj&dj&B&C). exists j, cj, dj. rewrite in_app_iff. auto.
Qed.
Lemma ogr_numbers h X oy o : forall cs d j cj dj, ook h X oy cs d o -> (forall q, In q cs -> rl_val q <> FNaN) -> In (j, (cj, dj)) (ogr cs d o) ->
  forall q, In q cj -> rl_val q <> FNaN.
Proof.
  induction o as [i|i q l IHl r IHr]; intros cs d j cj dj H Hc Hj.
  - simpl in Hj. destruct Hj as [E|[]]. now injection E as <- <- <-.
  - destruct H as (_&Hq&Hl&Hr). simpl in Hj.
    assert (G : forall b z, In z (under cs q b) -> rl_val z <> FNaN).
    { intros b z Hz. destruct q as [[v x]|]; simpl in Hz; auto. destruct Hq as (_&Hx&_). apply in_app_iff in Hz as [Hz|[<-|[]]]; auto. }
    apply in_app_iff in Hj as [Hj|Hj]; eauto.
Qed.
Lemma accepts_kept h X oy t k o j cj dj r : oinv h X oy t k o -> In (j, (cj, dj)) (ogr [] 0 o) -> row_clean (mx_ncols X) r = true ->
  (accepts h j r <-> kept cj r = true).
Proof.
  intros H Hj Hr. destruct (ogr_ok _ _ _ _ _ _ _ _ _ (oi_ok _ _ _ _ _ _ H) Hj) as (w&s&E&Hs).
  assert (Hv : forall c, In c (cc_conds (sp_cc s)) -> sc_val c <> FNaN).
  { intros c Hc. assert (A : In (rule_of c) cj) by (rewrite <- (si_conds _ _ _ _ Hs); now apply in_map).
    exact (ogr_numbers _ _ _ _ _ _ _ _ _ (oi_ok _ _ _ _ _ _ H) ltac:(intros ? []) Hj _ A). }
  pose proof (on_path_kept X oy cj s r Hs Hr Hv) as Ek. unfold accepts, node_split. rewrite E. cbn [nd_split]. rewrite <- Ek. split.
  - intros (s'&Q&A). injection Q as <-. exact A.
  - eauto.
Qed.
Lemma oout_spec h X oy t k o X' : oinv h X oy t k o -> (mx_ncols X <= mx_ncols X')%nat ->
  exists v, tree_predict_out h t X' = Ok v /\ length v = length (mx_rows X') /\ forall i, (i < length (mx_rows X'))%nat ->
    if row_clean (mx_ncols X) (nth i (mx_rows X') []) then otree_gives h (nth i (mx_rows X') []) t (nth i v 0) else nth i v 0 = 0.
Proof.
  intros H Hc. unfold tree_predict_out.
  destruct (oout_loop h X oy t k o X' H Hc (leaf_nodes h t) (repeat 0 (length (mx_rows X'))) (incl_refl _) (repeat_length _ _)) as (v&Ev&Lv&G).
  exists v. split; auto. split; auto. intros i Hi. specialize (G i Hi).
  set (r := nth i (mx_rows X') []) in *. revert G. destruct (row_clean (mx_ncols X) r) eqn:Er; intros G.
  - assert (Hsame : forall j, In j (leaf_nodes h t) -> (exists cj dj, In (j, (cj, dj)) (ogr [] 0 o) /\ (true && kept cj r)%bool = true) <-> accepts h j r).
    { intros j Hj. split.
      - intros (cj&dj&Hjj&K). now apply (accepts_kept _ _ _ _ _ _ _ _ _ _ H Hjj Er).
      - intros A. apply (leaf_ogr _ _ _ _ _ _ _ H) in Hj as (cj&dj&Hj). exists cj, dj. split; auto. now apply (accepts_kept _ _ _ _ _ _ _ _ _ _ H Hj Er). }
    destruct G as [(L1&j&L2&EL&A&B&C)|[A _]].
    + exists L1, j, L2. split; auto. split; [apply Hsame; auto; rewrite EL; apply in_elt|]. split; auto.
      intros j' Hj' Ha. apply (B j' Hj'). apply Hsame; auto. rewrite EL. apply in_app_iff. simpl. auto.
    + exfalso. destruct (clean_cover h X oy o r) with (cs := @nil rule) (d := 0%nat) as (j&cj&dj&Hj&Hk); [|apply H|reflexivity|].
      { pose proof (proj1 (row_clean_iff _ _) Er) as Er'. intros v0 Hv0. now apply Er'. }
      assert (Hl : In j (leaf_nodes h t)) by (apply (leaf_ogr _ _ _ _ _ _ _ H); eauto). pose proof (A j cj dj Hl Hj) as Q. rewrite Hk in Q. discriminate.
  - destruct G as [(L1&j&L2&EL&(cj&dj&_&A)&_)|[_ B]]; [discriminate|]. rewrite B, nth_repeat. reflexivity.
Qed.
Lemma gives_fun h r t x x' : NoDup (leaf_nodes h t) -> otree_gives h r t x -> otree_gives h r t x' -> x' = x.
Proof.
  intros _ (L1&j&L2&E&A&B&C) (L1'&j'&L2'&E'&A'&B'&C'). enough (j' = j) by (subst; congruence). rewrite E in E'. clear - E' A A' B B'.
  revert L1' E'. induction L1 as [|z L1 IH]; intros [|z' L1'] E'; simpl in E'; injection E' as E1 E2; subst; auto.
  - exfalso. apply (B j'); auto. apply in_elt.
  - exfalso. apply (B' j); auto. apply in_elt.
  - eauto.
Qed.
Lemma oouts_spec X y e m X' : einv X y None e m -> (mx_ncols X <= mx_ncols X')%nat ->
  exists v, trees_predict_out (m_heap m) (m_trees m) X' = Ok v /\ length v = length (mx_rows X') /\ forall i, (i < length (mx_rows X'))%nat ->
    (if row_clean (mx_ncols X) (nth i (mx_rows X') []) then exists xs, Forall2 (otree_gives (m_heap m) (nth i (mx_rows X') [])) (m_trees m) xs /\ nth i v 0 = rsum xs
     else nth i v 0 = 0).
Proof.
  intros H Hc. pose proof (es_tree _ _ _ _ _ (ei_st _ _ _ _ _ H)) as Ht.
  assert (Ht' : forall t, In t (m_trees m) -> exists v, tree_predict_out (m_heap m) t X' = Ok v /\ length v = length (mx_rows X') /\ forall i, (i < length (mx_rows X'))%nat ->
    if row_clean (mx_ncols X) (nth i (mx_rows X') []) then otree_gives (m_heap m) (nth i (mx_rows X') []) t (nth i v 0) else nth i v 0 = 0).
  { intros t Hin. apply In_nth_error in Hin as (j&Hj). destruct (Ht _ _ Hj) as (oy&k&o&Hi&_). eapply oout_spec; eauto. }
  clear H Ht. unfold trees_predict_out. generalize dependent (m_trees m). induction l as [|t ts IH]; intros Ht.
  - cbn [predict_out_all rbind vsum]. exists (repeat 0 (length (mx_rows X'))). split; auto. split; [apply repeat_length|]. intros i Hi. rewrite nth_repeat.
    destruct (row_clean _ _); auto. exists []. split; [constructor|reflexivity].
  - destruct (Ht t (or_introl eq_refl)) as (v&Ev&Lv&Gv). destruct IH as (u&Eu&Lu&Gu); [intros; apply Ht; simpl; auto|].
    cbn [predict_out_all]. rewrite Ev. cbn [rbind]. destruct (predict_out_all (m_heap m) ts X') as [vs| |]; try discriminate. cbn [rbind vsum] in *. rewrite Eu. cbn [rbind].
    unfold vop. rewrite Lv, Lu, Nat.eqb_refl. eexists. split; [reflexivity|]. split; [rewrite map2_length; congruence|]. intros i Hi.
    rewrite (nth_map2 _ 0 0 0) by lia. specialize (Gv i Hi). specialize (Gu i Hi). destruct (row_clean _ _).
    + destruct Gu as (xs&A&B). exists (nth i v 0 :: xs). split; [constructor; auto|]. unfold rsum in *. simpl. lra.
    + lra.
Qed.
Lemma ob_stable_out X ys p m X' : ob_stable X ys p m -> (mx_ncols X <= mx_ncols X')%nat ->
  exists v, trees_predict_out (m_heap m) (m_trees m) X' = Ok v /\ length v = length (mx_rows X').
Proof. intros (e&H&_) Hc. destruct (oouts_spec _ _ _ _ X' H Hc) as (v&A&B&_). eauto. Qed.
Lemma ob_stable_in X ys p m v : clean X -> ob_stable X ys p m -> length v = length (mx_rows X) ->
  (forall vs, otrees_say m X vs -> forall i, (i < length (mx_rows X))%nat -> nth i v 0 = total vs i) ->
  trees_predict_out (m_heap m) (m_trees m) X = Ok v.
Proof.
  intros Hc (e&H&_) Hl Hv. assert (Hn : no_nan X) by (intros r w Hr Hw; apply (Hc r w Hr Hw)).
  assert (G : predict_out_all (m_heap m) (m_trees m) X = Ok (shows m X)).
  { pose proof (es_tree _ _ _ _ _ (ei_st _ _ _ _ _ H)) as Ht. unfold shows.
    assert (Ht' : forall t, In t (m_trees m) -> exists oy k o, oinv (m_heap m) X oy t k o).
    { intros t Hin. apply In_nth_error in Hin as (j&Hj). destruct (Ht _ _ Hj) as (oy&k&o&Hi&_). eauto. }
    assert (Hrc : forall r, In r (mx_rows X) -> row_clean (mx_ncols X) r = true) by (intros r Hr; apply row_clean_iff; intros w Hw; now apply Hc).
    clear - Hn Hrc Ht'. induction (m_trees m) as [|t ts IH]; [reflexivity|]. cbn [predict_out_all map].
    destruct (Ht' t (or_introl eq_refl)) as (oy&k&o&Hi). destruct (oshow_spec _ _ _ _ _ _ Hn Hi) as [A B].
    rewrite (out_last _ _ _ _ _ _ _ Hn Hi Hrc A B). cbn [rbind]. rewrite IH; [reflexivity|]. intros. apply Ht'. simpl; auto. }
  unfold trees_predict_out. rewrite G. cbn [rbind].
  destruct (oouts_spec _ _ _ _ X H (le_n _)) as (u&Eu&Lu&_). unfold trees_predict_out in Eu. rewrite G in Eu. cbn [rbind] in Eu. rewrite Eu. f_equal.
  apply nth_ext with 0 0; [congruence|]. intros i Hi. rewrite Lu in Hi. rewrite (Hv _ (shows_say _ _ _ _ _ Hn H) i Hi).
  clear - Eu Hi. revert u Eu. unfold total. induction (shows m X) as [|w ws IH]; intros u Eu; cbn [vsum] in Eu.
  - injection Eu as <-. rewrite nth_repeat. reflexivity.
  - destruct (vsum _ ws) as [z| |] eqn:Ez; try discriminate. cbn [rbind] in Eu. unfold vop in Eu.
    destruct (Nat.eqb_spec (length w) (length z)) as [El|]; [|discriminate]. injection Eu as <-.
    destruct (vsum_lengths _ _ _ Ez) as [Lz _]. rewrite (nth_map2 _ 0 0 0) by lia. rewrite (IH z eq_refl). reflexivity.
Qed.
Lemma ob_chain_in_sample s X y e r : clean X -> ob_chain_ran s X y e r -> sk_store_preds s = true ->
  Forall2 (fun (st : stored_sample) p => sample_predict (fst st) (snd st) X = Ok p) (map (fun sm => (fst e, sm)) (ch_models (snd e))) (ch_preds (snd e)).
Proof.
  intros Hc (hs&m&m'&r'&kept&_&_&_&(F1&F2&_&F4)&_) Hsp. rewrite Hsp in F4. 
  revert F1 F4. generalize (ch_preds (snd e)). induction F2 as [|sm st la lb Hs F2 IH]; intros ps F1 F4; inversion F4; subst; cbn [map]; constructor.
  - cbn [fst snd]. destruct Hs as (_&_&Hs). rewrite Hs. inversion F1 as [|? ? Hok1 Hok2]; subst. match goal with H : opreds_of _ _ _ |- _ => destruct H as (Hl'&_&Hv) end. eapply ob_stable_in; eauto.
  - apply IH; auto. now inversion F1.
Qed.
Lemma ob_fit_in_sample b s h X y rs s' : clean X -> length y = length (mx_rows X) -> Forall udraws rs -> ob_fit b s h X y rs = Ok s' -> sk_store_preds s = true ->
  exists ss ps, sk_samples s' = Some ss /\ sk_preds s' = Some ps /\ samples_say ss X ps.
Proof.
  intros Hc Hl Hu Hf Hsp. assert (Hn : no_nan X) by (intros r v Hr Hv; apply (Hc r v Hr Hv)).
  destruct (ob_fit_spec _ _ _ _ _ _ _ Hn Hl Hu Hf) as (d&m&es&_&_&_&_&_&_&_&_&HF&->&->&_). eexists; eexists. split; [reflexivity|]. split; [reflexivity|].
  unfold samples_say. apply forall2_flat. intros e He. destruct (forall2_right _ _ _ HF e He) as (r&Hr). eapply ob_chain_in_sample; eauto.
Qed.
Lemma ob_chain_out s X y e r X' : ob_chain_ran s X y e r -> (mx_ncols X <= mx_ncols X')%nat ->
  forall sm, In sm (ch_models (snd e)) -> exists st v, ob_stable X (start_target y true) (sk_par s) st /\ trees_predict_out (m_heap st) (m_trees st) X' = Ok v /\
    sample_predict (fst e) sm X' = Ok v /\ length v = length (mx_rows X').
Proof.
  intros (hs&m&m'&r'&kept&_&_&_&(F1&F2&_&_)&_) Hc sm Hin. destruct (forall2_in_l _ _ _ F2 sm Hin) as (st&Hst&(_&_&Hs)).
  rewrite Forall_forall in F1. specialize (F1 st Hst). destruct (ob_stable_out _ _ _ _ X' F1 Hc) as (v&Hv&Hvl). exists (snd st), v.
  split; auto. split; auto. split; auto. now rewrite Hs.
Qed.
Lemma ob_fit_out b s h X y rs s' X' : no_nan X -> length y = length (mx_rows X) -> Forall udraws rs -> ob_fit b s h X y rs = Ok s' -> (mx_ncols X <= mx_ncols X')%nat ->
  exists ss ps, sk_samples s' = Some ss /\ samples_say ss X' ps /\ (forall p, In p ps -> length p = length (mx_rows X') /\
    exists st, ob_stable X (start_target y true) (sk_par s) st /\ trees_predict_out (m_heap st) (m_trees st) X' = Ok p).
Proof.
  intros Hn Hl Hu Hf Hc. destruct (ob_fit_spec _ _ _ _ _ _ _ Hn Hl Hu Hf) as (d&m&es&_&_&_&_&_&_&_&_&HF&->&_).
  assert (G : forall st, In st (flat_map (fun e : extract => map (fun sm => (fst e, sm)) (ch_models (snd e))) es) ->
    exists p, sample_predict (fst st) (snd st) X' = Ok p /\ (length p = length (mx_rows X') /\
      exists st', ob_stable X (start_target y true) (sk_par s) st' /\ trees_predict_out (m_heap st') (m_trees st') X' = Ok p)).
  { intros st Hst. apply in_flat_map in Hst as (e&He&Hst). apply in_map_iff in Hst as (sm&<-&Hsm). destruct (forall2_right _ _ _ HF e He) as (r&Hr).
    destruct (ob_chain_out _ _ _ _ _ X' Hr Hc sm Hsm) as (st'&v&H1&H2&H3&H4). exists v. simpl. eauto. }
  revert G. generalize (flat_map (fun e : extract => map (fun sm => (fst e, sm)) (ch_models (snd e))) es). clear. intros l G.
  exists l. cut (exists ps, samples_say l X' ps /\ (forall p, In p ps -> length p = length (mx_rows X') /\
    exists st, ob_stable X (start_target y true) (sk_par s) st /\ trees_predict_out (m_heap st) (m_trees st) X' = Ok p)); [intros (ps&A&B); eauto|].
  induction l as [|st l IH]; [exists []; split; [constructor|simpl; tauto]|].
  destruct (G st (or_introl eq_refl)) as (p&Hp&Hq). destruct IH as (ps&A&B); [intros; apply G; simpl; auto|].
  exists (p :: ps). split; [constructor; auto|]. intros q [<-|Hq']; auto.
Qed.
Lemma ob_fit_data b s h X y rs s' : no_nan X -> length y = length (mx_rows X) -> Forall udraws rs -> ob_fit b s h X y rs = Ok s' ->
  exists d m lo hi ny, sk_data s' = Some d /\ sk_model s' = Some m /\ m_data m = d /\ settings s' = settings s /\
    range_of y lo hi /\ lo < hi /\ t_range (d_y d) = Some (lo, hi) /\ t_y (d_y d) = Some ny /\ unnormalize_with lo hi ny = y.
Proof.
  intros Hn Hl Hu Hf. destruct (ob_fit_spec _ _ _ _ _ _ _ Hn Hl Hu Hf) as (d&m&es&Hd&Hsd&Hsm&Hmd&Hset&_).
  apply convert_spec in Hd. destruct (target_spec _ _ _ Hd) as (lo&hi&ny&H1&H2&_&_&H3&H4&H5&_). exists d, m, lo, hi, ny. auto 10.
Qed.
(** what is needed for a fit that can succeed *)
Definition ob_can_fit (s : sklearn) (X : matrix) (y : list R) : Prop :=
  no_nan X /\ length y = length (mx_rows X) /\ (mx_rows X <> [] /\ mx_ncols X <> 0%nat) /\ (exists a b, In a y /\ In b y /\ a <> b) /\ sane_params (sk_par s) /\ (0 < pa_limit (sk_par s))%nat /\
  exists num den, sk_thin s = TInv num den /\ num <> 0%Z.
Lemma ob_can_fit_settings s s' X y : settings s' = settings s -> ob_can_fit s X y -> ob_can_fit s' X y.
Proof. intros H. unfold ob_can_fit. destruct (settings_fields _ _ H) as (->&_&_&_&->&_). auto. Qed.
Lemma ob_run_chain_ok s h X y : ob_can_fit s X y -> exists r c s' h', udraws r /\ ob_run_chain s h X y r = Ok (c, s', h') /\ settings s' = settings s.
Proof.
  intros (Hn&Hl&Hx&(a&b&Ha&Hb&Hab)&Hp&Hlim&num&den&Ht&Hz).
  destruct (construct_ok s h X y a b Hl (proj1 Hx) (proj2 Hx) Ha Hb Hab) as (d&m&Ec&Hm).
  assert (Hr : ob_model_reached X y true h 1 (sk_par s) [] m). { split; auto. split; [constructor|]. exists m. split; auto. }
  assert (Hs : all_single m). { destruct (start_model_spec _ _ _ _ _ _ _ Hl Hm) as (_&B&_). intros t Hin. rewrite B in Hin. apply in_map_iff in Hin as (q&<-&_). simpl. eauto. }
  assert (Hsg : 0 < m_sigma m) by (destruct (estart _ _ _ _ _ _ _ Hl Hm) as (_&_&_&->&_); lra).
  destruct (C86_possible X y true h 1 (sk_par s) [] m (sk_nsamples s) (sk_nburn s) num den (sk_store_preds s) (sk_store_accept s) Hn (proj1 Hx) Hp Hlim Hr Hs Hsg Hz)
    as (r&c&m'&Hu&_&Es&_).
  exists r, c. unfold ob_run_chain. rewrite Ec. cbn [rbind]. cbn [sk_set_model sk_model sk_data]. rewrite Ht. cbn [sk_set_model sk_model sk_data].
  rewrite Es. cbn [rbind]. eexists; eexists. split; [exact Hu|]. split; [reflexivity|]. reflexivity.
Qed.
Lemma ob_fit_ok b s h X y : ob_can_fit s X y -> sk_nchains s <> 0%nat -> exists rs s', Forall udraws rs /\ length rs = sk_nchains s /\ ob_fit b s h X y rs = Ok s'.
Proof.
  intros Hc Hk. pose proof Hc as (Hn&Hl&Hx&(a&b'&Ha&Hb&Hab)&_).
  destruct (construct_ok s h X y a b' Hl (proj1 Hx) (proj2 Hx) Ha Hb Hab) as (d&m&Ec&Hm). unfold ob_fit. rewrite Ec. cbn [rbind].
  set (s1 := sk_set_model s d m) in *. assert (H1 : ob_can_fit s1 X y) by (apply ob_can_fit_settings with s; auto).
  change (sk_model s1) with (Some m). cbv iota. change (sk_nchains s1) with (sk_nchains s).
  assert (G1 : forall n h1 s1, ob_can_fit s1 X y -> exists rs es, Forall udraws rs /\ length rs = n /\ ob_run_processes (repeat (s1, h1, X, y) n) rs = Ok es /\ length es = n).
  { clear. induction n as [|n IH]; intros h1 s1 H1; [exists [], []; simpl; auto|]. destruct (ob_run_chain_ok s1 h1 X y H1) as (r&c&s'&h'&Hu&E&_).
    destruct (IH h1 s1 H1) as (rs&es&Hrs&L&E2&L2). exists (r :: rs), ((h', c) :: es). simpl. rewrite E. cbn [rbind]. rewrite E2. auto. }
  assert (G2 : forall n h1 s1, ob_can_fit s1 X y -> exists rs cs s2 h2, Forall udraws rs /\ length rs = n /\ ob_run_here n s1 h1 X y rs = Ok (cs, s2, h2) /\ length cs = n).
  { clear. induction n as [|n IH]; intros h1 s1 H1; [exists [], [], s1, h1; auto|]. destruct (ob_run_chain_ok s1 h1 X y H1) as (r&c&s'&h'&Hu&E&Hs').
    destruct (IH h' s' (ob_can_fit_settings _ _ _ _ Hs' H1)) as (rs&cs&s2&h2&Hrs&L&E2&L2). exists (r :: rs), (c :: cs), s2, h2. simpl. rewrite E. cbn [rbind]. rewrite E2. auto. }
  destruct b.
  - destruct (G1 (sk_nchains s) (m_heap m) s1 H1) as (rs&es&Hrs&L&E&L2). exists rs. rewrite E. cbn [rbind]. unfold store_chains, combine_chains.
    destruct es as [|e es]; [simpl in L2; congruence|]. cbn [rbind]. eauto.
  - destruct (G2 (sk_nchains s) (m_heap m) s1 H1) as (rs&cs&s2&h2&Hrs&L&E&L2). exists rs. rewrite E. cbn [rbind]. unfold store_chains, combine_chains.
    destruct cs as [|e es]; [simpl in L2; congruence|]. cbn [map rbind]. eauto.
Qed.
