(** Properties C19 (ensembles), C41-C47 and C66: see /verif/properties.jsonl. *)
From Coq Require Import Reals Lra Permutation ZArith.
From Verif Require Import Base Fl Ext MData MSplit MTree MSampler MHist MTreeHist MModel MModelHist Spec SpecTree SpecSampler SpecModel LFl LList
  PData PSplit PDataProps PCond PTree PPred PTreeHist PTreeProps PTreeProps2 PSampler PSampler2 PSampler3
  PModel PModel2 PModel3 PModel4 PModel5 PModel6 PModel7 PModel8 PModel9 PModel10 PModel11 PModel12 PModel13
  Properties_Tree Properties_Model.
Local Open Scope R_scope.

(** ** C19, for an ensemble in any heap: live models and stored samples *)
Theorem C19_ensemble_rowwise : forall h ts n,
  (exists f, forall rows, trees_predict_out h ts (Mx n rows) = Ok (map f rows)) \/
  (exists e, forall rows, trees_predict_out h ts (Mx n rows) = Raise e).
Proof.
  intros h ts n. unfold trees_predict_out. simpl mx_rows.
  induction ts as [|t ts IH]; cbn [predict_out_all rbind].
  - left. exists (fun _ => 0). intros rows. simpl. f_equal. induction rows; simpl; congruence.
  - destruct (C19_tree_rowwise h t n) as [(f&Hf)|(e&He)].
    + destruct IH as [(g&Hg)|(e&He)].
      * left. exists (fun x => f x + g x). intros rows. rewrite Hf. cbn [rbind]. specialize (Hg rows).
        destruct (predict_out_all h ts (Mx n rows)) as [vs| |]; try discriminate. cbn [rbind vsum] in *. rewrite Hg. cbn [rbind].
        unfold vop. rewrite !map_length, Nat.eqb_refl. f_equal. apply map2_map.
      * right. exists e. intros rows. rewrite Hf. cbn [rbind]. specialize (He rows).
        destruct (predict_out_all h ts (Mx n rows)) as [vs| |]; cbn [rbind vsum] in *; auto; try discriminate. rewrite He. reflexivity.
    + right. exists e. intros rows. now rewrite He.
Qed.
Print Assumptions C19_ensemble_rowwise.
(** the consequence in the words of the property: concatenation, and rows picked in any order *)
Theorem C19_ensemble_concatenation : forall h ts n rows1 rows2 v1 v2,
  trees_predict_out h ts (Mx n rows1) = Ok v1 -> trees_predict_out h ts (Mx n rows2) = Ok v2 ->
  trees_predict_out h ts (Mx n (rows1 ++ rows2)) = Ok (v1 ++ v2).
Proof.
  intros h ts n rows1 rows2 v1 v2 H1 H2. destruct (C19_ensemble_rowwise h ts n) as [(f&Hf)|(e&He)]; [|rewrite He in H1; discriminate].
  rewrite Hf in *. injection H1 as <-. injection H2 as <-. now rewrite map_app.
Qed.
Theorem C19_ensemble_pick : forall h ts n rows v is, Forall (fun i => (i < length rows)%nat) is ->
  trees_predict_out h ts (Mx n rows) = Ok v ->
  trees_predict_out h ts (Mx n (map (fun i => nth i rows []) is)) = Ok (map (fun i => nth i v 0) is).
Proof.
  intros h ts n rows v is Hi H. destruct (C19_ensemble_rowwise h ts n) as [(f&Hf)|(e&He)]; [|rewrite He in H; discriminate].
  rewrite Hf in *. injection H as <-. f_equal. rewrite map_map. apply map_ext_in. intros i Hin.
  rewrite Forall_forall in Hi. specialize (Hi i Hin). rewrite (nth_indep _ 0 (f [])) by now rewrite map_length. symmetry. apply map_nth.
Qed.
Print Assumptions C19_ensemble_pick.
Example C19_ensemble_case : exists a b c, trees_predict_out (m_heap mx_m) (m_trees mx_m) (Mx 1 [[FNaN]; [fz 2]; [fz 1]]) = Ok [a; b; c] /\
  a = 0 /\ b = 9 /\ c = 8.
Proof. eexists. eexists. eexists. split; [vm_compute; reflexivity|]. lra. Qed.

(** ** C41 *)
Lemma nodup_turns (m : model) : forall ks, NoDup ks -> (forall k, In k ks -> NoDup (leaves_of m k)) ->
  (forall k k' i, In k ks -> In k' ks -> In i (leaves_of m k) -> In i (leaves_of m k') -> k = k') -> NoDup (flat_map (turn m) ks).
Proof.
  induction ks as [|k ks IH]; intros Hnd Hl Hd; simpl; [constructor|]. inversion Hnd; subst. constructor.
  - rewrite in_app_iff, in_map_iff, in_flat_map. intros [(i&E&_)|(k'&Hk'&[E|E])]; [discriminate|injection E as ->; auto|].
    apply in_map_iff in E as (i&E&_). discriminate.
  - assert (H1' : NoDup (map DoLeaf (leaves_of m k))).
    { apply FinFun.Injective_map_NoDup; [intros a b [= ->]; auto|apply Hl; simpl; auto]. }
    assert (H2' : NoDup (flat_map (turn m) ks)) by (apply IH; auto; [intros; apply Hl; simpl; auto|intros; eapply Hd; simpl; eauto]).
    assert (Hdis : forall a, In a (map DoLeaf (leaves_of m k)) -> ~ In a (flat_map (turn m) ks)).
    { intros a Ha Hb. apply in_map_iff in Ha as (i&<-&Hi). apply in_flat_map in Hb as (k'&Hk'&[E|E]); [discriminate|].
      apply in_map_iff in E as (i'&[= ->]&Hi'). assert (k = k') as -> by (eapply Hd; simpl; eauto). contradiction. }
    revert H1' H2' Hdis. generalize (map DoLeaf (leaves_of m k)) (flat_map (turn m) ks). clear.
    induction l as [|a l IH]; intros l' H1 H2 Hd; simpl; auto. inversion H1; subst. constructor.
    + rewrite in_app_iff. intros [H|H]; [contradiction|]. apply (Hd a); simpl; auto.
    + apply IH; auto. intros b Hb. apply Hd. simpl; auto.
Qed.
Theorem C41_visits : forall X y nrm h0 sigma p os m r d acts m' r',
  no_nan X -> model_reached X y nrm h0 sigma p os m -> gibbs_step m r = Ok (d, acts, m', r') ->
  let leaves k := match nth_error (m_trees m') k with Some t => leaf_nodes (m_heap m') t | None => [] end in
  acts = flat_map (fun k => DoTree k :: map DoLeaf (leaves k)) (seq 0 (pa_ntrees p)) ++ [DoSigma] /\
  NoDup acts /\ length (m_trees m') = pa_ntrees p.
Proof.
  intros X y nrm h0 sigma p os m r d acts m' r' Hn Hr Hg leaves.
  destruct (model_reached_spec _ _ _ _ _ _ _ _ Hn Hr) as (As&e&H&_&Hl&_).
  unfold gibbs_step in Hg. destruct (drive _ m _ GStart r) as [[[[log a] m1] r1]| |] eqn:Ed; try discriminate.
  cbn [rbind] in Hg. injection Hg as <- <- <- <-.
  destruct (drive_spec X _ e Hn _ m (Fr None None) GStart As r _ _ _ _ H Ed) as (As'&H'&_&Hsm&_&_&Ha&_).
  assert (Hl' : length (m_trees m1) = pa_ntrees p) by (rewrite <- Hl; apply Hsm).
  assert (E : a = flat_map (turn m1) (seq 0 (pa_ntrees p)) ++ [DoSigma]).
  { rewrite Ha. unfold rest_acts, tail_acts. now rewrite Hl, Nat.sub_0_r. }
  split; [exact E|]. split; auto. rewrite E.
  pose proof (mi_st _ _ _ _ _ _ H') as Hs.
  assert (Hleaf : forall k i, In i (leaves_of m1 k) -> exists t b, nth_error (m_trees m1) k = Some t /\ nth_error As' k = Some b /\ In i (aids b)).
  { intros k i. unfold leaves_of. destruct (nth_error (m_trees m1) k) as [t|] eqn:Et; [|simpl; tauto].
    destruct (nth_error_both _ As' k t (eq_sym (ms_len _ _ _ _ _ _ Hs)) Et) as (b&Hb). intros Hi.
    destruct (ms_tree _ _ _ _ _ _ Hs _ _ _ Et Hb) as (oy&Hti&_). exists t, b. split; auto. split; auto.
    apply (ti_in _ _ _ _ _ _ Hti). unfold leaf_nodes in Hi. apply filter_In in Hi. apply Hi. }
  assert (Hnd : NoDup (flat_map (turn m1) (seq 0 (pa_ntrees p)))).
  { apply nodup_turns; [apply seq_NoDup| |].
    - intros k _. unfold leaves_of. destruct (nth_error (m_trees m1) k) as [t|] eqn:Et; [|constructor].
      destruct (nth_error_both _ As' k t (eq_sym (ms_len _ _ _ _ _ _ Hs)) Et) as (b&Hb).
      destruct (ms_tree _ _ _ _ _ _ Hs _ _ _ Et Hb) as (oy&Hti&_). apply NoDup_filter.
      eapply Permutation_NoDup; [symmetry; apply (ti_perm _ _ _ _ _ Hti)|apply (ti_nodup _ _ _ _ _ Hti)].
    - intros k k' i _ _ Hi Hi'. destruct (Hleaf _ _ Hi) as (t1&b1&_&Hb1&Hin1). destruct (Hleaf _ _ Hi') as (t2&b2&_&Hb2&Hin2).
      eapply (ms_disj _ _ _ _ _ _ Hs); eauto. }
  apply NoDup_rev in Hnd. rewrite <- (rev_involutive (_ ++ _)). apply NoDup_rev. rewrite rev_app_distr. simpl. constructor; auto.
  rewrite <- in_rev. rewrite in_flat_map. intros (k&_&[Hk|Hk]); [discriminate|]. apply in_map_iff in Hk as (i&Hk&_). discriminate.
Qed.
Print Assumptions C41_visits.
(** the iteration bound built into the model never cuts a step short *)
Theorem C41_no_cut : forall X y nrm h0 sigma p os m r fuel,
  no_nan X -> model_reached X y nrm h0 sigma p os m -> (drive_fuel m <= fuel)%nat ->
  drive fuel m (Fr None None) GStart r = drive (drive_fuel m) m (Fr None None) GStart r.
Proof.
  intros X y nrm h0 sigma p os m r fuel Hn Hr Hf. destruct (model_reached_spec _ _ _ _ _ _ _ _ Hn Hr) as (As&e&H&_).
  eapply drive_enough; eauto; try (simpl; exact H); apply le_n.
Qed.
Print Assumptions C41_no_cut.

(** ** C42 *)
(** list(schedule.steps(model)) always succeeds; whenever and in whatever state one of the steps is run
    afterwards, a tree step updates the last tree and a leaf step the last leaf of the last tree *)
Theorem C42_late_binding : forall X y nrm h0 sigma p os m,
  no_nan X -> model_reached X y nrm h0 sigma p os m -> (1 <= pa_ntrees p)%nat ->
  exists steps m1 fr t before leaf,
    list_steps m = Ok (steps, m1, fr) /\
    steps = flat_map (fun k => (KyTree, ThTree) :: map (fun _ => (KyNode, ThLeaf))
              (match nth_error (m_trees m) k with Some t => leaf_nodes (m_heap m) t | None => [] end)) (seq 0 (pa_ntrees p))
            ++ [(KyNode, ThSigma)] /\
    nth_error (m_trees m) (pa_ntrees p - 1) = Some t /\ leaf_nodes (m_heap m) t = before ++ [leaf] /\
    forall m2 key th r b a m3 r', In (key, th) steps -> call m2 fr th r = Ok (b, a, m3, r') ->
      a = match th with ThTree => DoTree (pa_ntrees p - 1) | ThLeaf => DoLeaf leaf | ThSigma => DoSigma end.
Proof.
  intros X y nrm h0 sigma p os m Hn Hr Hp. destruct (model_reached_spec _ _ _ _ _ _ _ _ Hn Hr) as (As&e&H&_&Hl&_).
  destruct (collect_spec X _ e Hn (drive_fuel m) m (Fr None None) GStart As H (le_n _) (or_introl eq_refl)) as (ths&m1&fr&E&_&_&_&Et&Hfin).
  rewrite Hl in *. destruct (Hfin Hp) as (Hft&pre&i&Hfl&Hlv). unfold leaves_of in Hlv.
  destruct (nth_error (m_trees m) (pa_ntrees p - 1)) as [t|] eqn:En; [|destruct pre; discriminate].
  exists ths, m1, fr, t, pre, i. split; [exact E|]. split.
  { rewrite Et. unfold rest_steps, tail_steps. rewrite Nat.sub_0_r. reflexivity. }
  split; auto. split; auto. intros m2 key th r b a m3 r' _ Hc. destruct th; unfold call in Hc.
  - rewrite Hft in Hc. destruct (nth_error (m_trees m2) _); [|discriminate]. destruct (tree_step _ _ _ _ _) as [[[[? ?] ?] ?]| |]; try discriminate.
    cbn [rbind] in Hc. now injection Hc.
  - rewrite Hfl in Hc. destruct (leaf_step _ _ _ _ _) as [[? ?]| |]; try discriminate. cbn [rbind] in Hc. now injection Hc.
  - destruct (sigma_step m2 r) as [[? ?]| |]; try discriminate. cbn [rbind] in Hc. now injection Hc.
Qed.
Print Assumptions C42_late_binding.

(** ** C45 *)
Theorem C45_rates : forall X y nrm h0 sigma p os m r d acts m' r',
  no_nan X -> model_reached X y nrm h0 sigma p os m -> gibbs_step m r = Ok (d, acts, m', r') ->
  exists accepted, NoDup accepted /\
    (forall k, In k accepted <-> (k < pa_ntrees p)%nat /\
       option_map tr_nodes (nth_error (m_trees m') k) <> option_map tr_nodes (nth_error (m_trees m) k)) /\
    d = (if (pa_ntrees p =? 0)%nat then [] else [(KyTree, INR (length accepted) / INR (pa_ntrees p))]) /\
    (length accepted <= pa_ntrees p)%nat.
Proof.
  intros X y nrm h0 sigma p os m r d acts m' r' Hn Hr Hg.
  destruct (model_reached_spec _ _ _ _ _ _ _ _ Hn Hr) as (As&e&H&_&Hl&_).
  unfold gibbs_step in Hg. destruct (drive _ m _ GStart r) as [[[[log a] m1] r1]| |] eqn:Ed; try discriminate.
  cbn [rbind] in Hg. injection Hg as <- <- <- <-.
  destruct (drive_spec X _ e Hn _ m (Fr None None) GStart As r _ _ _ _ H Ed) as (As'&H'&_&Hsm&_&_&_&Hlog).
  cbn [first_open] in Hlog. rewrite Hl, Nat.sub_0_r in Hlog.
  assert (Hl' : length (m_trees m1) = pa_ntrees p) by (rewrite <- Hl; apply Hsm).
  exists (filter (changed m m1) (seq 0 (pa_ntrees p))). split; [apply NoDup_filter, seq_NoDup|]. split; [|split].
  - intros k. rewrite filter_In, in_seq. split.
    + intros [Hk Hc]. split; [lia|]. unfold changed, nodes_of in Hc.
      destruct (nth_error (m_trees m) k) as [t|] eqn:E1; [|apply nth_error_None in E1; lia].
      destruct (nth_error (m_trees m1) k) as [t'|] eqn:E2; [|apply nth_error_None in E2; lia].
      destruct (list_eq_dec _ _ _); [discriminate|]. simpl. congruence.
    + intros [Hk Hc]. split; [lia|]. unfold changed, nodes_of.
      destruct (nth_error (m_trees m) k) as [t|] eqn:E1; [|apply nth_error_None in E1; lia].
      destruct (nth_error (m_trees m1) k) as [t'|] eqn:E2; [|apply nth_error_None in E2; lia].
      destruct (list_eq_dec _ _ _); auto. simpl in Hc. exfalso. congruence.
  - subst log. destruct (Nat.eqb_spec (pa_ntrees p) 0) as [->|Hz]; [reflexivity|].
    unfold step_dict, log_keys. cbn [filter].
    assert (E1 : existsb (fun e0 => skey_eqb KyTree (fst e0)) (map (fun k => (KyTree, changed m m1 k)) (seq 0 (pa_ntrees p))) = true).
    { destruct (pa_ntrees p); [congruence|]. reflexivity. }
    assert (E2 : forall ks, existsb (fun e0 => skey_eqb KyNode (fst e0)) (map (fun k => (KyTree, changed m m1 k)) ks) = false).
    { induction ks; simpl; auto. }
    assert (E3 : forall ks, filter (fun e0 => skey_eqb KyTree (fst e0)) (map (fun k => (KyTree, changed m m1 k)) ks) = map (fun k => (KyTree, changed m m1 k)) ks).
    { induction ks as [|k ks IH]; [reflexivity|]. cbn [map filter fst skey_eqb]. f_equal. exact IH. }
    rewrite E1, E2. cbn [map]. f_equal. f_equal. rewrite E3. unfold mean01. rewrite !map_map. simpl snd. rewrite map_length, seq_length. f_equal.
    generalize (seq 0 (pa_ntrees p)). clear. induction l as [|k l IH]; [reflexivity|]. cbn [map filter].
    assert (Hc : forall a b, rsum (a :: b) = a + rsum b) by reflexivity. rewrite Hc, IH.
    destruct (changed m m1 k); [|lra]. cbn [length]. rewrite S_INR. lra.
  - pose proof (filter_length_le (changed m m1) (seq 0 (pa_ntrees p))) as Hle. now rewrite seq_length in Hle.
Qed.
Print Assumptions C45_rates.
Theorem C45_rates_in_unit_interval : forall X y nrm h0 sigma p os m r d acts m' r' k x,
  no_nan X -> model_reached X y nrm h0 sigma p os m -> gibbs_step m r = Ok (d, acts, m', r') -> In (k, x) d ->
  k = KyTree /\ 0 <= x <= 1.
Proof.
  intros X y nrm h0 sigma p os m r d acts m' r' k x Hn Hr Hg Hin.
  destruct (C45_rates _ _ _ _ _ _ _ _ _ _ _ _ _ Hn Hr Hg) as (acc&_&_&->&Hle).
  destruct (Nat.eqb_spec (pa_ntrees p) 0) as [|Hz]; [destruct Hin|]. destruct Hin as [E|[]]. injection E as <- <-. split; auto.
  assert (0 < INR (pa_ntrees p)) by (apply lt_0_INR; lia). apply le_INR in Hle. pose proof (pos_INR (length acc)).
  split; [apply Rle_mult_inv_pos; lra|]. apply Rmult_le_reg_r with (INR (pa_ntrees p)); auto. unfold Rdiv. rewrite Rmult_assoc, Rinv_l by lra. lra.
Qed.
Print Assumptions C45_rates_in_unit_interval.

(** ** C66 *)
Lemma reached_sampled X y nrm h0 sigma p os m : no_nan X -> mx_rows X <> [] -> (0 < sigma)%R -> Forall sampler_op os ->
  model_reached X y nrm h0 sigma p os m -> sampled_model X (start_target y nrm) p m.
Proof. apply sampled_model_reached. Qed.
Theorem C66_step_failures : forall X y nrm h0 sigma p os m r,
  no_nan X -> mx_rows X <> [] -> 0 < sigma -> sane_params p -> Forall sampler_op os -> model_reached X y nrm h0 sigma p os m ->
  sane_draws r ->
  match gibbs_step m r with Ok (_, _, m', r') => 0 < m_sigma m' /\ sane_draws r' | Raise e => e = ERecursionError | NoDraws => True end.
Proof.
  intros X y nrm h0 sigma p os m r Hn Hx Hs Hp Ho Hr Hd.
  pose proof (gibbs_safe X _ p m r Hn (reached_sampled _ _ _ _ _ _ _ _ Hn Hx Hs Ho Hr) Hp Hd) as Hg.
  destruct (gibbs_step m r) as [[[[d acts] m'] r']| |]; auto. destruct Hg as [(As&e&_&_&_&_&H) H']. auto.
Qed.
Print Assumptions C66_step_failures.
Theorem C66_samples_failures : forall X y nrm h0 sigma p os m n nb num den sp sa r,
  no_nan X -> mx_rows X <> [] -> 0 < sigma -> sane_params p -> Forall sampler_op os -> model_reached X y nrm h0 sigma p os m ->
  sane_draws r -> num <> 0%Z ->
  match samples m n nb (TInv num den) sp sa r with Ok _ => True | Raise e => e = ERecursionError | NoDraws => True end.
Proof.
  intros X y nrm h0 sigma p os m n nb num den sp sa r Hn Hx Hs Hp Ho Hr Hd Hz.
  pose proof (samples_safe X _ p num den sp sa n nb m r Hn Hp Hz (reached_sampled _ _ _ _ _ _ _ _ Hn Hx Hs Ho Hr) Hd) as Hg.
  destruct (samples m n nb (TInv num den) sp sa r); auto.
Qed.
Print Assumptions C66_samples_failures.
(** if some covariate varies, then from every such state some draws complete every request *)
Theorem C66_samples_possible : forall X y nrm h0 sigma p os m n nb num den sp sa,
  no_nan X -> 0 < sigma -> sane_params p -> (0 < pa_limit p)%nat -> Forall sampler_op os -> model_reached X y nrm h0 sigma p os m ->
  varies X -> num <> 0%Z ->
  exists r c m', sane_draws r /\ samples m n nb (TInv num den) sp sa r = Ok (c, m', Rng [] [] [] [] []).
Proof.
  intros X y nrm h0 sigma p os m n nb num den sp sa Hn Hs Hp Hlim Ho Hr Hv Hz.
  assert (Hx : mx_rows X <> []) by (destruct Hv as (v&i&j&_&Hi&_); intros E; rewrite E in Hi; simpl in Hi; lia).
  destruct (samples_live X _ p num den sp sa n nb m Hn Hp (proj2 (offers_varies X) Hv) Hlim Hz (reached_sampled _ _ _ _ _ _ _ _ Hn Hx Hs Ho Hr)) as (r&c&m'&Hr'&_&E).
  exists r, c, m'. split; auto. specialize (E rnil). now rewrite radd_nil_r in E.
Qed.
Print Assumptions C66_samples_possible.
(** otherwise no draws complete even one step *)
Theorem C66_constant_data_stuck : forall X y nrm h0 sigma p os m r,
  no_nan X -> mx_rows X <> [] -> 0 < sigma -> sane_params p -> Forall sampler_op os -> model_reached X y nrm h0 sigma p os m ->
  ~ varies X -> gibbs_step m r = Raise ERecursionError \/ gibbs_step m r = NoDraws.
Proof.
  intros X y nrm h0 sigma p os m r Hn Hx Hs Hp Ho Hr Hv.
  apply (gibbs_stuck X _ p m r Hn (reached_sampled _ _ _ _ _ _ _ _ Hn Hx Hs Ho Hr) Hp). now rewrite offers_varies.
Qed.
Print Assumptions C66_constant_data_stuck.
Lemma mx_sane : sane_params mx_p.
Proof. unfold sane_params, mx_p. simpl. split; [split; [lra|lia]|lra]. Qed.
Lemma mx_varies : varies mx_X.
Proof. exists 0%nat, 1%nat, 2%nat. unfold value_in, mx_X. simpl. repeat split; try lia. discriminate. Qed.
Lemma start_reached X y p m : length y = length (mx_rows X) -> start_model X y false (Hp 0 (fun _ => None)) 1 p = Ok m ->
  model_reached X y false (Hp 0 (fun _ => None)) 1 p [] m.
Proof. intros Hl Hm. split; auto. split; [constructor|]. exists m. auto. Qed.
Definition mx_fresh (m : model) : Prop := model_reached mx_X mx_y false (Hp 0 (fun _ => None)) 1 mx_p [] m.
Lemma mx_fresh_exists : exists m, mx_fresh m.
Proof. exists (get mx_0 mx_start). apply start_reached; [reflexivity|]. apply okb_get. vm_compute. reflexivity. Qed.
(** a concrete model in which any number of samples can be drawn, and so steps can be made *)
Lemma mx_samples m n nb num den sp sa : mx_fresh m -> num <> 0%Z ->
  exists r c m', sane_draws r /\ samples m n nb (TInv num den) sp sa r = Ok (c, m', Rng [] [] [] [] []).
Proof.
  intros Hm Hz. eapply C66_samples_possible; [exact mx_no_nan|exact Rlt_0_1|exact mx_sane|simpl; lia|constructor|exact Hm|exact mx_varies|exact Hz].
Qed.
Lemma burn_one m r m' r' : burn 1 m r = Ok (m', r') -> exists d acts, gibbs_step m r = Ok (d, acts, m', r').
Proof. cbn [burn]. destruct (gibbs_step m r) as [[[[d acts] m1] r1]| |]; try discriminate. cbn [rbind]. intros E; injection E as <- <-. eauto. Qed.
Example C66_case : exists m r d acts m' r', mx_fresh m /\ sane_draws r /\ gibbs_step m r = Ok (d, acts, m', r').
Proof.
  destruct mx_fresh_exists as (m&Hm). destruct (mx_samples m 0 1 1 1 true true Hm ltac:(discriminate)) as (r&c&m'&Hr&E). unfold samples in E.
  destruct (burn 1 m r) as [[m1 r1]| |] eqn:Eb; try discriminate E. apply burn_one in Eb as (d&acts&Eb).
  exists m, r, d, acts, m1, r1. auto.
Qed.
(** data on which C66_constant_data_stuck applies: the second column varies in the first row only *)
Example C66_stuck_case : ~ varies (Mx 2 [[fz 1; fz 5]; [fz 1; fz 7]; [fz 1; fz 7]]) /\ no_nan (Mx 2 [[fz 1; fz 5]; [fz 1; fz 7]; [fz 1; fz 7]]).
Proof.
  split.
  - intros (v&i&j&Hv&Hi&Hj&Hd). simpl in *. apply Hd. clear Hd.
    destruct i as [|[|[|i]]]; try lia; destruct j as [|[|[|j]]]; try lia; destruct v as [|[|v]]; try lia; reflexivity.
  - intros r v Hr Hv. simpl in Hr, Hv. destruct v as [|[|v]]; try lia; repeat (destruct Hr as [<-|Hr]; [discriminate|]); destruct Hr.
Qed.
(** C41 and C45 in the same state *)
Example C41_C45_case : exists m r d acts m' r', mx_fresh m /\ gibbs_step m r = Ok (d, acts, m', r') /\
  (5 <= length acts)%nat /\ (exists x, d = [(KyTree, x)]).
Proof.
  destruct C66_case as (m&r&d&acts&m'&r'&Hm&_&E). exists m, r, d, acts, m', r'. split; auto. split; auto.
  destruct (C41_visits _ _ _ _ _ _ _ _ _ _ _ _ _ mx_no_nan Hm E) as (Ha&_&Hl).
  destruct (C45_rates _ _ _ _ _ _ _ _ _ _ _ _ _ mx_no_nan Hm E) as (acc&_&_&Hd&_). split; [|simpl in Hd; eauto].
  assert (Hlv : forall k, (k < 2)%nat -> leaves_of m' k <> []).
  { intros k Hk. destruct (model_reached_spec _ _ _ _ _ _ _ _ mx_no_nan Hm) as (As&e&H&_).
    destruct (same_gibbs _ _ _ _ _ _ _ _ _ _ mx_no_nan H E) as (As'&H'&_). eapply minv_leaves; [exact H'|]. rewrite Hl. exact Hk. }
  pose proof (Hlv 0%nat ltac:(lia)) as H0. pose proof (Hlv 1%nat ltac:(lia)) as H1. unfold leaves_of in H0, H1. rewrite Ha. cbn [pa_ntrees mx_p seq flat_map].
  revert H0 H1. generalize (match nth_error (m_trees m') 0 with Some t => leaf_nodes (m_heap m') t | None => [] end) as l0.
  generalize (match nth_error (m_trees m') 1 with Some t => leaf_nodes (m_heap m') t | None => [] end) as l1.
  intros [|a l1] [|b l0] H0 H1; try congruence. simpl. rewrite !app_length. simpl. rewrite !app_length. simpl. lia.
Qed.

(** ** C43, C44 *)
(** 1/thin = q/p in lowest terms.  There are n_burn + n_samples Gibbs steps; after burn-in every q-th of them,
    starting with the first, is stored and nothing else happens; entry number k of each of the three traces is
    the step number n_burn + k*q: a model with the same sigma that predicts, on every matrix and also after the
    whole run, what the ensemble predicted right after that step; the report of that step; the in-sample
    prediction of the ensemble at that step. *)
Theorem C44_aligned : forall X y nrm h0 sigma p os m n nb num den q den' sp sa r c m' r',
  no_nan X -> model_reached X y nrm h0 sigma p os m ->
  (0 < q)%nat -> (0 < den')%nat -> Nat.gcd q den' = 1%nat -> (num * Z.of_nat den' = Z.of_nat q * Zpos den)%Z ->
  samples m n nb (TInv num den) sp sa r = Ok (c, m', r') ->
  exists steps kept,
    sampling (stores_every nb q sp) 0 m r steps m' r' /\ length steps = (nb + n)%nat /\
    length kept = ((n + q - 1) / q)%nat /\
    (forall k, (k < length kept)%nat -> nth_error steps (nb + k * q) = nth_error kept k) /\
    Forall2 (fun s st => sample_of (m_heap m') s (snd st)) (ch_models c) kept /\
    ch_accept c = (if sa then map fst kept else []) /\
    (if sp then Forall2 (fun v st => length v = length (mx_rows X) /\ (exists m1, model_predict (snd st) = Ok (v, m1)) /\
                          forall vs, trees_say (snd st) X vs -> forall i, (i < length (mx_rows X))%nat -> nth i v 0 = total vs i)
                        (ch_preds c) kept
     else ch_preds c = []).
Proof.
  intros X y nrm h0 sigma p os m n nb num den q den' sp sa r c m' r' Hn Hr Hq Hd Hg Hqd E.
  destruct (model_reached_spec _ _ _ _ _ _ _ _ Hn Hr) as (As&e&H&_).
  assert (Hz : num <> 0%Z) by nia.
  destruct (samples_spec X _ e num den q n nb sp sa m As r c m' r' Hn H Hz (fun ss => keeps_multiple num den q den' ss Hq Hd Hg Hqd) E)
    as (l&lb&Hs&Lb&Ll&_&_&Hm&Ha&Hp).
  exists (lb ++ l), (every_from q 0 l). split; auto. split; [rewrite app_length; lia|]. split; [rewrite every_length; congruence|].
  split; [|split; [|split; auto]].
  - intros k Hk. rewrite every_nth by auto. rewrite nth_error_app2 by lia. f_equal. lia.
  - eapply Forall2_impl_in; [|exact Hm]. intros a b _ _ [Hab _]. exact Hab.
Qed.
Print Assumptions C44_aligned.
Theorem C44_counts : forall X y nrm h0 sigma p os m n nb num den q den' r c m' r',
  no_nan X -> model_reached X y nrm h0 sigma p os m ->
  (0 < q)%nat -> (0 < den')%nat -> Nat.gcd q den' = 1%nat -> (num * Z.of_nat den' = Z.of_nat q * Zpos den)%Z ->
  samples m n nb (TInv num den) true true r = Ok (c, m', r') ->
  length (ch_models c) = length (ch_accept c) /\ length (ch_models c) = length (ch_preds c).
Proof.
  intros X y nrm h0 sigma p os m n nb num den q den' r c m' r' Hn Hr Hq Hd Hg Hqd E.
  destruct (C44_aligned _ _ _ _ _ _ _ _ _ _ _ _ _ _ _ _ _ _ _ _ Hn Hr Hq Hd Hg Hqd E) as (steps&kept&_&_&_&_&Hm&Ha&Hp).
  apply PModel7.Forall2_length in Hm. apply PModel7.Forall2_length in Hp. rewrite Ha, map_length. split; congruence.
Qed.
Print Assumptions C44_counts.
Theorem C43_count : forall X y nrm h0 sigma p os m n nb num den q den' sp sa r c m' r',
  no_nan X -> model_reached X y nrm h0 sigma p os m ->
  (0 < q)%nat -> (0 < den')%nat -> Nat.gcd q den' = 1%nat -> (num * Z.of_nat den' = Z.of_nat q * Zpos den)%Z ->
  samples m n nb (TInv num den) sp sa r = Ok (c, m', r') ->
  length (ch_models c) = ((n + q - 1) / q)%nat.
Proof.
  intros X y nrm h0 sigma p os m n nb num den q den' sp sa r c m' r' Hn Hr Hq Hd Hg Hqd E.
  destruct (C44_aligned _ _ _ _ _ _ _ _ _ _ _ _ _ _ _ _ _ _ _ _ Hn Hr Hq Hd Hg Hqd E) as (steps&kept&_&_&Hl&_&Hm&_).
  apply PModel7.Forall2_length in Hm. congruence.
Qed.
Print Assumptions C43_count.
(** thin = 1/k: the models of the steps 0, k, 2k, ... after burn-in *)
Theorem C43_one_in_k : forall X y nrm h0 sigma p os m n nb k sp sa r c m' r',
  no_nan X -> model_reached X y nrm h0 sigma p os m -> (0 < k)%nat ->
  samples m n nb (TInv (Z.of_nat k) 1) sp sa r = Ok (c, m', r') ->
  length (ch_models c) = ((n + k - 1) / k)%nat /\
  exists steps, sampling (stores_every nb k sp) 0 m r steps m' r' /\ length steps = (nb + n)%nat /\
    forall i s, nth_error (ch_models c) i = Some s -> exists d m1, nth_error steps (nb + i * k) = Some (d, m1) /\ sample_of (m_heap m') s m1.
Proof.
  intros X y nrm h0 sigma p os m n nb k sp sa r c m' r' Hn Hr Hk E.
  assert (Hg : Nat.gcd k 1 = 1%nat) by (apply Nat.gcd_1_r).
  destruct (C44_aligned _ _ _ _ _ _ _ _ _ _ (Z.of_nat k) 1%positive k 1%nat _ _ _ _ _ _ Hn Hr Hk Nat.lt_0_1 Hg eq_refl E) as (steps&kept&Hs&Hls&Hlk&Hnth&Hm&_).
  split; [apply PModel7.Forall2_length in Hm; congruence|]. exists steps. split; auto. split; auto. intros i s Hi.
  assert (Hi' : exists st, nth_error kept i = Some st /\ sample_of (m_heap m') s (snd st)).
  { clear - Hm Hi. revert i Hi. induction Hm as [|a b la lb Hab Hm IH]; intros [|i] Hi; simpl in *; try discriminate; eauto. injection Hi as ->. eauto. }
  destruct Hi' as ([d m1]&Hi'&Hso). exists d, m1. split; auto. rewrite Hnth; auto. apply nth_error_Some. congruence.
Qed.
Print Assumptions C43_one_in_k.
(** thin = 0: ZeroDivisionError, but only after burn-in (whose failures come first) *)
Theorem C43_zero : forall m n nb sp sa r,
  samples m n nb TZero sp sa r =
  match burn nb m r with Ok _ => Raise EZeroDivisionError | Raise e => Raise e | NoDraws => NoDraws end.
Proof. intros. unfold samples. now destruct (burn nb m r) as [[? ?]| |]. Qed.
Print Assumptions C43_zero.
(** "a fraction [thin] of the samples is kept" is refuted: thin = 2/3 keeps 2 of 6 *)
Theorem C43_fraction_refuted : exists m n r c m' r',
  mx_fresh m /\ samples m n 0 (TInv 3 2) true true r = Ok (c, m', r') /\ 
  INR (length (ch_models c)) <> 2 / 3 * INR n /\ length (ch_models c) = 2%nat /\ n = 6%nat.
Proof.
  destruct mx_fresh_exists as (m&Hm).
  destruct (mx_samples m 6 0 3 2 true true Hm ltac:(discriminate)) as (r&c&m'&_&E).
  exists m, 6%nat, r, c, m', (Rng [] [] [] [] []). split; [exact Hm|]. split; [exact E|].
  pose proof (C43_count _ _ _ _ _ _ _ _ _ _ 3%Z 2%positive 3%nat 2%nat _ _ _ _ _ _ mx_no_nan Hm (Nat.lt_0_succ _)
    (Nat.lt_0_succ _) eq_refl eq_refl E) as Hc. rewrite Hc. split; [|split; reflexivity]. simpl. lra.
Qed.
Print Assumptions C43_fraction_refuted.
Example C43_C44_case : exists m r c m' r', mx_fresh m /\ samples m 7 2 (TInv 2 1) true true r = Ok (c, m', r') /\ length (ch_models c) = 4%nat.
Proof.
  destruct mx_fresh_exists as (m&Hm).
  destruct (mx_samples m 7 2 2 1 true true Hm ltac:(discriminate)) as (r&c&m'&_&E). exists m, r, c, m', (Rng [] [] [] [] []). split; [exact Hm|]. split; [exact E|].
  exact (C43_count _ _ _ _ _ _ _ _ _ _ 2%Z 1%positive 2%nat 1%nat _ _ _ _ _ _ mx_no_nan Hm (Nat.lt_0_succ _)
    (Nat.lt_0_succ _) eq_refl eq_refl E).
Qed.

(** ** C46 *)
(** storing always succeeds, the stored sample predicts as the model does, and no later history of the model
    changes any of its predictions *)
Theorem C46_stored_samples_never_change : forall X y nrm h0 sigma p os m,
  no_nan X -> model_reached X y nrm h0 sigma p os m ->
  exists s m1, deep_copy_model m = Ok (s, m1) /\ sample_of (m_heap m1) s m /\
    forall later m2, Forall (sane_model_op (pa_ntrees p)) later -> model_run m1 later = Ok m2 ->
      forall X', sample_predict (m_heap m2) s X' = sample_predict (m_heap m1) s X'.
Proof.
  intros X y nrm h0 sigma p os m Hn Hr. destruct (model_reached_spec _ _ _ _ _ _ _ _ Hn Hr) as (As&e&H&_&Hl&_).
  destruct (deep_copy_model_spec _ _ _ _ _ _ H) as (s&m1&E&H1&S1&_&_&_&_&Ess&Els&Hst&Hsp&_).
  exists s, m1. split; auto. split; [split; auto|]. intros later m2 Hs Hrun X'.
  assert (Hl1 : length (m_trees m1) = pa_ntrees p) by (rewrite <- Hl; apply S1). rewrite <- Hl1 in Hs.
  destruct (model_run_spec _ _ Hn _ _ _ _ _ H1 Hs Hrun) as (As2&e2&_&(_&_&_&Hk)&_). now apply stored_later with (m' := m2) in Hst as [_ ->].
Qed.
Print Assumptions C46_stored_samples_never_change.
(** and a whole sampling run leaves a sample stored before it alone *)
Theorem C46_sampling_run : forall X y nrm h0 sigma p os m s m1 n nb num den sp sa r c m2 r',
  no_nan X -> model_reached X y nrm h0 sigma p os m -> deep_copy_model m = Ok (s, m1) -> (0 < num)%Z ->
  samples m1 n nb (TInv num den) sp sa r = Ok (c, m2, r') ->
  forall X', sample_predict (m_heap m2) s X' = sample_predict (m_heap m1) s X'.
Proof.
  intros X y nrm h0 sigma p os m s m1 n nb num den sp sa r c m2 r' Hn Hr E Hz Es X'.
  destruct (model_reached_spec _ _ _ _ _ _ _ _ Hn Hr) as (As&e&H&_&Hl&_).
  destruct (deep_copy_model_spec _ _ _ _ _ _ H) as (s'&m1'&E'&H1&S1&_&_&_&_&Ess&Els&Hst&Hsp&_). rewrite E in E'. injection E' as <- <-.
  assert (Hk : exists q, (0 < q)%nat /\ forall ss, keeps_sample ss num den = (ss mod q =? 0)%nat).
  { set (g := Z.gcd num (Zpos den)). assert (Hg : (0 < g)%Z).
    { pose proof (Z.gcd_nonneg num (Zpos den)). unfold g. destruct (Z.eq_dec (Z.gcd num (Zpos den)) 0) as [Hz0|]; [apply Z.gcd_eq_0 in Hz0; lia|lia]. }
    destruct (Z.gcd_divide_l num (Zpos den)) as (a&Ha). destruct (Z.gcd_divide_r num (Zpos den)) as (b&Hb). fold g in Ha, Hb.
    assert (0 < a)%Z by nia. assert (0 < b)%Z by nia.
    assert (Hab : Nat.gcd (Z.to_nat a) (Z.to_nat b) = 1%nat).
    { assert (Hgg : Z.gcd a b = 1%Z).
      { assert (Hm : (Z.gcd (a * g) (b * g) = Z.gcd a b * g)%Z) by (rewrite Z.gcd_mul_mono_r, Z.abs_eq; lia).
        rewrite <- Ha, <- Hb in Hm. fold g in Hm. nia. }
      assert (Hu : Nat.divide (Nat.gcd (Z.to_nat a) (Z.to_nat b)) 1).
      { assert (Hz1 : (Z.of_nat (Nat.gcd (Z.to_nat a) (Z.to_nat b)) | 1)%Z).
        { rewrite <- Hgg. apply Z.gcd_greatest.
          - destruct (Nat.gcd_divide_l (Z.to_nat a) (Z.to_nat b)) as (k&Hk). exists (Z.of_nat k). rewrite <- Nat2Z.inj_mul, <- Hk. lia.
          - destruct (Nat.gcd_divide_r (Z.to_nat a) (Z.to_nat b)) as (k&Hk). exists (Z.of_nat k). rewrite <- Nat2Z.inj_mul, <- Hk. lia. }
        destruct Hz1 as (k&Hk). exists (Z.to_nat k). apply Nat2Z.inj. rewrite Nat2Z.inj_mul. rewrite Z2Nat.id by nia. exact Hk. }
      apply Nat.divide_1_r in Hu. exact Hu. }
    exists (Z.to_nat a). split; [lia|]. intros ss. apply (keeps_multiple num den (Z.to_nat a) (Z.to_nat b)); auto; lia. }
  destruct Hk as (q&Hq&Hk).
  destruct (samples_spec X _ e num den q n nb sp sa m1 As r c m2 r' Hn H1 ltac:(lia) Hk Es) as (l&lb&_&_&_&_&(_&_&_&Hkeep)&_).
  now apply stored_later with (m' := m2) in Hst as [_ ->].
Qed.
Print Assumptions C46_sampling_run.

(** ** C47 *)
(** every decision node of a stored sample has live nodes of the model as children, none of the stored copies;
    these hold the training data *)
Theorem C47_linked : forall X y nrm h0 sigma p os m s m1,
  no_nan X -> model_reached X y nrm h0 sigma p os m -> deep_copy_model m = Ok (s, m1) ->
  forall q l r sp d, stored_node s q -> h_get (m_heap m1) q = Some (Nd (KDec l r) sp d) ->
  forall child, child = l \/ child = r ->
    live_node m1 child /\ ~ stored_node s child /\
    exists sp', node_split (m_heap m1) child = Some sp' /\ mx_rows (cm_X (d_X (sp_data sp'))) = mx_rows X.
Proof.
  intros X y nrm h0 sigma p os m s m1 Hn Hr E q l r sp d Hq Eq child Hch.
  destruct (model_reached_spec _ _ _ _ _ _ _ _ Hn Hr) as (As&e&H&_&Hl&_). pose proof (mi_st _ _ _ _ _ _ H) as Hs.
  destruct (deep_copy_model_spec _ _ _ _ _ _ H) as (s'&m1'&E'&H1&S1&_&_&_&Et1&_&_&Hst&_&Hold). rewrite E in E'. injection E' as <- <-.
  unfold deep_copy_model in E.
  destruct (copy_trees_spec (m_trees m) (m_heap m)) as (ts'&h'&Ec&_&_&_&Hf); [intros t i Ht Hi; eapply minv_nodes; eauto|].
  rewrite Ec in E. cbn [rbind] in E. injection E as <- <-. simpl in *.
  destruct Hq as (t'&Ht'&Hq). apply In_nth_error in Ht' as (j&Hj).
  assert (Hcp : exists t i, nth_error (m_trees m) j = Some t /\ In i (tr_nodes t) /\ copied (m_heap m) i h' q).
  { clear - Hf Hj Hq. revert j Hj. induction Hf as [|t0 t1 l0 l1 Ht Hf IH]; intros [|j] Hj; simpl in *; try discriminate.
    - injection Hj as <-. exists t0. clear - Ht Hq. simpl. induction Ht as [|i i' a b Hc Ht IH]; [destruct Hq|].
      destruct Hq as [->|Hq]; [exists i; simpl; auto|]. destruct (IH Hq) as (i0&_&Hi&Hcc). exists i0. simpl. auto.
    - destruct (IH j Hj) as (t&i&Hti). exists t, i. exact Hti. }
  destruct Hcp as (t&i&Htj&Hi&k&sf&d'&Ei&Eq'). rewrite Eq in Eq'. injection Eq' as <- _ <-.
  destruct (nth_error_both _ As j t (eq_sym (ms_len _ _ _ _ _ _ Hs)) Htj) as (a&Ha).
  destruct (ms_tree _ _ _ _ _ _ Hs _ _ _ Htj Ha) as (oy&Hti&_).
  apply (ti_in _ _ _ _ _ _ Hti) in Hi. destruct (afind_in a [] 0 i Hi) as ([[ci di] ai]&Hfa).
  pose proof (afind_aok _ _ _ _ _ _ _ _ _ _ (ti_ok _ _ _ _ _ Hti) Hfa) as Hai.
  assert (Hin : In child (aids a) /\ exists sp', node_split (m_heap m) child = Some sp' /\ mx_rows (cm_X (d_X (sp_data sp'))) = mx_rows X).
  { destruct (afind_sub _ _ _ _ _ _ _ Hfa) as [Hroot Hsub]. destruct ai as [i0|i0 v x al ar]; simpl in Hroot; subst i0; simpl in Hai.
    - destruct Hai as (w&s0&E0&_). rewrite Ei in E0. discriminate.
    - destruct Hai as ((s0&E0&_)&_&_&Hal&Har). rewrite Ei in E0. injection E0 as -> -> _ _.
      assert (Hinc : In child (aids al) \/ In child (aids ar)) by (destruct Hch as [-> | ->]; [left|right]; apply aroot_in).
      assert (Hcin : In child (aids a)) by (apply Hsub; simpl; right; apply in_or_app; auto).
      split; auto. destruct (ti_node _ _ _ _ [] 0 child (ti_ok _ _ _ _ _ Hti) Hcin) as (k1&s1&d1&cs1&E1&Hs1).
      exists s1. unfold node_split. rewrite E1. split; auto. now rewrite (si_X _ _ _ _ Hs1). }
  destruct Hin as [Hcin Hdata].
  assert (Hlive : live_node (m_set_trees m h' (m_trees m)) child).
  { exists t. split; [simpl; eapply nth_error_In; eauto|]. now apply (ti_in _ _ _ _ _ _ Hti). }
  split; auto. split.
  - intros Hsn. destruct (Hst child Hsn) as [_ Hnl]. apply Hnl. exact Hlive.
  - destruct Hdata as (sp'&E1&E2). exists sp'. split; auto. unfold node_split. rewrite Hold; auto.
    apply (ti_below _ _ _ _ _ Hti). exact Hcin.
Qed.
Print Assumptions C47_linked.
(** the value of the left child seen through the decision node of the first stored tree *)
Definition seen (m : model) (s : sample) : option R :=
  match sm_trees s with
  | t :: _ => match decision_nodes (m_heap m) t with
              | i :: _ => match left_child (m_heap m) i with
                          | Some l => match h_get (m_heap m) l with Some (Nd (KLeaf v) _ _) => Some v | _ => None end
                          | None => None end
              | [] => None end
  | [] => None
  end.
Lemma linked_by X y p os m s m1 later m2 x x' : model_reached X y false (Hp 0 (fun _ => None)) 1 p os m ->
  deep_copy_model m = Ok (s, m1) -> Forall (sane_model_op (pa_ntrees p)) later -> model_run m1 later = Ok m2 ->
  seen m1 s = Some x -> seen m2 s = Some x' -> x <> x' ->
  exists os m s m1 later m2 x x', model_reached X y false (Hp 0 (fun _ => None)) 1 p os m /\ deep_copy_model m = Ok (s, m1) /\
    Forall (sane_model_op (pa_ntrees p)) later /\ model_run m1 later = Ok m2 /\ seen m1 s = Some x /\ seen m2 s = Some x' /\ x <> x'.
Proof. intros. exists os, m, s, m1, later, m2, x, x'. auto 10. Qed.
(** "what can be read from a stored sample never changes" is refuted *)
Definition mx_copy : sample * model := get (Sm [] 0, mx_0) (deep_copy_model mx_m).
Definition mx_later : list model_op := [GPass [[TSetValue 2 9]; []]].
Theorem C47_refuted : exists X y p os m s m1 later m2 x x', model_reached X y false (Hp 0 (fun _ => None)) 1 p os m /\
  deep_copy_model m = Ok (s, m1) /\
  Forall (sane_model_op (pa_ntrees p)) later /\ model_run m1 later = Ok m2 /\ seen m1 s = Some x /\ seen m2 s = Some x' /\ x <> x'.
Proof.
  exists mx_X, mx_y, mx_p.
  assert (E : deep_copy_model mx_m = Ok mx_copy) by (apply okb_get; vm_compute; reflexivity).
  assert (E2 : model_run (snd mx_copy) mx_later = Ok (get mx_0 (model_run (snd mx_copy) mx_later))) by (apply okb_get; vm_compute; reflexivity).
  assert (E3 : seen (snd mx_copy) (fst mx_copy) = Some 3) by (vm_compute; reflexivity).
  assert (E4 : seen (get mx_0 (model_run (snd mx_copy) mx_later)) (fst mx_copy) = Some 9) by (vm_compute; reflexivity).
  revert E E2 E3 E4. generalize (get mx_0 (model_run (snd mx_copy) mx_later)). intros m2. generalize mx_copy. intros [s m1]. simpl. intros E E2 E3 E4.
  refine (linked_by _ _ _ _ _ _ _ mx_later m2 3 9 (proj1 mx_reached) E _ E2 E3 E4 _); [|lra].
  repeat constructor.
Qed.
Print Assumptions C47_refuted.
(** the same states meet the hypotheses of C46 and C47_linked; list_steps in the grown model, for C42 *)
Example C42_case : exists m1 fr, list_steps mx_m =
  Ok ([(KyTree, ThTree); (KyNode, ThLeaf); (KyNode, ThLeaf); (KyTree, ThTree); (KyNode, ThLeaf); (KyNode, ThLeaf); (KyNode, ThSigma)], m1, fr) /\
  fr = Fr (Some 1%nat) (Some 6%nat).
Proof.
  assert (H : okb (list_steps mx_m) = true) by (vm_compute; reflexivity).
  assert (H1 : match list_steps mx_m with Ok (l, _, fr) => Some (l, fr) | _ => None end =
    Some ([(KyTree, ThTree); (KyNode, ThLeaf); (KyNode, ThLeaf); (KyTree, ThTree); (KyNode, ThLeaf); (KyNode, ThLeaf); (KyNode, ThSigma)],
          Fr (Some 1%nat) (Some 6%nat))) by (vm_compute; reflexivity).
  revert H H1. generalize (list_steps mx_m). intros [[[l m1] fr]| |] H H1; try discriminate. exists m1, fr. injection H1 as -> ->. auto.
Qed.
