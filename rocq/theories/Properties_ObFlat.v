(** Property C97: what the trees of the oblivious sampler, and the estimators fitted with it, say between and beyond the
    training values; how big the trees get. *)
From Coq Require Import Reals Lra Lia Permutation QArith Qcanon ZArith.
From Verif Require Import Base Fl Ext MData MSplit MTree MSampler MHist MTreeHist MModel MModelHist MSklearn MOblivious MObModel MObSklearn Spec SpecTree SpecSampler SpecModel SpecSklearn SpecOblivious SpecObModel SpecObSklearn SpecFeatures SpecGrown SpecObFlat LFl LList
  PData PSplit PDataProps PCond PTree PPred PTreeHist PTreeProps PTreeProps2 PModel PModel7 PSklearn PSklearn2 POblivious POblivious2 POblivious3 POblivious4 PObModel PObModel4 PObSklearn PObSklearn2 PObFlat PObSize
  Properties_Model Properties_Model2 Properties_Sklearn Properties_Sampler Properties_Grown Properties_Oblivious Properties_ObModel Properties_ObSklearn.
Local Open Scope nat_scope.

Lemma ob_tree_oinv X h t : no_nan X -> ob_tree X h t -> exists oy k o, oinv h X oy t k o.
Proof.
  intros Hn [(y&nrm&h0&os&Hr)|(y&nrm&h0&sigma&p&os&m&Hr&<-&Ht)].
  - destruct (ob_reached_oinv _ _ _ _ _ _ _ Hn Hr) as (y'&k&o&H). eauto.
  - destruct (ob_model_reached_spec _ _ _ _ _ _ _ _ Hn Hr) as (e&H&_). apply In_nth_error in Ht as (a&Ha).
    destruct (es_tree _ _ _ _ _ (ei_st _ _ _ _ _ H) _ _ Ha) as (oy&k&o&Hi&_). eauto.
Qed.
(** ** Thresholds *)
(** Every leaf is described by a list of rules "value <= threshold" and "value > threshold"; every threshold is a training
    value that another training value of the same column exceeds. *)
Theorem C97_thresholds : forall X h t j, no_nan X -> ob_tree X h t -> In j (leaf_nodes h t) ->
  exists rules,
    (forall r, row_clean (mx_ncols X) r = true -> accepts h j r <-> forall q, In q rules -> rule_holds q r = true) /\
    forall q, In q rules -> rl_var q < mx_ncols X /\ training_value X (rl_var q) (rl_val q) /\
      exists r, In r (mx_rows X) /\ flt (rl_val q) (cell r (rl_var q)) = true.
Proof.
  intros X h t j Hn Hr Hj. destruct (ob_tree_oinv _ _ _ Hn Hr) as (oy&k&o&Hi).
  apply (leaf_ogr _ _ _ _ _ _ _ Hi) in Hj as (cj&dj&Hj).
  pose proof (ogr_inside _ _ _ _ Hn _ _ _ _ _ (oi_ok _ _ _ _ _ _ Hi) (Forall_nil _) Hj) as HI. exists cj. split.
  - intros r C. rewrite (accepts_kept _ _ _ _ _ _ _ _ _ _ Hi Hj C). unfold kept. rewrite negb_true_iff. split.
    + intros E q Hq. rewrite Forall_forall in HI. destruct (HI q Hq) as (Hv&(p0&Hp0&Ep)&_).
      assert (F : excluded q r = false).
      { destruct (excluded q r) eqn:F; auto. assert (existsb (fun q => excluded q r) cj = true) by (apply existsb_exists; eauto). congruence. }
      assert (N1 : is_nan (cell r (rl_var q)) = false) by (destruct (proj1 (row_clean_iff _ _) C _ Hv) as [A _]; now apply not_nan).
      assert (N2 : is_nan (rl_val q) = false) by (rewrite <- Ep; apply not_nan, Hn; auto).
      unfold excluded in F. unfold rule_holds. destruct (rl_le q); rewrite fgt_negb in * by auto; [now apply negb_false_iff in F|now rewrite F].
    + intros E. destruct (existsb _ cj) eqn:F; auto. apply existsb_exists in F as (q&Hq&F). specialize (E q Hq). rewrite Forall_forall in HI. destruct (HI q Hq) as (Hv&(p0&Hp0&Ep)&_).
      assert (N1 : is_nan (cell r (rl_var q)) = false) by (destruct (proj1 (row_clean_iff _ _) C _ Hv) as [A _]; now apply not_nan).
      assert (N2 : is_nan (rl_val q) = false) by (rewrite <- Ep; apply not_nan, Hn; auto).
      unfold excluded in F. unfold rule_holds in E. destruct (rl_le q); rewrite fgt_negb in * by auto; [rewrite E in F; discriminate|rewrite F in E; discriminate].
  - intros q Hq. rewrite Forall_forall in HI. exact (HI q Hq).
Qed.
Print Assumptions C97_thresholds.

(** ** Predictions *)
Lemma state_same X y nrm h0 sigma p os m X1 X2 : no_nan X -> ob_model_reached X y nrm h0 sigma p os m ->
  mx_ncols X <= mx_ncols X1 -> mx_ncols X <= mx_ncols X2 -> clean X1 -> clean X2 ->
  Forall2 (fun r1 r2 => forall v, v < mx_ncols X -> same_side X v (cell r1 v) (cell r2 v)) (mx_rows X1) (mx_rows X2) ->
  trees_predict_out (m_heap m) (m_trees m) X1 = trees_predict_out (m_heap m) (m_trees m) X2.
Proof.
  intros Hn Hr L1 L2 C1 C2 HF. destruct (ob_model_reached_spec _ _ _ _ _ _ _ _ Hn Hr) as (e&H&_). pose proof (ei_st _ _ _ _ _ H) as Hst.
  assert (Hlen := PModel7.Forall2_length _ _ _ HF).
  destruct (C89_new_rows _ _ _ _ _ _ _ _ X1 Hn Hr L1) as (v1&E1&Lv1&G1). destruct (C89_new_rows _ _ _ _ _ _ _ _ X2 Hn Hr L2) as (v2&E2&Lv2&G2).
  rewrite E1, E2. f_equal. apply (nth_ext _ _ 0%R 0%R); [congruence|]. intros i Hi. rewrite Lv1 in Hi.
  set (r1 := nth i (mx_rows X1) []). set (r2 := nth i (mx_rows X2) []).
  assert (A1 : forall c, c < mx_ncols X -> cell r1 c <> FNaN /\ cell r1 c <> FNInf) by (intros c Hc; apply C1; [now apply nth_In|lia]).
  assert (A2 : forall c, c < mx_ncols X -> cell r2 c <> FNaN /\ cell r2 c <> FNInf) by (intros c Hc; apply C2; [apply nth_In; lia|lia]).
  destruct (G1 i Hi) as [B1 _]. destruct (B1 A1) as (xs1&F1&_&->). destruct (G2 i ltac:(lia)) as [B2 _]. destruct (B2 A2) as (xs2&_&U&->).
  assert (Hs : forall v, v < mx_ncols X -> same_side X v (cell r1 v) (cell r2 v)).
  { clear - HF Hi. subst r1 r2. revert i Hi. induction HF as [|a b l1 l2 Hab _ IH]; intros i Hi; [simpl in Hi; lia|]. destruct i as [|i]; simpl; auto. apply IH. simpl in Hi. lia. }
  rewrite (U xs1); auto.
  assert (G : forall t, In t (m_trees m) -> forall x, otree_gives (m_heap m) r1 t x -> otree_gives (m_heap m) r2 t x).
  { intros t Ht x. apply In_nth_error in Ht as (a&Ha). destruct (es_tree _ _ _ _ _ Hst _ _ Ha) as (oy&k&o&Hi'&_).
    eapply gives_same; eauto; now apply row_clean_iff. }
  clear - F1 G. induction F1 as [|t x ts xs Hx _ IH]; constructor; [apply G; simpl; auto|]. apply IH. intros; apply G; simpl; auto.
Qed.
(** Two clean matrices whose rows agree on which training values (the largest of the column excepted) they do not exceed
    get the same predictions. *)
Theorem C97_same_side : forall b s h X y rs s' X1 X2, no_nan X -> length y = length (mx_rows X) -> Forall nonneg_draws rs -> ob_fit b s h X y rs = Ok s' ->
  mx_ncols X <= mx_ncols X1 -> mx_ncols X <= mx_ncols X2 -> clean X1 -> clean X2 ->
  Forall2 (fun r1 r2 => forall v, v < mx_ncols X -> same_side X v (cell r1 v) (cell r2 v)) (mx_rows X1) (mx_rows X2) ->
  sk_predict s' (Some X1) = sk_predict s' (Some X2).
Proof.
  intros b s h X y rs s' X1 X2 Hn Hl Hd Hf L1 L2 C1 C2 HF.
  destruct (C89_mean_of_samples b s h X y rs s' X1 Hn Hl Hd Hf L1) as (lo&hi&ss&ps&_&Es&_).
  unfold sk_predict, out_of_sample_predict. rewrite Es.
  assert (E : predict_samples ss X1 = predict_samples ss X2); [|now rewrite E].
  assert (G : forall st, In st ss -> sample_predict (fst st) (snd st) X1 = sample_predict (fst st) (snd st) X2).
  { intros st Hst. destruct (C89_samples_are_states b s h X y rs s' ss st Hn Hl Hd Hf Es Hst) as (h0&os&m&Hr&_&Hp). rewrite !Hp. eapply state_same; eauto. }
  clear - G. induction ss as [|[h1 sm] ss IH]; [reflexivity|]. cbn [predict_samples]. pose proof (G (h1, sm) (or_introl eq_refl)) as E. cbn [fst snd] in E. rewrite E, IH; [reflexivity|]. intros; apply G; simpl; auto.
Qed.
Print Assumptions C97_same_side.
(** No extrapolation: moving every value into the range of its training column changes no prediction. *)
Theorem C97_no_extrapolation : forall b s h X y rs s' lo hi X1 X2, clean X -> length y = length (mx_rows X) -> Forall nonneg_draws rs -> ob_fit b s h X y rs = Ok s' ->
  (forall v, v < mx_ncols X -> smallest X v (lo v) /\ largest X v (hi v)) ->
  mx_ncols X1 = mx_ncols X -> mx_ncols X2 = mx_ncols X -> clean X1 ->
  Forall2 (fun r1 r2 => forall v, v < mx_ncols X -> cell r2 v = clip (lo v) (hi v) (cell r1 v)) (mx_rows X1) (mx_rows X2) ->
  sk_predict s' (Some X1) = sk_predict s' (Some X2).
Proof.
  intros b s h X y rs s' lo hi X1 X2 Hc Hl Hd Hf Hb E1 E2 C1 HF.
  assert (C2 : clean X2).
  { intros r v Hr Hv. rewrite E2 in Hv. destruct (forall2_in_r _ _ _ HF r Hr) as (r1&Hr1&H). destruct (Hb v Hv) as [[(q1&Hq1&Eq1) _] [(q2&Hq2&Eq2) _]].
    rewrite H by auto.
    unfold clip. destruct (flt (cell r1 v) (lo v)); [rewrite <- Eq1; now apply Hc|]. destruct (flt (hi v) (cell r1 v)); [rewrite <- Eq2; now apply Hc|].
    apply C1; auto. lia. }
  apply (C97_same_side b s h X y rs s' X1 X2); auto; try lia; [intros r v Hr Hv; now apply Hc|].
  eapply Forall2_impl_in; [|exact HF]. intros r1 r2 H1 H2 H v Hv. rewrite (H v Hv). destruct (Hb v Hv) as [A B]. apply clip_side; auto. apply not_nan, C1; auto. lia.
Qed.
Print Assumptions C97_no_extrapolation.
(** Every new row is predicted as a row all of whose values are values of the same columns in the training data. *)
Theorem C97_grid : forall b s h X y rs s' r, clean X -> length y = length (mx_rows X) -> mx_rows X <> [] -> Forall nonneg_draws rs -> ob_fit b s h X y rs = Ok s' ->
  row_clean (mx_ncols X) r = true ->
  exists g, (forall v, v < mx_ncols X -> training_value X v (cell g v)) /\
    sk_predict s' (Some (Mx (mx_ncols X) [r])) = sk_predict s' (Some (Mx (mx_ncols X) [g])).
Proof.
  intros b s h X y rs s' r Hc Hl Hx Hd Hf Hr. assert (Hn : no_nan X) by (intros q v Hq Hv; now apply Hc).
  destruct (snap_row X r Hx Hn (mx_ncols X) (le_n _)) as (g&_&Hg). exists g. split; [intros v Hv; now apply Hg|].
  apply (C97_same_side b s h X y rs s'); auto; simpl; auto.
  - intros q v [<-|[]] Hv. simpl in Hv. revert v Hv. now apply row_clean_iff.
  - intros q v [<-|[]] Hv. simpl in Hv. destruct (Hg v Hv) as [(q&Hq&<-) _]. now apply Hc.
  - constructor; [|constructor]. intros v Hv. now apply Hg.
Qed.
Print Assumptions C97_grid.
(** the estimator of [ob_ex_fit], trained on the covariate values 1, 2 and 3: 100 is predicted as 3, -5 as 1, and 5/2 as 3 *)
Example C97_case : forall b, exists rs s', Forall nonneg_draws rs /\ ob_fit b ex_sk ex_empty mx_X mx_y rs = Ok s' /\
  (let f x := sk_predict s' (Some (Mx 1 [[x]])) in
   f (fz 100) = f (fz 3) /\ f (fz (-5)) = f (fz 1) /\ f (FFin (Q2Qc (5 # 2))) = f (fz 3) /\ f FPInf = f (fz 3)) /\
  exists v, sk_predict s' (Some (Mx 1 [[fz 3]])) = Ok v.
Proof.
  intros b. destruct (ob_ex_fit b) as (rs&s'&Hd&Hf). exists rs, s'. split; auto. split; auto.
  assert (G : forall x z, x <> FNaN -> x <> FNInf -> z <> FNaN -> z <> FNInf -> same_side mx_X 0 x z -> sk_predict s' (Some (Mx 1 [[x]])) = sk_predict s' (Some (Mx 1 [[z]]))).
  { intros x z H1 H2 H3 H4 H. apply (C97_same_side b ex_sk ex_empty mx_X mx_y rs s'); auto; try exact mx_no_nan.
    - intros p v [<-|[]] Hv. simpl in Hv. assert (v = 0) as -> by lia. unfold cell; simpl; auto.
    - intros p v [<-|[]] Hv. simpl in Hv. assert (v = 0) as -> by lia. unfold cell; simpl; auto.
    - constructor; [|constructor]. intros v Hv. simpl in Hv. assert (v = 0) as -> by lia. exact H. }
  split.
  - cbv zeta. repeat split; apply G; try discriminate; intros q q' Hq Hq' Hlt; simpl in Hq, Hq';
      destruct Hq as [<-|[<-|[<-|[]]]], Hq' as [<-|[<-|[<-|[]]]]; vm_compute in Hlt; try discriminate; vm_compute; tauto.
  - destruct (C89_count b ex_sk _ mx_X mx_y rs s' 2 1 2 1 mx_no_nan eq_refl Hd Hf eq_refl ltac:(lia) ltac:(lia) eq_refl eq_refl) as (ss&Hss&Hlen).
    destruct (C89_mean_of_samples b ex_sk _ mx_X mx_y rs s' (Mx 1 [[fz 3]]) mx_no_nan eq_refl Hd Hf (le_n _)) as (lo&hi&ss'&ps&_&Hss'&_&_&_&H).
    rewrite Hss in Hss'. injection Hss' as <-. destruct H as (v&Hv&_); [intros ->; discriminate|]. eauto.
Qed.

(** ** Size *)
(** The leaves stand for no more different sets of training rows than there are different training rows ([reps] holds a
    copy of each of them). *)
Lemma kept_cells n cs r r' : Forall (fun q => rl_var q < n) cs -> (forall v, v < n -> cell r v = cell r' v) -> kept cs r = kept cs r'.
Proof. intros H E. unfold kept. f_equal. induction H as [|q cs Hq _ IH]; simpl; auto. rewrite IH. unfold excluded. now rewrite E. Qed.
Theorem C97_regions : forall X h t reps js, no_nan X -> mx_rows X <> [] -> ob_tree X h t -> copies X reps ->
  NoDup js -> incl js (leaf_nodes h t) ->
  (forall j j', In j js -> In j' js -> j <> j' -> ~ (forall i, leaf_holds h j i <-> leaf_holds h j' i)) ->
  length js <= length reps.
Proof.
  intros X h t reps js Hn Hne Hr Hreps Hnd Hin Hdiff. destruct (ob_tree_oinv _ _ _ Hn Hr) as (oy&k&o&Hi).
  assert (N0 : nonempty X []). { destruct (mx_rows X) as [|r0 rs] eqn:Er; [congruence|]. exists r0. rewrite Er. split; [simpl; auto|reflexivity]. }
  set (R j q := exists cj dj, In (j, (cj, dj)) (ogr [] 0 o) /\ In q reps /\ kept cj q = true /\ exists r, In r (mx_rows X) /\ forall v, v < mx_ncols X -> cell q v = cell r v).
  assert (G : exists qs, Forall2 R js qs).
  { apply Forall_exists2. intros j Hj. apply Hin in Hj. apply (leaf_ogr _ _ _ _ _ _ _ Hi) in Hj as (cj&dj&Hj).
    pose proof (ogr_oreg _ _ _ _ _ _ Hj) as Hj'. destruct (oreg_nonempty _ _ _ _ _ _ _ _ _ (oi_ok _ _ _ _ _ _ Hi) N0 Hj') as (row&Hrow&Hk).
    destruct (Hreps row Hrow) as (q&Hq&Eq). exists q, cj, dj. split; auto. split; auto. split; [|eauto].
    rewrite <- Hk. apply (kept_cells (mx_ncols X)); auto.
    pose proof (ogr_inside _ _ _ _ Hn _ _ _ _ _ (oi_ok _ _ _ _ _ _ Hi) (Forall_nil _) Hj) as HI. eapply Forall_impl; [|exact HI]. intros z (A&_). exact A. }
  destruct G as (qs&HF). rewrite (PModel7.Forall2_length _ _ _ HF). apply NoDup_incl_length.
  - assert (D : forall j j' q, In j js -> In j' js -> R j q -> R j' q -> j = j').
    { intros j j' q Hj Hj' (cj&dj&A&Hq&K&r&Hrr&Eq) (cj'&dj'&A'&_&K'&_). destruct (Nat.eq_dec j j') as [|Hne']; auto. exfalso. apply (Hdiff j j' Hj Hj' Hne').
      assert (V : forall z cz dz, In (z, (cz, dz)) (ogr [] 0 o) -> Forall (fun q => rl_var q < mx_ncols X) cz).
      { intros z cz dz Hz. pose proof (ogr_inside _ _ _ _ Hn _ _ _ _ _ (oi_ok _ _ _ _ _ _ Hi) (Forall_nil _) Hz) as HI. eapply Forall_impl; [|exact HI]. intros w (B&_). exact B. }
      rewrite (kept_cells (mx_ncols X) cj q r (V _ _ _ A) Eq) in K. rewrite (kept_cells (mx_ncols X) cj' q r (V _ _ _ A') Eq) in K'.
      destruct (common_row h X oy o r Hn Hrr [] 0 (oi_ok _ _ _ _ _ _ Hi) _ _ _ _ _ _ A A' K K') as [|(<-&_)]; [congruence|].
      intros i. rewrite (ogr_holds _ _ _ _ _ _ _ _ _ i Hi A), (ogr_holds _ _ _ _ _ _ _ _ _ i Hi A'). tauto. }
    clear - HF D Hnd. revert Hnd D. induction HF as [|j q js qs Hjq HF IH]; intros Hnd D; constructor.
    + intros Hq. inversion Hnd as [|? ? Hni _]; subst. clear IH. destruct (forall2_in_r _ _ _ HF q Hq) as (j'&Hj'&Hq'). apply Hni.
      rewrite (D j j' q); simpl; auto.
    + inversion Hnd; subst. apply IH; auto. intros; eapply D; simpl; eauto.
  - intros q Hq. destruct (forall2_in_r _ _ _ HF q Hq) as (j&_&cj&dj&_&B&_). exact B.
Qed.
Print Assumptions C97_regions.
(** But there is no bound on the number of leaves: on three training rows, for every target, noise and prior there are
    settings of the two move probabilities with which k steps can grow a tree of depth k, with 2^k leaves. *)
Lemma three_start y : length y = 3 -> exists s, root_split three y false = Ok s /\
  is_ok (ob_grow_mutations (fst (start_tree h_empty s)) (snd (start_tree h_empty s)) [0; 0]) = true.
Proof.
  intros Hy. destruct y as [|a [|b [|c [|d y]]]]; try discriminate.
  assert (G : (match root_split three [a; b; c] false with Ok s => is_ok (ob_grow_mutations (fst (start_tree h_empty s)) (snd (start_tree h_empty s)) [0; 0]) | _ => false end) = true) by (vm_compute; reflexivity).
  revert G. destruct (root_split three [a; b; c] false) as [s| |]; try discriminate. intros G. exists s. auto.
Qed.
Theorem C97_size_refuted : forall y sigma p k, length y = 3 -> (0 < sigma)%R -> usual p -> 0 < pa_limit p ->
  exists g q rs h t, (0 < g)%R /\ (0 < q)%R /\ (g + q = 1)%R /\ length rs = k /\ (forall r, In r rs -> Forall (fun u => (0 <= u < 1)%R) (rg_unif r)) /\
    ob_reached three_rows y false h_empty (map (OStep sigma (with_moves p g q)) rs) h t /\ perfect_tree h t k /\ length (leaf_nodes h t) = 2 ^ k.
Proof.
  intros y sigma p k Hy Hs Hp Hlim. destruct (three_start y Hy) as (s&Es&Eg).
  destruct (ob_grow_mutations _ _ [0; 0]) as [[[ms h1] idx1]| |] eqn:E; try discriminate. clear Eg.
  pose proof (start_oinv three y false h_empty s Hy Es) as H0.
  destruct (three_first _ _ _ _ _ _ _ _ H0 E) as (Sc&h2&t2&o2&Em&H2&St).
  assert (Hne : mx_rows three <> []) by discriminate.
  destruct (grow_accept _ _ _ _ _ _ _ _ _ _ sigma p _ _ three_no_nan Hne H0 E Em Sc Hp Hs Hlim) as (M1&A1).
  destruct (stuck_forever three _ sigma p three_no_nan Hne Hp Hs Hlim (pred k) _ _ _ _ H2 St) as (M2&A2).
  set (M := Rmax M1 M2). pose proof (Rmax_l M1 M2) as L1. pose proof (Rmax_r M1 M2) as L2. fold M in L1, L2.
  assert (HeM := exp_pos M). set (g := (/ (1 + exp M))%R). set (q := (exp M / (1 + exp M))%R).
  assert (Hg : (0 < g)%R) by (apply Rinv_0_lt_compat; lra). assert (Hq : (0 < q)%R) by (apply Rdiv_lt_0_compat; lra).
  assert (Hln : ln (q / g) = M). { replace (q / g)%R with (exp M) by (unfold q, g; field; lra). apply ln_exp. }
  assert (Hgq : (g + q = 1)%R) by (unfold q, g; field; lra). clearbody g q. clearbody M.
  assert (G : exists rs h t o, length rs = k /\ (forall r, In r rs -> Forall (fun u => (0 <= u < 1)%R) (rg_unif r)) /\
     ob_run (fst (start_tree h_empty s)) (snd (start_tree h_empty s)) (map (OStep sigma (with_moves p g q)) rs) = Ok (h, t) /\ oinv h three (Some (start_target y false)) t k o).
  { destruct k as [|n].
    - exists [], (fst (start_tree h_empty s)), (snd (start_tree h_empty s)), (OLeaf (h_next h_empty)). split; [reflexivity|]. split; [intros r []|]. split; [reflexivity|exact H0].
    - destruct (A2 g q Hg Hq ltac:(lra)) as (h'&t'&o'&ER&H'). simpl pred in ER, H'.
      exists (Rng [true] [0; 0] [0%R] [] [] :: repeat (Rng [true] [] [0%R] [] []) n), h', t', o'. split; [simpl; now rewrite repeat_length|]. split.
      { intros r [<-|Hr]; [simpl; repeat constructor; lra|]. apply repeat_spec in Hr as ->. simpl. repeat constructor; lra. }
      split; [|exact H']. cbn [map ob_run ob_do]. rewrite (A1 g q 0%R Hg Hq) by lra. cbn [rbind].
      rewrite <- ER. f_equal. clear. induction n as [|n IH]; simpl; congruence. }
  destruct G as (rs&h&t&o&Hl&Hu&ER&Ho). exists g, q, rs, h, t. split; auto. split; auto. split; auto. split; auto. split; auto. split; [|split].
  - split; auto. split; [rewrite Forall_forall; intros op Hop; apply in_map_iff in Hop as (r&<-&_); exact I|]. exists s. auto.
  - eapply oinv_perfect; eauto.
  - rewrite (Permutation_length (oleaf_nodes_perm _ _ _ _ _ _ Ho)). apply full_count, Ho.
Qed.
Print Assumptions C97_size_refuted.
(** a tree on the three rows, grown once: two leaves that hold different rows, and no more than three can *)
Definition tx : heap * tree := got (ob_state three_rows [1; 2; 3]%R [OGrow [0; 0]]).
Example C97_tree_case : ob_tree three_rows (fst tx) (snd tx) /\ copies three_rows (mx_rows three_rows) /\ length (leaf_nodes (fst tx) (snd tx)) = 2 /\
  forall j j', leaf_nodes (fst tx) (snd tx) = [j; j'] -> leaf_holds (fst tx) j 0 /\ ~ leaf_holds (fst tx) j' 0.
Proof.
  split; [left; exists [1; 2; 3]%R, false, h_empty, [OGrow [0; 0]]; apply ob_state_reached; [reflexivity|repeat constructor|vm_compute; reflexivity]|].
  split; [intros r Hr; exists r; auto|]. assert (E : leaf_nodes (fst tx) (snd tx) = [1; 2]) by (vm_compute; reflexivity).
  split; [rewrite E; reflexivity|]. intros j j' Q. rewrite E in Q. injection Q as <- <-. split; [apply holds_mask; vm_compute; reflexivity|].
  assert (F : option_map (fun s => nth_error (d_mask (sp_data s)) 0) (node_split (fst tx) 2) = Some (Some true)) by (vm_compute; reflexivity).
  revert F. generalize (fst tx). intros h F (s&Es&A). rewrite Es in F. cbn [option_map] in F. injection F as F. unfold in_node in A. cbn [nth_error] in A. rewrite F in A. discriminate.
Qed.
