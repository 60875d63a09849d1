(** Properties C91 and C92: see /verif/properties.jsonl. *)
From Coq Require Import Reals Lra Lia Permutation QArith Qcanon ZArith.
From Verif Require Import Base Fl Ext MData MSplit MTree MSampler MHist MTreeHist MModel MModelHist MSklearn Spec SpecTree SpecSampler SpecModel SpecSklearn SpecFeatures SpecGrown.
From Verif Require Import LFl LList PData PSplit PCond PTree PPred PTreeHist PModel PModel7 PModel11 PSklearn PSklearn2 PFeatures PGrown
  Properties_Model Properties_Model2 Properties_Sklearn.

Local Open Scope nat_scope.
(** ** C92 *)
(** The samples of a fit are trees that split the training rows: every threshold is a value of its column among the
    training rows at that node, and every leaf gets a training row. *)
Theorem C92_fitted_trees : forall b s h X y rs s', no_nan X -> length y = length (mx_rows X) -> fit b s h X y rs = Ok s' ->
  exists tss, holds_trees (mx_ncols X) s' tss /\
    forall ts t, In ts tss -> In t ts -> splits_rows (mx_ncols X) (mx_rows X) t.
Proof.
  intros b s h X y rs s' Hn Hl Hf. destruct (fit_grown _ _ _ _ _ _ _ Hn Hl Hf) as (tss&H&F). exists tss. split; auto.
  intros ts t Hts Ht. rewrite Forall_forall in F. destruct (F ts Hts) as [_ G]. rewrite Forall_forall in G. auto.
Qed.
Print Assumptions C92_fitted_trees.
(** So every threshold is a training value that some training value of the same column exceeds. *)
Theorem C92_thresholds : forall X t v x, splits_rows (mx_ncols X) (mx_rows X) t -> In (v, x) (splits_of t) ->
  v < mx_ncols X /\ training_value X v x /\ exists q, In q (mx_rows X) /\ flt x (cell q v) = true.
Proof.
  intros X t v x H Hin. destruct (splits_in _ _ _ H _ _ Hin) as (Hv&q&q'&A&B&C&D). split; auto. split; [exists q; auto|exists q'; auto].
Qed.
Print Assumptions C92_thresholds.
(** A column whose values are all the same is never split. *)
Theorem C92_constant_column : forall X t v, splits_rows (mx_ncols X) (mx_rows X) t ->
  (forall q q', In q (mx_rows X) -> In q' (mx_rows X) -> cell q v = cell q' v) -> ~ In v (split_vars t).
Proof.
  intros X t v H Hc Hin. apply splits_vars_in in Hin as (x&Hx). destruct (C92_thresholds _ _ _ _ H Hx) as (_&(q&Hq&E)&q'&Hq'&L).
  rewrite (Hc q' q Hq' Hq), E in L. now rewrite flt_irrefl in L.
Qed.
Print Assumptions C92_constant_column.
(** Along a path the thresholds of one column shrink to the left and grow to the right: no cut is made twice. *)
Theorem C92_search_tree : forall n rows t, splits_rows n rows t -> search_tree t.
Proof. intros n rows t. apply splits_search. Qed.
Print Assumptions C92_search_tree.
(** [reps] holds a copy of every training row: there are no more leaves than different training rows. *)
Theorem C92_size : forall X t reps, splits_rows (mx_ncols X) (mx_rows X) t ->
  (forall r, In r (mx_rows X) -> exists q, In q reps /\ forall v, v < mx_ncols X -> cell q v = cell r v) ->
  n_leaves t <= length reps /\ n_nodes t = 2 * n_leaves t - 1 /\ height t <= n_leaves t - 1.
Proof.
  intros X t reps H Hr. split; [eapply splits_leaves; eauto|]. pose proof (nodes_leaves t). pose proof (leaves_pos t). pose proof (height_leaves t). lia.
Qed.
Print Assumptions C92_size.
(** In the objects a fit stores: with N different training rows a tree has at most 2N - 1 nodes, none deeper than N - 1. *)
Theorem C92_stored_size : forall b s h X y rs s' reps ss hs sm t, no_nan X -> length y = length (mx_rows X) -> fit b s h X y rs = Ok s' ->
  (forall r, In r (mx_rows X) -> exists q, In q reps /\ forall v, v < mx_ncols X -> cell q v = cell r v) ->
  sk_samples s' = Some ss -> In (hs, sm) ss -> In t (sm_trees sm) ->
  length (tr_nodes t) <= 2 * length reps - 1 /\
  forall i, In i (tr_nodes t) -> exists nd, h_get hs i = Some nd /\ nd_depth nd <= length reps - 1.
Proof.
  intros b s h X y rs s' reps ss hs sm t Hn Hl Hf Hr Hss Hin Ht.
  destruct (C92_fitted_trees _ _ _ _ _ _ _ Hn Hl Hf) as (tss&(ss'&Es&HF)&Hsp). assert (ss' = ss) as -> by congruence.
  destruct (forall2_in_l _ _ _ HF _ Hin) as (ts&Hts&Hp&Hd&_). destruct (forall2_in_l _ _ _ Hp t Ht) as (st&Hst&Hperm). cbn [fst snd] in *.
  destruct (C92_size X st reps (Hsp _ _ Hts Hst) Hr) as (A&B&C). pose proof (leaves_pos st).
  assert (L : length (paths [] st) = n_nodes st).
  { clear. generalize (@nil rule). induction st as [w|v x l IHl r IHr]; intros cs; simpl; auto. now rewrite app_length, IHl, IHr. }
  assert (E := Permutation_length Hperm). rewrite !map_length in E. split; [rewrite E, L; lia|]. intros i Hi. destruct (Hd t i Ht Hi) as (nd&ps&G1&G2&G3).
  exists nd. split; auto. rewrite G3. assert (Hps : In ps (paths [] st)).
  { apply (in_map (stored_path hs)) in Hi. rewrite G2 in Hi. eapply Permutation_in in Hi; [|exact Hperm]. apply in_map_iff in Hi as (q&[= <-]&Hq). exact Hq. }
  apply paths_height in Hps. simpl in Hps. lia.
Qed.
Print Assumptions C92_stored_size.
(** a tree on [mx_X] with two splits; in a fit on [mx_X] no tree has more than five nodes *)
Definition gx_t : stree := SNode 0 (fz 2) (SNode 0 (fz 1) (SLeaf 1) (SLeaf 2)) (SLeaf 3).
Lemma gx_splits : splits_rows (mx_ncols mx_X) (mx_rows mx_X) gx_t.
Proof.
  simpl. split; [lia|]. split; [exists [fz 2]; auto|]. split; [|discriminate]. split; [lia|]. split; [exists [fz 1]; auto|]. split; discriminate.
Qed.
Example C92_case : n_leaves gx_t = 3 /\ search_tree gx_t /\ forall b, exists rs s' ss, fit b ex_sk ex_empty mx_X mx_y rs = Ok s' /\ sk_samples s' = Some ss /\ length ss = 6 /\
  forall hs sm t, In (hs, sm) ss -> In t (sm_trees sm) -> length (tr_nodes t) <= 5.
Proof.
  split; [reflexivity|]. split; [apply (C92_search_tree _ _ _ gx_splits)|]. intros b. destruct (ex_fit b) as (rs&s'&_&Hf).
  destruct (C50_one_in_k b ex_sk _ mx_X mx_y rs s' 2 mx_no_nan eq_refl Hf eq_refl ltac:(lia)) as (ss&Hss&Hlen).
  exists rs, s', ss. split; auto. split; auto. split; auto. intros hs sm t H1 H2.
  apply (C92_stored_size b ex_sk ex_empty mx_X mx_y rs s' (mx_rows mx_X) ss hs sm t mx_no_nan eq_refl Hf) in H1; auto; [apply H1|]. intros r Hr. exists r. auto.
Qed.

(** ** C91 *)
Lemma say_same n X X1 X2 ss tss : n = mx_ncols X -> n <= mx_ncols X1 -> n <= mx_ncols X2 -> clean X1 -> clean X2 ->
  Forall2 (consists_of n) ss tss -> (forall ts t, In ts tss -> In t ts -> splits_rows n (mx_rows X) t) ->
  Forall2 (fun r1 r2 => forall v, v < n -> same_side X v (cell r1 v) (cell r2 v)) (mx_rows X1) (mx_rows X2) ->
  predict_samples ss X1 = predict_samples ss X2.
Proof.
  intros En L1 L2 C1 C2 HF Hsp Hrows. assert (Hlen := PModel7.Forall2_length _ _ _ Hrows).
  induction HF as [|[h sm] ts ss tss Hc _ IH]; [reflexivity|]. cbn [predict_samples].
  destruct Hc as (_&_&_&Hpr). cbn [fst snd] in Hpr. destruct (Hpr X1 L1) as (p1&->&Lp1&N1). destruct (Hpr X2 L2) as (p2&->&Lp2&N2). cbn [rbind].
  rewrite IH by (intros; eapply Hsp; simpl; eauto).
  assert (p1 = p2) as ->; [|reflexivity]. apply (nth_ext _ _ 0%R 0%R); [congruence|]. intros k Hk. rewrite Lp1 in Hk.
  assert (R1 : row_clean n (nth k (mx_rows X1) []) = true) by (apply row_clean_iff; intros v Hv; apply C1; [now apply nth_In|lia]).
  assert (R2 : row_clean n (nth k (mx_rows X2) []) = true) by (apply row_clean_iff; intros v Hv; apply C2; [apply nth_In; lia|lia]).
  rewrite N1, N2 by (auto; lia). f_equal. apply map_ext_in. intros t Ht. apply walk_same. intros v x Hin.
  destruct (splits_in _ _ _ (Hsp ts t (or_introl eq_refl) Ht) _ _ Hin) as (Hv&q&q'&Hq&Hq'&Ex&Hlt).
  assert (Hs : same_side X v (cell (nth k (mx_rows X1) []) v) (cell (nth k (mx_rows X2) []) v)).
  { clear - Hrows Hv Hk. revert k Hk. induction Hrows as [|r1 r2 l1 l2 H _ IH]; intros k Hk; [simpl in Hk; lia|]. destruct k as [|k]; simpl; auto. apply IH. simpl in Hk. lia. }
  rewrite <- Ex in Hlt |- *. specialize (Hs q q' Hq Hq' Hlt). destruct (fle _ (cell q v)), (fle _ (cell q v)); intuition congruence.
Qed.
(** Two clean matrices whose rows agree on which training values (the largest of the column excepted) they do not exceed
    get the same predictions. *)
Theorem C91_same_side : forall b s h X y rs s' X1 X2, no_nan X -> length y = length (mx_rows X) -> fit b s h X y rs = Ok s' ->
  mx_ncols X <= mx_ncols X1 -> mx_ncols X <= mx_ncols X2 -> clean X1 -> clean X2 ->
  Forall2 (fun r1 r2 => forall v, v < mx_ncols X -> same_side X v (cell r1 v) (cell r2 v)) (mx_rows X1) (mx_rows X2) ->
  sk_predict s' (Some X1) = sk_predict s' (Some X2).
Proof.
  intros b s h X y rs s' X1 X2 Hn Hl Hf L1 L2 C1 C2 HF. destruct (C92_fitted_trees _ _ _ _ _ _ _ Hn Hl Hf) as (tss&(ss&Es&HS)&Hsp).
  unfold sk_predict, out_of_sample_predict. rewrite Es. now rewrite (say_same _ X X1 X2 ss tss eq_refl L1 L2 C1 C2 HS Hsp HF).
Qed.
Print Assumptions C91_same_side.
Lemma forall2_in_r {A B} (P : A -> B -> Prop) l l' : Forall2 P l l' -> forall b, In b l' -> exists a, In a l /\ P a b.
Proof. induction 1 as [|x y l l' Hxy H IH]; intros z Hz; [destruct Hz|]. destruct Hz as [<-|Hz]; [exists x; simpl; auto|]. destruct (IH z Hz) as (b&Hb&Hp). exists b. simpl; auto. Qed.
Lemma not_nan x : x <> FNaN -> is_nan x = false.
Proof. destruct x; auto. congruence. Qed.
Lemma clip_side X v lo hi a : is_nan a = false -> smallest X v lo -> largest X v hi -> same_side X v a (clip lo hi a).
Proof.
  intros Ha [_ Hlo] [_ Hhi] q q' Hq Hq' Hlt. unfold clip. destruct (flt a lo) eqn:E1.
  - split; intros _; auto. apply flt_fle. eapply flt_fle_trans; eauto.
  - destruct (flt hi a) eqn:E2; [|tauto]. split; intros H; exfalso.
    + pose proof (fle_trans _ _ _ H (Hhi q Hq)) as A. pose proof (fle_flt_trans _ _ _ A E2) as B. now rewrite flt_irrefl in B.
    + pose proof (fle_trans _ _ _ (Hhi q' Hq') H) as A. pose proof (fle_flt_trans _ _ _ A Hlt) as B. now rewrite flt_irrefl in B.
Qed.
(** No extrapolation: moving every value into the range of its training column changes no prediction. *)
Theorem C91_no_extrapolation : forall b s h X y rs s' lo hi X1 X2, clean X -> length y = length (mx_rows X) -> fit b s h X y rs = Ok s' ->
  (forall v, v < mx_ncols X -> smallest X v (lo v) /\ largest X v (hi v)) ->
  mx_ncols X1 = mx_ncols X -> mx_ncols X2 = mx_ncols X -> clean X1 ->
  Forall2 (fun r1 r2 => forall v, v < mx_ncols X -> cell r2 v = clip (lo v) (hi v) (cell r1 v)) (mx_rows X1) (mx_rows X2) ->
  sk_predict s' (Some X1) = sk_predict s' (Some X2).
Proof.
  intros b s h X y rs s' lo hi X1 X2 Hc Hl Hf Hb E1 E2 C1 HF.
  assert (C2 : clean X2).
  { intros r v Hr Hv. rewrite E2 in Hv. destruct (forall2_in_r _ _ _ HF r Hr) as (r1&Hr1&H). destruct (Hb v Hv) as [[(q1&Hq1&Eq1) _] [(q2&Hq2&Eq2) _]].
    rewrite H by auto.
    unfold clip. destruct (flt (cell r1 v) (lo v)); [rewrite <- Eq1; now apply Hc|]. destruct (flt (hi v) (cell r1 v)); [rewrite <- Eq2; now apply Hc|].
    apply C1; auto. lia. }
  apply (C91_same_side b s h X y rs s' X1 X2); auto; try lia; [intros r v Hr Hv; now apply Hc|].
  eapply Forall2_impl_in; [|exact HF]. intros r1 r2 H1 H2 H v Hv. rewrite (H v Hv). destruct (Hb v Hv) as [A B]. apply clip_side; auto. apply not_nan, C1; auto. lia.
Qed.
Print Assumptions C91_no_extrapolation.

Lemma list_least (l : list fl) : l <> [] -> (forall x, In x l -> is_nan x = false) -> exists m, In m l /\ forall x, In x l -> fle m x = true.
Proof.
  induction l as [|a l IH]; [congruence|]. intros _ Hn. destruct l as [|b l].
  - exists a. split; [simpl; auto|]. intros x [<-|[]]. apply fle_refl. apply Hn; simpl; auto.
  - destruct IH as (m&Hm&Hmin); [discriminate|intros; apply Hn; simpl in *; auto|].
    assert (Na : is_nan a = false) by (apply Hn; simpl; auto). assert (Nm : is_nan m = false) by (apply Hn; right; exact Hm).
    destruct (flt m a) eqn:E.
    + exists m. split; [right; exact Hm|]. intros x [<-|Hx]; [now apply flt_fle|now apply Hmin].
    + exists a. split; [left; auto|]. assert (A : fle a m = true) by (rewrite fle_negb by auto; now rewrite E).
      intros x [<-|Hx]; [now apply fle_refl|]. eapply fle_trans; [exact A|now apply Hmin].
Qed.
Lemma list_greatest (l : list fl) : l <> [] -> (forall x, In x l -> is_nan x = false) -> exists m, In m l /\ forall x, In x l -> fle x m = true.
Proof.
  induction l as [|a l IH]; [congruence|]. intros _ Hn. destruct l as [|b l].
  - exists a. split; [simpl; auto|]. intros x [<-|[]]. apply fle_refl. apply Hn; simpl; auto.
  - destruct IH as (m&Hm&Hmax); [discriminate|intros; apply Hn; simpl in *; auto|].
    assert (Na : is_nan a = false) by (apply Hn; simpl; auto). assert (Nm : is_nan m = false) by (apply Hn; right; exact Hm).
    destruct (flt a m) eqn:E.
    + exists m. split; [right; exact Hm|]. intros x [<-|Hx]; [now apply flt_fle|now apply Hmax].
    + exists a. split; [left; auto|]. assert (A : fle m a = true) by (rewrite fle_negb by auto; now rewrite E).
      intros x [<-|Hx]; [now apply fle_refl|]. eapply fle_trans; [now apply Hmax|exact A].
Qed.
(** the training value that stands for [a]: the smallest that is at least [a], or else the largest *)
Lemma snap X v a : mx_rows X <> [] -> (forall q, In q (mx_rows X) -> is_nan (cell q v) = false) -> exists x, training_value X v x /\ same_side X v a x.
Proof.
  intros Hx Hn. set (col := map (fun q => cell q v) (mx_rows X)).
  assert (Hcol : forall x, In x col -> training_value X v x /\ is_nan x = false).
  { intros x Hin. apply in_map_iff in Hin as (q&<-&Hq). split; auto. exists q; auto. }
  assert (Hin : forall q, In q (mx_rows X) -> In (cell q v) col) by (intros q Hq; apply (in_map (fun q => cell q v)); auto).
  destruct (filter (fun x => fle a x) col) as [|z zs] eqn:Ef.
  - destruct (list_greatest col) as (m&Hm&Hmax); [unfold col; destruct (mx_rows X); [congruence|discriminate]|intros x Hxx; now apply Hcol|].
    exists m. split; [now apply Hcol|]. intros q q' Hq Hq' Hlt. split; intros H; exfalso.
    + assert (Hc : In (cell q v) (filter (fun x => fle a x) col)) by (apply filter_In; auto). rewrite Ef in Hc. destruct Hc.
    + pose proof (fle_trans _ _ _ (Hmax _ (Hin _ Hq')) H) as A. pose proof (fle_flt_trans _ _ _ A Hlt) as B. now rewrite flt_irrefl in B.
  - assert (Hf : forall x, In x (z :: zs) <-> In x col /\ fle a x = true) by (intros x; rewrite <- Ef; apply filter_In).
    destruct (list_least (z :: zs)) as (m&Hm&Hmin); [discriminate|intros x Hxx; apply Hf in Hxx; now apply Hcol|].
    apply Hf in Hm as [Hmc Hma]. exists m. split; [now apply Hcol|]. intros q q' Hq Hq' Hlt. split; intros H.
    + apply Hmin, Hf. auto.
    + eapply fle_trans; eauto.
Qed.
Lemma snap_row X r : mx_rows X <> [] -> no_nan X -> forall n, n <= mx_ncols X ->
  exists g, length g = n /\ forall v, v < n -> training_value X v (cell g v) /\ same_side X v (cell r v) (cell g v).
Proof.
  intros Hx Hn. induction n as [|n IH]; intros Hle; [exists []; split; auto; intros; lia|]. destruct IH as (g&Lg&Hg); [lia|].
  destruct (snap X n (cell r n) Hx) as (x&T&S); [intros q Hq; apply not_nan, Hn; auto; lia|].
  exists (g ++ [x]). split; [rewrite app_length; simpl; lia|]. intros v Hv. unfold cell at 1 3. destruct (Nat.eq_dec v n) as [->|Hne].
  - rewrite app_nth2 by lia. rewrite Lg, Nat.sub_diag. simpl. auto.
  - rewrite app_nth1 by lia. apply Hg. lia.
Qed.
(** The predictions are those on the grid of training values: every new row is predicted as a row all of whose values are
    values of the same columns in the training data. *)
Theorem C91_grid : forall b s h X y rs s' r, clean X -> length y = length (mx_rows X) -> mx_rows X <> [] -> fit b s h X y rs = Ok s' -> row_clean (mx_ncols X) r = true ->
  exists g, (forall v, v < mx_ncols X -> training_value X v (cell g v)) /\
    sk_predict s' (Some (Mx (mx_ncols X) [r])) = sk_predict s' (Some (Mx (mx_ncols X) [g])).
Proof.
  intros b s h X y rs s' r Hc Hl Hx Hf Hr. assert (Hn : no_nan X) by (intros q v Hq Hv; now apply Hc).
  destruct (snap_row X r Hx Hn (mx_ncols X) (le_n _)) as (g&_&Hg). exists g. split; [intros v Hv; now apply Hg|].
  apply (C91_same_side b s h X y rs s'); auto; simpl; auto.
  - intros q v [<-|[]] Hv. simpl in Hv. revert v Hv. now apply row_clean_iff.
  - intros q v [<-|[]] Hv. simpl in Hv. destruct (Hg v Hv) as [(q&Hq&<-) _]. now apply Hc.
  - constructor; [|constructor]. intros v Hv. now apply Hg.
Qed.
Print Assumptions C91_grid.
(** With one covariate, every new value is predicted as one of the training rows. *)
Theorem C91_one_column : forall b s h X y rs s' r, clean X -> length y = length (mx_rows X) -> mx_rows X <> [] -> mx_ncols X = 1 -> fit b s h X y rs = Ok s' ->
  row_clean 1 r = true ->
  exists q, In q (mx_rows X) /\ sk_predict s' (Some (Mx 1 [r])) = sk_predict s' (Some (Mx 1 [q])).
Proof.
  intros b s h X y rs s' r Hc Hl Hx H1 Hf Hr. destruct (C91_grid b s h X y rs s' r Hc Hl Hx Hf) as (g&Hg&E); [now rewrite H1|]. rewrite H1 in *.
  destruct (Hg 0 ltac:(lia)) as (q&Hq&Eq). exists q. split; auto. rewrite E.
  assert (Hn : no_nan X) by (intros p v Hp Hv; now apply Hc).
  apply (C91_same_side b s h X y rs s'); auto; simpl; try lia.
  - intros p v [<-|[]] Hv. simpl in Hv. assert (v = 0) as -> by lia. rewrite <- Eq. apply Hc; auto. lia.
  - intros p v [<-|[]] Hv. simpl in Hv. apply Hc; auto. lia.
  - constructor; [|constructor]. intros v Hv. assert (v = 0) as -> by lia. rewrite Eq. intros ? ? _ _ _. tauto.
Qed.
Print Assumptions C91_one_column.
(** the estimator of [ex_fit], trained on the covariate values 1, 2 and 3: 100 is predicted as 3, -5 as 1, and 5/2 as 3 *)
Example C91_case : forall b, exists rs s', fit b ex_sk ex_empty mx_X mx_y rs = Ok s' /\
  (let f x := sk_predict s' (Some (Mx 1 [[x]])) in
   f (fz 100) = f (fz 3) /\ f (fz (-5)) = f (fz 1) /\ f (FFin (Q2Qc (5 # 2))) = f (fz 3) /\ f FPInf = f (fz 3)) /\
  exists v, sk_predict s' (Some (Mx 1 [[fz 3]])) = Ok v.
Proof.
  intros b. destruct (ex_fit b) as (rs&s'&_&Hf). exists rs, s'. split; auto.
  assert (G : forall x z, x <> FNaN -> x <> FNInf -> z <> FNaN -> z <> FNInf -> same_side mx_X 0 x z -> sk_predict s' (Some (Mx 1 [[x]])) = sk_predict s' (Some (Mx 1 [[z]]))).
  { intros x z H1 H2 H3 H4 H. apply (C91_same_side b ex_sk ex_empty mx_X mx_y rs s'); auto; try exact mx_no_nan.
    - intros p v [<-|[]] Hv. simpl in Hv. assert (v = 0) as -> by lia. unfold cell; simpl; auto.
    - intros p v [<-|[]] Hv. simpl in Hv. assert (v = 0) as -> by lia. unfold cell; simpl; auto.
    - constructor; [|constructor]. intros v Hv. simpl in Hv. assert (v = 0) as -> by lia. exact H. }
  split.
  - cbv zeta. repeat split; apply G; try discriminate; intros q q' Hq Hq' Hlt; simpl in Hq, Hq';
      destruct Hq as [<-|[<-|[<-|[]]]], Hq' as [<-|[<-|[<-|[]]]]; vm_compute in Hlt; try discriminate; vm_compute; tauto.
  - destruct (C50_one_in_k b ex_sk _ mx_X mx_y rs s' 2 mx_no_nan eq_refl Hf eq_refl ltac:(lia)) as (ss&Hss&Hlen).
    destruct (C50_mean_of_samples b ex_sk _ mx_X mx_y rs s' (Mx 1 [[fz 3]]) mx_no_nan eq_refl Hf (le_n _)) as (lo&hi&ss'&ps&_&Hss'&_&_&_&H).
    rewrite Hss in Hss'. injection Hss' as <-. destruct H as (v&Hv&_); [intros ->; discriminate|]. eauto.
Qed.
