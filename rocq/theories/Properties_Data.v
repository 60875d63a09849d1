(** Properties C01-C15: data.py, splitcondition.py, split.py and the split part of node.py.
    Every node is reached from a root Split by an arbitrary history of calls ([reached], Spec.v). *)
From Coq Require Import Reals Lra Permutation.
From Verif Require Import Base Fl Ext MData MSplit MHist Spec LFl LList PData PSplit PDataProps PCond.

(** the covariate object of a node *)
Notation cov s := (d_X (sp_data s)).

(** A concrete data set and history used below to show that hypotheses can be met. *)
Definition ex_X : matrix :=
  Mx 2 [[fz 1; fz 5]; [fz 2; fz 5]; [fz 3; fz 6]; [fz 4; fz 7]; [fz 4; fz 9]].
Definition ex_y : list R := [1; 2; 3; 4; 6]%R.
Definition ex_os : list client_op :=
  [CSplittable; CUnique 0; CRight 0 (fz 1); CSum; CMax 1; CSetY [5; 4; 3; 2; 1]%R; CAnySplittable; CLeft 1 (fz 7)].
Lemma ex_no_nan : no_nan ex_X.
Proof.
  intros r v Hr Hv. simpl in Hr, Hv.
  destruct v as [|[|v]]; [| |lia]; repeat (destruct Hr as [<-|Hr]; [discriminate|]); destruct Hr.
Qed.
Lemma ex_clean : clean ex_X.
Proof.
  intros r v Hr Hv. simpl in Hr, Hv.
  destruct v as [|[|v]]; [| |lia]; repeat (destruct Hr as [<-|Hr]; [split; discriminate|]); destruct Hr.
Qed.
Definition ex_s : split :=
  match root_split ex_X ex_y false with
  | Ok s0 => match client_run s0 ex_os with Ok s => s | _ => s0 end
  | _ => Sp (Dt (CM ex_X [] (PI 0 false) [] [] []) (Tg None [] false None None)) (CC [] [])
  end.
Example ex_reached : reached ex_X ex_y false ex_os ex_s.
Proof.
  split; [reflexivity|]. split.
  - repeat constructor; discriminate.
  - eexists. split; [reflexivity|]. reflexivity.
Qed.
Example ex_rows : map (in_nodeb ex_s) (seq 0 5) = [false; true; true; true; false].
Proof. reflexivity. Qed.

(** ** C01 *)
Theorem C01_offered_column_varies : forall X y nrm os s v,
  no_nan X -> reached X y nrm os s ->
  In v (fst (splittable_variables (cov s))) ->
  v < mx_ncols X /\ exists i j, in_node s i /\ in_node s j /\ value_in X i v <> value_in X j v.
Proof. intros X y nrm os s v Hn Hr. eapply offered_varies; eauto using reached_sinv. Qed.
Print Assumptions C01_offered_column_varies.
Example C01_case : In 1 (fst (splittable_variables (cov ex_s))).
Proof. vm_compute. auto. Qed.

(** ** C02 *)
Theorem C02_offered_exactly : forall X y nrm os s v,
  no_nan X -> reached X y nrm os s ->
  In v (fst (splittable_variables (cov s))) <->
  v < mx_ncols X /\
  exists k i j, k < i /\ k < j /\ in_node s k /\ in_node s i /\ in_node s j /\
    value_in X i v <> value_in X j v.
Proof. intros X y nrm os s v Hn Hr. eapply offered_iff; eauto using reached_sinv. Qed.
Print Assumptions C02_offered_exactly.
(** the columns are listed once each, in increasing order *)
Theorem C02_offered_sorted : forall X y nrm os s,
  no_nan X -> reached X y nrm os s ->
  exists p, fst (splittable_variables (cov s)) = filter p (seq 0 (mx_ncols X)).
Proof. intros X y nrm os s Hn Hr. eapply offered_sorted; eauto using reached_sinv. Qed.
Print Assumptions C02_offered_sorted.
(** a node with at most two rows offers no column at all *)
Theorem C02_two_rows_offer_nothing : forall X y nrm os s,
  no_nan X -> reached X y nrm os s -> rows_in X s <= 2 -> fst (splittable_variables (cov s)) = [].
Proof. intros X y nrm os s Hn Hr. eapply two_rows_nothing; eauto using reached_sinv. Qed.
Print Assumptions C02_two_rows_offer_nothing.
(** the documented reading "more than one unique value" fails *)
Definition two_X : matrix := Mx 1 [[fz 1]; [fz 2]].
Theorem C02_documented_refuted : exists X y s,
  no_nan X /\ reached X y false [] s /\
  in_node s 0 /\ in_node s 1 /\ value_in X 0 0 <> value_in X 1 0 /\
  fst (splittable_variables (cov s)) = [].
Proof.
  exists two_X, [1; 2]%R. eexists. split; [|split; [split; [reflexivity|split; [constructor|]]|]].
  - intros r v Hr Hv. simpl in *. destruct v; [|lia]. destruct Hr as [<-|[<-|[]]]; discriminate.
  - eexists. split; reflexivity.
  - repeat split; try reflexivity. vm_compute. discriminate.
Qed.
Print Assumptions C02_documented_refuted.
(** the answer depends on the order of the rows *)
Theorem C02_row_order_refuted : exists X X' y s s',
  no_nan X /\ no_nan X' /\ Permutation (mx_rows X) (mx_rows X') /\ mx_ncols X = mx_ncols X' /\
  root_split X y false = Ok s /\ root_split X' y false = Ok s' /\
  fst (splittable_variables (cov s)) <> fst (splittable_variables (cov s')).
Proof.
  exists (Mx 1 [[fz 1]; [fz 2]; [fz 2]]), (Mx 1 [[fz 2]; [fz 1]; [fz 2]]), [0; 0; 0]%R. do 2 eexists.
  split; [|split; [|split; [|split; [|split; [|split]]]]].
  - intros r v Hr Hv. simpl in *. destruct v; [|lia]. destruct Hr as [<-|[<-|[<-|[]]]]; discriminate.
  - intros r v Hr Hv. simpl in *. destruct v; [|lia]. destruct Hr as [<-|[<-|[<-|[]]]]; discriminate.
  - simpl. apply perm_swap.
  - reflexivity.
  - reflexivity.
  - reflexivity.
  - vm_compute. discriminate.
Qed.
Print Assumptions C02_row_order_refuted.

(** ** C03 *)
Theorem C03_caches_invisible : forall X y nrm os s,
  no_nan X -> reached X y nrm os s ->
  let c := cov s in let f := fresh_object s in
  fst (splittable_variables c) = fst (splittable_variables f) /\
  fst (n_splittable_variables c) = fst (n_splittable_variables f) /\
  fst (is_at_least_one_splittable_variable c) = fst (is_at_least_one_splittable_variable f) /\
  (forall v, answer (is_column_unique c v) = answer (is_column_unique f v)) /\
  (forall v, answer (max_value_of_column c v) = answer (max_value_of_column f v)) /\
  (forall v x, answer (proportion_of_value_in_variable c v x) = answer (proportion_of_value_in_variable f v x)).
Proof.
  intros X y nrm os s Hn Hr. pose proof (reached_sinv _ _ _ _ _ Hn Hr) as Hs.
  unfold fresh_object, d_mask. rewrite (si_X _ _ _ _ Hs). eapply caches_invisible; eauto.
Qed.
Print Assumptions C03_caches_invisible.
(** what the answers are, in terms of the rows *)
Theorem C03_answers_mean : forall X y nrm os s v,
  no_nan X -> reached X y nrm os s ->
  let c := cov s in
  fst (n_splittable_variables c) = length (fst (splittable_variables c)) /\
  (fst (is_at_least_one_splittable_variable c) = true <-> exists w, In w (fst (splittable_variables c))) /\
  (forall b c', is_column_unique c v = Ok (b, c') ->
     v < mx_ncols X /\
     (b = true <-> forall i j, in_node s i -> in_node s j -> value_in X i v = value_in X j v -> i = j)) /\
  (forall m c', max_value_of_column c v = Ok (m, c') ->
     v < mx_ncols X /\ (exists i, in_node s i /\ value_in X i v = m) /\
     forall i, in_node s i -> fle (value_in X i v) m = true) /\
  (forall e, v < mx_ncols X -> max_value_of_column c v = Raise e -> e = EValueError /\ forall i, ~ in_node s i).
Proof.
  intros X y nrm os s v Hn Hr. pose proof (reached_sinv _ _ _ _ _ Hn Hr) as Hs. cbv zeta.
  split; [reflexivity|]. split; [eapply any_meaning; eauto|]. split; [|split].
  - intros. eapply unique_meaning; eauto.
  - intros. eapply max_meaning; eauto.
  - intros. eapply max_raises; eauto.
Qed.
Print Assumptions C03_answers_mean.

(** ** C04 *)
Theorem C04_proportion_of_occurring_value : forall X y nrm os s v x i,
  no_nan X -> reached X y nrm os s -> v < mx_ncols X -> in_node s i -> value_in X i v = x ->
  answer (proportion_of_value_in_variable (cov s) v x) =
  Ok (XFin (INR (rows_with X s v x) / INR (rows_in X s))).
Proof.
  intros X y nrm os s v x i Hn Hr Hv Hi Hx.
  destruct (proportion_occurring _ _ _ _ Hn (reached_sinv _ _ _ _ _ Hn Hr) v x i Hv Hi Hx) as (c'&->). reflexivity.
Qed.
Print Assumptions C04_proportion_of_occurring_value.
Theorem C04_proportion_of_absent_value : forall X y nrm os s v x,
  no_nan X -> reached X y nrm os s -> v < mx_ncols X -> 0 < rows_in X s ->
  (forall i, in_node s i -> value_in X i v <> x) ->
  let distinct := forall i j, in_node s i -> in_node s j -> value_in X i v = value_in X j v -> i = j in
  (distinct -> answer (proportion_of_value_in_variable (cov s) v x) = Ok (XFin (/ INR (rows_in X s)))) /\
  (~ distinct -> answer (proportion_of_value_in_variable (cov s) v x) = Ok (XFin 0)).
Proof.
  intros X y nrm os s v x Hn Hr Hv H0 Hx. pose proof (reached_sinv _ _ _ _ _ Hn Hr) as Hs.
  destruct (proportion_absent _ _ _ _ Hs v x Hv H0 Hx) as (c'&->). cbv zeta. simpl answer.
  destruct (is_column_unique_total (cov s) v) as (b&c2&E).
  { unfold cm_nfeat. now rewrite (si_X _ _ _ _ Hs). }
  rewrite E. destruct (unique_meaning _ _ _ _ Hs _ _ _ E) as [_ Hu].
  split; intros Hd.
  - apply Hu in Hd as ->. reflexivity.
  - destruct b; [exfalso; apply Hd, Hu; reflexivity|reflexivity].
Qed.
Print Assumptions C04_proportion_of_absent_value.
Theorem C04_absent_value_refuted : exists X y s v x r,
  no_nan X /\ reached X y false [] s /\ (forall i, in_node s i -> value_in X i v <> x) /\
  answer (proportion_of_value_in_variable (cov s) v x) = Ok (XFin r) /\ r <> 0%R.
Proof.
  exists two_X, [1; 2]%R. eexists. exists 0, (fz 7), (1 / 2)%R.
  split; [|split; [split; [reflexivity|split; [constructor|]]|split; [|split]]].
  - intros r v Hr Hv. simpl in *. destruct v; [|lia]. destruct Hr as [<-|[<-|[]]]; discriminate.
  - eexists. split; reflexivity.
  - intros i Hi. destruct i as [|[|i]]; try (vm_compute; discriminate). destruct i; discriminate Hi.
  - cbn -[xdiv]. unfold xdiv. destruct (Req_EM_T 2 0); [lra|reflexivity].
  - lra.
Qed.
Print Assumptions C04_absent_value_refuted.

(** ** C05 *)
Theorem C05_split_value_separates : forall X y nrm os s v ds x rest,
  no_nan X -> reached X y nrm os s ->
  random_splittable_value (cov s) v ds = Ok (x, rest) ->
  In v (fst (splittable_variables (cov s))) /\
  (exists i, in_node s i /\ value_in X i v = x) /\
  (forall m c', max_value_of_column (cov s) v = Ok (m, c') -> flt x m = true) /\
  exists sl sr, split_add s (fresh_le v x) = Ok sl /\ split_add s (fresh_gt v x) = Ok sr /\
    (exists i, in_node sl i) /\ (exists j, in_node sr j).
Proof.
  intros X y nrm os s v ds x rest Hn Hr H. pose proof (reached_sinv _ _ _ _ _ Hn Hr) as Hs.
  eapply rsv_separates; eauto.
Qed.
Print Assumptions C05_split_value_separates.
Theorem C05_exception_iff_not_splittable : forall X y nrm os s v ds,
  no_nan X -> reached X y nrm os s ->
  (random_splittable_value (cov s) v ds = Raise ENoSplittableVariable <->
   ~ In v (fst (splittable_variables (cov s)))) /\
  (forall e, random_splittable_value (cov s) v ds = Raise e -> e = ENoSplittableVariable).
Proof.
  intros X y nrm os s v ds Hn Hr. pose proof (reached_sinv _ _ _ _ _ Hn Hr) as Hs. split; [split|].
  - intros H. eapply rsv_raises in H; eauto. tauto.
  - apply rsv_no_col.
  - intros e H. eapply rsv_raises in H; eauto. tauto.
Qed.
Print Assumptions C05_exception_iff_not_splittable.
Example C05_case : random_splittable_value (cov ex_s) 1 [2; 2; 1; 0] = Ok (fz 6, [0]).
Proof. vm_compute. reflexivity. Qed.

(** ** C06: the draws are positions in the node's column; [x <> m]: not the maximum *)
Theorem C06_first_non_maximal_draw : forall X y nrm os s v ds x rest,
  no_nan X -> reached X y nrm os s -> In v (fst (splittable_variables (cov s))) ->
  random_splittable_value (cov s) v ds = Ok (x, rest) <->
  exists pre d m c', max_value_of_column (cov s) v = Ok (m, c') /\
    ds = pre ++ d :: rest /\ x = choose FNaN (get_column (cov s) v) d /\ x <> m /\
    Forall (fun d => choose FNaN (get_column (cov s) v) d = m) pre.
Proof. intros X y nrm os s v ds x rest Hn Hr. eapply rsv_first; eauto using reached_sinv. Qed.
Print Assumptions C06_first_non_maximal_draw.
Theorem C06_some_draw_ends_the_loop : forall X y nrm os s v,
  no_nan X -> reached X y nrm os s -> In v (fst (splittable_variables (cov s))) ->
  exists d, d < rows_in X s /\ forall pre rest m c', max_value_of_column (cov s) v = Ok (m, c') ->
    Forall (fun d => choose FNaN (get_column (cov s) v) d = m) pre ->
    exists x, random_splittable_value (cov s) v (pre ++ d :: rest) = Ok (x, rest).
Proof. intros X y nrm os s v Hn Hr. eapply rsv_escape; eauto using reached_sinv. Qed.
Print Assumptions C06_some_draw_ends_the_loop.

(** ** C07 *)
Theorem C07_children_partition_rows : forall X y nrm os s v x sl sr i,
  no_nan X -> reached X y nrm os s -> x <> FNaN ->
  split_add s (fresh_le v x) = Ok sl -> split_add s (fresh_gt v x) = Ok sr ->
  (in_node s i -> (in_node sl i /\ ~ in_node sr i) \/ (~ in_node sl i /\ in_node sr i)) /\
  (~ in_node s i -> ~ in_node sl i /\ ~ in_node sr i) /\
  (in_node sl i <-> in_node s i /\ fle (value_in X i v) x = true) /\
  (in_node sr i <-> in_node s i /\ fgt (value_in X i v) x = true).
Proof. intros X y nrm os s v x sl sr i Hn Hr. eapply partition_add; eauto using reached_sinv. Qed.
Print Assumptions C07_children_partition_rows.
(** the children made by split_node are the same *)
Theorem C07_split_node_partition_rows : forall X y nrm os s v x s' sl sr i,
  no_nan X -> reached X y nrm os s -> x <> FNaN ->
  split_children s (fresh_le v x) (fresh_gt v x) = Ok (s', sl, sr) ->
  (in_node s i -> (in_node sl i /\ ~ in_node sr i) \/ (~ in_node sl i /\ in_node sr i)) /\
  (~ in_node s i -> ~ in_node sl i /\ ~ in_node sr i) /\
  (in_node sl i <-> in_node s i /\ fle (value_in X i v) x = true) /\
  (in_node sr i <-> in_node s i /\ fgt (value_in X i v) x = true).
Proof.
  intros X y nrm os s v x s' sl sr i Hn Hr Hx H. apply split_children_masks in H as ((l&El&Ml)&(r&Er&Mr)&_).
  unfold in_node. rewrite Ml, Mr. exact (C07_children_partition_rows _ _ _ _ _ _ _ _ _ i Hn Hr Hx El Er).
Qed.
Print Assumptions C07_split_node_partition_rows.
Definition nan_X : matrix := Mx 1 [[FNaN]; [fz 1]].
Theorem C07_nan_row_in_both_children_refuted : exists X y s sl sr i,
  reached X y false [] s /\ split_add s (fresh_le 0 (fz 1)) = Ok sl /\ split_add s (fresh_gt 0 (fz 1)) = Ok sr /\
  in_node sl i /\ in_node sr i.
Proof.
  exists nan_X, [1; 2]%R. do 3 eexists. exists 0.
  split; [split; [reflexivity|split; [constructor|]]; eexists; split; reflexivity|].
  split; [reflexivity|]. split; [reflexivity|]. split; reflexivity.
Qed.
Print Assumptions C07_nan_row_in_both_children_refuted.
(** ... and so for every split of every node with a NaN in the splitting column *)
Theorem C07_nan_row_always_in_both : forall s v x sl sr i,
  split_add s (fresh_le v x) = Ok sl -> split_add s (fresh_gt v x) = Ok sr ->
  in_node s i -> value_in (cm_X (cov s)) i v = FNaN -> in_node sl i /\ in_node sr i.
Proof. exact nan_row_both. Qed.
Print Assumptions C07_nan_row_always_in_both.

(** ** C08 *)
Theorem C08_reported_count_exact : forall X y nrm os s,
  no_nan X -> reached X y nrm os s -> reported_n s = Z.of_nat (rows_in X s).
Proof. intros X y nrm os s Hn Hr. eapply n_obsv_exact; eauto using reached_sinv. Qed.
Print Assumptions C08_reported_count_exact.
Theorem C08_counts_add_up : forall X y nrm os s v x s' sl sr,
  no_nan X -> reached X y nrm os s -> x <> FNaN ->
  split_children s (fresh_le v x) (fresh_gt v x) = Ok (s', sl, sr) ->
  reported_n sl = Z.of_nat (rows_in X sl) /\ reported_n sr = Z.of_nat (rows_in X sr) /\
  (reported_n sl + reported_n sr = reported_n s)%Z.
Proof.
  intros X y nrm os s v x s' sl sr Hn Hr Hx H. pose proof (reached_sinv _ _ _ _ _ Hn Hr) as Hs.
  eapply counts_add_up; eauto.
Qed.
Print Assumptions C08_counts_add_up.
Theorem C08_nan_refuted : exists X y s s' sl sr,
  reached X y false [] s /\ split_children s (fresh_le 0 (fz 1)) (fresh_gt 0 (fz 1)) = Ok (s', sl, sr) /\
  reported_n sr = 0%Z /\ rows_in X sr = 1.
Proof.
  exists nan_X, [1; 2]%R. do 4 eexists.
  split; [split; [reflexivity|split; [constructor|]]; eexists; split; reflexivity|].
  split; [reflexivity|]. split; reflexivity.
Qed.
Print Assumptions C08_nan_refuted.

(** ** C09 *)
Theorem C09_sum_exact : forall X y nrm os s,
  no_nan X -> reached X y nrm os s ->
  let target := last_target (start_target y nrm) os in
  t_y (d_y (sp_data s)) = Some target /\
  answer (summed_y (d_y (sp_data s))) = Ok (sum_over (in_nodeb s) target (length (mx_rows X))).
Proof.
  intros X y nrm os s Hn Hr.
  destruct (sum_exact _ _ _ _ (reached_sinv _ _ _ _ _ Hn Hr) _ eq_refl) as (H1&t'&H2).
  split; auto. now rewrite H2.
Qed.
Print Assumptions C09_sum_exact.
Example C09_case : answer (summed_y (d_y (sp_data ex_s))) = Ok (4 + 3 + 2)%R.
Proof.
  destruct (C09_sum_exact _ _ _ _ _ ex_no_nan ex_reached) as [_ ->]. f_equal.
  change (last_target (start_target ex_y false) ex_os) with ([5; 4; 3; 2; 1]%R).
  change (length (mx_rows ex_X)) with 5. cbn [sum_over].
  replace (in_nodeb ex_s 0) with false by reflexivity. replace (in_nodeb ex_s 1) with true by reflexivity.
  replace (in_nodeb ex_s 2) with true by reflexivity. replace (in_nodeb ex_s 3) with true by reflexivity.
  replace (in_nodeb ex_s 4) with false by reflexivity. cbn [nth]. lra.
Qed.

(** ** C10 *)
Theorem C10_fresh_condition_exact : forall X y nrm os s c s',
  no_nan X -> reached X y nrm os s -> sc_n c = None -> sc_ysum c = None -> sc_val c <> FNaN ->
  split_add s c = Ok s' ->
  reported_n s' = Z.of_nat (rows_in X s') /\
  answer (summed_y (d_y (sp_data s'))) =
    Ok (sum_over (in_nodeb s') (last_target (start_target y nrm) os) (length (mx_rows X))).
Proof.
  intros X y nrm os s c s' Hn Hr Hcn Hcs Hv H.
  apply (split_add_sinv _ _ _ _ _ _ Hn (reached_sinv _ _ _ _ _ Hn Hr)) in H as (Hs&_);
    [|congruence|congruence].
  split; [eapply n_obsv_exact; eauto|].
  destruct (sum_exact _ _ _ _ Hs _ eq_refl) as (_&t'&->). reflexivity.
Qed.
Print Assumptions C10_fresh_condition_exact.
(** the right-hand condition object of a split, added to ANY other node, makes a child that
    reports the count and sum of the first node's right child *)
Theorem C10_reused_condition_reports_old_node : forall s c0 c1 s' sl sr c w w',
  split_children s c0 c1 = Ok (s', sl, sr) -> split_most_recent sr = Some c ->
  split_add w c = Ok w' ->
  reported_n w' = reported_n sr /\
  answer (summed_y (d_y (sp_data w'))) = answer (summed_y (d_y (sp_data sr))).
Proof. exact reused_reports. Qed.
Print Assumptions C10_reused_condition_reports_old_node.
Theorem C10_reuse_refuted : exists X y s s' sl sr c w w',
  no_nan X /\ reached X y false [] s /\ reached X y false [CAddLe 0 (fz 1)] w /\
  split_children s (fresh_le 0 (fz 2)) (fresh_gt 0 (fz 2)) = Ok (s', sl, sr) /\
  split_most_recent sr = Some c /\ split_add w c = Ok w' /\
  reported_n w' = 3%Z /\ rows_in X w' = 0.
Proof.
  exists ex_X, ex_y. do 7 eexists. split; [exact ex_no_nan|].
  split; [split; [reflexivity|split; [constructor|]]; eexists; split; reflexivity|].
  split; [split; [reflexivity|split; [repeat constructor; discriminate|]]; eexists; split; reflexivity|].
  split; [reflexivity|]. split; [reflexivity|]. split; [reflexivity|]. split; reflexivity.
Qed.
Print Assumptions C10_reuse_refuted.

(** ** C11 *)
Theorem C11_normalised_range : forall y mask a b,
  In a y -> In b y -> a <> b ->
  exists t ny lo hi, make_target y mask true None = Ok t /\ t_y t = Some ny /\ length ny = length y /\
    In lo y /\ In hi y /\ (forall v, In v y -> lo <= v <= hi)%R /\
    (forall v, In v ny -> -/2 <= v <= /2)%R /\
    (forall i, (i < length y)%nat -> nth i y 0 = lo <-> nth i ny 0 = -/2)%R /\
    (forall i, (i < length y)%nat -> nth i y 0 = hi <-> nth i ny 0 = /2)%R /\
    (forall i j, (i < length y)%nat -> (j < length y)%nat -> nth i y 0 < nth j y 0 <-> nth i ny 0 < nth j ny 0)%R /\
    unnormalize_y t ny = Ok y /\ unnormalized_y t = Ok y /\ normalizing_scale t = Ok (hi - lo)%R.
Proof. exact normalised_range. Qed.
Print Assumptions C11_normalised_range.
Theorem C11_constant_target_nan : forall y k, (forall v, In v y -> v = k) ->
  normalize_y y = map (fun _ => XNaN) y.
Proof. exact normalise_constant. Qed.
Print Assumptions C11_constant_target_nan.
Example C11_case : In 1%R ex_y /\ In 2%R ex_y /\ (1 <> 2)%R.
Proof. simpl. split; [auto|]. split; [auto|]. lra. Qed.

(** ** C12 *)
Theorem C12_normalisation_affine : forall a b y, (0 < a)%R ->
  normalize_y (map (fun v => a * v + b)%R y) = normalize_y y.
Proof. exact normalize_affine. Qed.
Print Assumptions C12_normalisation_affine.
Theorem C12_unnormalise_affine : forall a b y mask t t' p q, (0 < a)%R ->
  make_target y mask true None = Ok t ->
  make_target (map (fun v => a * v + b)%R y) mask true None = Ok t' ->
  t_y t' = t_y t /\
  (unnormalize_y t p = Ok q -> unnormalize_y t' p = Ok (map (fun v => a * v + b)%R q)).
Proof. exact unnormalise_affine. Qed.
Print Assumptions C12_unnormalise_affine.
Theorem C12_same_failures : forall a b y mask, (0 < a)%R ->
  (exists t, make_target y mask true None = Ok t) <->
  (exists t, make_target (map (fun v => a * v + b)%R y) mask true None = Ok t).
Proof. exact affine_same_failures. Qed.
Print Assumptions C12_same_failures.

(** ** C13 *)
(** for arbitrary rows: which rows a combined condition selects *)
Theorem C13_selected_rows_exact : forall n conds cc X,
  make_cc (seq 0 n) conds = Ok cc -> Forall (fun c => sc_op c <> OpOther) conds -> n <= mx_ncols X ->
  cc_condition cc X =
  Ok (map (fun r => row_clean n r && forallb (fun c => is_nan (sc_val c) || cond_holds c r) conds) (mx_rows X)).
Proof. exact cc_condition_exact. Qed.
Print Assumptions C13_selected_rows_exact.
(** clean rows, thresholds that are numbers or infinities: exactly the conjunction *)
Theorem C13_conjunction : forall conds cc X,
  clean X -> make_cc (seq 0 (mx_ncols X)) conds = Ok cc ->
  Forall (fun c => sc_op c <> OpOther /\ sc_val c <> FNaN) conds ->
  cc_condition cc X = Ok (map (fun r => forallb (fun c => cond_holds c r) conds) (mx_rows X)).
Proof. exact cc_conjunction. Qed.
Print Assumptions C13_conjunction.
Theorem C13_order_irrelevant : forall n conds conds' cc cc' X,
  Permutation conds conds' -> make_cc (seq 0 n) conds = Ok cc -> make_cc (seq 0 n) conds' = Ok cc' ->
  Forall (fun c => sc_op c <> OpOther) conds -> n <= mx_ncols X ->
  cc_condition cc X = cc_condition cc' X.
Proof. exact cc_order. Qed.
Print Assumptions C13_order_irrelevant.
(** a combined condition can be built exactly when every variable is known *)
Theorem C13_built_iff_known_variables : forall n conds, Forall (fun c => sc_op c <> OpOther) conds ->
  ((exists cc, make_cc (seq 0 n) conds = Ok cc) <-> Forall (fun c => sc_var c < n) conds) /\
  (~ Forall (fun c => sc_var c < n) conds -> make_cc (seq 0 n) conds = Raise EKeyError).
Proof. exact cc_built_iff. Qed.
Print Assumptions C13_built_iff_known_variables.
(** a row holding NaN or -inf anywhere is rejected by every condition, the empty one included *)
Theorem C13_unclean_row_rejected : forall n conds cc X i v,
  make_cc (seq 0 n) conds = Ok cc -> Forall (fun c => sc_op c <> OpOther) conds -> n <= mx_ncols X ->
  i < length (mx_rows X) -> v < n -> value_in X i v = FNaN \/ value_in X i v = FNInf ->
  exists sel, cc_condition cc X = Ok sel /\ nth_error sel i = Some false.
Proof. exact unclean_rejected. Qed.
Print Assumptions C13_unclean_row_rejected.
Theorem C13_empty_condition_refuted : exists X cc, make_cc (seq 0 1) [] = Ok cc /\
  cc_condition cc X = Ok [false; false; true].
Proof. exists (Mx 1 [[FNInf]; [FNaN]; [fz 0]]). eexists. split; reflexivity. Qed.
Print Assumptions C13_empty_condition_refuted.
Example C13_case : exists cc, make_cc (seq 0 2) [fresh_le 0 (fz 3); fresh_gt 1 (fz 5); fresh_le 0 FPInf] = Ok cc /\
  cc_condition cc ex_X = Ok [false; false; true; false; false].
Proof. eexists. split; reflexivity. Qed.

(** ** C14: any conditions, any thresholds (NaN too), any carried statistics *)
Theorem C14_in_sample_equals_out_of_sample : forall X y nrm s0 cs s,
  clean X -> length y = length (mx_rows X) -> root_split X y nrm = Ok s0 -> split_add_all s0 cs = Ok s ->
  split_condition_out s X = Ok (split_condition_in s).
Proof.
  intros X y nrm s0 cs s Hc Hl H0 H. eapply minv_agree; [exact Hc|].
  eapply minv_add_all; [eapply root_minv; eauto|exact H].
Qed.
Print Assumptions C14_in_sample_equals_out_of_sample.
(** ... and for every node reached by arbitrary calls *)
Theorem C14_reached_nodes_agree : forall X y nrm os s,
  clean X -> reached X y nrm os s -> split_condition_out s X = Ok (split_condition_in s).
Proof.
  intros X y nrm os s Hc Hr. eapply minv_agree; [exact Hc|]. eapply sinv_minv, reached_sinv; [|exact Hr].
  intros r v H1 H2. now apply Hc.
Qed.
Print Assumptions C14_reached_nodes_agree.
Example C14_case : exists s0 s, root_split ex_X ex_y false = Ok s0 /\
  split_add_all s0 [fresh_gt 0 (fz 1); SC 1 FNaN OpLe (Some 7%R) (Some (PI 42 false)); fresh_le 1 (fz 7)] = Ok s /\
  split_condition_in s = [false; true; true; true; false].
Proof. do 2 eexists. split; [reflexivity|]. split; reflexivity. Qed.
Theorem C14_minus_inf_refuted : exists X y s, no_nan X /\ reached X y false [] s /\
  split_condition_out s X = Ok [false; true] /\ split_condition_in s = [true; true].
Proof.
  exists (Mx 1 [[FNInf]; [fz 1]]), [0; 0]%R. eexists. split; [|split; [split; [reflexivity|split; [constructor|]]|]].
  - intros r v Hr Hv. simpl in *. destruct v; [|lia]. destruct Hr as [<-|[<-|[]]]; discriminate.
  - eexists. split; reflexivity.
  - split; reflexivity.
Qed.
Print Assumptions C14_minus_inf_refuted.

(** ** C15 *)
Theorem C15_most_recent_is_last_added : forall s0 cs s,
  split_add_all s0 cs = Ok s -> cs <> [] ->
  split_most_recent s = last_opt cs /\
  cc_splitting_variable (sp_cc s) = match last_opt cs with Some c => Some (sc_var c) | None => None end.
Proof. intros s0 cs s. apply add_all_recent. Qed.
Print Assumptions C15_most_recent_is_last_added.
Theorem C15_root_has_none : forall X y nrm s, root_split X y nrm = Ok s ->
  split_most_recent s = None /\ cc_splitting_variable (sp_cc s) = None.
Proof. exact root_no_recent. Qed.
Print Assumptions C15_root_has_none.
