(** Property C106: see /verif/properties.jsonl. *)
From Coq Require Import Reals Lra Lia ZArith QArith Qcanon Permutation.
From Verif Require Import Base Fl Ext MData MSplit MTree MSampler MModel MModelHist MSklearn MFeatures MDiag MObSklearn Spec SpecModel SpecSklearn SpecInvariance SpecColumn SpecOrder SpecRows LFl.
From Verif Require Import PRel PRel2 PRel3 PInvar PSklearn PCol PSim PPerm PRows Properties_Model Properties_Model2 Properties_Sklearn Properties_Invariance Properties_Column Properties_ObSklearn Properties_Alpha Properties_Order.
Local Open Scope R_scope.

Lemma rows_pm order X : row_order order (length (mx_rows X)) ->
  exists ks, (forall A (d : A) l, length l = length (mx_rows X) -> in_order d order l = pm ks l) /\ rows_in_order order X = Mx (mx_ncols X) (pm ks (mx_rows X)).
Proof. intros O. destruct (order_pm order _ O) as (ks&H). exists ks. split; auto. unfold rows_in_order. now rewrite H. Qed.
Lemma reshuffles_between o s1 s2 s3 s4 : follows (fun v => v) (fun X => X) s1 s2 -> reshuffles o s2 s3 -> follows (fun v => v) (fun X => X) s3 s4 -> reshuffles o s1 s4.
Proof.
  intros (A1&A2&A3&A4&A5&A6) (B1&B2&B3&B4&B5&B6) (C1&C2&C3&C4&C5&C6). apply same_eq in A1, C1. split; [|split; [|split; [|split; [|split]]]]; try congruence.
  - intros X. specialize (A2 X). specialize (C2 X). apply same_eq in A2, C2. rewrite C2, B2. congruence.
Qed.

(** ** C106: the order of the rows, too, is only a labelling - as long as nothing is tied *)
(** Fitting on the same rows (with their targets) in another order: to every sequence of draws there is another one - the
    rows' draws exchanged one to one, everything else as it was - after which the fit on the reordered data ends the same
    way as the fit on the data did, with the same in-sample predictions in the new order, the same predictions for new rows,
    the same acceptance traces, sigmas, tree depths and shares of the splits.  Needed: the test that decides what can be
    split, which leaves out the first row, gives the same answers for both orders. *)
Theorem C106_row_order : forall order bk s X y, row_order order (length (mx_rows X)) -> length y = length (mx_rows X) -> same_tests X (rows_in_order order X) ->
  exists psi, exchanges (length (mx_rows X)) psi /\
  forall h h' rs, heap_ok h -> heap_ok h' ->
    same_outcome (reshuffles order) (fit bk s h X y rs) (fit bk s h' (rows_in_order order X) (in_order 0 order y) (map psi rs)).
Proof.
  intros o bk s X y O L T. destruct (rows_pm o X O) as (ks&Hk&EX). rewrite (Hk R 0 y L). rewrite EX in *. destruct (fit_sim ks X T s y L) as (F&G&H). exists (ap F). split; [now apply ap_exchanges|].
  intros h h' rs W W'. destruct (H rs) as [B V].
  pose proof (follow_settings bk Processes s s h h_empty X y rs W h_empty_ok ltac:(repeat split)) as A.
  pose proof (follow_settings Processes bk (tsk ks X s) s h_empty h' (Mx (mx_ncols X) (pm ks (mx_rows X))) (pm ks y) (map (ap F) rs) h_empty_ok W' ltac:(repeat split)) as C.
  rewrite B in C. destruct (fit bk s h X y rs) as [s1|e|], (fit Processes s h_empty X y rs) as [s2|e2|], (fit bk s h' (Mx (mx_ncols X) (pm ks (mx_rows X))) (pm ks y) (map (ap F) rs)) as [s4|e4|];
    cbn [rmap same_outcome] in *; try contradiction; auto; try congruence.
  eapply reshuffles_between; eauto. apply tsk_reshuffles; auto.
Qed.
Print Assumptions C106_row_order.
(** the same with the oblivious tree sampler *)
Theorem C106_row_order_oblivious : forall order bk s X y, row_order order (length (mx_rows X)) -> length y = length (mx_rows X) -> same_tests X (rows_in_order order X) ->
  exists psi, exchanges (length (mx_rows X)) psi /\
  forall h h' rs, heap_ok h -> heap_ok h' ->
    same_outcome (reshuffles order) (ob_fit bk s h X y rs) (ob_fit bk s h' (rows_in_order order X) (in_order 0 order y) (map psi rs)).
Proof.
  intros o bk s X y O L T. destruct (rows_pm o X O) as (ks&Hk&EX). rewrite (Hk R 0 y L). rewrite EX in *. destruct (ob_fit_sim ks X T s y L) as (F&G&H). exists (ap F). split; [now apply ap_exchanges|].
  intros h h' rs W W'. destruct (H rs) as [B V].
  pose proof (ob_follow_settings bk Processes s s h h_empty X y rs W h_empty_ok ltac:(repeat split)) as A.
  pose proof (ob_follow_settings Processes bk (tsk ks X s) s h_empty h' (Mx (mx_ncols X) (pm ks (mx_rows X))) (pm ks y) (map (ap F) rs) h_empty_ok W' ltac:(repeat split)) as C.
  rewrite B in C. destruct (ob_fit bk s h X y rs) as [s1|e|], (ob_fit Processes s h_empty X y rs) as [s2|e2|], (ob_fit bk s h' (Mx (mx_ncols X) (pm ks (mx_rows X))) (pm ks y) (map (ap F) rs)) as [s4|e4|];
    cbn [rmap same_outcome] in *; try contradiction; auto; try congruence.
  eapply reshuffles_between; eauto. apply tsk_reshuffles; auto.
Qed.
Print Assumptions C106_row_order_oblivious.

(** *** data for which the tests agree whatever the order: no column with a tie *)
Lemma rows_perm order X : row_order order (length (mx_rows X)) -> Permutation (mx_rows X) (mx_rows (rows_in_order order X)).
Proof. intros O. destruct (rows_pm order X O) as (ks&_&->). apply pm_perm. Qed.
Section Pairs.
Variables (A : Type) (Q : A -> A -> Prop).
Lemma pairs_nth d l : (forall i j, (i < j < length l)%nat -> Q (nth i l d) (nth j l d)) -> ForallOrdPairs Q l.
Proof.
  induction l as [|x l IH]; intros H; constructor.
  - apply Forall_forall. intros z I. apply (In_nth _ _ d) in I as (k&Lk&<-). apply (H 0%nat (S k)). simpl. lia.
  - apply IH. intros i j B. apply (H (S i) (S j)). simpl. lia.
Qed.
Lemma pairs_filter f l : ForallOrdPairs Q l -> ForallOrdPairs Q (filter f l).
Proof.
  induction 1 as [|x l F H IH]; [constructor|]. cbn [filter]. destruct (f x); auto. constructor; auto. rewrite Forall_forall in *. intros z I. apply F. now apply filter_In in I.
Qed.
Hypothesis sym : forall a b, Q a b -> Q b a.
Lemma pairs_perm l l' : Permutation l l' -> ForallOrdPairs Q l -> ForallOrdPairs Q l'.
Proof.
  induction 1 as [|x l l' P IH|x z l|l l2 l3 P1 IH1 P2 IH2]; intros H; auto.
  - inversion H; subst. constructor; auto. rewrite Forall_forall in *. intros w I. apply H2. eapply Permutation_in; [symmetry|]; eauto.
  - inversion H as [|? ? F1 H1]; subst. inversion H1 as [|? ? F2 H2]; subst. inversion F1; subst. constructor; [constructor; auto|constructor; auto].
Qed.
End Pairs.
Lemma pairs_looks rows v : ForallOrdPairs (fun r r' => feqb (cell r v) (cell r' v) = false) rows -> looks_splittable rows v <-> (3 <= length rows)%nat.
Proof.
  intros H. split; [intros (i&j&?&?&_); lia|]. intros L. destruct rows as [|a [|b [|c rows]]]; simpl in L; try lia. exists 1%nat, 2%nat. split; [lia|]. split; [simpl; lia|].
  inversion H as [|? ? _ H1]; subst. inversion H1 as [|? ? F _]; subst. inversion F; auto.
Qed.
Lemma no_ties_tests order X : row_order order (length (mx_rows X)) -> no_ties X -> same_tests X (rows_in_order order X).
Proof.
  intros O T ss v Lv. pose proof (rows_perm order X O) as P. set (Q := fun r r' : row => feqb (cell r v) (cell r' v) = false).
  assert (H : ForallOrdPairs Q (mx_rows X)) by (apply (pairs_nth _ Q []); intros i j B; now apply T).
  assert (H' : ForallOrdPairs Q (mx_rows (rows_in_order order X))) by (apply (pairs_perm _ Q) with (mx_rows X); auto; intros a b E; unfold Q in *; now rewrite feqb_sym).
  unfold cut_out. rewrite !pairs_looks by now apply pairs_filter. now rewrite (Permutation_length (filter_perm _ _ _ P)).
Qed.
(** Without ties the order of the rows never matters. *)
Theorem C106_no_ties : forall order bk s X y, row_order order (length (mx_rows X)) -> length y = length (mx_rows X) -> no_ties X ->
  exists psi, exchanges (length (mx_rows X)) psi /\
  forall h h' rs, heap_ok h -> heap_ok h' ->
    same_outcome (reshuffles order) (fit bk s h X y rs) (fit bk s h' (rows_in_order order X) (in_order 0 order y) (map psi rs)).
Proof. intros o bk s X y O L T. apply C106_row_order; auto. now apply no_ties_tests. Qed.
Print Assumptions C106_no_ties.

(** *** nor does it when every row comes at least twice *)
Definition twins {A} (l : list A) : Prop := forall r, In r l -> exists m, Permutation l (r :: r :: m).
Lemma twins_perm {A} (l l' : list A) : Permutation l l' -> twins l -> twins l'.
Proof. intros P T r I. destruct (T r) as (m&Hm); [eapply Permutation_in; [symmetry|]; eauto|]. exists m. now rewrite <- P. Qed.
Lemma twins_filter {A} (f : A -> bool) l : twins l -> twins (filter f l).
Proof.
  intros T r I. apply filter_In in I as [I E]. destruct (T r I) as (m&P). exists (filter f m). apply (filter_perm f) in P. simpl in P. now rewrite E in P.
Qed.
Lemma pick {A} (d : A) l i : (i < length l)%nat -> exists m, Permutation l (nth i l d :: m) /\ (forall j, (j < length l)%nat -> j <> i -> In (nth j l d) m).
Proof.
  revert i. induction l as [|x l IH]; intros i Li; simpl in Li; [lia|]. destruct i as [|i].
  - exists l. split; auto. intros [|j] Lj N; [lia|]. cbn [nth]. apply nth_In. simpl in Lj. lia.
  - destruct (IH i ltac:(lia)) as (m&P&H). exists (x :: m). split; [cbn [nth]; etransitivity; [apply perm_skip; exact P|apply perm_swap]|]. intros [|j] Lj N; [now left|]. right. apply H; simpl in Lj; lia.
Qed.
Lemma paired_twins X : paired X -> twins (mx_rows X).
Proof.
  intros P r I. apply (In_nth _ _ []) in I as (i&Li&<-). destruct (P i Li) as (j&Lj&N&E). destruct (pick [] (mx_rows X) i Li) as (m&Pm&H).
  specialize (H j Lj N). rewrite E in H. apply in_split in H as (m1&m2&->). exists (m1 ++ m2). etransitivity; [exact Pm|]. constructor. symmetry. apply Permutation_middle.
Qed.
Lemma twins_tail {A} (x : A) l r : twins (x :: l) -> In r (x :: l) -> In r l.
Proof.
  intros T I. destruct (T r I) as (m&P). destruct I as [->|I]; auto. apply Permutation_cons_inv in P. eapply Permutation_in; [symmetry; exact P|]. now left.
Qed.
Lemma two_places (l : list row) r r' v : In r l -> In r' l -> cell r v <> cell r' v -> exists i j, (i < j < length l)%nat /\ feqb (cell (nth i l []) v) (cell (nth j l []) v) = false.
Proof.
  intros I I' N. apply (In_nth _ _ []) in I as (i&Li&<-). apply (In_nth _ _ []) in I' as (j&Lj&<-).
  assert (E : feqb (cell (nth i l []) v) (cell (nth j l []) v) = false) by (destruct (feqb _ _) eqn:E; auto; apply feqb_eq in E as [E _]; congruence).
  destruct (lt_eq_lt_dec i j) as [[B| ->]|B]; [exists i, j; auto|congruence|exists j, i; rewrite feqb_sym; auto].
Qed.
Lemma twins_looks rows v : twins rows -> looks_splittable rows v <->
  (exists r r', In r rows /\ In r' rows /\ cell r v <> cell r' v) \/ ((3 <= length rows)%nat /\ exists r, In r rows /\ cell r v = FNaN).
Proof.
  intros T. split.
  - intros (i&j&B&Lj&E). destruct (fl_eq_dec (cell (nth i rows []) v) (cell (nth j rows []) v)) as [Ec|Ec].
    + right. split; [lia|]. exists (nth i rows []). split; [apply nth_In; lia|]. destruct (fl_eq_dec (cell (nth i rows []) v) FNaN) as [Ef|Ef]; auto. rewrite (proj2 (feqb_eq _ _)) in E; [discriminate|auto].
    + left. exists (nth i rows []), (nth j rows []). repeat split; auto; apply nth_In; lia.
  - destruct rows as [|x l]; [intros [(r&_&[]&_)|[H _]]; simpl in H; lia|].
    assert (Sh : (exists i j, (i < j < length l)%nat /\ feqb (cell (nth i l []) v) (cell (nth j l []) v) = false) -> looks_splittable (x :: l) v)
      by (intros (i&j&B&E); exists (S i), (S j); split; [lia|]; split; [simpl; lia|exact E]).
    intros [(r&r'&I&I'&N)|[L (r&I&E)]]; apply Sh.
    + apply two_places with r r'; auto; eapply twins_tail; eauto.
    + pose proof (twins_tail x l r T I) as J. apply (In_nth _ _ []) in J as (i&Li&<-). simpl in L. destruct i as [|i].
      * exists 0%nat, 1%nat. split; [lia|]. now rewrite E.
      * exists 0%nat, (S i). split; [lia|]. rewrite feqb_sym. now rewrite E.
Qed.
Lemma paired_tests order X : row_order order (length (mx_rows X)) -> paired X -> same_tests X (rows_in_order order X).
Proof.
  intros O T ss v Lv. pose proof (rows_perm order X O) as P. apply paired_twins in T. pose proof (twins_perm _ _ P T) as T'. unfold cut_out.
  set (f := fun r : row => forallb (fun s => on_side s r) ss). pose proof (filter_perm f _ _ P) as Pf. rewrite !twins_looks by now apply twins_filter. rewrite (Permutation_length Pf).
  assert (J : forall r, In r (filter f (mx_rows X)) <-> In r (filter f (mx_rows (rows_in_order order X)))) by (intros r; split; apply Permutation_in; auto using Permutation_sym).
  split; (intros [(r&r'&I&I'&N)|[L (r&I&E)]]; [left; exists r, r'; rewrite ?J in *; auto|right; split; auto; exists r; rewrite ?J in *; auto]).
Qed.
Theorem C106_paired : forall order bk s X y, row_order order (length (mx_rows X)) -> length y = length (mx_rows X) -> paired X ->
  exists psi, exchanges (length (mx_rows X)) psi /\
  forall h h' rs, heap_ok h -> heap_ok h' ->
    same_outcome (reshuffles order) (fit bk s h X y rs) (fit bk s h' (rows_in_order order X) (in_order 0 order y) (map psi rs)).
Proof. intros o bk s X y O L T. apply C106_row_order; auto. now apply paired_tests. Qed.
Print Assumptions C106_paired.

(** With ties it can matter (see C77): here one order can be fitted, the other cannot. *)
Definition rw_order : list nat := [1; 0; 2]%nat.
Lemma rw_is_order : row_order rw_order 3.
Proof. apply perm_swap. Qed.
Theorem C106_ties_refuted : exists order s X y, row_order order (length (mx_rows X)) /\ length y = length (mx_rows X) /\ no_nan X /\
  forall bk h, (exists rs s', length rs = sk_nchains s /\ fit bk s h X y rs = Ok s') /\
    forall rs s', length rs = sk_nchains s -> fit bk s h (rows_in_order order X) (in_order 0 order y) rs <> Ok s'.
Proof.
  exists rw_order, ex_sk, (Mx 1 (map fst ox_data)), (map snd ox_data). split; [exact rw_is_order|]. split; [reflexivity|]. split; [apply rows_no_nan_mx, ox_no_nan; auto|]. intros bk h. split.
  - apply (proj2 (C77_criterion bk ex_sk h 1 ox_data (ox_no_nan _ (fun d H => H)) ex_asks ltac:(exists 5, 7; simpl; split; auto; split; auto; lra))).
    exists 0%nat, ([fz 1], 7), ([fz 2], 9). split; [lia|]. split; [simpl; auto|]. split; [simpl; auto|]. discriminate.
  - intros rs s' L E. assert (H : can_fit_rows bk ex_sk h 1 ox_data') by (exists rs, s'; split; auto).
    apply C77_criterion in H; [|apply ox_no_nan; simpl; tauto|exact ex_asks|exists 5, 7; simpl; split; auto; split; auto; lra].
    destruct H as (v&d1&d2&Hv&H1&H2&H3). assert (v = 0%nat) as -> by lia. simpl in H1, H2. destruct H1 as [<-|[<-|[]]], H2 as [<-|[<-|[]]]; apply H3; reflexivity.
Qed.
Print Assumptions C106_ties_refuted.

(** Nothing a user sees is more or less likely after the rows are reordered.  The other draws being given, let the index
    draws of all chains be uniform below [M], a multiple of all numbers up to the number of rows: then every event [E]
    about what is seen of the fit - the in-sample predictions in the new order - happens after exactly as many of the
    possible index draws as it does for the reordered data. *)
Theorem C106_as_likely : forall order bk s h h' X y Xn base len M (E : res report -> bool),
  row_order order (length (mx_rows X)) -> length y = length (mx_rows X) -> same_tests X (rows_in_order order X) -> heap_ok h -> heap_ok h' ->
  (forall k, (1 <= k <= length (mx_rows X))%nat -> Nat.divide k M) ->
  times E (fun ls => reported (fit bk s h' (rows_in_order order X) (in_order 0 order y) (with_index base ls)) Xn) (draw_tables (length base) len M) =
  times E (fun ls => let! rp := reported (fit bk s h X y (with_index base ls)) Xn in Ok (report_in_order order rp)) (draw_tables (length base) len M).
Proof.
  intros o bk s h h' X y Xn base len M E O L T W W' HM. destruct (C106_row_order o bk s X y O L T) as (psi&Hpsi&H).
  unfold times. rewrite <- (filter_length_perm _ _ _ (moved_perm _ psi Hpsi base len M HM)), filter_map_length. f_equal. apply filter_ext_in. intros ls I.
  assert (Ll : length ls = length base) by (now apply draw_tables_in in I). rewrite (moved_with _ psi Hpsi base ls Ll). f_equal. specialize (H h h' (with_index base ls) W W').
  destruct (fit bk s h X y (with_index base ls)) as [s1|e|], (fit bk s h' (rows_in_order o X) (in_order 0 o y) (map psi (with_index base ls))) as [s2|e2|]; cbn [same_outcome] in H; try contradiction; [|now subst|reflexivity].
  destruct H as (A1&A2&A3&A4&A5&_). unfold reported, report_in_order. cbn [rbind rp_in rp_out rp_accept rp_sigma rp_depth]. rewrite A2, A3, A4, A5. do 2 f_equal.
  destruct (sk_predict s1 None), (sk_predict s2 None); cbn [same_outcome rbind] in *; try contradiction; congruence.
Qed.
Print Assumptions C106_as_likely.
(** the same with the oblivious tree sampler *)
Theorem C106_as_likely_oblivious : forall order bk s h h' X y Xn base len M (E : res report -> bool),
  row_order order (length (mx_rows X)) -> length y = length (mx_rows X) -> same_tests X (rows_in_order order X) -> heap_ok h -> heap_ok h' ->
  (forall k, (1 <= k <= length (mx_rows X))%nat -> Nat.divide k M) ->
  times E (fun ls => reported (ob_fit bk s h' (rows_in_order order X) (in_order 0 order y) (with_index base ls)) Xn) (draw_tables (length base) len M) =
  times E (fun ls => let! rp := reported (ob_fit bk s h X y (with_index base ls)) Xn in Ok (report_in_order order rp)) (draw_tables (length base) len M).
Proof.
  intros o bk s h h' X y Xn base len M E O L T W W' HM. destruct (C106_row_order_oblivious o bk s X y O L T) as (psi&Hpsi&H).
  unfold times. rewrite <- (filter_length_perm _ _ _ (moved_perm _ psi Hpsi base len M HM)), filter_map_length. f_equal. apply filter_ext_in. intros ls I.
  assert (Ll : length ls = length base) by (now apply draw_tables_in in I). rewrite (moved_with _ psi Hpsi base ls Ll). f_equal. specialize (H h h' (with_index base ls) W W').
  destruct (ob_fit bk s h X y (with_index base ls)) as [s1|e|], (ob_fit bk s h' (rows_in_order o X) (in_order 0 o y) (map psi (with_index base ls))) as [s2|e2|]; cbn [same_outcome] in H; try contradiction; [|now subst|reflexivity].
  destruct H as (A1&A2&A3&A4&A5&_). unfold reported, report_in_order. cbn [rbind rp_in rp_out rp_accept rp_sigma rp_depth]. rewrite A2, A3, A4, A5. do 2 f_equal.
  destruct (sk_predict s1 None), (sk_predict s2 None); cbn [same_outcome rbind] in *; try contradiction; congruence.
Qed.
Print Assumptions C106_as_likely_oblivious.

(** the matrix of C104, its first two rows exchanged: no ties, and two chains fit both orders *)
Lemma rw_no_ties : no_ties or_X.
Proof.
  intros v i j Hv [H1 H2]. simpl in Hv, H2. destruct v as [|[|[|v]]]; [..|lia]; (destruct i as [|[|[|i]]]; [..|lia]); (destruct j as [|[|[|j]]]; try lia); reflexivity.
Qed.
Example C106_case : forall bk, rows_in_order rw_order or_X = Mx 3 [[fz 4; fz 2; fz 9]; [fz 5; fz 1; fz 7]; [fz 6; fz 3; fz 8]] /\ in_order 0 rw_order mx_y = [2; 1; 6] /\
  exists rs rs' s1 s2, fit bk ex_sk ex_empty or_X mx_y rs = Ok s1 /\ fit bk ex_sk ex_empty (rows_in_order rw_order or_X) (in_order 0 rw_order mx_y) rs' = Ok s2 /\ reshuffles rw_order s1 s2 /\
  sk_predict s2 (Some or_X) = sk_predict s1 (Some or_X).
Proof.
  intros bk. split; [reflexivity|]. split; [reflexivity|]. destruct (or_possible bk) as (rs&s1&E). destruct (C106_no_ties rw_order bk ex_sk or_X mx_y rw_is_order eq_refl rw_no_ties) as (psi&_&H).
  specialize (H ex_empty ex_empty rs ex_heap_ok ex_heap_ok). rewrite E in H. destruct (fit bk ex_sk ex_empty (rows_in_order rw_order or_X) (in_order 0 rw_order mx_y) (map psi rs)) as [s2| |] eqn:E2; try contradiction.
  exists rs, (map psi rs), s1, s2. split; [assumption|]. split; [assumption|]. split; [exact H|]. apply H.
Qed.
Example C106_oblivious_case : forall bk, exists rs rs' s1 s2,
  ob_fit bk ex_sk ex_empty or_X mx_y rs = Ok s1 /\ ob_fit bk ex_sk ex_empty (rows_in_order rw_order or_X) (in_order 0 rw_order mx_y) rs' = Ok s2 /\ reshuffles rw_order s1 s2.
Proof.
  intros bk. destruct (or_ob_possible bk) as (rs&s1&E). destruct (C106_row_order_oblivious rw_order bk ex_sk or_X mx_y rw_is_order eq_refl (no_ties_tests rw_order or_X rw_is_order rw_no_ties)) as (psi&_&H).
  specialize (H ex_empty ex_empty rs ex_heap_ok ex_heap_ok). rewrite E in H. destruct (ob_fit bk ex_sk ex_empty (rows_in_order rw_order or_X) (in_order 0 rw_order mx_y) (map psi rs)) as [s2| |] eqn:E2; try contradiction.
  exists rs, (map psi rs), s1, s2. auto.
Qed.
(** four rows, two and two the same: paired, with ties; a fit exists *)
Definition rw_X : matrix := Mx 1 [[fz 1]; [fz 2]; [fz 1]; [fz 2]].
Example C106_paired_case : paired rw_X /\ ~ no_ties rw_X /\ row_order [3; 1; 0; 2]%nat (length (mx_rows rw_X)) /\ forall bk, exists rs s1, fit bk ex_sk ex_empty rw_X [1; 2; 6; 3] rs = Ok s1.
Proof.
  split; [|split; [|split]].
  - intros i Li. simpl in Li. destruct i as [|[|[|[|i]]]]; [exists 2%nat|exists 3%nat|exists 0%nat|exists 1%nat|lia]; simpl; repeat split; auto; lia.
  - intros H. specialize (H 0%nat 0%nat 2%nat ltac:(simpl; lia) ltac:(simpl; lia)). discriminate.
  - apply NoDup_Permutation; [repeat constructor; simpl; intuition lia|apply seq_NoDup|]. intros x. simpl. intuition lia.
  - intros bk. assert (H : exists rs s', length rs = sk_nchains ex_sk /\ fit bk ex_sk ex_empty rw_X [1; 2; 6; 3] rs = Ok s').
    { apply (C66_fit_possible bk ex_sk ex_empty rw_X [1; 2; 6; 3] 2 1); try reflexivity; try exact mx_sane; try discriminate; try (simpl; lia).
      - intros r v Hr Hv. simpl in Hr, Hv. assert (v = 0%nat) as -> by lia. repeat (destruct Hr as [<-|Hr]; [discriminate|]); destruct Hr.
      - exists 0%nat, 1%nat, 2%nat. repeat split; simpl; try lia; discriminate.
      - exists 1, 2. simpl. repeat split; auto. lra. }
    destruct H as (rs&s1&_&E). eauto.
Qed.
(** with one chain of 4 index draws below 6, the 1296 possibilities *)
Example C106_likely_case : (forall k, (1 <= k <= length (mx_rows or_X))%nat -> Nat.divide k 6) /\
  forall bk r Xn (E : res report -> bool),
    times E (fun ls => reported (fit bk ex_sk ex_empty (rows_in_order rw_order or_X) (in_order 0 rw_order mx_y) (with_index [r] ls)) Xn) (draw_tables 1 4 6) =
    times E (fun ls => let! rp := reported (fit bk ex_sk ex_empty or_X mx_y (with_index [r] ls)) Xn in Ok (report_in_order rw_order rp)) (draw_tables 1 4 6).
Proof.
  assert (D : forall k, (1 <= k <= length (mx_rows or_X))%nat -> Nat.divide k 6).
  { intros k [H1 H2]. change (length (mx_rows or_X)) with 3%nat in H2. destruct k as [|[|[|[|k]]]]; try lia; [exists 6%nat|exists 3%nat|exists 2%nat]; reflexivity. }
  split; auto. intros bk r Xn E. apply (C106_as_likely rw_order bk ex_sk ex_empty ex_empty or_X mx_y Xn [r] 4 6 E rw_is_order eq_refl (no_ties_tests rw_order or_X rw_is_order rw_no_ties) ex_heap_ok ex_heap_ok D).
Qed.
