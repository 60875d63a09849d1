(** Property C107: see /verif/properties.jsonl. *)
From Coq Require Import Reals Lra Lia ZArith QArith Qcanon Permutation.
From Verif Require Import Base Fl Ext MData MSplit MTree MSampler MModel MModelHist MSklearn MFeatures MDiag MObSklearn Spec SpecModel SpecSklearn SpecInvariance SpecColumn SpecOrder SpecCopy.
From Verif Require Import PRel PRel2 PRel3 PInvar PSklearn PCol PSim2 PCopy Properties_Model Properties_Model2 Properties_Sklearn Properties_Invariance Properties_Column Properties_ObSklearn.
Local Open Scope R_scope.

Lemma copies_between p s1 s2 s3 s4 : follows (fun v => v) (fun X => X) s1 s2 -> copies_share p s2 s3 -> follows (fun v => v) (fun X => X) s3 s4 -> copies_share p s1 s4.
Proof.
  intros (A1&A2&A3&A4&A5&A6) (B1&B2&B3&B4&B5&B6) (C1&C2&C3&C4&C5&C6). apply same_eq in A1, C1. apply same_eq' in B1. split; [|split; [|split; [|split; [|split]]]]; try congruence.
  - apply same_eq'. congruence.
  - intros X F O. specialize (B2 X F O). apply same_eq' in B2. specialize (A2 (copies p X)). specialize (C2 X). apply same_eq in A2, C2. apply same_eq'. congruence.
  - intros v. rewrite C6, <- A6. apply B6.
Qed.

(** ** C107: copies of a column add nothing but weight *)
(** Fitting on a matrix in which columns are given more than once: to every sequence of draws there is another one - only
    index draws exchanged - after which the fit on the matrix with every column once ends the same way as the fit with
    the copies did, with the same predictions in-sample and for new rows (columns copied, too), the same acceptance
    traces, sigmas and tree depths, and a share of the splits for every column that is the sum of its copies' shares.
    Every sequence of draws is the exchanged one of some sequence of draws. *)
Theorem C107_copied_columns : forall p bk s X y, covers p (mx_ncols X) -> rectangular X ->
  exists psi, translates psi /\
  forall h h' rs, heap_ok h -> heap_ok h' -> same_outcome (copies_share p) (fit bk s h (copies p X) y rs) (fit bk s h' X y (map psi rs)).
Proof.
  intros p bk s X y O R. destruct (fit_sim p X O R s y) as (F&G&H). exists (ap F). split; [now apply ap_translates|]. intros h h' rs W W'. destruct (H rs) as [B V].
  pose proof (follow_settings bk Processes s s h h_empty (copies p X) y rs W h_empty_ok ltac:(repeat split)) as A.
  pose proof (follow_settings Processes bk (tsk p X s) s h_empty h' X y (map (ap F) rs) h_empty_ok W' ltac:(repeat split)) as C.
  rewrite B in C. destruct (fit bk s h (copies p X) y rs) as [s1|e|], (fit Processes s h_empty (copies p X) y rs) as [s2|e2|], (fit bk s h' X y (map (ap F) rs)) as [s4|e4|];
    cbn [rmap same_outcome] in *; try contradiction; auto; try congruence.
  eapply copies_between; eauto. apply tsk_copies; auto.
Qed.
Print Assumptions C107_copied_columns.
(** the same with the oblivious tree sampler *)
Theorem C107_copied_columns_oblivious : forall p bk s X y, covers p (mx_ncols X) -> rectangular X ->
  exists psi, translates psi /\
  forall h h' rs, heap_ok h -> heap_ok h' -> same_outcome (copies_share p) (ob_fit bk s h (copies p X) y rs) (ob_fit bk s h' X y (map psi rs)).
Proof.
  intros p bk s X y O R. destruct (ob_fit_sim p X O R s y) as (F&G&H). exists (ap F). split; [now apply ap_translates|]. intros h h' rs W W'. destruct (H rs) as [B V].
  pose proof (ob_follow_settings bk Processes s s h h_empty (copies p X) y rs W h_empty_ok ltac:(repeat split)) as A.
  pose proof (ob_follow_settings Processes bk (tsk p X s) s h_empty h' X y (map (ap F) rs) h_empty_ok W' ltac:(repeat split)) as C.
  rewrite B in C. destruct (ob_fit bk s h (copies p X) y rs) as [s1|e|], (ob_fit Processes s h_empty (copies p X) y rs) as [s2|e2|], (ob_fit bk s h' X y (map (ap F) rs)) as [s4|e4|];
    cbn [rmap same_outcome] in *; try contradiction; auto; try congruence.
  eapply copies_between; eauto. apply tsk_copies; auto.
Qed.
Print Assumptions C107_copied_columns_oblivious.

(** So what can be seen after a fit with copies can be seen after a fit without, and the other way round, with the same
    draws other than the index draws. *)
Definition other_draws (r : rng) := (rg_method r, rg_unif r, rg_norm r, rg_gamma r).
Lemma translated_others psi : translates psi -> forall rs, map other_draws (map psi rs) = map other_draws rs.
Proof. intros (A&_&_) rs. rewrite map_map. apply map_ext. intros r. destruct (A r) as (E1&E2&E3&E4). unfold other_draws. now rewrite E1, E2, E3, E4. Qed.
Lemma translated_back psi : translates psi -> forall rs', exists rs, map psi rs = rs'.
Proof. intros (_&_&A) rs'. induction rs' as [|r' rs' (rs&IH)]; [now exists []|]. destruct (A r') as (r&E). exists (r :: rs). cbn [map]. now rewrite E, IH. Qed.
Lemma shared_report p s' s X : copies_share p s' s -> rectangular X -> covers p (mx_ncols X) -> reported (Ok s') (copies p X) = reported (Ok s) X.
Proof.
  intros (A1&A2&A3&A4&A5&_) R C. specialize (A2 X R C). apply same_eq' in A1, A2. unfold reported. cbn [rbind]. now rewrite A1, A2, A3, A4, A5.
Qed.
Theorem C107_same_reports : forall p bk s h h' X y Xn others rp, covers p (mx_ncols X) -> rectangular X -> covers p (mx_ncols Xn) -> rectangular Xn -> heap_ok h -> heap_ok h' ->
  (exists rs, map other_draws rs = others /\ reported (fit bk s h (copies p X) y rs) (copies p Xn) = Ok rp) <->
  (exists rs, map other_draws rs = others /\ reported (fit bk s h' X y rs) Xn = Ok rp).
Proof.
  intros p bk s h h' X y Xn others rp C R Cn Rn W W'. destruct (C107_copied_columns p bk s X y C R) as (psi&T&H). split; intros (rs&<-&E).
  - exists (map psi rs). split; [now apply translated_others|]. specialize (H h h' rs W W').
    destruct (fit bk s h (copies p X) y rs) as [s1| |]; try discriminate. destruct (fit bk s h' X y (map psi rs)) as [s2| |]; try contradiction. rewrite <- E. symmetry. now apply (shared_report p).
  - destruct (translated_back psi T rs) as (rs'&<-). exists rs'. split; [symmetry; now apply translated_others|]. specialize (H h h' rs' W W').
    destruct (fit bk s h (copies p X) y rs') as [s1| |]; destruct (fit bk s h' X y (map psi rs')) as [s2| |]; try contradiction; try discriminate. rewrite <- E. now apply (shared_report p).
Qed.
Print Assumptions C107_same_reports.
Theorem C107_same_reports_oblivious : forall p bk s h h' X y Xn others rp, covers p (mx_ncols X) -> rectangular X -> covers p (mx_ncols Xn) -> rectangular Xn -> heap_ok h -> heap_ok h' ->
  (exists rs, map other_draws rs = others /\ reported (ob_fit bk s h (copies p X) y rs) (copies p Xn) = Ok rp) <->
  (exists rs, map other_draws rs = others /\ reported (ob_fit bk s h' X y rs) Xn = Ok rp).
Proof.
  intros p bk s h h' X y Xn others rp C R Cn Rn W W'. destruct (C107_copied_columns_oblivious p bk s X y C R) as (psi&T&H). split; intros (rs&<-&E).
  - exists (map psi rs). split; [now apply translated_others|]. specialize (H h h' rs W W').
    destruct (ob_fit bk s h (copies p X) y rs) as [s1| |]; try discriminate. destruct (ob_fit bk s h' X y (map psi rs)) as [s2| |]; try contradiction. rewrite <- E. symmetry. now apply (shared_report p).
  - destruct (translated_back psi T rs) as (rs'&<-). exists rs'. split; [symmetry; now apply translated_others|]. specialize (H h h' rs' W W').
    destruct (ob_fit bk s h (copies p X) y rs') as [s1| |]; destruct (ob_fit bk s h' X y (map psi rs')) as [s2| |]; try contradiction; try discriminate. rewrite <- E. now apply (shared_report p).
Qed.
Print Assumptions C107_same_reports_oblivious.

(** ** but they add weight *)
Lemma filter_add {A} (f : A -> bool) l l' : length (filter f (l ++ l')) = (length (filter f l) + length (filter f l'))%nat.
Proof. rewrite filter_app. apply app_length. Qed.
Lemma count_filter_map {A B} (f : B -> bool) (g : A -> B) l : length (filter f (map g l)) = length (filter (fun x => f (g x)) l).
Proof. induction l as [|x l IH]; cbn [map filter]; auto. destruct (f (g x)); cbn [length]; now rewrite IH. Qed.
Lemma map_nth_seq {A} (xs : list A) dflt : map (fun i => nth i xs dflt) (seq 0 (length xs)) = xs.
Proof. induction xs as [|x xs IH]; auto. cbn [length seq map nth]. f_equal. rewrite <- seq_shift, map_map. exact IH. Qed.
Lemma choose_count {A} (f : A -> bool) dflt xs q : xs <> [] -> length (filter (fun d => f (choose dflt xs d)) (seq 0 (q * length xs))) = (q * length (filter f xs))%nat.
Proof.
  intros N. assert (P : length xs <> O) by (destruct xs; simpl; congruence). induction q as [|q IH]; auto.
  replace (S q * length xs)%nat with (q * length xs + length xs)%nat by lia. rewrite seq_app, filter_add, IH. cbn [Nat.add].
  replace (length (filter (fun d => f (choose dflt xs d)) (seq (q * length xs) (length xs)))) with (length (filter f xs)); [lia|].
  rewrite <- (map_nth_seq xs dflt) at 1. rewrite count_filter_map.
  replace (seq (q * length xs) (length xs)) with (map (fun i => q * length xs + i)%nat (seq 0 (length xs))).
  - rewrite count_filter_map. f_equal. apply filter_ext_in. intros i I. apply in_seq in I. unfold choose. f_equal. f_equal.
    rewrite Nat.add_comm, Nat.mod_add by lia. rewrite Nat.mod_small; lia.
  - clear. generalize (q * length xs)%nat as a. generalize (length xs) as b. induction b as [|b IH]; intros a; auto. cbn [seq map]. f_equal; [lia|].
    rewrite <- (IH (S a)), <- (seq_shift b 0), map_map. apply map_ext. intros i. lia.
Qed.
(** A column that can be split on is drawn as many times more often as it has copies: of [M] equally likely index
    draws, [M] over the number of splittable columns, copies counted, for every copy. *)
Theorem C107_weight : forall p X mask k v M, covers p (mx_ncols X) -> rectangular X ->
  In v (fst (splittable_variables (make_covmat X mask k None None))) ->
  let c := make_covmat (copies p X) mask k None None in
  Nat.divide (length (fst (splittable_variables c))) M ->
  (drawn_among c (fun w => nth w p (mx_ncols X) =? v) M * length (fst (splittable_variables c)) = M * length (copies_of p v))%nat.
Proof.
  intros p X mask k v M C R I c (q&->).
  assert (W : wfc p X c) by (unfold wfc, c; simpl; repeat split).
  assert (T : tcm X c = make_covmat X mask k None None) by reflexivity.
  assert (L : (v < mx_ncols X)%nat) by (rewrite <- T in I; now apply splittable_in' in I as [L _]).
  assert (Hc : forall w, (w < length p)%nat -> In w (fst (splittable_variables c)) <-> In (iv p X w) (fst (splittable_variables (tcm X c)))) by (intros w Lw; symmetry; apply (splittable_tr p X C R c w W)).
  assert (N : fst (splittable_variables c) <> []).
  { intros E. rewrite <- T in I. destruct (splittable_onto p X C R c v W I) as (j&J&_). rewrite E in J. destruct J. }
  unfold drawn_among. rewrite (filter_ext (fun d => match random_splittable_variable c d with Ok w => _ | _ => false end) (fun d => (fun w => nth w p (mx_ncols X) =? v) (choose 0%nat (fst (splittable_variables c)) d))%nat).
  - rewrite (choose_count (fun w => nth w p (mx_ncols X) =? v)%nat) by exact N. replace (length (copies_of p v)) with (length (filter (fun w => nth w p (mx_ncols X) =? v) (fst (splittable_variables c)))%nat); [lia|].
    unfold copies_of. rewrite (splittable_eq X c) by (apply (wf_split p X c W)). replace (cm_nfeat c) with (length p) by reflexivity.
    assert (E : forall l, (forall w, In w l -> (w < length p)%nat) -> filter (fun w => nth w p (mx_ncols X) =? v)%nat (filter (fun w => is_not_constant (get_column c w)) l) = filter (fun w => nth w p v =? v)%nat l).
    { induction l as [|w l IH]; intros B; auto. assert (Bw : (w < length p)%nat) by (apply B; now left). specialize (IH (fun x Ix => B x (or_intror Ix))). cbn [filter].
      rewrite (nth_indep p v (mx_ncols X) Bw). destruct (is_not_constant (get_column c w)) eqn:F; cbn [filter]; [now rewrite IH|]. rewrite IH.
      destruct (Nat.eqb_spec (nth w p (mx_ncols X)) v) as [E|E]; auto. exfalso. assert (E' : iv p X w = v) by (unfold iv; rewrite <- E; now apply nth_indep).
      assert (J : In w (fst (splittable_variables c))) by (apply Hc; auto; rewrite E', T; exact I). apply (splittable_in p X c w W) in J as [_ J]. congruence. }
    rewrite E; auto. intros w Iw. apply in_seq in Iw. lia.
  - intros d. unfold random_splittable_variable. rewrite one_splittable_eq by (apply (wf_split p X c W)). destruct (fst (splittable_variables c)); [congruence|reflexivity].
Qed.
Print Assumptions C107_weight.
(** so a column's copies are not drawn as often as the column alone *)
Theorem C107_weight_refuted : exists p X mask k v M, covers p (mx_ncols X) /\ rectangular X /\
  (let c := make_covmat X mask k None None in let c' := make_covmat (copies p X) mask k None None in
   Nat.divide (length (fst (splittable_variables c))) M /\ Nat.divide (length (fst (splittable_variables c'))) M /\
   drawn_among c (fun w => w =? v) M <> drawn_among c' (fun w => nth w p (mx_ncols X) =? v) M)%nat.
Proof.
  exists [0; 0; 1]%nat, (Mx 2 [[fz 5; fz 1]; [fz 4; fz 2]; [fz 6; fz 3]]), [false; false; false], (PI 3 true), 0%nat, 6%nat. split; [|split; [|split; [|split]]].
  - intros v. simpl. lia.
  - repeat constructor.
  - now exists 3%nat.
  - now exists 2%nat.
  - vm_compute. discriminate.
Qed.
Print Assumptions C107_weight_refuted.

(** ** examples *)
(** three rows, three columns; the second given twice and the third three times, in another order *)
Definition cp_X : matrix := Mx 3 [[fz 5; fz 1; fz 7]; [fz 4; fz 2; fz 9]; [fz 6; fz 3; fz 8]].
Definition cp_p : list nat := [2; 1; 0; 2; 1; 2]%nat.
Lemma cp_covers : covers cp_p (mx_ncols cp_X) /\ rectangular cp_X.
Proof. split; [intros v; simpl; lia|repeat constructor]. Qed.
Lemma cp_possible bk : exists rs s1, fit bk ex_sk ex_empty (copies cp_p cp_X) mx_y rs = Ok s1.
Proof.
  assert (H : exists rs s', length rs = sk_nchains ex_sk /\ fit bk ex_sk ex_empty (copies cp_p cp_X) mx_y rs = Ok s').
  { apply (C66_fit_possible bk ex_sk ex_empty (copies cp_p cp_X) mx_y 2 1); try reflexivity; try exact mx_sane; try discriminate; try (simpl; lia).
    - intros r v Hr Hv. simpl in Hr, Hv. destruct v as [|[|[|[|[|[|v]]]]]]; [..|lia]; repeat (destruct Hr as [<-|Hr]; [discriminate|]); destruct Hr.
    - exists 1%nat, 1%nat, 2%nat. repeat split; simpl; try lia; discriminate.
    - exists 1, 2. simpl. repeat split; auto. lra. }
  destruct H as (rs&s1&_&E). eauto.
Qed.
Example C107_case : forall bk, copies cp_p cp_X = Mx 6 [[fz 7; fz 1; fz 5; fz 7; fz 1; fz 7]; [fz 9; fz 2; fz 4; fz 9; fz 2; fz 9]; [fz 8; fz 3; fz 6; fz 8; fz 3; fz 8]] /\
  exists rs rs' s1 s2, fit bk ex_sk ex_empty (copies cp_p cp_X) mx_y rs = Ok s1 /\ fit bk ex_sk ex_empty cp_X mx_y rs' = Ok s2 /\ copies_share cp_p s1 s2 /\
  same_outcome (fun d' d => map fst d' = [0; 3; 5]%nat /\ d = [(2%nat, rsum (map snd d'))]) (feature_split_proportions s1 (Some [0; 3; 5]%nat)) (feature_split_proportions s2 (Some [2%nat])).
Proof.
  intros bk. split; [reflexivity|]. destruct cp_covers as [O R]. destruct (cp_possible bk) as (rs&s1&E). destruct (C107_copied_columns cp_p bk ex_sk cp_X mx_y O R) as (psi&_&H).
  specialize (H ex_empty ex_empty rs ex_heap_ok ex_heap_ok). rewrite E in H. destruct (fit bk ex_sk ex_empty cp_X mx_y (map psi rs)) as [s2| |] eqn:E2; try contradiction.
  exists rs, (map psi rs), s1, s2. split; [assumption|]. split; [assumption|]. split; [exact H|]. destruct H as (_&_&_&_&_&B). exact (B 2%nat).
Qed.
Lemma cp_ob_possible bk : exists rs s1, ob_fit bk ex_sk ex_empty (copies cp_p cp_X) mx_y rs = Ok s1.
Proof.
  destruct (C89_fit_possible bk ex_sk ex_empty (copies cp_p cp_X) mx_y 2 1) as (rs&s1&_&_&E); try reflexivity; try exact mx_sane; try discriminate; try (simpl; lia).
  - intros r v Hr Hv. simpl in Hr, Hv. destruct v as [|[|[|[|[|[|v]]]]]]; [..|lia]; repeat (destruct Hr as [<-|Hr]; [discriminate|]); destruct Hr.
  - exists 1, 2. simpl. repeat split; auto. lra.
  - eauto.
Qed.
Example C107_oblivious_case : forall bk, exists rs rs' s1 s2,
  ob_fit bk ex_sk ex_empty (copies cp_p cp_X) mx_y rs = Ok s1 /\ ob_fit bk ex_sk ex_empty cp_X mx_y rs' = Ok s2 /\ copies_share cp_p s1 s2.
Proof.
  intros bk. destruct cp_covers as [O R]. destruct (cp_ob_possible bk) as (rs&s1&E). destruct (C107_copied_columns_oblivious cp_p bk ex_sk cp_X mx_y O R) as (psi&_&H).
  specialize (H ex_empty ex_empty rs ex_heap_ok ex_heap_ok). rewrite E in H. destruct (ob_fit bk ex_sk ex_empty cp_X mx_y (map psi rs)) as [s2| |] eqn:E2; try contradiction.
  exists rs, (map psi rs), s1, s2. auto.
Qed.
Example C107_reports_case : forall bk, exists rs s1, fit bk ex_sk ex_empty (copies cp_p cp_X) mx_y rs = Ok s1 /\ exists rs', map other_draws rs' = map other_draws rs /\
  reported (fit bk ex_sk ex_empty cp_X mx_y rs') cp_X = reported (Ok s1) (copies cp_p cp_X).
Proof.
  intros bk. destruct cp_covers as [O R]. destruct (cp_possible bk) as (rs&s1&E). exists rs, s1. split; [exact E|].
  destruct (reported (Ok s1) (copies cp_p cp_X)) as [rp| |] eqn:Er; [|unfold reported in Er; discriminate..].
  apply (C107_same_reports cp_p bk ex_sk ex_empty ex_empty cp_X mx_y cp_X (map other_draws rs) rp O R O R ex_heap_ok ex_heap_ok). exists rs. split; auto. now rewrite E.
Qed.
(** of 6 index draws, 3 give the third column, 2 the second and 1 the first *)
Example C107_weight_case : map (fun v => drawn_among (make_covmat (copies cp_p cp_X) [false; false; false] (PI 3 true) None None) (fun w => nth w cp_p 3 =? v)%nat 6) [0; 1; 2]%nat = [1; 2; 3]%nat /\
  map (fun v => length (copies_of cp_p v)) [0; 1; 2]%nat = [1; 2; 3]%nat.
Proof. vm_compute. auto. Qed.
