(** Property C104: see /verif/properties.jsonl. *)
From Coq Require Import Reals Lra Lia ZArith QArith Qcanon Permutation.
From Verif Require Import Base Fl Ext MData MSplit MTree MSampler MModel MModelHist MSklearn MFeatures MDiag MObSklearn Spec SpecModel SpecSklearn SpecInvariance SpecColumn SpecOrder.
From Verif Require Import PRel PRel2 PRel3 PInvar PSklearn PCol PSim PPerm Properties_Model Properties_Model2 Properties_Sklearn Properties_Invariance Properties_Column Properties_ObSklearn.
Local Open Scope R_scope.

Lemma same_refl_eq {A} (m m' : res A) : same_outcome eq m m' <-> m' = m.
Proof. split; [destruct m, m'; simpl; try contradiction; intros; now subst|intros ->; destruct m; simpl; auto]. Qed.
Lemma reorders_between p s1 s2 s3 s4 : follows (fun v => v) (fun X => X) s1 s2 -> reorders p s2 s3 -> follows (fun v => v) (fun X => X) s3 s4 -> reorders p s1 s4.
Proof.
  intros (A1&A2&A3&A4&A5&A6) (B1&B2&B3&B4&B5&B6&B7) (C1&C2&C3&C4&C5&C6). apply same_eq in A1, C1. apply same_eq' in B1. split; [|split; [|split; [|split; [|split; [|split]]]]]; try congruence.
  - apply same_eq'. congruence.
  - intros X F O. specialize (B2 X F O). apply same_eq' in B2. specialize (A2 X). specialize (C2 (reordered p X)). apply same_eq in A2, C2. apply same_eq'. congruence.
  - intros columns F. rewrite C6, <- A6. now apply B6.
Qed.

(** ** C104: the order of the columns is only a labelling *)
(** Fitting on the same columns in another order: to every sequence of draws there is another one - the columns'
    draws exchanged one to one, everything else as it was - after which the fit on the reordered matrix ends the same
    way as the fit on the matrix did, with the same predictions in-sample and for new rows (columns reordered, too),
    the same acceptance traces, sigmas and tree depths, and every column's share of the splits under its new number. *)
Theorem C104_column_order : forall p bk s X y, column_order p (mx_ncols X) -> rectangular X ->
  exists psi, exchanges (mx_ncols X) psi /\
  forall h h' rs, heap_ok h -> heap_ok h' -> same_outcome (reorders p) (fit bk s h X y rs) (fit bk s h' (reordered p X) y (map psi rs)).
Proof.
  intros p bk s X y O R. destruct (fit_sim p X O R s y) as (F&G&H). exists (ap F). split; [now apply ap_exchanges|]. intros h h' rs W W'. destruct (H rs) as [B V].
  pose proof (follow_settings bk Processes s s h h_empty X y rs W h_empty_ok ltac:(repeat split)) as A.
  pose proof (follow_settings Processes bk (tsk p X s) s h_empty h' (reordered p X) y (map (ap F) rs) h_empty_ok W' ltac:(repeat split)) as C.
  rewrite B in C. destruct (fit bk s h X y rs) as [s1|e|], (fit Processes s h_empty X y rs) as [s2|e2|], (fit bk s h' (reordered p X) y (map (ap F) rs)) as [s4|e4|];
    cbn [rmap same_outcome] in *; try contradiction; auto; try congruence.
  eapply reorders_between; eauto. apply tsk_reorders; auto.
Qed.
Print Assumptions C104_column_order.
(** the same with the oblivious tree sampler *)
Theorem C104_column_order_oblivious : forall p bk s X y, column_order p (mx_ncols X) -> rectangular X ->
  exists psi, exchanges (mx_ncols X) psi /\
  forall h h' rs, heap_ok h -> heap_ok h' -> same_outcome (reorders p) (ob_fit bk s h X y rs) (ob_fit bk s h' (reordered p X) y (map psi rs)).
Proof.
  intros p bk s X y O R. destruct (ob_fit_sim p X O R s y) as (F&G&H). exists (ap F). split; [now apply ap_exchanges|]. intros h h' rs W W'. destruct (H rs) as [B V].
  pose proof (ob_follow_settings bk Processes s s h h_empty X y rs W h_empty_ok ltac:(repeat split)) as A.
  pose proof (ob_follow_settings Processes bk (tsk p X s) s h_empty h' (reordered p X) y (map (ap F) rs) h_empty_ok W' ltac:(repeat split)) as C.
  rewrite B in C. destruct (ob_fit bk s h X y rs) as [s1|e|], (ob_fit Processes s h_empty X y rs) as [s2|e2|], (ob_fit bk s h' (reordered p X) y (map (ap F) rs)) as [s4|e4|];
    cbn [rmap same_outcome] in *; try contradiction; auto; try congruence.
  eapply reorders_between; eauto. apply tsk_reorders; auto.
Qed.
Print Assumptions C104_column_order_oblivious.

(** ** the exchange only permutes the equally likely draws *)
Lemma nodup_join {A} (l l' : list A) : NoDup l -> NoDup l' -> (forall x, In x l -> ~ In x l') -> NoDup (l ++ l').
Proof.
  induction 1 as [|x l I N IH]; intros N' D; auto. cbn [app]. constructor; [|apply IH; auto; intros y Iy; apply D; now right]. rewrite in_app_iff. intros [J|J]; auto. apply (D x); auto. now left.
Qed.
Lemma flat_map_cons_nodup {A} (xs : list A) (tl : list (list A)) : NoDup xs -> NoDup tl -> NoDup (flat_map (fun d => map (cons d) tl) xs).
Proof.
  intros N T. induction N as [|x xs I N IH]; [constructor|]. cbn [flat_map]. apply nodup_join; auto.
  - apply FinFun.Injective_map_NoDup; auto. now intros a b [=].
  - intros l Il Il'. apply in_map_iff in Il as (a&<-&_). apply in_flat_map in Il' as (z&Iz&J). apply in_map_iff in J as (b&[= -> _]&_). contradiction.
Qed.
Lemma draw_lists_nodup M : forall len, NoDup (draw_lists len M).
Proof. induction len as [|len IH]; [repeat constructor; auto|]. apply flat_map_cons_nodup; auto using seq_NoDup. Qed.
Lemma draw_lists_in M : forall len l, In l (draw_lists len M) <-> length l = len /\ Forall (fun d => (d < M)%nat) l.
Proof.
  induction len as [|len IH]; intros l; cbn [draw_lists].
  - split; [intros [<-|[]]; auto|]. intros [L _]. destruct l; [now left|discriminate].
  - rewrite in_flat_map. split.
    + intros (d&Id&J). apply in_map_iff in J as (l'&<-&J). apply IH in J as [J1 J2]. apply in_seq in Id. split; [cbn [length]; congruence|]. constructor; auto. lia.
    + intros [L F]. destruct l as [|d l']; [discriminate|]. inversion F; subst. exists d. split; [apply in_seq; lia|]. apply in_map, IH. auto.
Qed.
Lemma draw_tables_nodup M len : forall nc, NoDup (draw_tables nc len M).
Proof. induction nc as [|nc IH]; [repeat constructor; auto|]. apply flat_map_cons_nodup; auto using draw_lists_nodup. Qed.
Lemma draw_tables_in M len : forall nc ls, In ls (draw_tables nc len M) <-> length ls = nc /\ Forall (fun l => In l (draw_lists len M)) ls.
Proof.
  induction nc as [|nc IH]; intros l; cbn [draw_tables].
  - split; [intros [<-|[]]; auto|]. intros [L _]. destruct l; [now left|discriminate].
  - rewrite in_flat_map. split.
    + intros (d&Id&J). apply in_map_iff in J as (l'&<-&J). apply IH in J as [J1 J2]. split; [cbn [length]; congruence|]. constructor; auto.
    + intros [L F]. destruct l as [|d l']; [discriminate|]. inversion F; subst. exists d. split; auto. apply in_map, IH. auto.
Qed.
Section Likely.
Variables (n : nat) (psi : rng -> rng).
Hypothesis Hpsi : exchanges n psi.
Definition moved_table (base : list rng) (ls : list (list nat)) : list (list nat) := map (fun r => rg_index (psi r)) (with_index base ls).
Lemma psi_index r l : psi (rng_set_index r l) = rng_set_index r (rg_index (psi (rng_set_index r l))).
Proof. destruct Hpsi as (H&_). destruct (H (rng_set_index r l)) as (A&B&C&D). clear H. destruct (psi (rng_set_index r l)), r. unfold rng_set_index in *. simpl in *. subst. reflexivity. Qed.
Lemma moved_with base : forall ls, length ls = length base -> with_index base (moved_table base ls) = map psi (with_index base ls).
Proof.
  induction base as [|r base IH]; intros [|l ls]; try discriminate; auto. intros [= L]. unfold moved_table in *. cbn [with_index map]. rewrite IH by auto. now rewrite <- psi_index.
Qed.
Lemma moved_inj base : forall ls ls', length ls = length base -> length ls' = length base -> moved_table base ls = moved_table base ls' -> ls = ls'.
Proof.
  induction base as [|r base IH]; intros [|l ls] [|l' ls']; try discriminate; auto. intros [= L] [= L'] [= E1 E2]. f_equal; [|now apply IH].
  destruct Hpsi as (_&_&_&J). pose proof (psi_index r l) as A. rewrite E1, <- psi_index in A. apply J in A. now apply (f_equal rg_index) in A.
Qed.
Lemma moved_in base len M : (forall k, (1 <= k <= n)%nat -> Nat.divide k M) -> forall ls, In ls (draw_tables (length base) len M) -> In (moved_table base ls) (draw_tables (length base) len M).
Proof.
  intros HM ls. rewrite !draw_tables_in. destruct Hpsi as (_&HL&HB&_). revert ls. induction base as [|r base IH]; intros [|l ls]; intros [L F]; try discriminate; [now split|]. inversion F; subst. destruct (IH ls) as [L2 F2]; [split; auto|].
  unfold moved_table in *. cbn [with_index map]. split; [cbn [length]; congruence|]. constructor; auto. apply draw_lists_in. apply draw_lists_in in H1 as [H1 H3]. split; [rewrite HL; exact H1|]. now apply HB.
Qed.
Lemma moved_perm base len M : (forall k, (1 <= k <= n)%nat -> Nat.divide k M) -> Permutation (map (moved_table base) (draw_tables (length base) len M)) (draw_tables (length base) len M).
Proof.
  intros HM. set (L := draw_tables (length base) len M). apply NoDup_Permutation_bis.
  - assert (HL : forall ls, In ls L -> length ls = length base) by (intros ls I; now apply draw_tables_in in I). assert (ND : NoDup L) by apply draw_tables_nodup.
    clearbody L. induction ND as [|ls L I ND IH]; [constructor|]. cbn [map]. constructor; [|apply IH; intros; apply HL; now right].
    intros J. apply in_map_iff in J as (ls'&E&J). apply moved_inj in E; [subst; contradiction| |]; apply HL; [now right|now left].
  - now rewrite map_length.
  - intros x I. apply in_map_iff in I as (ls&<-&I). now apply moved_in.
Qed.
End Likely.
Lemma filter_length_perm {A} (f : A -> bool) l l' : Permutation l l' -> length (filter f l) = length (filter f l').
Proof. intros H. apply Permutation_length. now apply filter_perm. Qed.
Lemma filter_map_length {A B} (f : B -> bool) (g : A -> B) l : length (filter f (map g l)) = length (filter (fun x => f (g x)) l).
Proof. induction l as [|x l IH]; auto. cbn [map filter]. destruct (f (g x)); cbn [length]; now rewrite IH. Qed.
Lemma times_ext {A} (E : A -> bool) f g tables : (forall ls, In ls tables -> f ls = g ls) -> times E f tables = times E g tables.
Proof. intros H. unfold times. f_equal. apply filter_ext_in. intros ls I. now rewrite H. Qed.

(** Nothing a user sees is more or less likely after the columns are reordered.  The other draws being given, let the
    index draws of all chains be uniform below [M], a multiple of all numbers up to the number of columns: then every
    event [E] about what is seen of the fit happens after exactly as many of the possible index draws as it does for the
    reordered matrix. *)
Theorem C104_as_likely : forall p bk s h h' X y Xn base len M (E : res report -> bool),
  column_order p (mx_ncols X) -> rectangular X -> rectangular Xn -> mx_ncols Xn = mx_ncols X -> heap_ok h -> heap_ok h' ->
  (forall k, (1 <= k <= mx_ncols X)%nat -> Nat.divide k M) ->
  times E (fun ls => reported (fit bk s h' (reordered p X) y (with_index base ls)) (reordered p Xn)) (draw_tables (length base) len M) =
  times E (fun ls => reported (fit bk s h X y (with_index base ls)) Xn) (draw_tables (length base) len M).
Proof.
  intros p bk s h h' X y Xn base len M E O R Rn Nn W W' HM. destruct (C104_column_order p bk s X y O R) as (psi&Hpsi&H).
  unfold times. rewrite <- (filter_length_perm _ _ _ (moved_perm _ psi Hpsi base len M HM)), filter_map_length. f_equal. apply filter_ext_in. intros ls I.
  assert (L : length ls = length base) by (now apply draw_tables_in in I). rewrite (moved_with _ psi Hpsi base ls L). f_equal. specialize (H h h' (with_index base ls) W W').
  destruct (fit bk s h X y (with_index base ls)) as [s1|e|], (fit bk s h' (reordered p X) y (map psi (with_index base ls))) as [s2|e2|]; cbn [same_outcome] in H; try contradiction; [|now subst|reflexivity].
  destruct H as (A1&A2&A3&A4&A5&_). apply same_refl_eq in A1. specialize (A2 Xn Rn). rewrite (Permutation_length O), seq_length in A2. specialize (A2 Nn). apply same_refl_eq in A2.
  unfold reported. cbn [rbind]. now rewrite A1, A2, A3, A4, A5.
Qed.
Print Assumptions C104_as_likely.
(** the same with the oblivious tree sampler *)
Theorem C104_as_likely_oblivious : forall p bk s h h' X y Xn base len M (E : res report -> bool),
  column_order p (mx_ncols X) -> rectangular X -> rectangular Xn -> mx_ncols Xn = mx_ncols X -> heap_ok h -> heap_ok h' ->
  (forall k, (1 <= k <= mx_ncols X)%nat -> Nat.divide k M) ->
  times E (fun ls => reported (ob_fit bk s h' (reordered p X) y (with_index base ls)) (reordered p Xn)) (draw_tables (length base) len M) =
  times E (fun ls => reported (ob_fit bk s h X y (with_index base ls)) Xn) (draw_tables (length base) len M).
Proof.
  intros p bk s h h' X y Xn base len M E O R Rn Nn W W' HM. destruct (C104_column_order_oblivious p bk s X y O R) as (psi&Hpsi&H).
  unfold times. rewrite <- (filter_length_perm _ _ _ (moved_perm _ psi Hpsi base len M HM)), filter_map_length. f_equal. apply filter_ext_in. intros ls I.
  assert (L : length ls = length base) by (now apply draw_tables_in in I). rewrite (moved_with _ psi Hpsi base ls L). f_equal. specialize (H h h' (with_index base ls) W W').
  destruct (ob_fit bk s h X y (with_index base ls)) as [s1|e|], (ob_fit bk s h' (reordered p X) y (map psi (with_index base ls))) as [s2|e2|]; cbn [same_outcome] in H; try contradiction; [|now subst|reflexivity].
  destruct H as (A1&A2&A3&A4&A5&_). apply same_refl_eq in A1. specialize (A2 Xn Rn). rewrite (Permutation_length O), seq_length in A2. specialize (A2 Nn). apply same_refl_eq in A2.
  unfold reported. cbn [rbind]. now rewrite A1, A2, A3, A4, A5.
Qed.
Print Assumptions C104_as_likely_oblivious.

(** three rows, three columns, moved to the left by one: two chains fit both, with the last column's share of the splits
    under number 1 *)
Definition or_X : matrix := Mx 3 [[fz 5; fz 1; fz 7]; [fz 4; fz 2; fz 9]; [fz 6; fz 3; fz 8]].
Definition or_p : list nat := [1; 2; 0]%nat.
Lemma or_order : column_order or_p (mx_ncols or_X) /\ rectangular or_X.
Proof.
  split; [|repeat constructor]. unfold column_order, or_p. cbn. etransitivity; [apply perm_skip, perm_swap|]. apply perm_swap.
Qed.
Lemma or_possible bk : exists rs s1, fit bk ex_sk ex_empty or_X mx_y rs = Ok s1.
Proof.
  assert (H : exists rs s', length rs = sk_nchains ex_sk /\ fit bk ex_sk ex_empty or_X mx_y rs = Ok s').
  { apply (C66_fit_possible bk ex_sk ex_empty or_X mx_y 2 1); try reflexivity; try exact mx_sane; try discriminate; try (simpl; lia).
    - intros r v Hr Hv. simpl in Hr, Hv. destruct v as [|[|[|v]]]; [..|lia]; repeat (destruct Hr as [<-|Hr]; [discriminate|]); destruct Hr.
    - exists 1%nat, 1%nat, 2%nat. repeat split; simpl; try lia; discriminate.
    - exists 1, 2. simpl. repeat split; auto. lra. }
  destruct H as (rs&s1&_&E). eauto.
Qed.
Example C104_case : forall bk, reordered or_p or_X = Mx 3 [[fz 1; fz 7; fz 5]; [fz 2; fz 9; fz 4]; [fz 3; fz 8; fz 6]] /\
  exists rs rs' s1 s2, fit bk ex_sk ex_empty or_X mx_y rs = Ok s1 /\ fit bk ex_sk ex_empty (reordered or_p or_X) mx_y rs' = Ok s2 /\ reorders or_p s1 s2 /\
  sk_predict s2 (Some (reordered or_p or_X)) = sk_predict s1 (Some or_X) /\
  same_outcome (fun d d' => d' = map (fun q => (position or_p (fst q), snd q)) d) (feature_split_proportions s1 (Some [2%nat])) (feature_split_proportions s2 (Some [1%nat])).
Proof.
  intros bk. split; [reflexivity|]. destruct or_order as [O R]. destruct (or_possible bk) as (rs&s1&E). destruct (C104_column_order or_p bk ex_sk or_X mx_y O R) as (psi&_&H).
  specialize (H ex_empty ex_empty rs ex_heap_ok ex_heap_ok). rewrite E in H. destruct (fit bk ex_sk ex_empty (reordered or_p or_X) mx_y (map psi rs)) as [s2| |] eqn:E2; try contradiction.
  exists rs, (map psi rs), s1, s2. split; [assumption|]. split; [assumption|]. split; [exact H|]. destruct H as (_&A&_&_&_&B&_). split.
  - apply same_refl_eq, A; auto.
  - apply (B [2%nat]). repeat constructor.
Qed.
(** with one chain of 4 index draws below 6, the 1296 possibilities *)
Example C104_likely_case : length (draw_tables 1 4 6) = 1296%nat /\ (forall k, (1 <= k <= mx_ncols or_X)%nat -> Nat.divide k 6) /\
  forall bk r (E : res report -> bool),
    times E (fun ls => reported (fit bk ex_sk ex_empty (reordered or_p or_X) mx_y (with_index [r] ls)) (reordered or_p or_X)) (draw_tables 1 4 6) =
    times E (fun ls => reported (fit bk ex_sk ex_empty or_X mx_y (with_index [r] ls)) or_X) (draw_tables 1 4 6).
Proof.
  assert (D : forall k, (1 <= k <= mx_ncols or_X)%nat -> Nat.divide k 6).
  { intros k [H1 H2]. change (mx_ncols or_X) with 3%nat in H2. destruct k as [|[|[|[|k]]]]; try lia; [exists 6%nat|exists 3%nat|exists 2%nat]; reflexivity. }
  split; [vm_compute; reflexivity|]. split; auto. intros bk r E. destruct or_order as [O R].
  apply (C104_as_likely or_p bk ex_sk ex_empty ex_empty or_X mx_y or_X [r] 4 6 E O R R eq_refl ex_heap_ok ex_heap_ok D).
Qed.

Lemma or_ob_possible bk : exists rs s1, ob_fit bk ex_sk ex_empty or_X mx_y rs = Ok s1.
Proof.
  destruct (C89_fit_possible bk ex_sk ex_empty or_X mx_y 2 1) as (rs&s1&_&_&E); try reflexivity; try exact mx_sane; try discriminate; try (simpl; lia).
  - intros r v Hr Hv. simpl in Hr, Hv. destruct v as [|[|[|v]]]; [..|lia]; repeat (destruct Hr as [<-|Hr]; [discriminate|]); destruct Hr.
  - exists 1, 2. simpl. repeat split; auto. lra.
  - eauto.
Qed.
Example C104_oblivious_case : forall bk, exists rs rs' s1 s2,
  ob_fit bk ex_sk ex_empty or_X mx_y rs = Ok s1 /\ ob_fit bk ex_sk ex_empty (reordered or_p or_X) mx_y rs' = Ok s2 /\ reorders or_p s1 s2 /\
  sk_predict s2 (Some (reordered or_p or_X)) = sk_predict s1 (Some or_X).
Proof.
  intros bk. destruct or_order as [O R]. destruct (or_ob_possible bk) as (rs&s1&E). destruct (C104_column_order_oblivious or_p bk ex_sk or_X mx_y O R) as (psi&_&H).
  specialize (H ex_empty ex_empty rs ex_heap_ok ex_heap_ok). rewrite E in H. destruct (ob_fit bk ex_sk ex_empty (reordered or_p or_X) mx_y (map psi rs)) as [s2| |] eqn:E2; try contradiction.
  exists rs, (map psi rs), s1, s2. split; [assumption|]. split; [assumption|]. split; [exact H|]. destruct H as (_&A&_&_&_&B&_). apply same_refl_eq, A; auto.
Qed.
