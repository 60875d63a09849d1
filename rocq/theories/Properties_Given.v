(** Property C87: a Data object built with explicit arguments. *)
From Coq Require Import Reals Lra.
From Verif Require Import Base Fl Ext MData MSplit MHist Spec SpecGiven LFl LList PData PSplit PDataProps PCond PGiven Properties_Data.

(** without a mask every row counts *)
Theorem C87_default_mask : forall X y nrm u l ys n i, i < length y ->
  make_data X y None nrm u l ys n = make_data X y (Some (repeat false (length y))) nrm u l ys n /\ unmasked (repeat false (length y)) i = true.
Proof.
  intros X y nrm u l ys n i Hi. split; [reflexivity|]. unfold unmasked. rewrite (nth_error_nth' _ false) by (now rewrite repeat_length).
  rewrite nth_repeat. reflexivity.
Qed.
Print Assumptions C87_default_mask.
(** The sum of y: a given y_sum is believed until the target is replaced; otherwise it is the sum over the unmasked rows. *)
Theorem C87_sum : forall X y mask nrm u l ys n os s, given X y mask nrm u l ys n os s -> Forall stays_here os ->
  answer (summed_y (d_y (sp_data s))) =
  Ok (match ys with
      | Some v => if sets_target os then sum_over (unmasked mask) (last_target (start_target y nrm) os) (length (mx_rows X)) else v
      | None => sum_over (unmasked mask) (last_target (start_target y nrm) os) (length (mx_rows X))
      end).
Proof.
  intros X y mask nrm u l ys n os s Hg Hh. destruct (given_spec _ _ _ _ _ _ _ _ _ _ Hg Hh) as (_&Ht&Hl).
  destruct (tinv_sum _ _ _ _ Ht Hl) as (t'&E&_). rewrite E. unfold answer. f_equal. destruct Hg as (_&Hm&_).
  assert (Es : masked_sum (last_target (start_target y nrm) os) mask = sum_over (unmasked mask) (last_target (start_target y nrm) os) (length (mx_rows X))).
  { symmetry. apply sum_over_masked_sum; auto. congruence. }
  unfold told, trust. destruct ys as [v|]; destruct (sets_target os); auto.
Qed.
Print Assumptions C87_sum.
(** The count: a given n_obsv is believed for ever; otherwise it is the number of unmasked rows. *)
Theorem C87_count : forall X y mask nrm u l ys n os s, given X y mask nrm u l ys n os s -> Forall stays_here os ->
  reported_n s = match n with Some n => pz n | None => Z.of_nat (count (unmasked mask) (length (mx_rows X))) end /\
  forall i, in_node s i <-> unmasked mask i = true.
Proof.
  intros X y mask nrm u l ys n os s Hg Hh. destruct (given_spec _ _ _ _ _ _ _ _ _ _ Hg Hh) as (Hk&_). split.
  - unfold reported_n. rewrite (k_n _ _ _ _ _ _ Hk). destruct n; auto. cbn [pz]. f_equal. symmetry. apply count_count_false. apply Hg.
  - intros i. unfold in_node, d_mask, unmasked. rewrite (k_mask _ _ _ _ _ _ Hk). destruct (nth_error mask i) as [[]|]; split; congruence.
Qed.
Print Assumptions C87_count.
(** Splittable columns: an entry False is believed, every other entry is looked up in the rows. *)
Theorem C87_splittable : forall X y mask nrm u l ys n os s v, no_nan X -> given X y mask nrm u l ys n os s -> Forall stays_here os ->
  In v (fst (splittable_variables (cov s))) <->
  v < mx_ncols X /\ fact l v <> Some false /\
  exists k i j, k < i /\ k < j /\ unmasked mask k = true /\ unmasked mask i = true /\ unmasked mask j = true /\ value_in X i v <> value_in X j v.
Proof.
  intros X y mask nrm u l ys n os s v Hn Hg Hh. destruct (given_spec _ _ _ _ _ _ _ _ _ _ Hg Hh) as (Hk&_).
  rewrite (k_offered _ _ _ _ _ _ Hk), filter_In, in_seq. set (nn := match n with Some _ => _ | None => _ end) in *.
  assert (Hl : length (cm_mask (base X mask nn)) = length (mx_rows (cm_X (base X mask nn)))) by apply Hg.
  assert (Hu : forall i, unmasked mask i = true <-> nth_error mask i = Some false).
  { intros i. unfold unmasked. destruct (nth_error mask i) as [[]|]; split; congruence. }
  unfold offer. split.
  - intros [Hv Ho]. split; [lia|]. assert (Hf : fact l v <> Some false) by (intros E; rewrite E in Ho; discriminate). split; auto.
    assert (Hc : is_not_constant (get_column (base X mask nn) v) = true) by (destruct (fact l v) as [[]|]; auto; discriminate).
    apply (column_splittable_iff (base X mask nn) v Hl Hn) in Hc as (k&i&j&A&B&C&D&E&F); [|simpl; lia].
    exists k, i, j. rewrite !Hu. auto 10.
  - intros (Hv&Hf&k&i&j&A&B&C&D&E&F). split; [lia|]. rewrite !Hu in *.
    assert (Hc : is_not_constant (get_column (base X mask nn) v) = true).
    { apply (column_splittable_iff (base X mask nn) v Hl Hn); [simpl; lia|]. exists k, i, j. auto 10. }
    rewrite Hc. destruct (fact l v) as [[]|]; auto.
Qed.
Print Assumptions C87_splittable.
(** A column given as not splittable is never offered again: not in the object and in none of its descendants. *)
Theorem C87_hidden_for_ever : forall X y mask nrm u l ys n os s v, given X y mask nrm u l ys n os s -> v < mx_ncols X ->
  fact l v = Some false -> ~ In v (fst (splittable_variables (cov s))).
Proof.
  intros X y mask nrm u l ys n os s v (_&_&_&Hl&_&d&s0&Ed&Es&Hr) Hv Hf. apply hidden_not.
  destruct l as [l|]; [|discriminate]. specialize (Hl l eq_refl). simpl in Hf. unfold make_data in Ed. destruct (make_target _ _ _ _); try discriminate. injection Ed as <-.
  unfold make_split in Es. destruct (make_cc _ _); try discriminate. injection Es as <-. eapply hidden_run; [| |exact Hr]; [|exact Hv].
  unfold hidden. simpl. rewrite map_length, Hl. split; auto.
  rewrite (map_nth (fun x => match x with Some false => x | _ => None end) l None v : nth v (map _ _) None = _). now rewrite Hf.
Qed.
Print Assumptions C87_hidden_for_ever.
(** Unique columns: an entry True is believed; otherwise a column counts as unique when it has as many different values in the
    unmasked rows as the reported number of rows. *)
Theorem C87_unique : forall X y mask nrm u l ys n os s v, given X y mask nrm u l ys n os s -> Forall stays_here os -> v < mx_ncols X ->
  answer (is_column_unique (cov s) v) =
  Ok (match fact u v with
      | Some (PyBool true) => true
      | _ => (Z.of_nat (n_unique (map (fun r => cell r v) (select mask (mx_rows X)))) =? reported_n s)%Z
      end).
Proof.
  intros X y mask nrm u l ys n os s v Hg Hh Hv. destruct (given_spec _ _ _ _ _ _ _ _ _ _ Hg Hh) as (Hk&_).
  unfold reported_n. rewrite (k_n _ _ _ _ _ _ Hk).
  destruct (is_column_unique_total (cov s) v) as (b&c'&E); [now rewrite (k_nfeat _ _ _ _ _ _ Hk)|]. rewrite E. simpl.
  destruct (k_uniq _ _ _ _ _ _ _ _ _ Hk E) as (_&_&->). reflexivity.
Qed.
Print Assumptions C87_unique.
(** Nothing of this is checked: wrong facts are reported as they were given, and the proportion of a value follows. *)
Definition gx_X : matrix := Mx 2 [[fz 1; fz 5]; [fz 2; fz 5]; [fz 3; fz 5]; [fz 4; fz 7]].
Theorem C87_checked_refuted : exists s, given gx_X [1; 2; 3; 4]%R [false; false; false; true] false
    (Some [None; Some (PyBool true)]) (Some [Some false; Some true]) (Some 100%R) (Some (PI 9 false)) [] s /\
  answer (summed_y (d_y (sp_data s))) = Ok 100%R /\ sum_over (unmasked [false; false; false; true]) [1; 2; 3; 4]%R 4 = 6%R /\
  reported_n s = 9%Z /\
  fst (splittable_variables (cov s)) = [] /\
  answer (is_column_unique (cov s) 1) = Ok true /\
  answer (proportion_of_value_in_variable (cov s) 1 (fz 5)) = Ok (XFin (/ 9)).
Proof.
  eexists. split; [|split; [|split; [|split; [|split; [|split]]]]].
  - repeat split; try reflexivity; [intros ? [= <-]; reflexivity|intros ? [= <-]; reflexivity|constructor|]. do 2 eexists. repeat split; reflexivity.
  - reflexivity.
  - simpl. lra.
  - reflexivity.
  - vm_compute. reflexivity.
  - reflexivity.
  - simpl. unfold xdiv. destruct (Req_EM_T 9 0); [lra|]. do 2 f_equal. lra.
Qed.
Print Assumptions C87_checked_refuted.
(** a history in which the wrong sum is given up *)
Example C87_case : exists s, given gx_X [1; 2; 3; 4]%R [false; false; false; true] false None None (Some 100%R) None
    [CSum; CSplittable; CSetY [5; 6; 7; 8]%R; CUnique 0] s /\
  answer (summed_y (d_y (sp_data s))) = Ok (5 + 6 + 7)%R /\ reported_n s = 3%Z /\ fst (splittable_variables (cov s)) = [0].
Proof.
  assert (G : exists s, given gx_X [1; 2; 3; 4]%R [false; false; false; true] false None None (Some 100%R) None
    [CSum; CSplittable; CSetY [5; 6; 7; 8]%R; CUnique 0] s /\ reported_n s = 3%Z /\ fst (splittable_variables (cov s)) = [0]).
  { eexists. split; [|split; [|]]; [repeat split; try reflexivity; try discriminate; [repeat constructor|]; do 2 eexists; repeat split; reflexivity|reflexivity|vm_compute; reflexivity]. }
  destruct G as (s&G&G2&G3). exists s. split; auto. split; auto.
  rewrite (C87_sum _ _ _ _ _ _ _ _ _ _ G ltac:(repeat constructor)). simpl. f_equal. lra.
Qed.
