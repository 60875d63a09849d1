(** C121: what fit and make_bartpy_data make of integers, booleans and mixed columns. *)
From Coq Require Import ZArith QArith Qcanon Reals List Lra Lia.
From Flocq Require Import Core.Core IEEE754.BinarySingleNaN.
From Verif Require Import Base Fl MFloat MData MSklearn MConvert Spec SpecDouble SpecConvert PFloat PConvert.
Import ListNotations.
Local Open Scope R_scope.

(** make_bartpy_data keeps the shape and turns every entry into a double: a double stays as it is, True and False become 1 and 0, and an
    int64 becomes a finite double within a relative 2^-53 of it, equal to it up to 2^53. *)
Theorem C121_floats : forall X i j e, at_cell (rows_of X) i j = Some e -> in_range e ->
  ar_kind (format_covariate_matrix X) = KFloat /\ ar_ncols (format_covariate_matrix X) = columns_of X /\ map (@length _) (ar_rows (format_covariate_matrix X)) = map (@length _) (rows_of X) /\
  exists x, at_cell (ar_rows (format_covariate_matrix X)) i j = Some (VFloat x) /\
    match e with
    | VFloat y => x = y
    | VBool b => finite x /\ val x = (if b then 1 else 0)
    | VInt z => finite x /\ Rabs (val x - IZR z) <= bpow radix2 (-53) * Rabs (IZR z) /\ ((- 2 ^ 53 <= z <= 2 ^ 53)%Z -> val x = IZR z)
    end.
Proof.
  intros X i j e H R. split; [reflexivity|]. split; [destruct X; reflexivity|]. split.
  - rewrite format_rows, map_map. apply map_ext. intros r. apply map_length.
  - exists (to_float e). rewrite format_rows, at_cell_map, H. split; [reflexivity|]. destruct e as [z|b|y]; cbn [to_float].
    + red in R. red in R. destruct (int_val z ltac:(lia)) as (F & V). split; [exact F|]. split; [rewrite V; apply int_err|]. intros M. apply small_int. exact M.
    + destruct (small_int (if b then 1 else 0)%Z ltac:(destruct b; lia)) as (F & V). split; [exact F|]. rewrite V. destruct b; reflexivity.
    + reflexivity.
Qed.
(** What the sampler sees of two doubles, or of two integers of an int64 array, is how they compare: below, equal, above, or, with a NaN, none. *)
Theorem C121_compare : forall (x y : b64) (z z' : Z) c,
  (flt (as_fl (VFloat x)) (as_fl (VFloat y)) = true <-> Bcompare x y = Some Lt) /\
  (feqb (as_fl (VFloat x)) (as_fl (VFloat y)) = true <-> Bcompare x y = Some Eq) /\
  (fgt (as_fl (VFloat x)) (as_fl (VFloat y)) = true <-> Bcompare x y = Some Gt) /\
  (Qccompare (Q2Qc (inject_Z z)) (Q2Qc (inject_Z z')) = c <-> (z ?= z')%Z = c).
Proof.
  intros x y z z' c. cbn [as_fl]. pose proof (compare_of x y) as E. unfold fl_compare in E. unfold fgt.
  assert (X1 : forall a b, flt a b = true -> feqb a b = false /\ flt b a = false).
  { intros [| |p|] [| |q|]; cbn; try discriminate; try (split; reflexivity). unfold qc_ltb, qc_eqb. unfold Qccompare. rewrite <- (Qcompare_antisym p q). destruct (p ?= q)%Q; try discriminate. split; reflexivity. }
  assert (X2 : forall a b, feqb a b = true -> flt b a = false).
  { intros [| |p|] [| |q|]; cbn; try discriminate; try reflexivity. unfold qc_ltb, qc_eqb. unfold Qccompare. rewrite <- (Qcompare_antisym p q). destruct (p ?= q)%Q; try discriminate. reflexivity. }
  split; [|split; [|split]].
  - destruct (flt (fl_of x) (fl_of y)) eqn:A; rewrite <- E; [split; reflexivity|]. split; [discriminate|].
    destruct (feqb (fl_of x) (fl_of y)); [discriminate|]. destruct (flt (fl_of y) (fl_of x)); discriminate.
  - destruct (flt (fl_of x) (fl_of y)) eqn:A; rewrite <- E; [destruct (X1 _ _ A) as (K & _); rewrite K; split; discriminate|].
    destruct (feqb (fl_of x) (fl_of y)) eqn:B; [split; reflexivity|]. split; [discriminate|]. destruct (flt (fl_of y) (fl_of x)); discriminate.
  - destruct (flt (fl_of x) (fl_of y)) eqn:A; rewrite <- E; [destruct (X1 _ _ A) as (_ & K); rewrite K; split; discriminate|].
    destruct (feqb (fl_of x) (fl_of y)) eqn:B; [rewrite (X2 _ _ B); split; discriminate|]. destruct (flt (fl_of y) (fl_of x)); split; try discriminate; reflexivity.
  - rewrite qcmp, !q2r_z, Rcompare_IZR. tauto.
Qed.
(** It never reverses the order of two integers; *)
Theorem C121_order : forall X i i' j z z', at_cell (rows_of X) i j = Some (VInt z) -> at_cell (rows_of X) i' j = Some (VInt z') ->
  int64 z -> int64 z' -> (z <= z')%Z ->
  exists x x', at_cell (ar_rows (format_covariate_matrix X)) i j = Some (VFloat x) /\ at_cell (ar_rows (format_covariate_matrix X)) i' j = Some (VFloat x') /\
    val x <= val x'.
Proof.
  intros X i i' j z z' H H' R R' L. exists (z_to_f z), (z_to_f z'). rewrite format_rows, !at_cell_map, H, H'. split; [reflexivity|]. split; [reflexivity|].
  red in R, R'. destruct (int_val z ltac:(lia)) as (_ & V). destruct (int_val z' ltac:(lia)) as (_ & V'). rewrite V, V'. apply rnd_le. apply IZR_le. exact L.
Qed.
(** but beyond 2^53 every odd integer becomes the same double as another integer. *)
Theorem C121_merges : forall z, Z.odd z = true -> (2 ^ 53 < Z.abs z <= 2 ^ 62)%Z ->
  exists z', z' <> z /\ int64 z' /\ Rabs (IZR z' - IZR z) <= bpow radix2 (-53) * Rabs (IZR z) /\ cast KFloat (VInt z') = cast KFloat (VInt z).
Proof.
  intros z O H. destruct (odd_merges z O H) as (z' & N & D & B & E). exists z'. split; [exact N|]. split; [split; lia|]. split; [exact D|]. cbn. now rewrite E.
Qed.

(** fit does not convert to float: it uses the entries of an array, of columns of one dtype, and of columns that have no common number type
    as they are; *)
Theorem C121_fit_keeps : forall X, ar_ncols (fit_array X) = columns_of X /\
  match X with
  | InArr a => fit_array X = a
  | InFrame f => (forall k, Forall (fun k' => k' = k) (df_kinds f) -> df_kinds f <> [] -> well_typed f -> ar_rows (fit_array X) = df_rows f /\ ar_kind (fit_array X) = k) /\
      (forall k, In KBool (df_kinds f) -> In k (df_kinds f) -> k <> KBool -> ar_rows (fit_array X) = df_rows f /\ ar_kind (fit_array X) = KObject)
  end.
Proof.
  intros [a|f]; [split; reflexivity|]. split; [reflexivity|]. split.
  - intros k A N W. cbn. assert (K : common_kind (df_kinds f) = k).
    { apply one_kind; assumption. }
    rewrite K. split; [|reflexivity]. transitivity (map (fun r => r) (df_rows f)); [|apply map_id]. apply map_ext_in. intros r I. red in W. rewrite Forall_forall in W. specialize (W r I).
    transitivity (map (fun r => r) r); [|apply map_id]. apply map_ext_in. intros e J. destruct k; try reflexivity. clear -W J A.
    induction W as [|k e' ks es O W IH]; [destruct J|]. inversion A; subst. destruct J as [->|J]; [|auto]. destruct e; try destruct O. reflexivity.
  - intros k B K N. cbn. rewrite (bool_kind _ k B K N). split; [|reflexivity]. transitivity (map (fun r => r) (df_rows f)); [|apply map_id]. apply map_ext. intros r. apply map_id.
Qed.
(** but integer columns beside a float column are turned into doubles as make_bartpy_data does. *)
Theorem C121_fit_mixed : forall f, mixed f -> fit_array (InFrame f) = format_covariate_matrix (InFrame f).
Proof.
  intros f (I & F). unfold format_covariate_matrix, ensure_float_array. cbn. unfold frame_values. rewrite (mixed_kind _ I F). cbn. f_equal.
  rewrite map_map. apply map_ext. intros r. rewrite map_map. apply map_ext. intros e. reflexivity.
Qed.
(** So as long as no integer is beyond 2^53, the model is the same on a DataFrame or an array as on its float version,
    and make_bartpy_data gives the data that fit works on; *)
Theorem C121_same_model : forall X y ys, Forall (Forall moderate) (rows_of X) -> Forall moderate ys ->
  arr_matrix (fit_array X) = arr_matrix (format_covariate_matrix X) /\
  fit_data X y = fit_data (InArr (format_covariate_matrix X)) y /\
  make_bartpy_data X ys true = fit_data X (map written ys).
Proof.
  intros X y ys M Y. assert (E : arr_matrix (fit_array X) = arr_matrix (format_covariate_matrix X)); [|split; [exact E|]; split; [unfold fit_data; rewrite E; reflexivity|]].
  2:{ unfold make_bartpy_data, fit_data, convert_to_data. rewrite E. f_equal. apply map_ext_in. intros e I. rewrite Forall_forall in Y. specialize (Y e I). destruct e as [z|b|x]; cbn [to_float written].
      - apply small_int. exact Y.
      - destruct (small_int (if b then 1 else 0)%Z ltac:(destruct b; lia)) as (_ & V). unfold val in V. rewrite V. destruct b; reflexivity.
      - reflexivity. }
  unfold arr_matrix. f_equal. rewrite format_rows.
  assert (K : exists k, ar_rows (fit_array X) = map (map (cast k)) (rows_of X)).
  { destruct X as [a|f]; [exists KInt|exists (common_kind (df_kinds f)); reflexivity]. cbn. symmetry. transitivity (map (fun r : list entry => r) (ar_rows a)); [|apply map_id]. apply map_ext. intros r. apply map_id. }
  destruct K as (k & ->). rewrite !map_map. apply map_ext_in. intros r I. rewrite !map_map. apply map_ext_in. intros e J.
  rewrite Forall_forall in M. specialize (M r I). rewrite Forall_forall in M. specialize (M e J). destruct k; cbn [cast]; rewrite ?as_fl_cast by exact M; reflexivity.
Qed.
(** and beyond 2^53 it need not be: for every odd integer there is another one such that two rows that differ in these two entries of an
    integer column satisfy the same split conditions if there is a float column, whatever the rest of the data, though among integer
    columns only there is a condition that holds for one of them and not for the other. *)
Theorem C121_told_apart_refuted : forall z, Z.odd z = true -> (2 ^ 53 < Z.abs z <= 2 ^ 62)%Z -> exists z', z' <> z /\ int64 z' /\
  forall f i i' pre post, nth_error (df_rows f) i = Some (pre ++ VInt z :: post) -> nth_error (df_rows f) i' = Some (pre ++ VInt z' :: post) ->
    exists r r', nth_error (mx_rows (arr_matrix (fit_array (InFrame f)))) i = Some r /\ nth_error (mx_rows (arr_matrix (fit_array (InFrame f)))) i' = Some r' /\
      (mixed f -> forall c, cond_holds c r = cond_holds c r') /\
      (Forall (fun k => k = KInt) (df_kinds f) -> well_typed f -> exists c, sc_var c = length pre /\ cond_holds c r <> cond_holds c r').
Proof.
  intros z O H. destruct (odd_merges z O H) as (z' & N & D & B & E). exists z'. split; [exact N|]. split; [split; lia|].
  intros f i i' pre post A A'. set (k := common_kind (df_kinds f)).
  assert (G : forall n r, nth_error (df_rows f) n = Some r -> nth_error (mx_rows (arr_matrix (fit_array (InFrame f)))) n = Some (map as_fl (map (cast k) r))).
  { intros n r Hn. cbn. rewrite !nth_error_map. fold k. rewrite Hn. reflexivity. }
  eexists. eexists. split; [apply G; exact A|]. split; [apply G; exact A'|]. split.
  - intros (I & F) c. unfold k. rewrite (mixed_kind _ I F). rewrite !map_app. cbn [map cast to_float as_fl]. rewrite E. reflexivity.
  - intros F W. assert (NE : df_kinds f <> []).
    { intros K. red in W. rewrite Forall_forall in W. specialize (W _ (nth_error_In _ _ A)). rewrite K in W. inversion W as [Q|]. destruct pre; discriminate. }
    assert (K : k = KInt).
    { unfold k. apply one_kind; assumption. }
    rewrite K. exists (SC (length pre) (FFin (Q2Qc (inject_Z (Z.min z z')))) OpLe None None). split; [reflexivity|].
    unfold cond_holds, cell. cbn [sc_op sc_var sc_val]. rewrite !map_app. cbn [map cast as_fl].
    assert (P : forall x l, nth (length pre) (map as_fl (map (cast KInt) pre) ++ x :: l) FNaN = x).
    { intros x l. rewrite app_nth2 by (rewrite !map_length; lia). rewrite !map_length, Nat.sub_diag. reflexivity. }
    rewrite !P. assert (L : forall a b : Z, fle (FFin (Q2Qc (inject_Z a))) (FFin (Q2Qc (inject_Z b))) = (a <=? b)%Z).
    { intros a b. unfold fle, flt, feqb, qc_ltb, qc_eqb, Qccompare. cbn [this Q2Qc].
      replace (Qred (inject_Z a) ?= Qred (inject_Z b))%Q with (a ?= b)%Z.
      - unfold Z.leb. destruct (a ?= b)%Z; reflexivity.
      - rewrite (Qcompare_comp _ _ (Qred_correct (inject_Z a)) _ _ (Qred_correct (inject_Z b))). unfold Qcompare. cbn. rewrite !Z.mul_1_r. reflexivity. }
    rewrite !L. destruct (Z.leb_spec z (Z.min z z')), (Z.leb_spec z' (Z.min z z')); try discriminate; lia.
Qed.

(** Which columns can be split is answered for a bool, integer or float array as the rest of the model says; for a DataFrame with a bool
    column beside a column of another dtype the question raises NotImplementedError once two rows are left. *)
Theorem C121_splittable : forall a mask n, ar_kind a <> KObject ->
  arr_splittable a mask = Ok (fst (splittable_variables (make_covmat (arr_matrix a) mask n None None))).
Proof.
  intros a mask n N. unfold arr_splittable, splittable_variables, true_indices, fill_splittable, make_covmat, cm_nfeat, get_column. cbn -[seq].
  set (g := fun i => is_not_constant (map (fun r => cell (map as_fl r) i) (select mask (ar_rows a)))).
  assert (S : forall cols, splittable_loop (ar_kind a) cols (select mask (ar_rows a)) = Ok (filter g cols)).
  { induction cols as [|i l IH]; [reflexivity|]. cbn [splittable_loop filter]. rewrite IH.
    assert (Hc : not_constant (ar_kind a) (map (fun r => cell (map as_fl r) i) (select mask (ar_rows a))) = Ok (g i)).
    { unfold not_constant, g, is_not_constant. destruct (length _ <=? 1)%nat; [reflexivity|]. destruct (ar_kind a); congruence. }
    rewrite Hc. cbn. destruct (g i); reflexivity. }
  rewrite S. f_equal. rewrite map_length, seq_length. apply filter_ext_in. intros i I. apply in_seq in I.
  rewrite (nth_indep _ None (Some (g 0%nat))) by (rewrite map_length, seq_length; lia).
  set (h := fun i0 : nat => _). change (Some (g 0%nat)) with (Some (g 0%nat)).
  assert (Hh : forall j, (j < ar_ncols a)%nat -> h j = Some (g j)).
  { intros j Hj. unfold h. rewrite nth_repeat. unfold g. do 2 f_equal. clear. revert mask. induction (ar_rows a) as [|r l IH]; intros [|b m]; try reflexivity. destruct b; cbn; rewrite ?IH; auto. }
  rewrite (nth_indep _ _ (h 0%nat)) by (rewrite map_length, seq_length; lia). rewrite map_nth, seq_nth by lia. rewrite Hh by lia. cbn. destruct (g i); reflexivity.
Qed.
Theorem C121_mixed_bool : forall f k mask, In KBool (df_kinds f) -> In k (df_kinds f) -> k <> KBool ->
  (2 <= length (select mask (df_rows f)))%nat ->
  arr_splittable (fit_array (InFrame f)) mask = Raise ENotImplementedError /\
  exists l, arr_splittable (format_covariate_matrix (InFrame f)) mask = Ok l.
Proof.
  intros f k mask B K N L. split.
  - unfold arr_splittable. cbn. rewrite (bool_kind _ k B K N). destruct (df_kinds f) as [|k0 ks]; [destruct B|]. cbn [length seq splittable_loop].
    assert (Q : (length (select mask (map (map (cast KObject)) (df_rows f))) = length (select mask (df_rows f)))%nat).
    { clear. revert mask. induction (df_rows f) as [|r l IH]; intros [|b m]; try reflexivity. destruct b; cbn; rewrite ?IH; reflexivity. }
    unfold not_constant. rewrite map_length, Q. destruct (Nat.leb_spec (length (select mask (df_rows f))) 1); [lia|]. reflexivity.
  - eexists. apply (C121_splittable _ _ (PI 0 false)). discriminate.
Qed.

(** three rows with an identifier and a flag or a measurement *)
Definition ids : list (list entry) := [[VInt 9007199254740993; VInt 1]; [VInt 9007199254740992; VInt 1]; [VInt 5; VInt 2]].
Example C121_case :
  let f := Df [KInt; KInt] ids in
  let g := Df [KInt; KFloat] (map (fun r => match r with [a; b] => [a; VFloat (to_float b)] | _ => r end) ids) in
  let h := Df [KInt; KBool] (map (fun r => match r with [a; b] => [a; VBool true] | _ => r end) ids) in
  well_typed f /\ mixed g /\ well_typed g /\ well_typed h /\
  map (fun r => feqb (cell r 0) (fz 9007199254740992)) (mx_rows (arr_matrix (fit_array (InFrame f)))) = [false; true; false] /\
  map (fun r => feqb (cell r 0) (fz 9007199254740992)) (mx_rows (arr_matrix (fit_array (InFrame g)))) = [true; true; false] /\
  arr_splittable (fit_array (InFrame f)) [false; false; true] = Ok [] /\
  arr_splittable (fit_array (InFrame f)) [false; false; false] = Ok [0; 1]%nat /\
  arr_splittable (fit_array (InFrame h)) [false; false; false] = Raise ENotImplementedError.
Proof.
  split; [repeat constructor|]. split; [split; [right; left; reflexivity|apply Forall_cons; [auto|]; apply Forall_cons; [auto|]; apply Forall_nil]|].
  split; [repeat constructor|]. split; [repeat constructor|]. vm_compute. repeat split; reflexivity.
Qed.

Print Assumptions C121_floats.
Print Assumptions C121_compare.
Print Assumptions C121_order.
Print Assumptions C121_merges.
Print Assumptions C121_fit_keeps.
Print Assumptions C121_fit_mixed.
Print Assumptions C121_same_model.
Print Assumptions C121_told_apart_refuted.
Print Assumptions C121_splittable.
Print Assumptions C121_mixed_bool.
Print Assumptions C121_case.
