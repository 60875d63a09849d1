(** C124: predict with an X of another dtype than the training data. *)
From Coq Require Import ZArith QArith Qcanon Reals List Lra Lia.
From Flocq Require Import Core.Core IEEE754.BinarySingleNaN.
From Verif Require Import Base Fl MFloat MData MSplit MConvert MPredictType Spec SpecDouble SpecConvert PCond PFloat PConvert Properties_Data.
Import ListNotations.
Local Open Scope R_scope.

(** the condition with the number its split value stands for *)
Definition plain (c : tcond) : scond := SC (tc_var c) (as_fl (tc_val c)) (tc_op c) None None.

Lemma compare_int a b : fl_compare (FFin (Q2Qc (inject_Z a))) (FFin (Q2Qc (inject_Z b))) = Some (a ?= b)%Z.
Proof.
  unfold fl_compare, flt, feqb, qc_ltb, qc_eqb. rewrite !qcmp, !q2r_z, !Rcompare_IZR. rewrite (Z.compare_antisym a b). destruct (a ?= b)%Z; reflexivity.
Qed.
Lemma compare_ok x t : moderate x -> moderate t -> compare_entries x t = fl_compare (as_fl x) (as_fl t).
Proof.
  intros X T. assert (K : forall a b : entry, moderate a -> moderate b -> fl_compare (as_fl a) (as_fl b) = Bcompare (to_float a) (to_float b)).
  { intros a b A B. rewrite <- compare_of. rewrite <- (as_fl_cast a A), <- (as_fl_cast b B). reflexivity. }
  destruct x as [z|b|y], t as [z'|b'|y']; cbn [compare_entries]; try (rewrite K by assumption; reflexivity); cbn [as_fl z_of]; rewrite compare_int; reflexivity.
Qed.
Lemma le_of a b : match fl_compare a b with Some Lt | Some Eq => true | _ => false end = fle a b.
Proof. unfold fl_compare, fle. destruct (flt a b); [reflexivity|]. destruct (feqb a b); [reflexivity|]. destruct (flt b a); reflexivity. Qed.
Lemma gt_of a b : match fl_compare a b with Some Gt => true | _ => false end = fgt a b.
Proof.
  unfold fl_compare, fgt. assert (X1 : flt a b = true -> flt b a = false).
  { destruct a as [| |p|], b as [| |q|]; cbn; try discriminate; try reflexivity. unfold qc_ltb, Qccompare. rewrite <- (Qcompare_antisym p q). destruct (p ?= q)%Q; try discriminate; reflexivity. }
  assert (X2 : feqb a b = true -> flt b a = false).
  { destruct a as [| |p|], b as [| |q|]; cbn; try discriminate; try reflexivity. unfold qc_ltb, qc_eqb, Qccompare. rewrite <- (Qcompare_antisym p q). destruct (p ?= q)%Q; try discriminate; reflexivity. }
  destruct (flt a b); [rewrite X1; reflexivity|]. destruct (feqb a b); [rewrite X2; reflexivity|]. destruct (flt b a); reflexivity.
Qed.

Lemma lt_of a b : match fl_compare a b with Some Lt => true | _ => false end = flt a b.
Proof. unfold fl_compare. destruct (flt a b); [reflexivity|]. destruct (feqb a b); [reflexivity|]. destruct (flt b a); reflexivity. Qed.
Lemma gt_ok x t : moderate x -> moderate t -> gt_entries x t = fgt (as_fl x) (as_fl t).
Proof. intros X T. unfold gt_entries. rewrite compare_ok by assumption. apply gt_of. Qed.
Lemma lt_ok x t : moderate x -> moderate t -> lt_entries x t = flt (as_fl x) (as_fl t).
Proof. intros X T. unfold lt_entries. rewrite compare_ok by assumption. apply lt_of. Qed.
Lemma le_ok x t : moderate x -> moderate t -> le_entries x t = fle (as_fl x) (as_fl t).
Proof. intros X T. unfold le_entries. rewrite compare_ok by assumption. apply le_of. Qed.

(** *** the bounds of the model with types and of the model without *)
Definition bplain (b : tcvc) : cvc := CV (as_fl (tv_min b)) (as_fl (tv_max b)).
Definition vplain (vb : nat * tcvc) : nat * cvc := (fst vb, bplain (snd vb)).
Definition bmod (b : tcvc) : Prop := moderate (tv_min b) /\ moderate (tv_max b).
Lemma add_plain b s : bmod b -> moderate (tc_val s) -> bplain (t_add b s) = add_condition (bplain b) (plain s) /\ bmod (t_add b s).
Proof.
  intros (B1 & B2) S. unfold t_add, add_condition, plain. cbn [sc_op sc_val]. destruct (tc_op s).
  - rewrite lt_ok by assumption. cbn [bplain cv_max cv_min]. destruct (flt (as_fl (tc_val s)) (as_fl (tv_max b))); repeat split; assumption.
  - rewrite gt_ok by assumption. cbn [bplain cv_max cv_min]. destruct (fgt (as_fl (tc_val s)) (as_fl (tv_min b))); repeat split; assumption.
  - repeat split; assumption.
Qed.
Lemma get_plain k d : dict_get k (map vplain d) = option_map bplain (dict_get k d).
Proof. induction d as [|[k' b] d IH]; [reflexivity|]. cbn. destruct (Nat.eqb k k'); [reflexivity|exact IH]. Qed.
Lemma set_plain k b d : map vplain (dict_set k b d) = dict_set k (bplain b) (map vplain d).
Proof. induction d as [|[k' b'] d IH]; [reflexivity|]. cbn. destruct (Nat.eqb k k'); cbn; [reflexivity|]. rewrite IH. reflexivity. Qed.
Lemma get_in {A} k (d : list (nat * A)) b : dict_get k d = Some b -> In (k, b) d.
Proof. induction d as [|[k' b'] d IH]; cbn; [discriminate|]. destruct (Nat.eqb k k') eqn:E; [apply Nat.eqb_eq in E; intros [= <-]; left; congruence|intros H; right; apply IH; exact H]. Qed.
Lemma set_in {A} k (a : A) d x : In x (dict_set k a d) -> x = (k, a) \/ In x d.
Proof. induction d as [|[k' b'] d IH]; cbn; [intros [<-|[]]; left; reflexivity|]. destruct (Nat.eqb k k'); cbn; intros [<-|H]; auto. destruct (IH H); auto. Qed.
Lemma in_set {A} k (a : A) d : In (k, a) (dict_set k a d).
Proof. induction d as [|[k' b'] d IH]; cbn; [left; reflexivity|]. destruct (Nat.eqb k k'); cbn; auto. Qed.
Lemma fold_plain cs : forall d vars, Forall (fun vb => bmod (snd vb)) d -> Forall (fun c => moderate (tc_val c)) cs -> t_fold d cs = Ok vars ->
  fold_conditions (map vplain d) (map plain cs) = Ok (map vplain vars) /\ Forall (fun vb => bmod (snd vb)) vars.
Proof.
  induction cs as [|c cs IH]; intros d vars D F H; cbn [t_fold fold_conditions map] in *; [injection H as <-; split; [reflexivity|exact D]|].
  change (sc_var (plain c)) with (tc_var c). rewrite get_plain. destruct (dict_get (tc_var c) d) as [b|] eqn:G; [|discriminate H]. cbn [option_map].
  inversion F as [|? ? Fc F']; subst. assert (B : bmod b) by (rewrite Forall_forall in D; exact (D _ (get_in _ _ _ G))).
  destruct (add_plain b c B Fc) as (E & B'). rewrite <- E, <- set_plain. apply IH; [|exact F'|exact H].
  apply Forall_forall. intros x I. destruct (set_in _ _ _ _ I) as [->|I']; [exact B'|rewrite Forall_forall in D; exact (D _ I')].
Qed.
Lemma row_plain vars r cs : Forall (fun vb => bmod (snd vb)) vars -> Forall moderate r -> t_row vars r = row_selected (CC (map vplain vars) cs) (map as_fl r).
Proof.
  intros V M. unfold t_row, row_selected. cbn [cc_vars]. induction V as [|[k b] vars (B1 & B2) V IH]; [reflexivity|]. cbn [map forallb]. rewrite <- IH. f_equal. cbn [fst snd vplain bplain cv_min cv_max]. cbn [snd] in B1, B2.
  assert (E : cell (map as_fl r) k = as_fl (nth k r (VFloat B754_nan))) by (unfold cell; change FNaN with (as_fl (VFloat B754_nan)); apply map_nth).
  assert (Mx : moderate (nth k r (VFloat B754_nan))) by (destruct (nth_in_or_default k r (VFloat B754_nan)) as [I| ->]; [rewrite Forall_forall in M; apply M; exact I|exact Logic.I]).
  rewrite E, gt_ok, le_ok by assumption. reflexivity.
Qed.
Lemma cond_plain vars a cs : Forall (fun vb => bmod (snd vb)) vars -> Forall (Forall moderate) (ar_rows a) -> t_condition vars a = cc_condition (CC (map vplain vars) cs) (arr_matrix a).
Proof.
  intros V M. unfold t_condition, cc_condition, arr_matrix. cbn [cc_vars mx_ncols mx_rows].
  assert (E : forall n, forallb (fun vb : nat * cvc => (fst vb <? n)%nat) (map vplain vars) = forallb (fun vb => (fst vb <? n)%nat) vars) by (clear; intros n; induction vars as [|v vars IH]; [reflexivity|]; cbn [map forallb]; rewrite IH; reflexivity).
  rewrite E. destruct (forallb _ vars); [|reflexivity]. f_equal. rewrite map_map. apply map_ext_in. intros r I. apply row_plain; [exact V|]. rewrite Forall_forall in M. exact (M r I).
Qed.
Lemma make_plain n cs vars : Forall (fun c => moderate (tc_val c)) cs -> t_make (seq 0 n) cs = Ok vars ->
  make_cc (seq 0 n) (map plain cs) = Ok (CC (map vplain vars) (map plain cs)) /\ Forall (fun vb => bmod (snd vb)) vars.
Proof.
  intros F H. unfold t_make in H. assert (K : forall d, Forall (fun vb => bmod (snd vb)) d -> t_fold d cs = Ok vars -> fold_conditions (map vplain d) (map plain cs) = Ok (map vplain vars) /\ Forall (fun vb => bmod (snd vb)) vars) by (intros d D Hd; exact (fold_plain cs d vars D F Hd)).
  eapply K in H; [destruct H as (E & B)|].
  2: (apply Forall_map; apply Forall_forall; intros v _; split; exact Logic.I).
  split; [|exact B]. unfold make_cc. rewrite map_map in E. unfold vplain at 1 in E. unfold bplain in E. cbn [fst snd tv_min tv_max as_fl fl_of] in E. rewrite E. reflexivity.
Qed.

(** As long as no integer among the split values and the new rows is beyond 2^53, it does not matter which of them are integers, booleans or
    floats: a row reaches a leaf exactly if it has no missing value or -inf and its numbers satisfy the conditions on the way. *)
Theorem C124_numbers : forall n cs vars a, t_make (seq 0 n) cs = Ok vars -> Forall (fun c => moderate (tc_val c) /\ tc_op c <> OpOther) cs ->
  Forall (Forall moderate) (ar_rows a) -> (n <= ar_ncols a)%nat ->
  t_condition vars a =
    Ok (map (fun r => row_clean n (map as_fl r) && forallb (fun c => is_nan (as_fl (tc_val c)) || cond_holds (plain c) (map as_fl r)) cs)%bool (ar_rows a)).
Proof.
  intros n cs vars a H F M L. destruct (make_plain n cs vars) as (E & B); [eapply Forall_impl; [|exact F]; cbn beta; tauto|exact H|].
  rewrite (cond_plain vars a (map plain cs) B M). rewrite (C13_selected_rows_exact n _ _ (arr_matrix a) E); [|apply Forall_map; eapply Forall_impl; [|exact F]; cbn beta; intros c (_ & O); exact O|exact L].
  unfold arr_matrix. cbn [mx_rows]. rewrite map_map. f_equal. apply map_ext. intros r. f_equal. clear. induction cs as [|c cs IH]; [reflexivity|]. cbn [map forallb]. rewrite IH. reflexivity.
Qed.
(** So predicting for X and for X.astype(float) is the same. *)
Theorem C124_as_floats : forall n cs vars a, t_make (seq 0 n) cs = Ok vars -> Forall (fun c => moderate (tc_val c)) cs -> Forall (Forall moderate) (ar_rows a) ->
  t_condition vars (Ar KFloat (ar_ncols a) (map (map (cast KFloat)) (ar_rows a))) = t_condition vars a.
Proof.
  intros n cs vars a H F M. destruct (make_plain n cs vars F H) as (_ & B). rewrite (cond_plain vars a [] B M), (cond_plain vars _ [] B).
  - f_equal. unfold arr_matrix. cbn [ar_ncols ar_rows]. f_equal. rewrite map_map. apply map_ext_in. intros r I. rewrite map_map. apply map_ext_in. intros e J.
    rewrite Forall_forall in M. specialize (M r I). rewrite Forall_forall in M. exact (as_fl_cast e (M e J)).
  - cbn [ar_rows]. apply Forall_map. apply Forall_forall. intros r _. apply Forall_map. apply Forall_forall. intros e _. exact Logic.I.
Qed.
Lemma set_keys {A} k (a : A) d b : dict_get k d = Some b -> map fst (dict_set k a d) = map fst d.
Proof. induction d as [|[k' b'] d IH]; cbn; [discriminate|]. destruct (Nat.eqb k k') eqn:E; cbn; [apply Nat.eqb_eq in E; intros _; congruence|intros H; rewrite IH by exact H; reflexivity]. Qed.
Lemma get_none {A} k (d : list (nat * A)) : dict_get k d = None <-> ~ In k (map fst d).
Proof.
  induction d as [|[k' b'] d IH]; cbn; [tauto|]. destruct (Nat.eqb k k') eqn:E.
  - apply Nat.eqb_eq in E. split; [discriminate|intros H; exfalso; apply H; left; congruence].
  - apply Nat.eqb_neq in E. rewrite IH. split; [intros H [G|G]; [congruence|exact (H G)]|tauto].
Qed.
Lemma fold_keys cs : forall d, (Forall (fun c => In (tc_var c) (map fst d)) cs -> exists vars, t_fold d cs = Ok vars /\ map fst vars = map fst d) /\
  (~ Forall (fun c => In (tc_var c) (map fst d)) cs -> t_fold d cs = Raise EKeyError).
Proof.
  induction cs as [|c cs IH]; intros d; cbn [t_fold]; [split; [intros _; exists d; split; reflexivity|intros H; exfalso; apply H; constructor]|].
  destruct (dict_get (tc_var c) d) as [b|] eqn:G.
  - assert (I : In (tc_var c) (map fst d)) by (apply get_in in G; apply (in_map fst) in G; exact G).
    destruct (IH (dict_set (tc_var c) (t_add b c) d)) as (A & B). rewrite (set_keys _ _ _ _ G) in A, B. split.
    + intros F. inversion F; subst. apply A. assumption.
    + intros F. apply B. intros F'. apply F. constructor; assumption.
  - apply get_none in G. split; [intros F; inversion F; subst; contradiction|reflexivity].
Qed.
Lemma start_keys n (b : tcvc) : map fst (map (fun v => (v, b)) (seq 0 n)) = seq 0 n.
Proof. rewrite map_map. cbn [fst]. apply map_id. Qed.
(** Conditions on known columns can be combined, others raise KeyError; an X with too few columns raises IndexError, whatever its dtype. *)
Theorem C124_errors : forall n cs,
  (Forall (fun c => (tc_var c < n)%nat) cs -> exists vars, t_make (seq 0 n) cs = Ok vars) /\
  (~ Forall (fun c => (tc_var c < n)%nat) cs -> t_make (seq 0 n) cs = Raise EKeyError) /\
  (forall vars a, t_make (seq 0 n) cs = Ok vars -> (ar_ncols a < n)%nat -> t_condition vars a = Raise EIndexError).
Proof.
  intros n cs. assert (K : Forall (fun c => (tc_var c < n)%nat) cs <-> Forall (fun c => In (tc_var c) (seq 0 n)) cs).
  { rewrite !Forall_forall. split; intros H c I; specialize (H c I); [apply in_seq; lia|apply in_seq in H; lia]. }
  unfold t_make. set (b0 := TV _ _). destruct (fold_keys cs (map (fun v => (v, b0)) (seq 0 n))) as (A & B). rewrite start_keys in A, B. split; [|split].
  - intros F. destruct (A (proj1 K F)) as (vars & E & _). exists vars. exact E.
  - intros F. apply B. intros F'. apply F. apply K. exact F'.
  - intros vars a E L. assert (F : Forall (fun c => In (tc_var c) (seq 0 n)) cs).
    { destruct (Forall_dec (fun c => In (tc_var c) (seq 0 n)) (fun c => in_dec Nat.eq_dec (tc_var c) (seq 0 n)) cs) as [F|F]; [exact F|]. rewrite (B F) in E. discriminate E. }
    destruct (A F) as (vars' & E' & Ks). rewrite E in E'. injection E' as <-. unfold t_condition. destruct (forallb (fun vb => (fst vb <? ar_ncols a)%nat) vars) eqn:C; [|reflexivity]. exfalso.
    rewrite forallb_forall in C. assert (I : In (ar_ncols a) (map fst vars)) by (rewrite Ks; apply in_seq; lia). apply in_map_iff in I. destruct I as (vb & Ev & I). specialize (C vb I). rewrite Ev in C. apply Nat.ltb_lt in C. lia.
Qed.
Lemma get_start v n m b : (m <= v < m + n)%nat -> dict_get v (map (fun k => (k, b)) (seq m n)) = Some (b : tcvc).
Proof. revert m. induction n as [|n IH]; intros m H; [lia|]. cbn. destruct (Nat.eqb v m) eqn:E; [reflexivity|]. apply Nat.eqb_neq in E. apply IH. lia. Qed.
Lemma int_inside z : int64 z -> gt_entries (VInt z) (VFloat (B754_infinity true)) = true /\ le_entries (VInt z) (VFloat (B754_infinity false)) = true.
Proof.
  intros H. unfold int64 in H. destruct (int_val z ltac:(lia)) as (F & _). unfold gt_entries, le_entries. cbn [compare_entries to_float]. destruct (z_to_f z) as [s|s| |s m e b]; try discriminate F; destruct s; split; reflexivity.
Qed.
(** (defect) Beyond 2^53 it need not be: every odd integer has another one such that, where int64 training data were split at the smaller of
    the two, a row with the larger goes right, but predict does not send it there when the same row comes as floats. *)
Theorem C124_as_floats_refuted : forall z, Z.odd z = true -> (2 ^ 53 < Z.abs z <= 2 ^ 62)%Z -> exists z', z' <> z /\ int64 z' /\
  forall n v, (v < n)%nat -> exists vars, t_make (seq 0 n) [TC v (VInt (Z.min z z')) OpGt] = Ok vars /\
    forall zs, length zs = n -> Forall int64 zs -> nth v zs 0%Z = Z.max z z' ->
      t_condition vars (Ar KInt n [map VInt zs]) = Ok [true] /\ t_condition vars (Ar KFloat n [map (cast KFloat) (map VInt zs)]) = Ok [false].
Proof.
  intros z O H. destruct (odd_merges z O H) as (z' & N & D & B & E). exists z'. split; [exact N|]. assert (I64 : int64 z') by (unfold int64; lia). split; [exact I64|].
  intros n v V. unfold t_make. cbn [t_fold tc_var]. rewrite get_start by lia. set (b0 := TV _ _).
  assert (Im : int64 (Z.min z z')) by (unfold int64 in *; lia). destruct (int_inside _ Im) as (G & _).
  assert (A : t_add b0 (TC v (VInt (Z.min z z')) OpGt) = TV (VInt (Z.min z z')) (VFloat (B754_infinity false))) by (unfold t_add; cbn [tc_op tc_val tv_min tv_max b0]; rewrite G; reflexivity).
  rewrite A. eexists. split; [reflexivity|]. intros zs Ln Fz Hz. set (d := dict_set _ _ _).
  assert (Dd : forall k b, In (k, b) d -> (k < n)%nat /\ (b = b0 \/ (k = v /\ b = TV (VInt (Z.min z z')) (VFloat (B754_infinity false))))).
  { intros k b I. destruct (set_in _ _ _ _ I) as [[= -> ->]|I']; [split; [exact V|right; split; reflexivity]|]. apply in_map_iff in I'. destruct I' as (k' & [= <- <-] & I'). apply in_seq in I'. split; [lia|left; reflexivity]. }
  unfold t_condition. cbn [ar_ncols ar_rows map].
  assert (C : forallb (fun vb : nat * tcvc => (fst vb <? n)%nat) d = true) by (apply forallb_forall; intros [k b] I; apply Nat.ltb_lt; exact (proj1 (Dd k b I))).
  rewrite C. assert (Nk : forall k, (k < n)%nat -> nth k (map VInt zs) (VFloat B754_nan) = VInt (nth k zs 0%Z)) by (intros k K; rewrite (nth_indep _ _ (VInt 0)) by (rewrite map_length; lia); apply map_nth).
  split; f_equal; f_equal.
  - apply forallb_forall. intros [k b] I. destruct (Dd k b I) as (K & Q). cbn [fst snd]. rewrite Nk by exact K.
    assert (Ik : int64 (nth k zs 0%Z)) by (rewrite Forall_forall in Fz; apply Fz; apply nth_In; lia). destruct (int_inside _ Ik) as (G1 & G2).
    destruct Q as [->|(-> & ->)]; cbn [tv_min tv_max b0]; rewrite G2; [rewrite G1; reflexivity|]. rewrite Hz. unfold gt_entries. cbn [compare_entries z_of].
    assert (L : (Z.min z z' < Z.max z z')%Z) by lia. rewrite (proj2 (Z.compare_gt_iff _ _) L). reflexivity.
  - apply Bool.not_true_is_false. intros T. unfold t_row in T. rewrite forallb_forall in T. specialize (T _ (in_set v _ _)). cbn [fst snd tv_min tv_max] in T. apply andb_prop in T. destruct T as (T & _).
    rewrite (nth_indep _ _ (cast KFloat (VFloat B754_nan))) in T by (rewrite !map_length; lia). rewrite map_nth, Nk, Hz in T by exact V. cbn [cast] in T. unfold gt_entries in T. cbn [compare_entries to_float] in T.
    assert (Es : z_to_f (Z.max z z') = z_to_f (Z.min z z')) by (destruct (Z.max_spec z z') as [(L & ->)|(L & ->)]; [rewrite Z.min_l by lia|rewrite Z.min_r by lia]; congruence).
    rewrite Es in T. unfold int64 in Im. destruct (int_val (Z.min z z') ltac:(lia)) as (F & _). rewrite (Bcompare_correct 53 1024 _ _ F F), Rcompare_Eq in T by reflexivity. discriminate T.
Qed.

(** int64 and boolean training columns; new rows of integers and booleans, and of floats *)
Example C124_case :
  let cs := [TC 0 (VInt 3) OpGt; TC 1 (VBool false) OpGt; TC 0 (VInt 5) OpLe] in
  Forall (fun c => moderate (tc_val c) /\ tc_op c <> OpOther) cs /\
  (let! vars := t_make (seq 0 2) cs in t_condition vars (Ar KInt 2 [[VInt 4; VInt 1]; [VInt 3; VInt 7]; [VInt 5; VInt 0]])) = Ok [true; false; false] /\
  (let! vars := t_make (seq 0 2) cs in t_condition vars (Ar KInt 1 [[VInt 4]])) = Raise EIndexError /\
  (let! vars := t_make (seq 0 2) cs in t_condition vars (Ar KFloat 2 [[VFloat (z_to_f 5); VFloat (z_to_f 7)]; [VFloat B754_nan; VFloat (z_to_f 7)]])) = Ok [true; false] /\
  (let! vars := t_make (seq 0 1) [TC 0 (VInt 9007199254740992) OpGt] in t_condition vars (Ar KInt 1 [[VInt 9007199254740993]])) = Ok [true] /\
  (let! vars := t_make (seq 0 1) [TC 0 (VInt 9007199254740992) OpGt] in t_condition vars (Ar KFloat 1 [[VFloat (z_to_f 9007199254740993)]])) = Ok [false].
Proof.
  split; [repeat (apply Forall_cons; [split; [cbn; try exact I; lia|discriminate]|]); apply Forall_nil|].
  vm_compute. repeat split; reflexivity.
Qed.

Print Assumptions C124_numbers.
Print Assumptions C124_as_floats.
Print Assumptions C124_as_floats_refuted.
Print Assumptions C124_errors.
Print Assumptions C124_case.
