(** Facts about the conversion of integers to doubles and about the values of converted entries. *)
From Coq Require Import ZArith QArith Qpower Qcanon Qreals Reals List Lra Lia.
From Flocq Require Import Core.Core IEEE754.BinarySingleNaN Relative.
From Verif Require Import Base Fl MFloat MData MConvert SpecDouble SpecConvert PFloat PFloat2.
Import ListNotations.
Local Open Scope R_scope.

#[local] Instance fx_valid : Valid_exp fx.
Proof. apply FLT_exp_valid. reflexivity. Qed.

Lemma izr_abs_le z n : (0 <= n)%Z -> (- 2 ^ n <= z <= 2 ^ n)%Z -> Rabs (IZR z) <= bpow radix2 n.
Proof.
  intros N H. rewrite <- IZR_Zpower by exact N. change (radix_val radix2 ^ n)%Z with (2 ^ n)%Z. apply Rabs_le. rewrite <- opp_IZR. split; apply IZR_le; lia.
Qed.
Lemma int_val z : (- 2 ^ 63 <= z <= 2 ^ 63)%Z -> finite (z_to_f z) /\ val (z_to_f z) = rnd (IZR z).
Proof.
  intros H. pose proof (binary_normalize_correct 53 1024 prec64 emax64 mode_NE z 0 false) as C. cbv zeta in C.
  change (round radix2 (SpecFloat.fexp 53 1024) (round_mode mode_NE)) with rnd in C.
  replace (F2R {| Fnum := z; Fexp := 0 |}) with (IZR z) in C by (unfold F2R; cbn; ring).
  rewrite Rlt_bool_true in C; [destruct C as (A & B & _); split; assumption|].
  apply Rle_lt_trans with (bpow radix2 63); [|apply bpow_lt; lia]. apply rnd_bound; [apply bpow_format; lia|]. apply izr_abs_le; lia.
Qed.
Lemma small_format z : (- 2 ^ 53 <= z <= 2 ^ 53)%Z -> F64 (IZR z).
Proof.
  intros H. destruct (Z.eq_dec (Z.abs z) (2 ^ 53)) as [E|N].
  - assert (K : z = (2 ^ 53)%Z \/ z = (- 2 ^ 53)%Z) by lia.
    assert (G : F64 (IZR (2 ^ 53))). { change (2 ^ 53)%Z with (radix_val radix2 ^ 53)%Z. rewrite IZR_Zpower by lia. apply bpow_format; lia. }
    destruct K as [->| ->]; [exact G|]. rewrite opp_IZR. apply generic_format_opp. exact G.
  - replace (IZR z) with (F2R (Float radix2 z 0)) by (unfold F2R; cbn; ring).
    apply generic_format_FLT. exists (Float radix2 z 0); [reflexivity| |cbn; lia].
    cbn [Fnum]. change (radix_val radix2 ^ 53)%Z with (2 ^ 53)%Z. lia.
Qed.
Lemma int_err z : Rabs (rnd (IZR z) - IZR z) <= u * Rabs (IZR z).
Proof.
  destruct (Z.eq_dec z 0) as [->|N]; [rewrite rnd_0, Rminus_0_r, Rabs_R0; lra|].
  assert (K := relative_error_N_FLT radix2 (-1074) 53 ltac:(lia) (fun x => negb (Z.even x)) (IZR z)). change (Znearest (fun x => negb (Z.even x))) with ZnearestE in K.
  replace (/ 2 * bpow radix2 (- (53) + 1)) with u in K. apply K.
  - rewrite <- abs_IZR. apply Rle_trans with 1; [change 1 with (bpow radix2 0); apply bpow_le; lia|]. apply IZR_le. lia.
  - change (/2) with (bpow radix2 (-1)). rewrite <- bpow_plus. reflexivity.
Qed.
(** above 2^53 a double is an even integer *)
Lemma big_even x : F64 x -> bpow radix2 53 <= Rabs x -> exists m : Z, x = IZR (2 * m).
Proof.
  intros G L. red in G. set (m := Ztrunc (scaled_mantissa radix2 fx x)) in G.
  assert (E : (1 <= cexp radix2 fx x)%Z).
  { unfold cexp, FLT_exp. assert (53 < mag radix2 x)%Z by (apply mag_gt_bpow; exact L). lia. }
  exists (m * 2 ^ (cexp radix2 fx x - 1))%Z. rewrite G at 1. unfold F2R. cbn [Fnum Fexp].
  replace (cexp radix2 fx x) with (1 + (cexp radix2 fx x - 1))%Z at 1 by ring. rewrite bpow_plus.
  rewrite !mult_IZR. change (2 ^ (cexp radix2 fx x - 1))%Z with (radix_val radix2 ^ (cexp radix2 fx x - 1))%Z. rewrite IZR_Zpower by lia. change (bpow radix2 1) with 2. ring.
Qed.
Lemma strict (x : b64) : finite x -> val x <> 0 -> is_finite_strict x = true.
Proof. intros F N. destruct x as [s|s| |s a b c]; try discriminate F; [exfalso; apply N|]; reflexivity. Qed.
Lemma odd_merges z : Z.odd z = true -> (2 ^ 53 < Z.abs z <= 2 ^ 62)%Z ->
  exists z', z' <> z /\ Rabs (IZR z' - IZR z) <= u * Rabs (IZR z) /\ (- 2 ^ 62 <= z' <= 2 ^ 62)%Z /\ z_to_f z' = z_to_f z.
Proof.
  intros O H. assert (G : F64 (rnd (IZR z))) by (apply generic_format_round; auto with typeclass_instances).
  assert (L : bpow radix2 53 <= Rabs (rnd (IZR z))).
  { apply abs_round_ge_generic; auto with typeclass_instances; [apply bpow_format; lia|]. rewrite <- IZR_Zpower by lia. rewrite <- abs_IZR. apply IZR_le. change (radix_val radix2 ^ 53)%Z with (2 ^ 53)%Z. lia. }
  destruct (big_even _ G L) as (m & Em). exists (2 * m)%Z.
  assert (B : Rabs (IZR (2 * m)) <= bpow radix2 62) by (rewrite <- Em; apply rnd_bound; [apply bpow_format; lia|apply izr_abs_le; lia]).
  assert (B' : (- 2 ^ 62 <= 2 * m <= 2 ^ 62)%Z).
  { rewrite <- IZR_Zpower in B by lia. change (radix_val radix2 ^ 62)%Z with (2 ^ 62)%Z in B. rewrite <- abs_IZR in B. apply le_IZR in B. lia. }
  split; [intros K; rewrite <- K, Z.odd_mul in O; discriminate O|]. split; [rewrite <- Em; apply int_err|]. split; [exact B'|].
  destruct (int_val (2 * m)%Z ltac:(lia)) as (F1 & V1). destruct (int_val z ltac:(lia)) as (F2 & V2).
  assert (V : val (z_to_f (2 * m)) = val (z_to_f z)) by (rewrite V1, V2, <- Em; apply rnd_id; exact G).
  assert (Nz : rnd (IZR z) <> 0) by (intros K; rewrite K, Rabs_R0 in L; pose proof (bpow_gt_0 radix2 53); lra).
  apply B2R_inj; [| |exact V]; apply strict; auto; congruence.
Qed.

(** *** the value of a double, as a rational *)
Lemma q2r_z z : Q2R (inject_Z z) = IZR z.
Proof. unfold Q2R, inject_Z. cbn. field. Qed.
Lemma q2r_pow e : Q2R (Qpower (2 # 1) e) = bpow radix2 e.
Proof.
  assert (P : forall e, (0 <= e)%Z -> Q2R (Qpower (2 # 1) e) = bpow radix2 e).
  { intros n H. rewrite <- IZR_Zpower by exact H. rewrite <- q2r_z. apply Qeq_eqR. change (2 # 1)%Q with (inject_Z 2). rewrite <- Zpower_Qpower by exact H. reflexivity. }
  destruct (Z_le_gt_dec 0 e) as [H|H]; [apply P; exact H|].
  replace e with (- (- e))%Z by ring. rewrite bpow_opp, <- P by lia. rewrite <- Q2R_inv.
  - apply Qeq_eqR. apply Qpower_opp.
  - intros K. apply Qeq_eqR in K. rewrite P in K by lia. rewrite RMicromega.Q2R_0 in K. pose proof (bpow_gt_0 radix2 (-e)). lra.
Qed.
Lemma fl_of_finite x : finite x -> exists q, fl_of x = FFin (Q2Qc q) /\ Q2R q = val x.
Proof.
  intros F. destruct x as [s|s| |s m e b]; try discriminate F.
  - exists 0%Q. split; [reflexivity|]. cbn. apply RMicromega.Q2R_0.
  - eexists. split; [reflexivity|]. rewrite Q2R_mult, q2r_z, q2r_pow. reflexivity.
Qed.
Lemma fl_of_int x z : finite x -> val x = IZR z -> fl_of x = FFin (Q2Qc (inject_Z z)).
Proof.
  intros F V. destruct (fl_of_finite x F) as (q & -> & Q). f_equal. apply Q2Qc_eq_iff. apply eqR_Qeq. rewrite Q, V, q2r_z. reflexivity.
Qed.
Lemma small_int z : (- 2 ^ 53 <= z <= 2 ^ 53)%Z -> finite (z_to_f z) /\ val (z_to_f z) = IZR z.
Proof. intros H. destruct (int_val z ltac:(lia)) as (F & V). split; [exact F|]. rewrite V. apply rnd_id. apply small_format. exact H. Qed.
Lemma as_fl_cast e : moderate e -> as_fl (VFloat (to_float e)) = as_fl e.
Proof.
  intros H. destruct e as [z|b|x]; cbn [to_float as_fl].
  - destruct (small_int z H) as (F & V). apply fl_of_int; assumption.
  - destruct (small_int (if b then 1 else 0)%Z ltac:(destruct b; lia)) as (F & V). apply fl_of_int; assumption.
  - reflexivity.
Qed.

(** *** kinds *)
Lemma fold_object l : fold_left common l KObject = KObject.
Proof. induction l as [|[]]; auto. Qed.
Lemma fold_float l : Forall (fun k => k = KInt \/ k = KFloat) l -> fold_left common l KFloat = KFloat.
Proof. induction 1 as [|k l [->| ->]]; auto. Qed.
Lemma mixed_kind l : In KFloat l -> Forall (fun k => k = KInt \/ k = KFloat) l -> common_kind l = KFloat.
Proof.
  intros I F. destruct l as [|k l]; [destruct I|]. inversion F as [|? ? [->| ->] F']; subst; cbn [common_kind].
  - destruct I as [D|I]; [discriminate D|]. clear F. induction F' as [|k l [->| ->] F' IH]; [destruct I| |].
    + apply IH. destruct I as [D|I]; [discriminate D|exact I].
    + apply fold_float. exact F'.
  - apply fold_float. exact F'.
Qed.
Lemma one_kind l k : Forall (fun k' => k' = k) l -> l <> [] -> common_kind l = k.
Proof.
  assert (P : forall l, Forall (fun k' => k' = k) l -> fold_left common l k = k).
  { induction 1 as [|a l0 -> F IH]; [reflexivity|]. cbn. replace (common k k) with k by (destruct k; reflexivity). exact IH. }
  intros F N. destruct F as [|a l -> F]; [congruence|]. cbn. apply P. exact F.
Qed.
Lemma common_num k k' : common k k' = KBool -> k = KBool /\ k' = KBool.
Proof. destruct k, k'; cbn; intros H; try discriminate H; auto. Qed.
Lemma fold_bool l k : fold_left common l k = KBool -> k = KBool /\ Forall (fun a => a = KBool) l.
Proof.
  revert k. induction l as [|a l IH]; intros k H; cbn in H; [auto|]. apply IH in H. destruct H as (H & F). apply common_num in H. destruct H; subst. auto.
Qed.
Lemma fold_with_bool l k : k <> KBool -> In KBool l -> fold_left common l k = KObject.
Proof.
  revert k. induction l as [|a l IH]; intros k N I; [destruct I|]. cbn. destruct I as [->|I].
  - replace (common k KBool) with KObject by (destruct k; auto; congruence). apply fold_object.
  - destruct (common k a) eqn:E; try (apply IH; [discriminate|exact I]).
    apply common_num in E. destruct E. congruence.
Qed.
Lemma bool_kind l k : In KBool l -> In k l -> k <> KBool -> common_kind l = KObject.
Proof.
  intros B K N. destruct l as [|a l]; [destruct B|]. cbn [common_kind]. destruct a.
  2:{ destruct K as [K|K]; [congruence|]. clear B. revert K. induction l as [|b l IH]; intros K; [destruct K|]. cbn [fold_left].
      destruct K as [->|K]; [replace (common KBool k) with KObject by (destruct k; auto; congruence); apply fold_object|].
      destruct b; cbn [common]; try apply fold_object. apply IH. exact K. }
  all: destruct B as [B|B]; [discriminate B|]; apply fold_with_bool; [discriminate|exact B].
Qed.
Lemma cast_twice k e : cast KFloat (cast k e) = cast KFloat e.
Proof. destruct k; reflexivity. Qed.
Lemma format_rows X : ar_rows (format_covariate_matrix X) = map (map (cast KFloat)) (rows_of X).
Proof.
  destruct X as [a|f]; [reflexivity|]. unfold format_covariate_matrix. cbn. rewrite map_map. apply map_ext. intros r. rewrite map_map. apply map_ext. intros e. apply cast_twice.
Qed.
Lemma at_cell_map g rows i j : at_cell (map (map g) rows) i j = option_map g (at_cell rows i j).
Proof. unfold at_cell. rewrite nth_error_map. destruct (nth_error rows i); cbn; [apply nth_error_map|reflexivity]. Qed.

(** *** comparisons *)
Lemma qcmp p q : Qccompare (Q2Qc p) (Q2Qc q) = Rcompare (Q2R p) (Q2R q).
Proof.
  unfold Qccompare. cbn [this Q2Qc]. rewrite (Qcompare_comp _ _ (Qred_correct p) _ _ (Qred_correct q)). symmetry.
  destruct (Qcompare_spec p q) as [E|L|G].
  - apply Rcompare_Eq. apply Qeq_eqR. exact E.
  - apply Rcompare_Lt. apply Qlt_Rlt. exact L.
  - apply Rcompare_Gt. apply Qlt_Rlt. exact G.
Qed.
Definition fl_compare (a b : fl) : option comparison :=
  if flt a b then Some Lt else if feqb a b then Some Eq else if flt b a then Some Gt else None.
Lemma compare_of x y : fl_compare (fl_of x) (fl_of y) = Bcompare x y.
Proof.
  destruct (@is_finite 53 1024 x) eqn:Fx; [destruct (@is_finite 53 1024 y) eqn:Fy|].
  - destruct (fl_of_finite x Fx) as (p & -> & P). destruct (fl_of_finite y Fy) as (q & -> & Q). rewrite (Bcompare_correct 53 1024 x y Fx Fy).
    fold (val x) (val y). rewrite <- P, <- Q. unfold fl_compare, flt, feqb, qc_ltb, qc_eqb. rewrite !qcmp. rewrite (Rcompare_sym (Q2R q) (Q2R p)).
    destruct (Rcompare (Q2R p) (Q2R q)); reflexivity.
  - destruct x as [s|s| |s m e b]; try discriminate Fx; destruct y as [[]|[]| |[] m' e' b']; try discriminate Fy; destruct s; reflexivity.
  - destruct x as [s|s| |s m e b]; try discriminate Fx; destruct y as [[]|[]| |[] m' e' b']; try (destruct s); reflexivity.
Qed.
