(** C123: float32 targets: the normalisation is done in single precision. *)
From Coq Require Import ZArith Reals List Lra Lia.
From Flocq Require Import Core.Core IEEE754.BinarySingleNaN.
From Verif Require Import Base Ext MData MSingle SpecSingle PSingle PSingle2.
From Verif Require MFloat MSingle2 SpecDouble PSingle3.
Import ListNotations.
Local Open Scope R_scope.

Lemma small_same a b y : smallest a y -> smallest b y -> val a = val b.
Proof.
  intros [Ia La] [Ib Lb]. rewrite Forall_forall in La, Lb. apply Rle_antisym; auto.
Qed.
Lemma large_same a b y : largest a y -> largest b y -> val a = val b.
Proof.
  intros [Ia La] [Ib Lb]. rewrite Forall_forall in La, Lb. apply Rle_antisym; auto.
Qed.
Lemma scale_same lo hi lo' hi' : finite lo -> finite hi -> finite lo' -> finite hi' ->
  val lo = val lo' -> val hi = val hi' -> finite (scale_f lo hi) -> finite (scale_f lo' hi').
Proof.
  intros F1 F2 F3 F4 E1 E2 H. pose proof (fsub_fin hi lo F2 F1 H) as B.
  unfold val in *. rewrite E1, E2 in B. apply (fsub_ok hi' lo' F4 F3 B).
Qed.
Lemma rows_map {A B} (P : A -> B -> Prop) (f : A -> B) l :
  (forall a, In a l -> P a (f a)) -> rows P l (map f l).
Proof.
  induction l as [|a l IH]; intros H; constructor; [apply H; left; reflexivity|].
  apply IH. intros b Hb. apply H. right. exact Hb.
Qed.

(** what the computation does, whatever minimum and maximum one names *)
Lemma norm_facts y lo hi : Forall finite y -> smallest lo y -> largest hi y ->
  exists lo' hi', In lo' y /\ In hi' y /\ val lo' = val lo /\ val hi' = val hi /\
    fmin_list y = Ok lo' /\ fmax_list y = Ok hi' /\ normalize_f y = Ok (map (entry lo' hi') y) /\
    finite lo' /\ finite hi' /\ (forall v, In v y -> finite v /\ val lo' <= val v <= val hi') /\
    (finite (scale_f lo hi) -> finite (scale_f lo' hi')) /\ (finite (scale_f lo' hi') -> finite (scale_f lo hi)).
Proof.
  intros Fy Hl Hh. assert (N : y <> []) by (intros ->; destruct Hl as [[] _]).
  destruct (normalize_f_spec y N Fy) as (lo' & hi' & A & B & C & D & E).
  exists lo', hi'. pose proof (small_same _ _ _ A Hl) as V1. pose proof (large_same _ _ _ B Hh) as V2.
  rewrite Forall_forall in Fy.
  assert (G : finite lo' /\ finite hi' /\ finite lo /\ finite hi).
  { destruct A as [A _]. destruct B as [B _]. destruct Hl as [Hl _]. destruct Hh as [Hh _].
    repeat split; apply Fy; assumption. }
  destruct G as (G1 & G2 & G3 & G4).
  pose proof (proj1 A). pose proof (proj1 B).
  repeat (split; [assumption|]).
  split.
  { intros v Hv. split; [apply Fy, Hv|]. destruct A as [_ A]. destruct B as [_ B].
    rewrite Forall_forall in A, B. split; [apply A, Hv|apply B, Hv]. }
  split; apply scale_same; auto.
Qed.

(** C123 (a): finite targets whose range is a finite float32.  Every normalised value is a finite float32
    in [-1/2, 1/2], the smallest targets become exactly -1/2 and the largest exactly 1/2, and every value
    is within 2^-22 of the exact position. *)
Theorem C123_normalised : forall y n lo hi,
  Forall finite y -> smallest lo y -> largest hi y -> val lo < val hi -> finite (scale_f lo hi) ->
  normalize_f y = Ok n ->
  rows (fun v w =>
          finite w /\ - /2 <= val w <= /2 /\
          (val v = val lo -> val w = - /2) /\ (val v = val hi -> val w = /2) /\
          Rabs (val w - position (val lo) (val hi) (val v)) <= bpow radix2 (-22)) y n.
Proof.
  intros y n lo hi Fy Hl Hh L S E.
  destruct (norm_facts y lo hi Fy Hl Hh) as (lo' & hi' & _ & _ & V1 & V2 & _ & _ & E' & F1 & F2 & Fv & S' & _).
  rewrite E in E'. injection E' as ->. apply rows_map. intros v Hv. destruct (Fv v Hv) as (Fv' & L1 & L2).
  specialize (S' S). rewrite <- V1, <- V2 in *.
  split; [exact (proj2 (entry_val lo' hi' v F1 F2 Fv' L L1 L2 S'))|].
  split; [exact (entry_range lo' hi' v F1 F2 Fv' L L1 L2 S')|].
  split; [exact (entry_lo lo' hi' v F1 F2 Fv' L L1 L2 S')|].
  split; [exact (entry_hi lo' hi' v F1 F2 Fv' L L1 L2 S')|].
  exact (entry_close lo' hi' v F1 F2 Fv' L L1 L2 S').
Qed.

(** C123 (b): the order of the targets is kept, and targets further apart than 2^-21 of the range stay apart. *)
Theorem C123_order : forall y n lo hi i j a b a' b',
  Forall finite y -> smallest lo y -> largest hi y -> val lo < val hi -> finite (scale_f lo hi) ->
  normalize_f y = Ok n ->
  nth_error y i = Some a -> nth_error y j = Some b -> nth_error n i = Some a' -> nth_error n j = Some b' ->
  (val a <= val b -> val a' <= val b') /\
  (bpow radix2 (-21) * (val hi - val lo) < val b - val a -> val a' < val b').
Proof.
  intros y n lo hi i j a b a' b' Fy Hl Hh L S E Ya Yb Na Nb.
  destruct (norm_facts y lo hi Fy Hl Hh) as (lo' & hi' & _ & _ & V1 & V2 & _ & _ & E' & F1 & F2 & Fv & S' & _).
  rewrite E in E'. injection E' as ->. specialize (S' S). rewrite <- V1, <- V2 in *.
  rewrite nth_error_map, Ya in Na. rewrite nth_error_map, Yb in Nb. cbn [option_map] in Na, Nb.
  injection Na as <-. injection Nb as <-.
  destruct (Fv a (nth_error_In _ _ Ya)) as (Fa & A1 & A2).
  destruct (Fv b (nth_error_In _ _ Yb)) as (Fb & B1 & B2).
  split.
  - intros H. apply entry_mono; assumption.
  - intros H.
    assert (Ca : Rabs (val (entry lo' hi' a) - position (val lo') (val hi') (val a)) <= bpow radix2 (-22))
      by exact (entry_close lo' hi' a F1 F2 Fa L A1 A2 S').
    assert (Cb : Rabs (val (entry lo' hi' b) - position (val lo') (val hi') (val b)) <= bpow radix2 (-22))
      by exact (entry_close lo' hi' b F1 F2 Fb L B1 B2 S').
    apply Rabs_le_inv in Ca, Cb.
    unfold position in *. set (R := val hi' - val lo') in *.
    assert (Rp : 0 < R) by (unfold R; lra).
    assert (bpow radix2 (-21) < (val b - val lo') / R - (val a - val lo') / R).
    { replace ((val b - val lo') / R - (val a - val lo') / R) with ((val b - val a) / R) by (field; lra).
      apply (Rmult_lt_reg_r R); [exact Rp|]. unfold Rdiv. rewrite Rmult_assoc, Rinv_l by lra. lra. }
    assert (bpow radix2 (-21) = 2 * bpow radix2 (-22)) by (symmetry; apply twice).
    lra.
Qed.

(** C123 (c): the exact model of the same code, [normalize_y], is within 2^-22 of the float32 results. *)
Theorem C123_exact_model : forall y n lo hi,
  Forall finite y -> smallest lo y -> largest hi y -> val lo < val hi -> finite (scale_f lo hi) ->
  normalize_f y = Ok n ->
  exists r, normalize_y (map val y) = map XFin r /\
            rows (fun w x => Rabs (val w - x) <= bpow radix2 (-22)) n r.
Proof.
  intros y n lo hi Fy Hl Hh L S E.
  pose proof (C123_normalised y n lo hi Fy Hl Hh L S E) as H.
  assert (Vm : vmin (map val y) = val lo /\ vmax (map val y) = val hi).
  { assert (Mn : forall l a, let m := fold_left Rmin l a in In m (a :: l) /\ Forall (fun v => m <= v) (a :: l)).
    { induction l as [|b l IH]; intros a; cbn [fold_left]; cbv zeta.
      - split; [left; reflexivity|]. constructor; [lra|constructor].
      - destruct (IH (Rmin a b)) as (I & A). inversion A as [|? ? A1 A2]; subst.
        pose proof (Rmin_l a b). pose proof (Rmin_r a b). split.
        + destruct I as [I|I]; [rewrite <- I; destruct (Rmin_case_strong a b (fun r => r = a \/ r = b)) as [-> | ->]; auto with datatypes|right; right; exact I].
        + constructor; [lra|]. constructor; [lra|exact A2]. }
    assert (Mx : forall l a, let m := fold_left Rmax l a in In m (a :: l) /\ Forall (fun v => v <= m) (a :: l)).
    { induction l as [|b l IH]; intros a; cbn [fold_left]; cbv zeta.
      - split; [left; reflexivity|]. constructor; [lra|constructor].
      - destruct (IH (Rmax a b)) as (I & A). inversion A as [|? ? A1 A2]; subst.
        pose proof (Rmax_l a b). pose proof (Rmax_r a b). split.
        + destruct I as [I|I]; [rewrite <- I; destruct (Rmax_case_strong a b (fun r => r = a \/ r = b)) as [-> | ->]; auto with datatypes|right; right; exact I].
        + constructor; [lra|]. constructor; [lra|exact A2]. }
    destruct y as [|a l]; [destruct Hl as [[] _]|].
    destruct Hl as [Il Al]. destruct Hh as [Ih Ah]. rewrite Forall_forall in Al, Ah.
    cbn [map vmin vmax]. split.
    - destruct (Mn (map val l) (val a)) as (I & A). rewrite Forall_forall in A.
      change (val a :: map val l) with (map val (a :: l)) in *.
      apply in_map_iff in I as (x & Ex & Ix). apply Rle_antisym.
      + apply A. apply in_map, Il.
      + rewrite <- Ex. apply Al, Ix.
    - destruct (Mx (map val l) (val a)) as (I & A). rewrite Forall_forall in A.
      change (val a :: map val l) with (map val (a :: l)) in *.
      apply in_map_iff in I as (x & Ex & Ix). apply Rle_antisym.
      + rewrite <- Ex. apply Ah, Ix.
      + apply A. apply in_map, Ih. }
  destruct Vm as (Vn & Vx).
  exists (map (fun v => position (val lo) (val hi) (val v)) y). split.
  - unfold normalize_y. rewrite Vn, Vx, !map_map. apply map_ext. intros v. unfold position, xdiv, xadd.
    destruct (Req_EM_T (val hi - val lo) 0) as [Z|Z]; [exfalso; lra|].
    unfold Rdiv. reflexivity.
  - clear -H. induction H as [|v w l m (_ & _ & _ & _ & Hc) _ IH]; constructor; assumption.
Qed.

(** C123 (d): a constant target normalises to NaN everywhere *)
Theorem C123_constant : forall y n c,
  y <> [] -> Forall (fun v => finite v /\ val v = c) y -> normalize_f y = Ok n -> Forall nan n.
Proof.
  intros y n c N H E.
  assert (Fy : Forall finite y) by (eapply Forall_impl; [|exact H]; cbn; tauto).
  destruct (normalize_f_spec y N Fy) as (lo & hi & [Il _] & [Ih _] & _ & _ & E').
  rewrite E in E'. injection E' as ->. rewrite Forall_forall in H. apply Forall_forall.
  intros w Hw. apply in_map_iff in Hw as (v & <- & Hv).
  destruct (H v Hv) as (Fv & Vv). destruct (H lo Il) as (F1 & V1). destruct (H hi Ih) as (F2 & V2).
  unfold nan. rewrite entry_constant; try assumption; [reflexivity| |]; unfold val in *; congruence.
Qed.

(** C123 (e): one NaN in the target makes every normalised value NaN *)
Theorem C123_missing : forall y n, Exists nan y -> normalize_f y = Ok n ->
  length n = length y /\ Forall nan n.
Proof.
  intros y n H E. apply Exists_exists in H as (x & Ix & Nx).
  assert (x = B754_nan) as -> by (destruct x; [discriminate|discriminate|reflexivity|discriminate]).
  rewrite (normalize_f_nan y Ix) in E. injection E as <-. split; [apply map_length|].
  apply Forall_forall. intros w Hw. apply in_map_iff in Hw as (? & <- & _). reflexivity.
Qed.

(** C123 (f) (defect): finite targets whose range is not a finite float32.  The largest target becomes NaN;
    any target either becomes NaN or is flattened to exactly -1/2. *)
Theorem C123_overflow : forall y n lo hi,
  Forall finite y -> smallest lo y -> largest hi y -> ~ finite (scale_f lo hi) ->
  normalize_f y = Ok n ->
  rows (fun v w => (val v = val hi -> nan w) /\ (finite (fsub v lo) -> finite w /\ val w = - /2) /\
                   (~ finite (fsub v lo) -> nan w)) y n.
Proof.
  intros y n lo hi Fy Hl Hh S E.
  destruct (norm_facts y lo hi Fy Hl Hh) as (lo' & hi' & I1 & I2 & V1 & V2 & _ & _ & E' & F1 & F2 & Fv & _ & S').
  rewrite E in E'. injection E' as ->. apply rows_map. intros v Hv. destruct (Fv v Hv) as (Fv' & L1 & L2).
  assert (Fl : finite lo) by (rewrite Forall_forall in Fy; apply Fy, Hl).
  assert (Sf : fin (fsub hi' lo') = false).
  { destruct (fin (fsub hi' lo')) eqn:Q; [|reflexivity]. exfalso. apply S, S'. exact Q. }
  destruct (entry_overflow lo' hi' v F1 F2 Fv' L1 L2 Sf) as (A & B).
  assert (T : finite (fsub v lo) <-> finite (fsub v lo')).
  { split; intros Q.
    - apply (scale_same lo v lo' v); auto.
    - apply (scale_same lo' v lo v); auto. }
  assert (NB : ~ finite (fsub v lo') -> nan (entry lo' hi' v)).
  { intros Q. unfold nan. rewrite B; [reflexivity|]. destruct (fin (fsub v lo')) eqn:QQ; [|reflexivity].
    exfalso. apply Q. exact QQ. }
  split; [|split].
  - intros Hm. apply NB. intros Q. apply S, S'. apply (scale_same lo' v lo' hi'); auto. congruence.
  - intros Q. apply T in Q. destruct (A Q) as (A1 & A2). split; assumption.
  - intros Q. apply NB. intros Q'. apply Q, T, Q'.
Qed.

(** C123 (g): mapping a normalised target back is close to the original. *)
Theorem C123_round_trip : forall y n lo hi,
  Forall finite y -> Forall (fun v => Rabs (val v) <= bpow radix2 125) y ->
  fmin_list y = Ok lo -> fmax_list y = Ok hi -> val lo < val hi -> normalize_f y = Ok n ->
  rows (fun v w =>
          finite w /\ (val v = val lo -> val w = val lo) /\
          Rabs (val w - val v) <=
            bpow radix2 (-20) * (val hi - val lo) + bpow radix2 (-24) * Rabs (val v) + bpow radix2 (-149))
       y (unnormalize_f lo hi n).
Proof.
  intros y n lo hi Fy B El Eh L E.
  assert (N : y <> []) by (intros ->; discriminate).
  destruct (normalize_f_spec y N Fy) as (lo' & hi' & Hl & Hh & El' & Eh' & E').
  rewrite El in El'. injection El' as <-. rewrite Eh in Eh'. injection Eh' as <-.
  rewrite E in E'. injection E' as ->. unfold unnormalize_f. rewrite map_map.
  rewrite Forall_forall in Fy, B. destruct Hl as [Il Al]. destruct Hh as [Ih Ah]. rewrite Forall_forall in Al, Ah.
  apply rows_map. intros v Hv.
  pose proof (Fy lo Il) as F1. pose proof (Fy hi Ih) as F2. pose proof (Fy v Hv) as F3.
  pose proof (Al v Hv) as L1. pose proof (Ah v Hv) as L2. pose proof (B lo Il) as B1. pose proof (B hi Ih) as B2.
  split; [exact (proj2 (back_val lo hi v F1 F2 F3 L L1 L2 B1 B2))|].
  split; [exact (back_lo lo hi v F1 F2 F3 L L1 L2 B1 B2)|].
  exact (back_close lo hi v F1 F2 F3 L L1 L2 B1 B2).
Qed.

(** Predictions are doubles, but the range they are scaled with is the float32 one: for a prediction between -1/2 and 1/2 the result is
    within 2^-23 of the range of the exact one. *)
Theorem C123_predictions : forall lo hi (p : list MFloat.b64), finite lo -> finite hi -> val lo < val hi -> finite (scale_f lo hi) ->
  Forall (fun v => SpecDouble.finite v /\ - /2 <= SpecDouble.val v <= /2) p ->
  rows (fun v x => SpecDouble.finite x /\
          Rabs (SpecDouble.val x - (val lo + (SpecDouble.val v + /2) * (val hi - val lo))) <=
            bpow radix2 (-23) * (val hi - val lo) + bpow radix2 (-53) * Rabs (val lo) + bpow radix2 (-1074))
       p (MSingle2.unnormalize_32 lo hi p).
Proof.
  intros lo hi p Fl Fh L S F. unfold rows, MSingle2.unnormalize_32. induction F as [|v p (Fv & Hv) F IH]; [constructor|]. constructor; [|exact IH].
  exact (PSingle3.pred_ok lo hi v Fl Fh S L Fv Hv).
Qed.

(** an empty target has no range *)
Theorem C123_empty : normalize_f [] = Raise EValueError.
Proof. reflexivity. Qed.

(** Concrete float32 numbers: 0, 1, 3, -1, 2^-60, the largest float32 *)
Definition d_of (s : bool) (m : positive) (e : Z) (H : SpecFloat.bounded 24 128 m e = true) : b32 :=
  @B754_finite 24 128 s m e H.
Definition d0 : b32 := B754_zero false.
Definition d1 : b32 := d_of false 8388608 (-23) eq_refl.
Definition d3 : b32 := d_of false 12582912 (-22) eq_refl.
Definition dm1 : b32 := d_of true 8388608 (-23) eq_refl.
Definition dtiny : b32 := d_of false 8388608 (-83) eq_refl.
Definition dhuge : b32 := d_of false 16777215 104 eq_refl.
Definition dmhuge : b32 := d_of true 16777215 104 eq_refl.

(** the real value of a float32, as a computable comparison *)
Definition flt (x y : b32) : bool := match Bcompare x y with Some Lt => true | _ => false end.
Lemma flt_spec x y : finite x -> finite y -> flt x y = true -> val x < val y.
Proof.
  intros Fx Fy H. unfold flt in H. rewrite Bcompare_correct in H by assumption.
  destruct (Rcompare_spec (fr x) (fr y)); try discriminate. assumption.
Qed.

Ltac fa := repeat apply Forall_cons; try apply Forall_nil.

(** every float32 below the largest power of two satisfies the size condition *)
Lemma below x : finite x -> flt x (d_of false 8388608 102 eq_refl) = true ->
  flt (d_of true 8388608 102 eq_refl) x = true -> Rabs (val x) <= bpow radix2 125.
Proof.
  intros Fx A B. apply flt_spec in A; [|exact Fx|reflexivity]. apply flt_spec in B; [|reflexivity|exact Fx].
  assert (V : val (d_of false 8388608 102 eq_refl) = bpow radix2 125).
  { unfold val, d_of, B2R, F2R. cbn [Fnum Fexp cond_Zopp].
    replace (IZR 8388608) with (bpow radix2 23) by (rewrite <- IZR_Zpower by lia; reflexivity).
    rewrite <- bpow_plus. reflexivity. }
  assert (V' : val (d_of true 8388608 102 eq_refl) = - bpow radix2 125).
  { unfold val, d_of, B2R, F2R. cbn [Fnum Fexp cond_Zopp]. rewrite opp_IZR.
    replace (IZR 8388608) with (bpow radix2 23) by (rewrite <- IZR_Zpower by lia; reflexivity).
    rewrite Ropp_mult_distr_l_reverse, <- bpow_plus. reflexivity. }
  apply Rabs_le. lra.
Qed.

(** float32 numbers are the same when their sign, mantissa and exponent are *)
Lemma same_single (x y : b32) : B2SF x = B2SF y -> x = y.
Proof. apply B2SF_inj. Qed.
Lemma normalize_f_of y lo hi : fmin_list y = Ok lo -> fmax_list y = Ok hi -> normalize_f y = Ok (map (entry lo hi) y).
Proof. intros A B. unfold normalize_f. rewrite A, B. reflexivity. Qed.

Lemma rows_second {A B} (P : A -> B -> Prop) a b c d : rows P [a; b] [c; d] -> P b d.
Proof. intros H. inversion H as [|? ? ? ? _ H2]; subst. inversion H2; subst. assumption. Qed.

(** C123 (h) (defect): mapping back does not always give the original *)
Theorem C123_round_trip_refuted : exists y n lo hi,
  Forall finite y /\ Forall (fun v => Rabs (val v) <= bpow radix2 125) y /\
  fmin_list y = Ok lo /\ fmax_list y = Ok hi /\ val lo < val hi /\ normalize_f y = Ok n /\
  ~ rows (fun v w => val w = val v) y (unnormalize_f lo hi n).
Proof.
  exists [dm1; dtiny], (map (entry dm1 dtiny) [dm1; dtiny]), dm1, dtiny.
  split; [repeat constructor|].
  split; [fa; apply below; vm_compute; reflexivity|].
  split; [reflexivity|]. split; [vm_compute; reflexivity|].
  split; [apply flt_spec; vm_compute; reflexivity|].
  split; [apply normalize_f_of; vm_compute; reflexivity|].
  unfold unnormalize_f. cbn [map].
  intros H. apply rows_second in H.
  assert (L : val (fadd dm1 (fmul (fsub (entry dm1 dtiny dtiny) neg_half) (fsub dtiny dm1))) < val dtiny)
    by (apply flt_spec; vm_compute; reflexivity).
  rewrite H in L. exact (Rlt_irrefl _ L).
Qed.

(** C123 (i) (defect): different targets can be merged *)
Theorem C123_distinct_refuted : exists y n lo hi a b w,
  Forall finite y /\ smallest lo y /\ largest hi y /\ val lo < val hi /\ finite (scale_f lo hi) /\
  normalize_f y = Ok n /\ val a < val b /\ y = [a; b; hi] /\ nth_error n 0 = Some w /\ nth_error n 1 = Some w.
Proof.
  exists [d0; dtiny; d1], (map (entry d0 d1) [d0; dtiny; d1]), d0, d1, d0, dtiny, neg_half.
  assert (A : val d0 < val dtiny) by (apply flt_spec; vm_compute; reflexivity).
  assert (B : val dtiny < val d1) by (apply flt_spec; vm_compute; reflexivity).
  split; [repeat constructor|].
  split; [split; [left; reflexivity|]; fa; lra|].
  split; [split; [right; right; left; reflexivity|]; fa; lra|].
  split; [lra|]. split; [vm_compute; reflexivity|]. split; [apply normalize_f_of; vm_compute; reflexivity|].
  split; [exact A|]. split; [reflexivity|]. cbn [map nth_error].
  split; f_equal; apply same_single; vm_compute; reflexivity.
Qed.

(** the hypotheses are met: 0, 1, 3 *)
Example C123_case : exists y n lo hi,
  Forall finite y /\ smallest lo y /\ largest hi y /\ val lo < val hi /\ finite (scale_f lo hi) /\
  Forall (fun v => Rabs (val v) <= bpow radix2 125) y /\
  fmin_list y = Ok lo /\ fmax_list y = Ok hi /\ normalize_f y = Ok n /\ length n = 3%nat.
Proof.
  assert (A : val d0 < val d1) by (apply flt_spec; vm_compute; reflexivity).
  assert (B : val d1 < val d3) by (apply flt_spec; vm_compute; reflexivity).
  exists [d1; d0; d3]. eexists. exists d0, d3.
  split; [repeat constructor|].
  split; [split; [right; left; reflexivity|]; fa; lra|].
  split; [split; [right; right; left; reflexivity|]; fa; lra|].
  split; [lra|]. split; [vm_compute; reflexivity|].
  split; [fa; apply below; vm_compute; reflexivity|].
  split; [vm_compute; reflexivity|]. split; [vm_compute; reflexivity|].
  split; [apply normalize_f_of; vm_compute; reflexivity|reflexivity].
Qed.

Lemma three_same {A} (a b c a' b' c' : A) : a = a' -> b = b' -> c = c' -> [a; b; c] = [a'; b'; c'].
Proof. congruence. Qed.

(** the hypotheses of the overflow theorem are met: plus and minus the largest float32, and 0 in between *)
Example C123_overflow_case : exists y n lo hi,
  Forall finite y /\ smallest lo y /\ largest hi y /\ ~ finite (scale_f lo hi) /\
  normalize_f y = Ok n /\ n = [neg_half; neg_half; B754_nan].
Proof.
  assert (A : val dmhuge < val d0) by (apply flt_spec; vm_compute; reflexivity).
  assert (B : val d0 < val dhuge) by (apply flt_spec; vm_compute; reflexivity).
  exists [dmhuge; d0; dhuge]. eexists. exists dmhuge, dhuge.
  split; [repeat constructor|].
  split; [split; [left; reflexivity|]; fa; lra|].
  split; [split; [right; right; left; reflexivity|]; fa; lra|].
  split; [vm_compute; discriminate|].
  split; [apply normalize_f_of; vm_compute; reflexivity|].
  cbn [map]. apply three_same; apply same_single; vm_compute; reflexivity.
Qed.

Example C123_missing_case : Exists nan [d1; B754_nan; d3] /\ normalize_f [d1; B754_nan; d3] = Ok [B754_nan; B754_nan; B754_nan].
Proof. split; [right; left; reflexivity|vm_compute; reflexivity]. Qed.
Example C123_constant_case : Forall (fun v => finite v /\ val v = val d3) [d3; d3] /\ normalize_f [d3; d3] = Ok [B754_nan; B754_nan].
Proof. split; [repeat constructor|vm_compute; reflexivity]. Qed.

Print Assumptions C123_normalised.
Print Assumptions C123_order.
Print Assumptions C123_exact_model.
Print Assumptions C123_constant.
Print Assumptions C123_missing.
Print Assumptions C123_overflow.
Print Assumptions C123_round_trip.
Print Assumptions C123_predictions.
Print Assumptions C123_empty.
Print Assumptions C123_round_trip_refuted.
Print Assumptions C123_distinct_refuted.
