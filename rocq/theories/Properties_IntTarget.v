(** C122: integer targets. *)
From Coq Require Import ZArith Reals List Lra Lia.
From Flocq Require Import Core.Core IEEE754.BinarySingleNaN.
From Verif Require Import Base MFloat MConvert MIntTarget SpecDouble SpecConvert SpecIntTarget PFloat PFloat2 PConvert PIntTarget.
Import ListNotations.
Local Open Scope R_scope.

Lemma rows_map {A B : Type} (P : A -> B -> Prop) (g : A -> B) (l : list A) : (forall v, In v l -> P v (g v)) -> rows P l (map g l).
Proof. intros H. induction l as [|a l IH]; [constructor|]. constructor; [apply H; left; reflexivity|]. apply IH. intros v I. apply H. right. exact I. Qed.
Lemma span w y lo hi v : ints w y -> least lo y -> greatest hi y -> In v y -> (0 <= v - lo <= hi - lo)%Z /\ (hi - lo < 2 ^ w)%Z /\ (2 <= w <= 64)%Z /\ (0 < 2 ^ (w - 1) <= 2 ^ 63)%Z /\ (2 ^ w = 2 * 2 ^ (w - 1))%Z.
Proof.
  intros (W & F) (I & L) (J & G) V. rewrite Forall_forall in F, L, G. pose proof (F _ I). pose proof (F _ J). pose proof (L _ V). pose proof (G _ V). pose proof (half_pow w W). pose proof (pow_half w ltac:(lia)). lia.
Qed.

(** If the range of the targets fits the dtype, they are normalised as real numbers: the smallest becomes -1/2, the largest 1/2, every one
    lies between and within 2^-50 of its exact position, *)
Theorem C122_normalised : forall w y n lo hi, ints w y -> least lo y -> greatest hi y -> (lo < hi)%Z -> (hi - lo < 2 ^ (w - 1))%Z ->
  normalize_i w y = Ok n ->
  rows (fun v x => finite x /\ - /2 <= val x <= /2 /\ (v = lo -> val x = - /2) /\ (v = hi -> val x = /2) /\
          Rabs (val x - position (IZR lo) (IZR hi) (IZR v)) <= bpow radix2 (-50)) y n.
Proof.
  intros w y n lo hi W L G H R E. rewrite (norm_eq w y lo hi L G) in E. injection E as <-. apply rows_map. intros v V.
  destruct (span w y lo hi v W L G V) as (S & _ & Hw & P & _). rewrite !wrap_in by lia.
  destruct (ient_ok (v - lo) (hi - lo)) as (F & _); try lia. unfold finite, val. split; [exact F|].
  assert (Z0 : fr (ient 0 (hi - lo)) = - /2) by (apply ient_0; lia). assert (Z1 : fr (ient (hi - lo) (hi - lo)) = /2) by (apply ient_1; lia).
  split; [|split; [|split]].
  - rewrite <- Z0, <- Z1. split; apply ient_up; lia.
  - intros ->. rewrite Z.sub_diag. exact Z0.
  - intros ->. exact Z1.
  - unfold position. rewrite <- !minus_IZR. apply ient_close; lia.
Qed.
(** and their order is kept. *)
Theorem C122_order : forall w y n lo hi i j a b a' b', ints w y -> least lo y -> greatest hi y -> (lo < hi)%Z -> (hi - lo < 2 ^ (w - 1))%Z ->
  normalize_i w y = Ok n -> nth_error y i = Some a -> nth_error y j = Some b -> nth_error n i = Some a' -> nth_error n j = Some b' ->
  (a <= b)%Z -> val a' <= val b'.
Proof.
  intros w y n lo hi i j a b a' b' W L G H R E A B A' B' Hab. rewrite (norm_eq w y lo hi L G) in E. injection E as <-.
  rewrite nth_error_map, A in A'. rewrite nth_error_map, B in B'. injection A' as <-. injection B' as <-.
  destruct (span w y lo hi a W L G (nth_error_In _ _ A)) as (S & _ & Hw & P & _). destruct (span w y lo hi b W L G (nth_error_In _ _ B)) as (S' & _). rewrite !wrap_in by lia. apply ient_up; lia.
Qed.
(** (defect) If it does not fit, the smallest and the largest target become -1/2 and 1/2 but no other target lies between them: the targets
    less than 2^(w-1) above the smallest become at most -1/2, the others at least 1/2, and in either group the order is reversed. *)
Theorem C122_wraps : forall w y n lo hi, ints w y -> least lo y -> greatest hi y -> (2 ^ (w - 1) <= hi - lo)%Z -> normalize_i w y = Ok n ->
  rows (fun v x => finite x /\ (v = lo -> val x = - /2) /\ (v = hi -> val x = /2) /\
          ((v - lo < 2 ^ (w - 1))%Z -> val x <= - /2) /\ ((2 ^ (w - 1) <= v - lo)%Z -> /2 <= val x)) y n /\
  forall i j a b a' b', nth_error y i = Some a -> nth_error y j = Some b -> nth_error n i = Some a' -> nth_error n j = Some b' ->
    (a <= b)%Z -> ((a - lo < 2 ^ (w - 1))%Z <-> (b - lo < 2 ^ (w - 1))%Z) -> val b' <= val a'.
Proof.
  intros w y n lo hi W L G R E. rewrite (norm_eq w y lo hi L G) in E. injection E as <-.
  assert (D : forall v, In v y -> wrap w (hi - lo) = (hi - lo - 2 ^ w)%Z /\ ((v - lo < 2 ^ (w - 1))%Z -> wrap w (v - lo) = (v - lo)%Z) /\ ((2 ^ (w - 1) <= v - lo)%Z -> wrap w (v - lo) = (v - lo - 2 ^ w)%Z)).
  { intros v V. destruct (span w y lo hi v W L G V) as (S & S2 & Hw & P & P2). split; [apply wrap_over; lia|]. split; intros K; [apply wrap_in|apply wrap_over]; lia. }
  split.
  - apply rows_map. intros v V. destruct (span w y lo hi v W L G V) as (S & S2 & Hw & P & P2). destruct (D v V) as (-> & Dlo & Dhi). set (D' := (hi - lo - 2 ^ w)%Z) in *.
    assert (DN : (- 2 ^ 63 <= D' < 0)%Z) by (unfold D'; lia).
    assert (Z0 : fr (ient 0 D') = - /2) by (apply ient_0; lia). assert (Z1 : fr (ient D' D') = /2) by (apply ient_1; lia). unfold finite, val.
    destruct (Z_lt_le_dec (v - lo) (2 ^ (w - 1))) as [K|K]; [rewrite (Dlo K)|rewrite (Dhi K)].
    + destruct (ient_ok (v - lo) D') as (F & _); try lia. split; [exact F|]. split; [intros ->; rewrite Z.sub_diag; exact Z0|]. split; [intros ->; lia|]. split; [|lia]. intros _. rewrite <- Z0. apply ient_down; lia.
    + destruct (ient_ok (v - lo - 2 ^ w) D') as (F & _); try (unfold D' in *; lia). split; [exact F|]. split; [intros ->; lia|]. split; [intros ->; exact Z1|]. split; [lia|]. intros _. rewrite <- Z1. apply ient_down; unfold D' in *; lia.
  - intros i j a b a' b' A B A' B' Hab Same. rewrite nth_error_map, A in A'. rewrite nth_error_map, B in B'. injection A' as <-. injection B' as <-.
    destruct (span w y lo hi a W L G (nth_error_In _ _ A)) as (S & S2 & Hw & P & P2). destruct (span w y lo hi b W L G (nth_error_In _ _ B)) as (S' & _).
    destruct (D a (nth_error_In _ _ A)) as (-> & Alo & Ahi). destruct (D b (nth_error_In _ _ B)) as (_ & Blo & Bhi).
    destruct (Z_lt_le_dec (a - lo) (2 ^ (w - 1))) as [K|K].
    + rewrite (Alo K), (Blo (proj1 Same K)). apply ient_down; lia.
    + assert (K' : (2 ^ (w - 1) <= b - lo)%Z) by lia. rewrite (Ahi K), (Bhi K'). apply ient_down; lia.
Qed.
(** If the range fits and the targets are at most 2^52, the normalised targets are, to the last bit, those of the targets as doubles (C101). *)
Theorem C122_as_floats : forall w y lo hi, ints w y -> least lo y -> greatest hi y -> (hi - lo < 2 ^ (w - 1))%Z ->
  Forall (fun v => (- 2 ^ 52 <= v <= 2 ^ 52)%Z) y -> normalize_i w y = normalize_f (map z_to_f y).
Proof.
  intros w y lo hi W L G R F. rewrite (norm_eq w y lo hi L G). destruct y as [|a l]; [destruct L as ([] & _)|].
  assert (F' : Forall (fun v => (- 2 ^ 53 <= v <= 2 ^ 53)%Z) (a :: l)) by (eapply Forall_impl; [|exact F]; cbn beta; intros; lia).
  destruct (fold_min l a) as (I1 & M1). destruct (fold_max l a) as (I2 & M2). pose proof L as L0. pose proof G as G0. destruct L as (IL & LL). destruct G as (IG & GG).
  rewrite Forall_forall in M1, M2, LL, GG. pose proof (LL _ I1). pose proof (M1 _ IL). pose proof (GG _ I2). pose proof (M2 _ IG).
  assert (E1 : fmin_list (map z_to_f (a :: l)) = Ok (z_to_f lo)) by (cbn [map fmin_list]; rewrite (fold_fmin l a F'); do 2 f_equal; lia).
  assert (E2 : fmax_list (map z_to_f (a :: l)) = Ok (z_to_f hi)) by (cbn [map fmax_list]; rewrite (fold_fmax l a F'); do 2 f_equal; lia).
  unfold normalize_f. rewrite E1, E2. cbn [rbind].
  rewrite Forall_forall in F. pose proof (F _ IL). pose proof (F _ IG).
  rewrite map_map. f_equal. apply map_ext_in. intros v V.
  pose proof (F _ V). destruct (span w (a :: l) lo hi v W L0 G0 V) as (S & S2 & Hw & P & P2).
  rewrite !wrap_in by lia. rewrite !fsub_int by lia. reflexivity.
Qed.
(** Adding a constant to all targets changes nothing, to the last bit; *)
Theorem C122_shift : forall w y lo hi c, least lo y -> greatest hi y -> normalize_i w (map (fun v => (v + c)%Z) y) = normalize_i w y.
Proof.
  intros w y lo hi c L G. rewrite (norm_eq w y lo hi L G).
  rewrite (norm_eq w (map (fun v => (v + c)%Z) y) (lo + c) (hi + c)).
  - rewrite map_map. f_equal. apply map_ext. intros v. f_equal; f_equal; ring.
  - destruct L as (I & F). split; [apply in_map_iff; eauto|]. apply Forall_map. eapply Forall_impl; [|exact F]. cbn. intros; lia.
  - destruct G as (I & F). split; [apply in_map_iff; eauto|]. apply Forall_map. eapply Forall_impl; [|exact F]. cbn. intros; lia.
Qed.
(** equal targets all become NaN, and no target at all is a ValueError. *)
Theorem C122_constant : forall w y c, ints w y -> y <> [] -> Forall (fun v => v = c) y ->
  normalize_i w y = Ok (map (fun _ => B754_nan) y) /\ normalize_i w [] = Raise EValueError.
Proof.
  intros w y c (W & _) N F. split; [|reflexivity]. assert (I : In c y) by (destruct F as [|a l -> F]; [congruence|left; reflexivity]).
  rewrite (norm_eq w y c c).
  - f_equal. apply map_ext_in. intros v V. rewrite Forall_forall in F. rewrite (F v V), Z.sub_diag. pose proof (half_pow w W). rewrite wrap_in by lia. vm_compute. reflexivity.
  - split; [exact I|]. eapply Forall_impl; [|exact F]. cbn. intros; lia.
  - split; [exact I|]. eapply Forall_impl; [|exact F]. cbn. intros; lia.
Qed.
(** What comes back for -1/2 is the smallest target.  What comes back for 1/2 is the largest if the range fits; (defect) if not, it is
    2^w below the largest.  (Up to 52 bits, where no rounding enters.) *)
Theorem C122_back : forall w y lo hi half, ints w y -> (w <= 52)%Z -> least lo y -> greatest hi y -> finite half -> val half = /2 ->
  exists a b, unnormalize_i w lo hi [neg_half; half] = [a; b] /\ finite a /\ finite b /\ val a = IZR lo /\
    ((hi - lo < 2 ^ (w - 1))%Z -> val b = IZR hi) /\ ((2 ^ (w - 1) <= hi - lo)%Z -> val b = IZR (hi - 2 ^ w)).
Proof.
  intros w y lo hi half W W52 L G Fh Vh. destruct (span w y lo hi lo W L G (proj1 L)) as (S & S2 & Hw & P & P2).
  assert (P3 : (2 ^ (w - 1) <= 2 ^ 51)%Z) by (apply Z.pow_le_mono_r; lia).
  assert (Rlo : (- 2 ^ (w - 1) <= lo < 2 ^ (w - 1))%Z) by (destruct W as (_ & F); rewrite Forall_forall in F; apply F, L).
  assert (Rhi : (- 2 ^ (w - 1) <= hi < 2 ^ (w - 1))%Z) by (destruct W as (_ & F); rewrite Forall_forall in F; apply F, G).
  set (D := wrap w (hi - lo)). assert (HD : (- 2 ^ 51 <= D < 2 ^ 51)%Z).
  { unfold D, wrap. pose proof (Z.mod_pos_bound (hi - lo + 2 ^ (w - 1)) (2 ^ w) ltac:(lia)). lia. }
  destruct (small_int lo ltac:(lia)) as (Fl & Vl). destruct (small_int D ltac:(lia)) as (FD & VD). unfold finite, val in *.
  assert (Big : forall z, (- 2 ^ 53 <= z <= 2 ^ 53)%Z -> rnd (IZR z) = IZR z /\ Rabs (IZR z) < big).
  { intros z Hz. split; [apply rnd_id, small_format; exact Hz|]. apply Rle_lt_trans with (bpow radix2 53); [apply izr_abs_le; lia|apply bpow_lt; lia]. }
  assert (T : forall (p : b64) (t : Z), fin p = true -> fr p = - /2 + IZR t -> (t = 0 \/ t = 1)%Z ->
            fin (fadd (z_to_f lo) (fmul (fsub p neg_half) (z_to_f D))) = true /\ fr (fadd (z_to_f lo) (fmul (fsub p neg_half) (z_to_f D))) = IZR (lo + t * D)).
  { intros p t Fp Vp Ht. destruct (Big t ltac:(lia)) as (B1 & B2). destruct (Big (t * D)%Z ltac:(destruct Ht; subst; lia)) as (B3 & B4). destruct (Big (lo + t * D)%Z ltac:(destruct Ht; subst; lia)) as (B5 & B6).
    assert (A1 : fr p - fr neg_half = IZR t) by (rewrite neg_half_val, Vp; ring).
    destruct (fsub_ok p neg_half) as (E1 & F1); [exact Fp|reflexivity|rewrite A1, B1; exact B2|]. rewrite A1, B1 in E1.
    assert (A2 : fr (fsub p neg_half) * fr (z_to_f D) = IZR (t * D)) by (rewrite E1, VD, mult_IZR; reflexivity).
    destruct (fmul_ok (fsub p neg_half) (z_to_f D)) as (E2 & F2); [exact F1|exact FD|rewrite A2, B3; exact B4|]. rewrite A2, B3 in E2.
    assert (A3 : fr (z_to_f lo) + fr (fmul (fsub p neg_half) (z_to_f D)) = IZR (lo + t * D)) by (rewrite E2, Vl, plus_IZR; reflexivity).
    destruct (fadd_ok (z_to_f lo) (fmul (fsub p neg_half) (z_to_f D))) as (E3 & F3); [exact Fl|exact F2|rewrite A3, B5; exact B6|]. rewrite A3, B5 in E3. split; assumption. }
  eexists. eexists. split; [reflexivity|]. fold D.
  destruct (T neg_half 0%Z) as (F0 & V0); [reflexivity|rewrite neg_half_val; lra|lia|]. destruct (T half 1%Z) as (F1 & V1); [exact Fh|rewrite Vh; lra|lia|].
  split; [exact F0|]. split; [exact F1|]. split; [rewrite V0; f_equal; ring|]. split; intros K; rewrite V1; f_equal; unfold D; [rewrite wrap_in by lia|rewrite wrap_over by lia]; ring.
Qed.

(** Unsigned targets (uint8 to uint32) always fit: they are normalised and mapped back as signed ones of one bit more, so the smallest
    becomes -1/2, the largest 1/2, and every one lies between and close to its exact position. *)
Theorem C122_unsigned : forall w y n lo hi, uints w y -> least lo y -> greatest hi y -> (lo < hi)%Z -> normalize_u w y = Ok n ->
  normalize_i (w + 1) y = Ok n /\
  (forall p, unnormalize_u w lo hi p = unnormalize_i (w + 1) lo hi p) /\
  rows (fun v x => finite x /\ - /2 <= val x <= /2 /\ (v = lo -> val x = - /2) /\ (v = hi -> val x = /2) /\
          Rabs (val x - position (IZR lo) (IZR hi) (IZR v)) <= bpow radix2 (-50)) y n.
Proof.
  intros w y n lo hi (W & F) L G H E.
  assert (P : (0 < 2 ^ w)%Z) by (apply Z.pow_pos_nonneg; lia). assert (P2 : (2 ^ (w + 1 - 1) = 2 ^ w)%Z) by (f_equal; lia).
  assert (I : ints (w + 1) y). { split; [lia|]. rewrite P2. eapply Forall_impl; [|exact F]. cbn beta. intros; lia. }
  assert (R : forall v, In v y -> (0 <= v - lo < 2 ^ w)%Z).
  { intros v V. destruct L as (IL & LL). rewrite Forall_forall in F, LL. pose proof (F _ V). pose proof (F _ IL). pose proof (LL _ V). lia. }
  assert (Wr : forall v, In v y -> wrap_u w (v - lo) = (v - lo)%Z /\ wrap (w + 1) (v - lo) = (v - lo)%Z).
  { intros v V. pose proof (R v V). split; [apply Z.mod_small; lia|apply wrap_in; lia]. }
  destruct (Wr hi (proj1 G)) as (H1 & H2).
  assert (E' : normalize_i (w + 1) y = normalize_u w y).
  { rewrite (norm_eq (w + 1) y lo hi L G). destruct y as [|a l]; [destruct L as ([] & _)|]. unfold normalize_u, imin_list, imax_list. cbn [rbind].
    destruct (fold_min l a) as (I1 & M1). destruct (fold_max l a) as (I2 & M2). destruct L as (IL & LL). destruct G as (IG & GG). rewrite Forall_forall in M1, M2, LL, GG.
    pose proof (LL _ I1). pose proof (M1 _ IL). pose proof (GG _ I2). pose proof (M2 _ IG).
    replace (fold_left Z.min l a) with lo by lia. replace (fold_left Z.max l a) with hi by lia. f_equal. apply map_ext_in. intros v V. destruct (Wr v V) as (-> & ->). rewrite H1, H2. reflexivity. }
  rewrite E in E'. split; [exact E'|]. split.
  - intros p. unfold unnormalize_u, unnormalize_i. rewrite H1, H2. reflexivity.
  - apply (C122_normalised (w + 1)); auto. pose proof (R hi (proj1 G)). lia.
Qed.

(** three int8 targets whose range is 200, and three whose range is 100 *)
Example C122_case :
  uints 8 [0; 200; 255]%Z /\ least 0 [0; 200; 255]%Z /\ greatest 255 [0; 200; 255]%Z /\
  ints 8 [-100; 0; 100]%Z /\ least (-100) [-100; 0; 100]%Z /\ greatest 100 [-100; 0; 100]%Z /\ (2 ^ (8 - 1) <= 100 - -100)%Z /\
  ints 8 [-50; 0; 50]%Z /\ least (-50) [-50; 0; 50]%Z /\ greatest 50 [-50; 0; 50]%Z /\ (50 - -50 < 2 ^ (8 - 1))%Z /\
  (exists a b c, normalize_i 8 [-100; 0; 100]%Z = Ok [a; b; c] /\ Bcompare b a = Some Lt /\ Bcompare a c = Some Lt) /\
  (exists a b c, normalize_i 8 [-50; 0; 50]%Z = Ok [a; b; c] /\ Bcompare a b = Some Lt /\ Bcompare b c = Some Lt) /\
  exists a b, unnormalize_i 8 (-100) 100 [neg_half; fdiv neg_half (z_to_f (-1))] = [a; b] /\ Bcompare a (z_to_f (-100)) = Some Eq /\ Bcompare b (z_to_f (-156)) = Some Eq.
Proof.
  assert (A : forall P : Z -> Prop, forall a b c, P a -> P b -> P c -> Forall P [a; b; c]) by (intros; auto).
  split; [split; [lia|apply A; cbn; lia]|]. split; [split; [left; reflexivity|apply A; lia]|]. split; [split; [right; right; left; reflexivity|apply A; lia]|].
  split; [split; [lia|apply A; cbn; lia]|]. split; [split; [left; reflexivity|apply A; lia]|]. split; [split; [right; right; left; reflexivity|apply A; lia]|]. split; [cbn; lia|].
  split; [split; [lia|apply A; cbn; lia]|]. split; [split; [left; reflexivity|apply A; lia]|]. split; [split; [right; right; left; reflexivity|apply A; lia]|]. split; [cbn; lia|].
  split; [|split].
  - do 3 eexists. split; [reflexivity|]. split; vm_compute; reflexivity.
  - do 3 eexists. split; [reflexivity|]. split; vm_compute; reflexivity.
  - do 2 eexists. split; [reflexivity|]. split; vm_compute; reflexivity.
Qed.

Print Assumptions C122_normalised.
Print Assumptions C122_order.
Print Assumptions C122_wraps.
Print Assumptions C122_as_floats.
Print Assumptions C122_shift.
Print Assumptions C122_constant.
Print Assumptions C122_back.
Print Assumptions C122_unsigned.
Print Assumptions C122_case.
