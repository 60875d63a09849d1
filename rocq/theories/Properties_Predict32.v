(** C125: predict for float32 rows after fitting float64 rows. *)
From Coq Require Import ZArith Reals List Lra Lia.
From Flocq Require Import Core.Core IEEE754.BinarySingleNaN.
From Verif Require Import Base MFloat MData MSplit MConvert MPredictType MSingle2 MPredict32 SpecDouble PFloat PFloat2 PSingle3 Properties_PredictType.
From Verif Require MSingle SpecSingle PSingle PSingle2.
Import ListNotations.
Local Open Scope R_scope.

(** the number a finite float32 stands for *)
Notation val32 := SpecSingle.val.
(** finite and, in absolute value, at most 2^127 *)
Definition ordinary (x : b64) : Prop := finite x /\ Rabs (val x) <= bpow radix2 127.
(** the nearest float32 number *)
Notation single := (round radix2 (FLT_exp (-149) 24) ZnearestE).

Lemma cmp_widen (x u : MSingle.b32) : Bcompare (widen x) (widen u) = Bcompare x u.
Proof.
  destruct (@is_finite 24 128 x) eqn:Fx; [destruct (@is_finite 24 128 u) eqn:Fu|].
  - destruct (widen_ok x Fx) as (A & A'). destruct (widen_ok u Fu) as (B & B'). rewrite (Bcompare_correct 53 1024 _ _ A B), (Bcompare_correct 24 128 _ _ Fx Fu), A', B'. reflexivity.
  - destruct (widen_ok x Fx) as (A & _). destruct u as [s|s| |s m e b]; try discriminate Fu; cbn [widen]; destruct (widen x) as [s1|s1| |s1 m1 e1 b1]; try discriminate A; destruct x as [s2|s2| |s2 m2 e2 b2]; try discriminate Fx; try destruct s; reflexivity || (destruct s1, s2; reflexivity).
  - destruct (@is_finite 24 128 u) eqn:Fu.
    + destruct (widen_ok u Fu) as (A & _). destruct x as [s|s| |s m e b]; try discriminate Fx; cbn [widen]; destruct (widen u) as [s1|s1| |s1 m1 e1 b1]; try discriminate A; destruct u as [s2|s2| |s2 m2 e2 b2]; try discriminate Fu; try destruct s; reflexivity || (destruct s1, s2; reflexivity).
    + destruct x as [s|s| |s m e b]; try discriminate Fx; destruct u as [s'|s'| |s' m' e' b']; try discriminate Fu; reflexivity.
Qed.
Lemma narrow_val x : finite x -> Rabs (single (val x)) < bpow radix2 128 -> SpecSingle.finite (narrow x) /\ val32 (narrow x) = single (val x).
Proof.
  intros F H. unfold SpecSingle.finite, SpecSingle.val. destruct x as [s|s| |s m e b]; try discriminate F; cbn [narrow].
  - split; [reflexivity|]. cbn. rewrite round_0; [reflexivity|apply valid_rnd_N].
  - pose proof (binary_normalize_correct 24 128 MSingle.prec32 MSingle.emax32 mode_NE (cond_Zopp s (Zpos m)) e s) as C. cbv zeta in C.
    change (round radix2 (SpecFloat.fexp 24 128) (round_mode mode_NE)) with single in C. unfold val in *. cbn [B2R] in *.
    rewrite Rlt_bool_true in C by exact H. destruct C as (A & A' & _). split; assumption.
Qed.
Lemma narrow_ok x : ordinary x -> SpecSingle.finite (narrow x) /\ val32 (narrow x) = single (val x).
Proof.
  intros (F & B). apply narrow_val; [exact F|]. apply Rle_lt_trans with (bpow radix2 127); [|apply bpow_lt; lia].
  apply PSingle2.rnd_bound; [apply PSingle.bpow_format; lia|exact B].
Qed.
Lemma narrow_widen (u : MSingle.b32) : @is_finite 24 128 u = true -> SpecSingle.finite (narrow (widen u)) /\ val32 (narrow (widen u)) = val32 u.
Proof.
  intros F. destruct (widen_ok u F) as (A & A'). assert (E : single (val (widen u)) = val32 u).
  { unfold val. rewrite A'. apply PSingle.rnd_id. apply PSingle.fr_format. }
  rewrite <- E. apply narrow_val; [exact A|]. rewrite E. unfold SpecSingle.val. apply abs_B2R_lt_emax.
Qed.
Lemma compare32_widen legacy x u : compare32 legacy x (widen u) = Bcompare x u.
Proof.
  unfold compare32. destruct (legacy && counts_as_single (widen u)); [|apply cmp_widen].
  destruct (@is_finite 24 128 u) eqn:F.
  - destruct (narrow_widen u F) as (A & A'). unfold SpecSingle.finite, SpecSingle.val in *. destruct (@is_finite 24 128 x) eqn:Fx.
    + rewrite (Bcompare_correct 24 128 _ _ Fx A), (Bcompare_correct 24 128 _ _ Fx F), A'. reflexivity.
    + destruct x as [s|s| |s m e b]; try discriminate Fx; destruct (narrow (widen u)) as [s1|s1| |s1 m1 e1 b1]; try discriminate A; destruct u as [s2|s2| |s2 m2 e2 b2]; try discriminate F; reflexivity.
  - destruct u as [s|s| |s m e b]; try discriminate F; reflexivity.
Qed.
(** *** bounds that are float32 numbers *)
Definition sb (e : MConvert.entry) : Prop := exists u, e = VFloat (widen u).
Lemma single_bounds cs : forall d vars, Forall (fun vb => sb (tv_min (snd vb)) /\ sb (tv_max (snd vb))) d -> Forall (fun c => sb (tc_val c)) cs -> t_fold d cs = Ok vars ->
  Forall (fun vb => sb (tv_min (snd vb)) /\ sb (tv_max (snd vb))) vars.
Proof.
  induction cs as [|c cs IH]; intros d vars D F H; cbn [t_fold] in H; [injection H as <-; exact D|].
  destruct (dict_get (tc_var c) d) as [b|] eqn:G; [|discriminate H]. inversion F as [|? ? Fc F']; subst. eapply IH; [|exact F'|exact H].
  apply Forall_forall. intros x I. rewrite Forall_forall in D. destruct (set_in _ _ _ _ I) as [->|I']; [|exact (D _ I')]. cbn [snd].
  destruct (D _ (get_in _ _ _ G)) as (B1 & B2). cbn [snd] in B1, B2. unfold t_add. destruct (tc_op c); [destruct (lt_entries _ _)|destruct (gt_entries _ _)|]; split; assumption.
Qed.

(** Training data whose numbers are float32 numbers: float32 rows are sent where the same rows as float64 are sent, in any version of numpy. *)
Theorem C125_same_numbers : forall legacy n cs vars r, Forall (fun c => exists u, tc_val c = VFloat (widen u)) cs -> t_make (seq 0 n) cs = Ok vars ->
  row32 legacy vars r = t_row vars (map (fun x => VFloat (widen x)) r).
Proof.
  intros legacy n cs vars r F H. unfold t_make in H. assert (B : Forall (fun vb => sb (tv_min (snd vb)) /\ sb (tv_max (snd vb))) vars).
  { eapply single_bounds; [|exact F|exact H]. apply Forall_map. apply Forall_forall. intros v _. split; [exists (B754_infinity true)|exists (B754_infinity false)]; reflexivity. }
  clear H. unfold row32, t_row. induction B as [|[k b] vars ((u1 & E1) & (u2 & E2)) B IH]; [reflexivity|]. cbn [forallb]. rewrite IH. f_equal. cbn [fst snd] in *.
  rewrite E1, E2. cbn [to_float]. rewrite !compare32_widen. change (VFloat B754_nan) with ((fun x => VFloat (widen x)) B754_nan). rewrite map_nth.
  unfold gt_entries, le_entries. cbn [compare_entries to_float]. rewrite !cmp_widen. reflexivity.
Qed.

Lemma limit_big : bpow radix2 127 < val limit /\ finite limit.
Proof.
  assert (F : finite limit) by (vm_compute; reflexivity). split; [|exact F].
  set (c := @B754_finite 53 1024 false 4503599627370496 75 eq_refl). assert (Fc : finite c) by reflexivity.
  assert (E : Bcompare c limit = Some Lt) by (vm_compute; reflexivity). rewrite (Bcompare_correct 53 1024 c limit Fc F) in E. apply (f_equal (fun o => match o with Some c => c | None => Eq end)) in E. cbv beta iota in E. apply Rcompare_Lt_inv in E.
  replace (bpow radix2 127) with (@B2R 53 1024 c); [exact E|]. unfold c. cbn [B2R cond_Zopp]. unfold F2R. cbn [Fnum Fexp].
  change (IZR 4503599627370496) with (IZR (radix_val radix2 ^ 52)). rewrite IZR_Zpower by lia. rewrite <- bpow_plus. reflexivity.
Qed.
Opaque limit.
Lemma counts x : ordinary x -> counts_as_single x = true.
Proof.
  intros (F & B). unfold counts_as_single. unfold finite in F. rewrite F. destruct limit_big as (L & Fl).
  assert (Fa : @is_finite 53 1024 (Babs x) = true) by (rewrite is_finite_Babs; exact F).
  rewrite (Bcompare_correct 53 1024 _ _ Fa Fl), B2R_Babs, Rcompare_Lt; [reflexivity|]. eapply Rle_lt_trans; [exact B|exact L].
Qed.
Lemma made_le t : finite t -> t_make (seq 0 1) [TC 0 (VFloat t) OpLe] = Ok [(0%nat, TV (VFloat (B754_infinity true)) (VFloat t))].
Proof. intros F. unfold t_make. cbn. unfold t_add, lt_entries. cbn. destruct t as [s|s| |s m e b]; try discriminate F; try destruct s; reflexivity. Qed.
Lemma made_gt t : finite t -> t_make (seq 0 1) [TC 0 (VFloat t) OpGt] = Ok [(0%nat, TV (VFloat t) (VFloat (B754_infinity false)))].
Proof. intros F. unfold t_make. cbn. unfold t_add, gt_entries. cbn. destruct t as [s|s| |s m e b]; try discriminate F; try destruct s; reflexivity. Qed.
Lemma row_le legacy x t : SpecSingle.finite x -> row32 legacy [(0%nat, TV (VFloat (B754_infinity true)) (VFloat t))] [x] = match compare32 legacy x t with Some Lt | Some Eq => true | _ => false end.
Proof.
  intros F. unfold row32. cbn [forallb fst snd nth tv_min tv_max to_float]. change (B754_infinity true) with (widen (B754_infinity true)). rewrite compare32_widen.
  rewrite Bool.andb_true_r. unfold SpecSingle.finite in F. destruct x as [s|s| |s m e b]; try discriminate F; destruct s; reflexivity.
Qed.
Lemma row_gt legacy x t : SpecSingle.finite x -> row32 legacy [(0%nat, TV (VFloat t) (VFloat (B754_infinity false)))] [x] = match compare32 legacy x t with Some Gt => true | _ => false end.
Proof.
  intros F. unfold row32. cbn [forallb fst snd nth tv_min tv_max to_float]. change (@B754_infinity 53 1024 false) with (widen (B754_infinity false)). rewrite compare32_widen.
  rewrite Bool.andb_true_r. unfold SpecSingle.finite in F. replace (match Bcompare x (B754_infinity false) with Some Lt | Some Eq => true | _ => false end) with true; [apply Bool.andb_true_r|].
  destruct x as [s|s| |s m e b]; try discriminate F; destruct s; reflexivity.
Qed.
Lemma legacy_cmp x t : ordinary x -> ordinary t -> compare32 true (narrow x) t = Some (Rcompare (single (val x)) (single (val t))).
Proof.
  intros X T. unfold compare32. rewrite (counts t T). cbn [andb]. destruct (narrow_ok x X) as (A & A'). destruct (narrow_ok t T) as (B & B').
  unfold SpecSingle.finite, SpecSingle.val in *. rewrite (Bcompare_correct 24 128 _ _ A B), A', B'. reflexivity.
Qed.
Lemma new_cmp x t : ordinary x -> finite t -> compare32 false (narrow x) t = Some (Rcompare (single (val x)) (val t)).
Proof.
  intros X T. unfold compare32. cbn [andb]. destruct (narrow_ok x X) as (A & A'). unfold SpecSingle.finite, SpecSingle.val in *. destruct (widen_ok _ A) as (B & B').
  rewrite (Bcompare_correct 53 1024 _ _ B T), B', A'. reflexivity.
Qed.

(** astype(np.float32) gives the nearest float32 number. *)
Theorem C125_narrow : forall x, ordinary x -> SpecSingle.finite (narrow x) /\ val32 (narrow x) = single (val x).
Proof. exact narrow_ok. Qed.
(** Before numpy 2: whatever goes left as float64 goes left as float32 ... *)
Theorem C125_left : forall x t, ordinary x -> ordinary t -> exists vars, t_make (seq 0 1) [TC 0 (VFloat t) OpLe] = Ok vars /\
  (val x <= val t -> t_row vars [VFloat x] = true /\ row32 true vars [narrow x] = true).
Proof.
  intros x t X T. eexists. split; [apply made_le, T|]. intros L. split.
  - unfold t_row. cbn [forallb fst snd nth tv_min tv_max]. unfold gt_entries, le_entries. cbn [compare_entries to_float]. rewrite (Bcompare_correct 53 1024 x t (proj1 X) (proj1 T)).
    assert (G : match Bcompare x (B754_infinity true) with Some Gt => true | _ => false end = true) by (destruct X as (F & _); destruct x as [s|s| |s m e b]; try discriminate F; try destruct s; reflexivity).
    rewrite G. destruct (Rcompare_spec (@B2R 53 1024 x) (@B2R 53 1024 t)) as [H|H|H]; try reflexivity. unfold val in L. lra.
  - rewrite row_le by apply (narrow_ok x X). rewrite legacy_cmp by assumption. assert (M := PSingle.rnd_le _ _ L). destruct (Rcompare_spec (single (val x)) (single (val t))) as [H|H|H]; try reflexivity. lra.
Qed.
(** (defect) ... but what goes right as float64 goes right as float32 only if rounding keeps it apart from the split value. *)
Theorem C125_right : forall x t, ordinary x -> ordinary t -> exists vars, t_make (seq 0 1) [TC 0 (VFloat t) OpGt] = Ok vars /\
  (val t < val x -> t_row vars [VFloat x] = true /\ (row32 true vars [narrow x] = true <-> single (val x) <> single (val t))).
Proof.
  intros x t X T. eexists. split; [apply made_gt, T|]. intros L. split.
  - unfold t_row. cbn [forallb fst snd nth tv_min tv_max]. unfold gt_entries, le_entries. cbn [compare_entries to_float]. rewrite (Bcompare_correct 53 1024 x t (proj1 X) (proj1 T)).
    assert (G : match Bcompare x (B754_infinity false) with Some Lt | Some Eq => true | _ => false end = true) by (destruct X as (F & _); destruct x as [s|s| |s m e b]; try discriminate F; try destruct s; reflexivity).
    rewrite G, Rcompare_Gt by exact L. reflexivity.
  - rewrite row_gt by apply (narrow_ok x X). rewrite legacy_cmp by assumption. assert (M := PSingle.rnd_le _ _ (Rlt_le _ _ L)). destruct (Rcompare_spec (single (val x)) (single (val t))) as [H|H|H]; split; try discriminate; try reflexivity; intros; lra.
Qed.
(** From numpy 2 on the rounded entry is compared with the exact split value. *)
Theorem C125_new : forall x t, ordinary x -> finite t -> exists vl vr,
  t_make (seq 0 1) [TC 0 (VFloat t) OpLe] = Ok vl /\ t_make (seq 0 1) [TC 0 (VFloat t) OpGt] = Ok vr /\
  (row32 false vl [narrow x] = true <-> single (val x) <= val t) /\ (row32 false vr [narrow x] = true <-> val t < single (val x)).
Proof.
  intros x t X T. eexists. eexists. split; [apply made_le, T|]. split; [apply made_gt, T|]. rewrite row_le, row_gt by apply (narrow_ok x X). rewrite new_cmp by assumption.
  destruct (Rcompare_spec (single (val x)) (val t)) as [H|H|H]; split; split; try discriminate; try reflexivity; intros; lra.
Qed.
(** (defect) So the very training row a split value was taken from changes sides whenever its rounding is upwards. *)
Theorem C125_new_refuted : forall t, ordinary t -> val t < single (val t) -> exists vars, t_make (seq 0 1) [TC 0 (VFloat t) OpLe] = Ok vars /\
  t_row vars [VFloat t] = true /\ row32 false vars [narrow t] = false.
Proof.
  intros t T L. destruct (C125_left t t T T) as (vars & E & A). exists vars. split; [exact E|]. split; [apply A; lra|].
  destruct (C125_new t t T (proj1 T)) as (vl & vr & E1 & _ & B & _). rewrite E in E1. injection E1 as <-. apply Bool.not_true_is_false. intros C. apply B in C. lra.
Qed.

(** *** several columns and conditions *)
(** the number that the rounded entry is compared with: the rounded split value before numpy 2, the split value itself from then on *)
Definition compared (legacy : bool) (t : b64) : R := if legacy then single (val t) else val t.
(** what it takes for a float32 row to satisfy a condition *)
Definition satisfied (legacy : bool) (r : list b64) (c : tcond) : Prop :=
  let x := single (val (nth (tc_var c) r B754_nan)) in
  match tc_op c, tc_val c with
  | OpLe, VFloat t => x <= compared legacy t
  | OpGt, VFloat t => compared legacy t < x
  | _, _ => False
  end.
Definition is_gt (o : option comparison) : bool := match o with Some Gt => true | _ => false end.
Definition is_le (o : option comparison) : bool := match o with Some Lt | Some Eq => true | _ => false end.
Definition inside (legacy : bool) (x : MSingle.b32) (b : tcvc) : bool := is_gt (compare32 legacy x (to_float (tv_min b))) && is_le (compare32 legacy x (to_float (tv_max b))).
Definition satb (legacy : bool) (r : list MSingle.b32) (c : tcond) : bool :=
  match tc_op c with
  | OpLe => is_le (compare32 legacy (nth (tc_var c) r B754_nan) (to_float (tc_val c)))
  | OpGt => is_gt (compare32 legacy (nth (tc_var c) r B754_nan) (to_float (tc_val c)))
  | OpOther => false
  end.
Definition lower (e : MConvert.entry) : Prop := e = VFloat (B754_infinity true) \/ exists t, e = VFloat t /\ ordinary t.
Definition upper (e : MConvert.entry) : Prop := e = VFloat (B754_infinity false) \/ exists t, e = VFloat t /\ ordinary t.
Definition good (b : tcvc) : Prop := lower (tv_min b) /\ upper (tv_max b).
Lemma both_cmp legacy x t : ordinary x -> ordinary t -> compare32 legacy (narrow x) t = Some (Rcompare (single (val x)) (compared legacy t)).
Proof. intros X T. destruct legacy; [apply legacy_cmp; assumption|apply new_cmp; [exact X|apply T]]. Qed.
Lemma compared_le legacy s t : val s <= val t -> compared legacy s <= compared legacy t.
Proof. intros H. destruct legacy; [apply PSingle.rnd_le; exact H|exact H]. Qed.
Lemma above legacy x : ordinary x -> is_gt (compare32 legacy (narrow x) (B754_infinity true)) = true.
Proof.
  intros X. change (B754_infinity true) with (widen (B754_infinity true)). rewrite compare32_widen. destruct (narrow_ok x X) as (F & _). unfold SpecSingle.finite in F.
  destruct (narrow x) as [s|s| |s m e b]; try discriminate F; try destruct s; reflexivity.
Qed.
Lemma below_inf legacy x : ordinary x -> is_le (compare32 legacy (narrow x) (B754_infinity false)) = true.
Proof.
  intros X. change (@B754_infinity 53 1024 false) with (widen (B754_infinity false)). rewrite compare32_widen. destruct (narrow_ok x X) as (F & _). unfold SpecSingle.finite in F.
  destruct (narrow x) as [s|s| |s m e b]; try discriminate F; try destruct s; reflexivity.
Qed.
Lemma le_imp legacy x s t : ordinary x -> ordinary s -> ordinary t -> val s <= val t ->
  is_le (compare32 legacy (narrow x) s) = true -> is_le (compare32 legacy (narrow x) t) = true.
Proof.
  intros X S T H. rewrite !both_cmp by assumption. assert (C := compared_le legacy s t H). cbn [is_le].
  destruct (Rcompare_spec (single (val x)) (compared legacy s)); try discriminate; intros _; (destruct (Rcompare_spec (single (val x)) (compared legacy t)); [reflexivity|reflexivity|lra]).
Qed.
Lemma gt_imp legacy x s t : ordinary x -> ordinary s -> ordinary t -> val s <= val t ->
  is_gt (compare32 legacy (narrow x) t) = true -> is_gt (compare32 legacy (narrow x) s) = true.
Proof.
  intros X S T H. rewrite !both_cmp by assumption. assert (C := compared_le legacy s t H). cbn [is_gt].
  destruct (Rcompare_spec (single (val x)) (compared legacy t)); try discriminate; intros _; (destruct (Rcompare_spec (single (val x)) (compared legacy s)); [lra|lra|reflexivity]).
Qed.
Lemma add32 legacy b c t r : good b -> tc_val c = VFloat t -> ordinary t -> tc_op c <> OpOther -> ordinary (nth (tc_var c) r B754_nan) ->
  inside legacy (narrow (nth (tc_var c) r B754_nan)) (t_add b c) =
  (inside legacy (narrow (nth (tc_var c) r B754_nan)) b && satb legacy (map narrow r) c)%bool /\ good (t_add b c).
Proof.
  intros (L & U) E T O X. assert (N : nth (tc_var c) (map narrow r) B754_nan = narrow (nth (tc_var c) r B754_nan)) by (change (@B754_nan 24 128) with (narrow B754_nan) at 1; apply map_nth).
  unfold satb. rewrite N. set (x := nth (tc_var c) r B754_nan) in *. unfold t_add, inside. rewrite E. cbn [to_float]. destruct (tc_op c); [| |congruence].
  - unfold lt_entries. destruct U as [Em|(m & Em & M)]; rewrite Em; cbn [compare_entries to_float].
    + assert (K : Bcompare t (B754_infinity false) = Some Lt) by (destruct T as (F & _); destruct t as [s|s| |s q e bb]; try discriminate F; try destruct s; reflexivity).
      rewrite K. cbn [tv_min tv_max to_float]. rewrite below_inf by exact X. rewrite Bool.andb_true_r. split; [reflexivity|]. split; [exact L|]. right. exists t. split; [reflexivity|exact T].
    + rewrite (Bcompare_correct 53 1024 t m (proj1 T) (proj1 M)). destruct (Rcompare_spec (@B2R 53 1024 t) (@B2R 53 1024 m)) as [H|H|H]; cbn [tv_min tv_max to_float]; rewrite ?Em; cbn [to_float].
      * split; [|split; [exact L|right; exists t; split; [reflexivity|exact T]]]. pose proof (le_imp legacy x t m X T M (Rlt_le _ _ H)) as I.
        destruct (is_le (compare32 legacy (narrow x) t)); [rewrite (I eq_refl), !Bool.andb_true_r; reflexivity|rewrite !Bool.andb_false_r; reflexivity].
      * split; [|split; [exact L|rewrite Em; right; exists m; split; [reflexivity|exact M]]]. pose proof (le_imp legacy x m t X M T (Req_le _ _ (eq_sym H))) as I.
        destruct (is_le (compare32 legacy (narrow x) m)); [rewrite (I eq_refl), !Bool.andb_true_r; reflexivity|rewrite !Bool.andb_false_r; reflexivity].
      * split; [|split; [exact L|rewrite Em; right; exists m; split; [reflexivity|exact M]]]. pose proof (le_imp legacy x m t X M T (Rlt_le _ _ H)) as I.
        destruct (is_le (compare32 legacy (narrow x) m)); [rewrite (I eq_refl), !Bool.andb_true_r; reflexivity|rewrite !Bool.andb_false_r; reflexivity].
  - unfold gt_entries. destruct L as [Em|(m & Em & M)]; rewrite Em; cbn [compare_entries to_float].
    + assert (K : Bcompare t (B754_infinity true) = Some Gt) by (destruct T as (F & _); destruct t as [s|s| |s q e bb]; try discriminate F; try destruct s; reflexivity).
      rewrite K. cbn [tv_min tv_max to_float]. rewrite above by exact X. cbn [andb]. split; [apply Bool.andb_comm|]. split; [|exact U]. right. exists t. split; [reflexivity|exact T].
    + rewrite (Bcompare_correct 53 1024 t m (proj1 T) (proj1 M)). destruct (Rcompare_spec (@B2R 53 1024 t) (@B2R 53 1024 m)) as [H|H|H]; cbn [tv_min tv_max to_float]; rewrite ?Em; cbn [to_float].
      * split; [|split; [rewrite Em; right; exists m; split; [reflexivity|exact M]|exact U]]. pose proof (gt_imp legacy x t m X T M (Rlt_le _ _ H)) as I.
        destruct (is_gt (compare32 legacy (narrow x) m)); [rewrite (I eq_refl), !Bool.andb_true_r; reflexivity|reflexivity].
      * split; [|split; [rewrite Em; right; exists m; split; [reflexivity|exact M]|exact U]]. pose proof (gt_imp legacy x t m X T M (Req_le _ _ H)) as I.
        destruct (is_gt (compare32 legacy (narrow x) m)); [rewrite (I eq_refl), !Bool.andb_true_r; reflexivity|reflexivity].
      * split; [|split; [right; exists t; split; [reflexivity|exact T]|exact U]]. pose proof (gt_imp legacy x m t X M T (Rlt_le _ _ H)) as I.
        destruct (is_gt (compare32 legacy (narrow x) t)); [rewrite (I eq_refl), Bool.andb_true_r; reflexivity|rewrite Bool.andb_false_r; reflexivity].
Qed.
Lemma row32_inside legacy vars (r : list MSingle.b32) : row32 legacy vars r = forallb (fun vb => inside legacy (nth (fst vb) r B754_nan) (snd vb)) vars.
Proof. reflexivity. Qed.
Lemma set_row legacy k b b' s (r : list MSingle.b32) d : dict_get k d = Some b -> inside legacy (nth k r B754_nan) b' = (inside legacy (nth k r B754_nan) b && s)%bool ->
  row32 legacy (dict_set k b' d) r = (row32 legacy d r && s)%bool.
Proof.
  intros G H. rewrite !row32_inside. induction d as [|[k' b1] d IH]; [discriminate G|]. cbn [dict_get dict_set] in *. destruct (Nat.eqb k k') eqn:E.
  - apply Nat.eqb_eq in E. subst k'. injection G as ->. cbn [forallb fst snd]. rewrite H. destruct (inside legacy (nth k r B754_nan) b), s; cbn; rewrite ?Bool.andb_true_r, ?Bool.andb_false_r; reflexivity.
  - cbn [forallb fst snd]. rewrite (IH G). apply Bool.andb_assoc.
Qed.
Lemma fold32 legacy r cs : forall d vars, Forall (fun vb => good (snd vb)) d ->
  Forall (fun c => (exists t, tc_val c = VFloat t /\ ordinary t) /\ tc_op c <> OpOther /\ ordinary (nth (tc_var c) r B754_nan)) cs -> t_fold d cs = Ok vars ->
  row32 legacy vars (map narrow r) = (row32 legacy d (map narrow r) && forallb (satb legacy (map narrow r)) cs)%bool.
Proof.
  induction cs as [|c cs IH]; intros d vars D F H; cbn [t_fold] in H; [injection H as <-; cbn [forallb]; rewrite Bool.andb_true_r; reflexivity|].
  destruct (dict_get (tc_var c) d) as [b|] eqn:G; [|discriminate H]. inversion F as [|? ? ((t & E & T) & O & X) F']; subst.
  rewrite Forall_forall in D. pose proof (D _ (get_in _ _ _ G)) as B. cbn [snd] in B. destruct (add32 legacy b c t r B E T O X) as (A & A').
  rewrite (IH _ vars) with (3 := H); [|apply Forall_forall; intros y I; destruct (set_in _ _ _ _ I) as [->|I']; [exact A'|exact (D _ I')]|exact F'].
  assert (N : nth (tc_var c) (map narrow r) B754_nan = narrow (nth (tc_var c) r B754_nan)) by (change (@B754_nan 24 128) with (narrow B754_nan) at 1; apply map_nth).
  rewrite <- N in A. rewrite (set_row legacy _ b _ _ _ d G A). cbn [forallb]. symmetry. apply Bool.andb_assoc.
Qed.
(** Any number of columns and conditions: after rounding, a row reaches a leaf exactly if its rounded numbers satisfy every condition on the
    way, with the split values rounded too (before numpy 2) or not (from numpy 2 on). *)
Theorem C125_rows : forall legacy n cs vars r, t_make (seq 0 n) cs = Ok vars -> length r = n -> Forall ordinary r ->
  Forall (fun c => (exists t, tc_val c = VFloat t /\ ordinary t) /\ tc_op c <> OpOther /\ (tc_var c < n)%nat) cs ->
  (row32 legacy vars (map narrow r) = true <-> Forall (satisfied legacy r) cs).
Proof.
  intros legacy n cs vars r H Ln R F. assert (X : forall k, (k < n)%nat -> ordinary (nth k r B754_nan)) by (intros k K; rewrite Forall_forall in R; apply R; apply nth_In; lia).
  unfold t_make in H. rewrite (fold32 legacy r cs) with (3 := H).
  - assert (S : row32 legacy (map (fun v => (v, TV (VFloat (B754_infinity true)) (VFloat (B754_infinity false)))) (seq 0 n)) (map narrow r) = true).
    { rewrite row32_inside. apply forallb_forall. intros vb I. apply in_map_iff in I. destruct I as (k & <- & I). apply in_seq in I. cbn [fst snd].
      assert (N : nth k (map narrow r) B754_nan = narrow (nth k r B754_nan)) by (change (@B754_nan 24 128) with (narrow B754_nan) at 1; apply map_nth).
      rewrite N. unfold inside. cbn [tv_min tv_max to_float]. rewrite above, below_inf by (apply X; lia). reflexivity. }
    rewrite S. cbn [andb]. rewrite forallb_forall, Forall_forall. rewrite Forall_forall in F.
    assert (K : forall c, In c cs -> (satb legacy (map narrow r) c = true <-> satisfied legacy r c)).
    { intros c I. destruct (F c I) as ((t & E & T) & O & V). unfold satb, satisfied. rewrite E. cbn [to_float].
      assert (N : nth (tc_var c) (map narrow r) B754_nan = narrow (nth (tc_var c) r B754_nan)) by (change (@B754_nan 24 128) with (narrow B754_nan) at 1; apply map_nth).
      rewrite N. rewrite both_cmp by (try exact T; apply X; exact V). set (y := single _). destruct (tc_op c); [| |congruence]; destruct (Rcompare_spec y (compared legacy t)); cbn; split; intros; try discriminate; try reflexivity; lra. }
    split; intros Q c I; apply (K c I); exact (Q c I).
  - apply Forall_map. apply Forall_forall. intros v _. split; left; reflexivity.
  - eapply Forall_impl; [|exact F]. cbn beta. intros c (A & B & C). split; [exact A|]. split; [exact B|]. apply X. exact C.
Qed.

Transparent limit.
(** 0.1 and the double after it *)
Definition tenth : b64 := @B754_finite 53 1024 false 7205759403792794 (-56) eq_refl.
Definition tenth' : b64 := @B754_finite 53 1024 false 7205759403792795 (-56) eq_refl.
Definition sides32 (legacy : bool) (op : sop) (t : b64) (x : MSingle.b32) : res bool := let! vars := t_make (seq 0 1) [TC 0 (VFloat t) op] in Ok (row32 legacy vars [x]).
Lemma short_ordinary : forall m b, (Zpos m < 2 ^ 53)%Z -> ordinary (@B754_finite 53 1024 false m (-56) b).
Proof.
  intros m b H. split; [reflexivity|]. unfold val. cbn [B2R cond_Zopp]. unfold F2R. cbn [Fnum Fexp]. rewrite Rabs_mult, (Rabs_pos_eq (bpow _ _)) by apply bpow_ge_0.
  rewrite <- abs_IZR. cbn [Z.abs]. apply Rle_trans with (bpow radix2 53 * bpow radix2 (-56)).
  - apply Rmult_le_compat_r; [apply bpow_ge_0|]. rewrite <- IZR_Zpower by lia. apply IZR_le. change (radix_val radix2 ^ 53)%Z with (2 ^ 53)%Z. lia.
  - rewrite <- bpow_plus. apply bpow_le. lia.
Qed.
Lemma tenth_ordinary : ordinary tenth /\ ordinary tenth'.
Proof. split; apply short_ordinary; lia. Qed.
Example C125_case : ordinary tenth /\ ordinary tenth' /\
  sides32 true OpLe tenth (narrow tenth) = Ok true /\ sides32 true OpGt tenth (narrow tenth') = Ok false /\
  sides32 false OpLe tenth (narrow tenth) = Ok false /\ sides32 false OpGt tenth (narrow tenth') = Ok true.
Proof. split; [apply tenth_ordinary|]. split; [apply tenth_ordinary|]. vm_compute. repeat split; reflexivity. Qed.

(** two columns, split at 0.1, and a row with 0.1 and a number just below 1/8 *)
Definition eighth : b64 := @B754_finite 53 1024 false 9007199254740991 (-56) eq_refl.
Example C125_rows_case :
  let cs := [TC 0 (VFloat tenth) OpLe; TC 1 (VFloat tenth) OpGt] in
  Forall ordinary [tenth; eighth] /\
  Forall (fun c => (exists t, tc_val c = VFloat t /\ ordinary t) /\ tc_op c <> OpOther /\ (tc_var c < 2)%nat) cs /\
  (let! vars := t_make (seq 0 2) cs in Ok (row32 true vars (map narrow [tenth; eighth]))) = Ok true /\
  (let! vars := t_make (seq 0 2) cs in Ok (row32 false vars (map narrow [tenth; eighth]))) = Ok false.
Proof.
  assert (T := proj1 tenth_ordinary). split; [|split; [|split; vm_compute; reflexivity]].
  - apply Forall_cons; [exact T|]. apply Forall_cons; [apply short_ordinary; lia|apply Forall_nil].
  - apply Forall_cons; [|apply Forall_cons; [|apply Forall_nil]]; (split; [exists tenth; split; [reflexivity|exact T]|split; [discriminate|cbn; lia]]).
Qed.

Print Assumptions C125_same_numbers.
Print Assumptions C125_narrow.
Print Assumptions C125_left.
Print Assumptions C125_right.
Print Assumptions C125_new.
Print Assumptions C125_new_refuted.
Print Assumptions C125_rows.
Print Assumptions C125_case.
