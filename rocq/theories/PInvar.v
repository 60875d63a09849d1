(** What the changes of data of [SpecInvariance] do to the data a fit starts from. *)
From Coq Require Import Reals Lra QArith Qcanon Lia FunctionalExtensionality.
From Verif Require Import Base Fl Ext MData MSplit MTree MSampler MModel MModelHist MSklearn SpecModel SpecInvariance LFl LList PHeap PRel PRel2 PRel3 PModel7 PSklearn.
Local Open Scope R_scope.

(** ** recoded covariates *)
Section Recode.
Variable psi : nat -> Qc -> Qc.
Hypothesis Hpsi : strictly_increasing psi.
Lemma psi_cases v a b : qc_ltb (psi v a) (psi v b) = qc_ltb a b /\ qc_eqb (psi v a) (psi v b) = qc_eqb a b.
Proof.
  destruct (qc_tricho a b) as [(A&B&C)|[(A&B&C)|(A&B&C)]], (qc_tricho (psi v a) (psi v b)) as [(A'&B'&C')|[(A'&B'&C')|(A'&B'&C')]]; rewrite A, B, A', B'; auto; exfalso.
  all: try (apply qc_ltb_lt, (Hpsi v), qc_ltb_lt in A; congruence).
  all: try (apply qc_ltb_lt, (Hpsi v), qc_ltb_lt in C; congruence).
  all: apply qc_eqb_eq in B; subst; rewrite (proj2 (qc_eqb_eq _ _) eq_refl) in B'; discriminate.
Qed.
Lemma recode_lt v a b : flt (recode_cell psi v a) (recode_cell psi v b) = flt a b.
Proof. destruct a, b; simpl; auto. apply psi_cases. Qed.
Lemma recode_eq v a b : feqb (recode_cell psi v a) (recode_cell psi v b) = feqb a b.
Proof. destruct a, b; simpl; auto. apply psi_cases. Qed.
End Recode.
Lemma recode_tX psi X : recode psi X = tX (recode_cell psi) X.
Proof. reflexivity. Qed.

(** the data of a fit, given the target's *)
Lemma convert_tr phi rho sg X y y' : length y' = length y ->
  make_target y' (repeat false (length y)) true None = rmap (ttg rho sg) (make_target y (repeat false (length y)) true None) ->
  convert_to_data (tX phi X) y' = rmap (tdt phi rho sg) (convert_to_data X y).
Proof.
  intros Hl Ht. unfold convert_to_data, make_data. rewrite Hl, Ht. destruct (make_target y _ true None) as [t| |]; cbn [rmap rbind]; auto.
  unfold tdt. cbn [d_X d_y]. now rewrite make_covmat_tr.
Qed.
Lemma ttg_id t : ttg idr 1 t = t.
Proof. destruct t as [y m f sm rg]. unfold ttg. simpl. rewrite sv_1. f_equal; [destruct y; simpl; auto; now rewrite map_id|now destruct sm]. Qed.
Lemma convert_recode phi X y : convert_to_data (tX phi X) y = rmap (tdt phi idr 1) (convert_to_data X y).
Proof. apply convert_tr; auto. symmetry. apply rmap_id, ttg_id. Qed.
Lemma units_id d v : unnormalize_y (ttg idr 1 (d_y d)) (map (sv 1) v) = rmap (map (fun x => x)) (unnormalize_y (d_y d) v).
Proof. rewrite ttg_id, sv_1, map_id. symmetry. apply rmap_id. intros a. apply map_id. Qed.

(** ** a target in other units *)
Lemma fold_hom (op op' : R -> R -> R) (g : R -> R) l : (forall x z, op' (g x) (g z) = g (op x z)) -> forall x, fold_left op' (map g l) (g x) = g (fold_left op l x).
Proof. intros H. induction l as [|z l IH]; intros x; simpl; auto. now rewrite H, IH. Qed.
Section Units.
Variables a b : R.
Definition g (v : R) : R := a + b * v.
Lemma up_min : 0 < b -> forall x z, Rmin (g x) (g z) = g (Rmin x z).
Proof. unfold g, Rmin. intros Hb x z. destruct (Rle_dec x z), (Rle_dec (a + b * x) (a + b * z)); auto; nra. Qed.
Lemma up_max : 0 < b -> forall x z, Rmax (g x) (g z) = g (Rmax x z).
Proof. unfold g, Rmax. intros Hb x z. destruct (Rle_dec x z), (Rle_dec (a + b * x) (a + b * z)); auto; nra. Qed.
Lemma dn_min : b < 0 -> forall x z, Rmin (g x) (g z) = g (Rmax x z).
Proof. unfold g, Rmin, Rmax. intros Hb x z. destruct (Rle_dec x z), (Rle_dec (a + b * x) (a + b * z)); auto; nra. Qed.
Lemma dn_max : b < 0 -> forall x z, Rmax (g x) (g z) = g (Rmin x z).
Proof. unfold g, Rmin, Rmax. intros Hb x z. destruct (Rle_dec x z), (Rle_dec (a + b * x) (a + b * z)); auto; nra. Qed.

Definition rho_up (o : option (R * R)) : option (R * R) := option_map (fun p => (g (fst p), g (snd p))) o.
Definition rho_dn (o : option (R * R)) : option (R * R) := option_map (fun p => (g (snd p), g (fst p))) o.

Lemma finite_map (e e' : R -> ext) (k : R -> R) y : (forall v, xfin (e' v) = option_map k (xfin (e v))) ->
  finite_vec (map e' y) = option_map (map k) (finite_vec (map e y)).
Proof. intros H. induction y as [|v y IH]; simpl; auto. rewrite H, IH. destruct (xfin (e v)); simpl; auto. now destruct (finite_vec (map e y)). Qed.
(** one normalised value *)
Lemma norm_value sg lo hi lo' hi' v : (sg = 1 /\ 0 < b /\ lo' = g lo /\ hi' = g hi) \/ (sg = -1 /\ b < 0 /\ lo' = g hi /\ hi' = g lo) ->
  xfin (xadd (XFin (-/2)) (xdiv (XFin (g v - lo')) (XFin (hi' - lo')))) = option_map (sv sg) (xfin (xadd (XFin (-/2)) (xdiv (XFin (v - lo)) (XFin (hi - lo))))).
Proof.
  intros H. assert (Hb : b <> 0) by (destruct H as [H|H]; lra).
  assert (E : hi' - lo' = sg * (b * (hi - lo))) by (destruct H as [(->&_&->&->)|(->&_&->&->)]; unfold g; ring).
  assert (Es : sg <> 0) by (destruct H as [H|H]; lra).
  unfold xdiv. destruct (Req_EM_T (hi - lo) 0) as [Z|Z], (Req_EM_T (hi' - lo') 0) as [Z'|Z']; rewrite E in *.
  - destruct (rsign (g v - lo')), (rsign (v - lo)); reflexivity.
  - exfalso. apply Z'. rewrite Z. ring.
  - exfalso. apply Z. apply Rmult_integral in Z'. destruct Z' as [Z'|Z']; [lra|]. apply Rmult_integral in Z'. destruct Z'; lra.
  - cbn [xadd xfin option_map]. f_equal. unfold sv. destruct H as [(->&_&->&_)|(->&_&->&_)]; unfold g; field; split; auto; lra.
Qed.
Lemma normalize_up y sg lo hi : (sg = 1 /\ 0 < b /\ vmin (map g y) = g lo /\ vmax (map g y) = g hi) \/ (sg = -1 /\ b < 0 /\ vmin (map g y) = g hi /\ vmax (map g y) = g lo) ->
  lo = vmin y -> hi = vmax y ->
  finite_vec (normalize_y (map g y)) = option_map (map (sv sg)) (finite_vec (normalize_y y)).
Proof.
  intros H -> ->. unfold normalize_y. rewrite map_map. apply finite_map. intros v. now apply norm_value.
Qed.
Lemma target_up y mask : 0 < b -> make_target (affine a b y) mask true None = rmap (ttg rho_up 1) (make_target y mask true None).
Proof.
  intros Hb. unfold make_target. destruct y as [|v y]; [reflexivity|]. change (affine a b (v :: y)) with (map g (v :: y)).
  assert (E1 : vmin (map g (v :: y)) = g (vmin (v :: y))) by (simpl; apply fold_hom; now apply up_min).
  assert (E2 : vmax (map g (v :: y)) = g (vmax (v :: y))) by (simpl; apply fold_hom; now apply up_max).
  rewrite (normalize_up (v :: y) 1 (vmin (v :: y)) (vmax (v :: y))) by auto.
  cbn [map]. change (g v :: map g y) with (map g (v :: y)). destruct (finite_vec (normalize_y (v :: y))) as [ny|]; cbn [option_map]; [|reflexivity].
  cbn [rmap]. f_equal. unfold ttg. cbn [t_y t_mask t_fresh t_sum t_range option_map rho_up fst snd]. now rewrite E1, E2.
Qed.
Lemma target_dn y mask : b < 0 -> make_target (affine a b y) mask true None = rmap (ttg rho_dn (-1)) (make_target y mask true None).
Proof.
  intros Hb. unfold make_target. destruct y as [|v y]; [reflexivity|]. change (affine a b (v :: y)) with (map g (v :: y)).
  assert (E1 : vmin (map g (v :: y)) = g (vmax (v :: y))) by (simpl; apply fold_hom; now apply dn_min).
  assert (E2 : vmax (map g (v :: y)) = g (vmin (v :: y))) by (simpl; apply fold_hom; now apply dn_max).
  rewrite (normalize_up (v :: y) (-1) (vmin (v :: y)) (vmax (v :: y))) by auto.
  cbn [map]. change (g v :: map g y) with (map g (v :: y)). destruct (finite_vec (normalize_y (v :: y))) as [ny|]; cbn [option_map]; [|reflexivity].
  cbn [rmap]. f_equal. unfold ttg. cbn [t_y t_mask t_fresh t_sum t_range option_map rho_dn fst snd]. now rewrite E1, E2.
Qed.
Lemma units_up t v : unnormalize_y (ttg rho_up 1 t) (map (sv 1) v) = rmap (map g) (unnormalize_y t v).
Proof.
  unfold unnormalize_y, ttg. cbn [t_range]. destruct (t_range t) as [[lo hi]|]; cbn [rho_up option_map fst snd rmap]; auto. f_equal.
  unfold unnormalize_with. rewrite !map_map. apply map_ext. intros x. unfold sv, g. ring.
Qed.
Lemma units_dn t v : unnormalize_y (ttg rho_dn (-1) t) (map (sv (-1)) v) = rmap (map g) (unnormalize_y t v).
Proof.
  unfold unnormalize_y, ttg. cbn [t_range]. destruct (t_range t) as [[lo hi]|]; cbn [rho_dn option_map fst snd rmap]; auto. f_equal.
  unfold unnormalize_with. rewrite !map_map. apply map_ext. intros x. unfold sv, g. field.
Qed.
End Units.
Lemma convert_affine_up a b X y : 0 < b -> convert_to_data (tX idc X) (affine a b y) = rmap (tdt idc (rho_up a b) 1) (convert_to_data X y).
Proof. intros Hb. apply convert_tr; [apply map_length|]. now apply target_up. Qed.
Lemma convert_affine_dn a b X y : b < 0 -> convert_to_data (tX idc X) (affine a b y) = rmap (tdt idc (rho_dn a b) (-1)) (convert_to_data X y).
Proof. intros Hb. apply convert_tr; [apply map_length|]. now apply target_dn. Qed.
Lemma mirrored_trg rs : map mirrored rs = map (trg (-1)) rs.
Proof. apply map_ext. intros r. unfold mirrored, trg. f_equal. apply map_ext. intros x. unfold sv. ring. Qed.
Lemma tX_idc : tX idc = fun X => X.
Proof. extensionality X. apply tX_id. Qed.
