(** A change of representation that the code cannot see: covariates recoded column by column by order-preserving
    maps, targets negated or not, the recorded range of the target replaced, node objects at other addresses (those
    below [n0] stay, the others move up by [dl]).  Every model function commutes with it, those that make new node
    objects once the addresses below [n0] are taken.  Data and splits here; trees in PRel2.v, models in PRel3.v. *)
From Coq Require Import Reals Lra FunctionalExtensionality.
From Verif Require Import Base Fl Ext MData MSplit MTree MSampler MModel LFl LList PHeap.
Local Open Scope R_scope.

Definition rmap {A B} (f : A -> B) (m : res A) : res B :=
  match m with Ok a => Ok (f a) | Raise e => Raise e | NoDraws => NoDraws end.
Lemma rbind_rmap {A B C} (f : A -> B) m (k : B -> res C) : rbind (rmap f m) k = rbind m (fun a => k (f a)).
Proof. now destruct m. Qed.
Lemma rmap_rbind {A B C} (f : B -> C) (m : res A) k : rmap f (rbind m k) = rbind m (fun a => rmap f (k a)).
Proof. now destruct m. Qed.
Lemma rmap_ok {A B} (f : A -> B) m b : rmap f m = Ok b <-> exists a, m = Ok a /\ b = f a.
Proof. destruct m; simpl; split; try discriminate; try (intros (a'&?&?); congruence). intros [= <-]; eauto. Qed.

Definition imap {A B} (f : nat -> A -> B) (l : list A) : list B := map2 f (seq 0 (length l)) l.
Lemma imap_aux {A B} (f : nat -> A -> B) l : forall k i, nth_error (map2 f (seq k (length l)) l) i = option_map (f (k + i)%nat) (nth_error l i).
Proof.
  induction l as [|x l IH]; intros k [|i]; simpl; auto.
  - now rewrite Nat.add_0_r.
  - rewrite IH. now rewrite Nat.add_succ_comm.
Qed.
Lemma imap_nth_error {A B} (f : nat -> A -> B) l i : nth_error (imap f l) i = option_map (f i) (nth_error l i).
Proof. apply (imap_aux f l 0 i). Qed.
Lemma imap_nth {A B} (f : nat -> A -> B) l i d d' : f i d = d' -> nth i (imap f l) d' = f i (nth i l d).
Proof.
  intros <-. pose proof (imap_nth_error f l i) as H. destruct (nth_error l i) as [x|] eqn:E; simpl in H.
  - erewrite nth_error_nth by eauto. now erewrite nth_error_nth by eauto.
  - rewrite !nth_overflow; auto; now apply nth_error_None.
Qed.
Lemma imap_ext_list {A} (l l' : list A) : (forall i, nth_error l i = nth_error l' i) -> l = l'.
Proof. apply nth_error_ext. Qed.
Lemma set_nth_error {A} i (x : A) l j : nth_error (set_nth i x l) j = if Nat.eqb i j then option_map (fun _ => x) (nth_error l j) else nth_error l j.
Proof. revert i j. induction l as [|y l IH]; intros [|i] [|j]; simpl; auto. now destruct (Nat.eqb i j). Qed.
Lemma imap_set_nth {A B} (f : nat -> A -> B) i x l : imap f (set_nth i x l) = set_nth i (f i x) (imap f l).
Proof.
  apply imap_ext_list. intros j. rewrite imap_nth_error, !set_nth_error, imap_nth_error.
  destruct (Nat.eqb_spec i j) as [->|]; auto. now destruct (nth_error l j).
Qed.
Lemma imap_repeat {A B} (f : nat -> A -> B) x x' n : (forall i, f i x = x') -> imap f (repeat x n) = repeat x' n.
Proof.
  intros H. apply imap_ext_list. intros j. rewrite imap_nth_error. destruct (Nat.lt_ge_cases j n) as [L|L].
  - rewrite !nth_error_repeat by auto. simpl. now rewrite H.
  - rewrite !(proj2 (nth_error_None _ _)) by now rewrite repeat_length. reflexivity.
Qed.
Lemma imap_length {A B} (f : nat -> A -> B) l : length (imap f l) = length l.
Proof. unfold imap. rewrite map2_length; rewrite ?seq_length; auto. Qed.

Section Tr.
Variable phi : nat -> fl -> fl.
Hypothesis phi_nan : forall v, phi v FNaN = FNaN.
Hypothesis phi_ninf : forall v, phi v FNInf = FNInf.
Hypothesis phi_pinf : forall v, phi v FPInf = FPInf.
Hypothesis phi_lt : forall v a b, flt (phi v a) (phi v b) = flt a b.
Hypothesis phi_eq : forall v a b, feqb (phi v a) (phi v b) = feqb a b.
Variable rho : option (R * R) -> option (R * R).
Hypothesis rho_none : rho None = None.
Variable sg : R.
Hypothesis sg_sq : sg * sg = 1.

Definition sv (x : R) : R := sg * x.
Definition trow (r : list fl) : list fl := imap phi r.
Definition tX (X : matrix) : matrix := Mx (mx_ncols X) (map trow (mx_rows X)).
Definition tcm (c : covmat) : covmat :=
  CM (tX (cm_X c)) (cm_mask c) (cm_nobsv c) (cm_unique c) (cm_split c) (imap (fun v o => option_map (phi v) o) (cm_max c)).
Definition tsc (s : scond) : scond :=
  SC (sc_var s) (phi (sc_var s) (sc_val s)) (sc_op s) (option_map sv (sc_ysum s)) (sc_n s).
Definition ttg (t : target) : target :=
  Tg (option_map (map sv) (t_y t)) (t_mask t) (t_fresh t) (option_map sv (t_sum t)) (rho (t_range t)).
Definition tdt (d : data) : data := Dt (tcm (d_X d)) (ttg (d_y d)).
Definition tcv (v : nat) (b : cvc) : cvc := CV (phi v (cv_min b)) (phi v (cv_max b)).
Definition tvars (vs : list (nat * cvc)) : list (nat * cvc) := map (fun vb => (fst vb, tcv (fst vb) (snd vb))) vs.
Definition tcc (c : ccond) : ccond := CC (tvars (cc_vars c)) (map tsc (cc_conds c)).
Definition tsp (s : split) : split := Sp (tdt (sp_data s)) (tcc (sp_cc s)).

Lemma phi_is_nan v a : is_nan (phi v a) = is_nan a.
Proof.
  destruct (is_nan a) eqn:E.
  - destruct a; try discriminate. now rewrite phi_nan.
  - pose proof (feqb_refl a E) as H. rewrite <- (phi_eq v) in H. apply feqb_eq in H. destruct (phi v a); auto. now destruct H.
Qed.
Lemma phi_inj v a b : phi v a = phi v b -> a = b.
Proof.
  intros H. destruct (is_nan a) eqn:Ea.
  - assert (is_nan b = true) by (rewrite <- (phi_is_nan v), <- H, phi_is_nan; auto). destruct a, b; auto; discriminate.
  - pose proof (phi_eq v a b) as E. rewrite <- H, feqb_refl in E by (rewrite phi_is_nan; auto). symmetry in E. now apply feqb_eq in E.
Qed.
Lemma phi_le v a b : fle (phi v a) (phi v b) = fle a b.
Proof. unfold fle. now rewrite phi_lt, phi_eq. Qed.
Lemma phi_gt v a b : fgt (phi v a) (phi v b) = fgt a b.
Proof. unfold fgt. apply phi_lt. Qed.
Lemma phi_max v a b : fmax (phi v a) (phi v b) = phi v (fmax a b).
Proof. unfold fmax. rewrite !phi_is_nan, phi_lt. destruct (is_nan a), (is_nan b), (flt a b); auto. Qed.

Lemma sv_0 : sv 0 = 0.
Proof. unfold sv. ring. Qed.
Lemma sv_sub a b : sv a - sv b = sv (a - b).
Proof. unfold sv. ring. Qed.
Lemma sv_add a b : sv a + sv b = sv (a + b).
Proof. unfold sv. ring. Qed.
Lemma sv_sv a : sv (sv a) = a.
Proof. unfold sv. rewrite <- Rmult_assoc, sg_sq. ring. Qed.
Lemma sv_sq a : sv a * sv a = a * a.
Proof. unfold sv. replace (sg * a * (sg * a)) with ((sg * sg) * (a * a)) by ring. rewrite sg_sq. ring. Qed.
Lemma sg_cases : sg = 1 \/ sg = -1.
Proof. destruct (Req_dec sg 1); auto. right. assert (sg + 1 = 0); [|lra]. apply Rmult_eq_reg_l with (sg - 1); [|lra]. rewrite Rmult_0_r. replace ((sg-1)*(sg+1)) with (sg*sg - 1) by ring. lra. Qed.

Lemma cell_trow r v : cell (trow r) v = phi v (cell r v).
Proof. unfold cell, trow. now apply imap_nth. Qed.
Lemma get_column_tr c i : get_column (tcm c) i = map (phi i) (get_column c i).
Proof. unfold get_column. simpl. rewrite select_map, !map_map. apply map_ext. intros r. apply cell_trow. Qed.
Lemma inc_loop_tr v s : forall o, inc_loop (option_map (phi v) o) (map (phi v) s) = inc_loop o s.
Proof.
  induction s as [|x s IH]; intros o; simpl; auto. destruct o as [f|]; simpl.
  - rewrite phi_eq. destruct (negb (feqb x f)); auto. apply (IH (Some f)).
  - apply (IH (Some x)).
Qed.
Lemma is_not_constant_tr v s : is_not_constant (map (phi v) s) = is_not_constant s.
Proof.
  unfold is_not_constant. rewrite map_length. destruct (length s <=? 1)%nat; auto.
  replace (tl (map (phi v) s)) with (map (phi v) (tl s)) by now destruct s. apply (inc_loop_tr v _ None).
Qed.
Lemma fill_splittable_tr c : fill_splittable (tcm c) = fill_splittable c.
Proof.
  unfold fill_splittable. simpl. apply map_ext. intros i. rewrite get_column_tr, is_not_constant_tr. reflexivity.
Qed.
Lemma splittable_variables_tr c : splittable_variables (tcm c) = (fst (splittable_variables c), tcm (snd (splittable_variables c))).
Proof. unfold splittable_variables. rewrite fill_splittable_tr. reflexivity. Qed.
Lemma one_splittable_tr c : fst (is_at_least_one_splittable_variable (tcm c)) = fst (is_at_least_one_splittable_variable c).
Proof.
  unfold is_at_least_one_splittable_variable. rewrite splittable_variables_tr. simpl.
  destruct (existsb _ (cm_split c)); auto.
Qed.
Lemma n_unique_tr v s : n_unique (map (phi v) s) = n_unique s.
Proof.
  unfold n_unique. induction s as [|x s IH]; simpl; auto.
  destruct (in_dec fl_eq_dec x s) as [H|H], (in_dec fl_eq_dec (phi v x) (map (phi v) s)) as [H'|H']; simpl; auto.
  - exfalso. apply H'. now apply in_map.
  - exfalso. apply H. apply in_map_iff in H'. destruct H' as (y&E&Hy). apply phi_inj in E. now subst.
Qed.
Lemma is_column_unique_tr c i : is_column_unique (tcm c) i = rmap (fun bc => (fst bc, tcm (snd bc))) (is_column_unique c i).
Proof.
  unfold is_column_unique. cbn [tcm cm_nfeat cm_X tX mx_ncols cm_unique cm_nobsv]. unfold cm_nfeat. simpl.
  destruct (mx_ncols (cm_X c) <=? i)%nat; auto. rewrite get_column_tr, n_unique_tr.
  destruct (nth i (cm_unique c) None); reflexivity.
Qed.
Lemma list_max_tr v col : list_max (map (phi v) col) = rmap (phi v) (list_max col).
Proof.
  destruct col as [|x l]; simpl; auto. f_equal. revert x. induction l as [|y l IH]; intros x; simpl; auto. rewrite phi_max. apply IH.
Qed.
Lemma max_value_tr c i : max_value_of_column (tcm c) i = rmap (fun mc => (phi i (fst mc), tcm (snd mc))) (max_value_of_column c i).
Proof.
  unfold max_value_of_column, cm_nfeat. simpl. destruct (mx_ncols (cm_X c) <=? i)%nat; auto.
  rewrite (imap_nth (fun v o => option_map (phi v) o) _ i None None eq_refl).
  destruct (nth i (cm_max c) None) as [m|]; simpl; auto. rewrite get_column_tr, list_max_tr.
  destruct (list_max (get_column c i)) as [m| |]; simpl; auto. unfold tcm, cm_set_max. simpl. now rewrite imap_set_nth.
Qed.
Lemma choose_map {A B} (f : A -> B) d d' l k : f d = d' -> choose d' (map f l) k = f (choose d l k).
Proof. intros H. unfold choose. rewrite map_length. now apply nth_map_d. Qed.
Lemma value_loop_tr v col mx : forall draws,
  value_loop (map (phi v) col) (phi v mx) draws = rmap (fun xd => (phi v (fst xd), snd xd)) (value_loop col mx draws).
Proof.
  induction draws as [|d ds IH]; simpl; auto. rewrite (choose_map (phi v) FNaN FNaN) by auto. rewrite phi_eq.
  destruct (feqb (choose FNaN col d) mx); auto.
Qed.
Lemma random_splittable_value_tr c v draws :
  random_splittable_value (tcm c) v draws = rmap (fun xd => (phi v (fst xd), snd xd)) (random_splittable_value c v draws).
Proof.
  unfold random_splittable_value. rewrite splittable_variables_tr.
  destruct (splittable_variables c) as [vs c1]. cbn [fst snd]. destruct (negb _); auto.
  rewrite max_value_tr. destruct (max_value_of_column c1 v) as [[mx c2]| |]; cbn [rmap rbind fst snd]; auto.
  rewrite get_column_tr. apply value_loop_tr.
Qed.
Lemma count_eq_tr v col x : count_eq (map (phi v) col) (phi v x) = count_eq col x.
Proof.
  unfold count_eq. induction col as [|y l IH]; simpl; auto. rewrite phi_eq. destruct (feqb y x); simpl; auto.
Qed.
Lemma proportion_tr c i x : proportion_of_value_in_variable (tcm c) i (phi i x) = rmap (fun qc => (fst qc, tcm (snd qc))) (proportion_of_value_in_variable c i x).
Proof.
  unfold proportion_of_value_in_variable. rewrite is_column_unique_tr.
  destruct (is_column_unique c i) as [[u c1]| |]; cbn [rmap rbind fst snd]; auto.
  destruct u; simpl; auto. rewrite get_column_tr, count_eq_tr, map_length. reflexivity.
Qed.
Lemma update_mask_tr c s : update_mask (tcm c) (tsc s) = update_mask c s.
Proof.
  unfold update_mask, column_mask, cm_nfeat. simpl. destruct (sc_op s); simpl; auto; destruct (_ <=? _)%nat; simpl; auto;
  rewrite map_map; rewrite (map_ext _ (fun r => _) (fun r => f_equal (fun z => _ z _) (cell_trow r _)));
  [rewrite (map_ext _ (fun r => fgt (cell r (sc_var s)) (sc_val s)) (fun r => phi_gt _ _ _))|rewrite (map_ext _ (fun r => fle (cell r (sc_var s)) (sc_val s)) (fun r => phi_le _ _ _))]; reflexivity.
Qed.

(** targets *)
Lemma masked_sum_tr y m : masked_sum (map sv y) m = sv (masked_sum y m).
Proof.
  unfold masked_sum, rsum. revert m. induction y as [|a y IH]; intros [|b m]; simpl; try now rewrite sv_0.
  rewrite IH, <- sv_add. unfold sv. ring.
Qed.
Lemma summed_y_tr t : summed_y (ttg t) = rmap (fun st => (sv (fst st), ttg (snd st))) (summed_y t).
Proof.
  unfold summed_y. destruct t as [y m f s rg]. simpl. destruct f.
  - destruct s; reflexivity.
  - destruct y as [y|]; simpl; auto. rewrite map_length, masked_sum_tr. destruct (negb _); reflexivity.
Qed.
Lemma target_update_tr t y : target_update_y (ttg t) (option_map (map sv) y) = ttg (target_update_y t y).
Proof. reflexivity. Qed.
Lemma make_covmat_tr X m n u s : make_covmat (tX X) m n u s = tcm (make_covmat X m n u s).
Proof. unfold make_covmat, tcm. simpl. f_equal. now rewrite (imap_repeat _ None None). Qed.
Lemma data_add_tr d s : data_add (tdt d) (tsc s) = rmap tdt (data_add d s).
Proof.
  unfold data_add. cbn [tdt d_X]. rewrite update_mask_tr. destruct (update_mask (d_X d) s) as [m| |]; cbn [rbind rmap]; auto.
  change (cm_X (tcm (d_X d))) with (tX (cm_X (d_X d))). rewrite make_covmat_tr. unfold tdt, ttg. simpl. rewrite rho_none. destruct (sc_ysum s); reflexivity.
Qed.

(** conditions and splits *)
Lemma dict_get_tr k d : dict_get k (tvars d) = option_map (tcv k) (dict_get k d).
Proof. induction d as [|[k' a] d IH]; simpl; auto. destruct (Nat.eqb_spec k k') as [->|]; auto. Qed.
Lemma dict_set_tr k a d : dict_set k (tcv k a) (tvars d) = tvars (dict_set k a d).
Proof. induction d as [|[k' a'] d IH]; simpl; auto. destruct (Nat.eqb_spec k k') as [->|]; simpl; auto. now rewrite IH. Qed.
Lemma add_condition_tr b s : add_condition (tcv (sc_var s) b) (tsc s) = tcv (sc_var s) (add_condition b s).
Proof.
  unfold add_condition. simpl. destruct (sc_op s); auto.
  - rewrite phi_lt. destruct (flt (sc_val s) (cv_max b)); reflexivity.
  - rewrite phi_gt. destruct (fgt (sc_val s) (cv_min b)); reflexivity.
Qed.
Lemma fold_conditions_tr conds : forall vars, fold_conditions (tvars vars) (map tsc conds) = rmap tvars (fold_conditions vars conds).
Proof.
  induction conds as [|s l IH]; intros vars; auto. cbn [fold_conditions map]. change (sc_var (tsc s)) with (sc_var s).
  rewrite dict_get_tr. destruct (dict_get (sc_var s) vars) as [b|]; simpl; auto.
  change (CV (phi (sc_var s) (cv_min b)) (phi (sc_var s) (cv_max b))) with (tcv (sc_var s) b).
  rewrite add_condition_tr, dict_set_tr. apply IH.
Qed.
Lemma make_cc_tr vars conds : make_cc vars (map tsc conds) = rmap tcc (make_cc vars conds).
Proof.
  unfold make_cc. replace (map (fun v => (v, CV FNInf FPInf)) vars) with (tvars (map (fun v => (v, CV FNInf FPInf)) vars)) at 1.
  - rewrite fold_conditions_tr, rbind_rmap, rmap_rbind. reflexivity.
  - unfold tvars. rewrite map_map. apply map_ext. intros v. unfold tcv. simpl. now rewrite phi_ninf, phi_pinf.
Qed.
Lemma cc_add_tr c s : cc_add (tcc c) (tsc s) = rmap tcc (cc_add c s).
Proof.
  unfold cc_add. rewrite <- make_cc_tr. simpl. rewrite map_app. f_equal. unfold tvars. rewrite map_map. reflexivity.
Qed.
Lemma row_selected_tr c r : row_selected (tcc c) (trow r) = row_selected c r.
Proof.
  unfold row_selected. simpl. unfold tvars. induction (cc_vars c) as [|[v b] l IH]; simpl; auto.
  rewrite cell_trow, phi_gt, phi_le, IH. reflexivity.
Qed.
Lemma cc_condition_tr c X : cc_condition (tcc c) (tX X) = cc_condition c X.
Proof.
  unfold cc_condition. simpl.
  replace (forallb (fun vb : nat * cvc => (fst vb <? mx_ncols X)%nat) (tvars (cc_vars c))) with (forallb (fun vb : nat * cvc => (fst vb <? mx_ncols X)%nat) (cc_vars c)).
  - destruct (forallb _ _); auto. rewrite map_map. f_equal. apply map_ext. intros r. apply row_selected_tr.
  - unfold tvars. induction (cc_vars c) as [|vb l IH]; simpl; auto. now rewrite IH.
Qed.
Lemma cc_most_recent_tr c : cc_most_recent (tcc c) = option_map tsc (cc_most_recent c).
Proof. unfold cc_most_recent. simpl. now rewrite last_opt_map. Qed.
Lemma make_split_tr d : make_split (tdt d) = rmap tsp (make_split d).
Proof.
  unfold make_split. change (@nil scond) with (map tsc []) at 1. rewrite make_cc_tr, rbind_rmap, rmap_rbind. reflexivity.
Qed.
Lemma split_add_tr s c : split_add (tsp s) (tsc c) = rmap tsp (split_add s c).
Proof.
  unfold split_add. simpl. rewrite data_add_tr. destruct (data_add (sp_data s) c) as [d| |]; cbn [rbind rmap]; auto.
  rewrite cc_add_tr. destruct (cc_add (sp_cc s) c); reflexivity.
Qed.
Lemma split_children_tr s c0 c1 :
  split_children (tsp s) (tsc c0) (tsc c1) = rmap (fun abc => (tsp (fst (fst abc)), tsp (snd (fst abc)), tsp (snd abc))) (split_children s c0 c1).
Proof.
  unfold split_children. rewrite split_add_tr. destruct (split_add s c0) as [sl| |]; cbn [rbind rmap]; auto.
  change (d_y (sp_data (tsp s))) with (ttg (d_y (sp_data s))). rewrite summed_y_tr.
  destruct (summed_y (d_y (sp_data s))) as [[sy ty]| |]; cbn [rbind rmap fst snd]; auto.
  change (d_y (sp_data (tsp sl))) with (ttg (d_y (sp_data sl))). rewrite summed_y_tr.
  destruct (summed_y (d_y (sp_data sl))) as [[ly tl]| |]; cbn [rbind rmap fst snd]; auto.
  rewrite sv_sub. change (sp_set_y (tsp s) (ttg ty)) with (tsp (sp_set_y s ty)).
  match goal with |- context [split_add (sp_set_y s ty) ?c] => pose proof (split_add_tr (sp_set_y s ty) c) as H end.
  unfold tsc in H at 1. cbn [sc_var sc_val sc_op sc_ysum sc_n option_map] in H.
  change (sc_var (tsc c1)) with (sc_var c1). change (sc_val (tsc c1)) with (phi (sc_var c1) (sc_val c1)). change (sc_op (tsc c1)) with (sc_op c1).
  change (cm_nobsv (d_X (sp_data (tsp s)))) with (cm_nobsv (d_X (sp_data s))).
  change (cm_nobsv (d_X (sp_data (tsp sl)))) with (cm_nobsv (d_X (sp_data sl))).
  rewrite H. destruct (split_add (sp_set_y s ty) _); reflexivity.
Qed.

(** ** trees *)
Variable n0 : nat.
Variable dl : nat.
Variable g : nat -> option tnode.
Definition ti (i : nat) : nat := (if (i <? n0)%nat then i else (i + dl)%nat).
Definition tk (k : nkind) : nkind := match k with KLeaf v => KLeaf (sv v) | KDec l r => KDec (ti l) (ti r) end.
Definition tns (s : nsplit) : nsplit := match s with SFull s => SFull (tsp s) | SCond c => SCond (tcc c) end.
Definition tnd (n : tnode) : tnode := Nd (tk (nd_kind n)) (tns (nd_split n)) (nd_depth n).
Definition th (h : heap) : heap :=
  Hp (h_next h + dl) (fun j => if (j <? n0)%nat then option_map tnd (h_get h j)
                               else if (j <? n0 + dl)%nat then g j else option_map tnd (h_get h (j - dl)%nat)).
Definition ttr (t : tree) : tree := Tr (map ti (tr_nodes t)) (tr_fresh t) (option_map (map sv) (tr_pred t)).
Definition tmu (m : mutation) : mutation := Mu (mu_kind m) (ti (mu_existing m)) (ti (mu_updated m)).

Arguments ti _ : simpl never.
Arguments th _ : simpl never.
Arguments tsp _ : simpl never.
Arguments tcc _ : simpl never.
Arguments tnd _ : simpl never.

Ltac cmp := repeat match goal with
  | |- context [Nat.ltb ?a ?b] => destruct (Nat.ltb_spec a b); try lia
  | |- context [Nat.eqb ?a ?b] => destruct (Nat.eqb_spec a b); try lia
  end; subst; auto.
Lemma ti_eqb i j : Nat.eqb (ti i) (ti j) = Nat.eqb i j.
Proof. unfold ti. cmp. Qed.
Lemma th_get h i : h_get (th h) (ti i) = option_map tnd (h_get h i).
Proof. unfold th, ti. simpl. cmp. now replace (i + dl - dl)%nat with i by lia. Qed.
Lemma th_set h i n : h_set (th h) (ti i) (tnd n) = th (h_set h i n).
Proof.
  unfold h_set, th. simpl. f_equal. extensionality j. unfold ti. cmp.
Qed.
Lemma th_alloc h n : (n0 <= h_next h)%nat -> h_alloc (th h) (tnd n) = (ti (fst (h_alloc h n)), th (snd (h_alloc h n))).
Proof.
  intros L. unfold h_alloc, th. simpl. f_equal; [unfold ti; cmp|]. f_equal. extensionality j. cmp.
Qed.
Lemma le_grows h h' : grows h h' -> (n0 <= h_next h -> n0 <= h_next h')%nat.
Proof. intros [L _] ?. lia. Qed.
Ltac getn := rewrite th_get; match goal with |- context [h_get ?h ?i] => destruct (h_get h i) as [[[?|? ?] [?|?] ?]|] end; simpl; auto.
Lemma is_leaf_tr h i : is_leaf (th h) (ti i) = is_leaf h i.
Proof. unfold is_leaf. getn. Qed.
Lemma is_dec_tr h i : is_dec (th h) (ti i) = is_dec h i.
Proof. unfold is_dec. getn. Qed.
Lemma left_child_tr h i : left_child (th h) (ti i) = option_map ti (left_child h i).
Proof. unfold left_child. getn. Qed.
Lemma right_child_tr h i : right_child (th h) (ti i) = option_map ti (right_child h i).
Proof. unfold right_child. getn. Qed.
Lemma node_split_tr h i : node_split (th h) (ti i) = option_map tsp (node_split h i).
Proof. unfold node_split. getn. Qed.
Lemma node_data_tr h i : node_data (th h) (ti i) = option_map tdt (node_data h i).
Proof. unfold node_data. rewrite node_split_tr. now destruct (node_split h i). Qed.
Lemma set_value_tr h i v : set_value (th h) (ti i) (sv v) = th (set_value h i v).
Proof.
  unfold set_value. rewrite th_get. destruct (h_get h i) as [[[w|l r] s d]|] eqn:E; simpl; auto. now rewrite <- th_set.
Qed.
Lemma is_splittable_tr h i : is_splittable (th h) (ti i) = is_splittable h i.
Proof. unfold is_splittable. rewrite node_data_tr. destruct (node_data h i) as [d|]; simpl; auto. apply one_splittable_tr. Qed.
Lemma is_prunable_tr h i : is_prunable (th h) (ti i) = is_prunable h i.
Proof.
  unfold is_prunable. rewrite left_child_tr, right_child_tr. destruct (left_child h i), (right_child h i); simpl; auto. now rewrite !is_leaf_tr.
Qed.
Lemma nsplit_cc_tr s : nsplit_cc (tns s) = tcc (nsplit_cc s).
Proof. now destruct s. Qed.
Lemma dec_most_recent_tr h i : dec_most_recent (th h) (ti i) = option_map tsc (dec_most_recent h i).
Proof.
  unfold dec_most_recent. rewrite left_child_tr. destruct (left_child h i) as [l|]; cbn [option_map]; auto. rewrite th_get.
  destruct (h_get h l) as [n|]; cbn [option_map]; auto. change (nd_split (tnd n)) with (tns (nd_split n)). rewrite nsplit_cc_tr. apply cc_most_recent_tr.
Qed.
Definition tnh (p : nat * heap) : nat * heap := (ti (fst p), th (snd p)).
Lemma split_node_tr h i c0 c1 : (n0 <= h_next h)%nat -> split_node (th h) (ti i) (tsc c0) (tsc c1) = rmap tnh (split_node h i c0 c1).
Proof.
  intros L. unfold split_node. rewrite th_get. destruct (h_get h i) as [[k [s|c] d]|]; unfold tnd; cbn [option_map tns nd_kind nd_split nd_depth]; auto.
  rewrite split_children_tr. destruct (split_children s c0 c1) as [[[s' sl] sr]| |]; cbn [rbind rmap fst snd]; auto.
  assert (E : forall h s n, (n0 <= h_next h)%nat -> h_alloc (th h) (Nd (KLeaf 0) (SFull (tsp s)) n) = (ti (h_next h), th (snd (h_alloc h (Nd (KLeaf 0) (SFull s) n))))).
  { intros h0 s0 n L0. pose proof (th_alloc h0 (Nd (KLeaf 0) (SFull s0) n) L0) as F. unfold tnd in F at 1. cbn [nd_kind nd_split nd_depth tk tns] in F. rewrite sv_0 in F. exact F. }
  rewrite E by auto. cbn beta iota. rewrite E by (cbn [h_alloc snd h_next]; lia).
  match goal with |- context [h_alloc (th ?h0) (Nd (KDec (ti ?l) (ti ?r)) (SFull (tsp ?s)) ?n)] => pose proof (th_alloc h0 (Nd (KDec l r) (SFull s) n)) as F end.
  unfold tnd in F at 1. cbn [nd_kind nd_split nd_depth tk tns] in F. rewrite F by (cbn [h_alloc snd h_next]; lia). reflexivity.
Qed.
Lemma deep_copy_node_tr h i : (n0 <= h_next h)%nat -> deep_copy_node (th h) (ti i) = rmap tnh (deep_copy_node h i).
Proof.
  intros L. unfold deep_copy_node. rewrite th_get. destruct (h_get h i) as [[k [s|c] d]|]; simpl; auto.
  f_equal. apply (th_alloc h (Nd k (SCond (sp_cc s)) d) L).
Qed.
Lemma prune_mutation_tr h e u : prune_mutation (th h) (ti e) (ti u) = rmap tmu (prune_mutation h e u).
Proof. unfold prune_mutation. rewrite is_dec_tr, is_prunable_tr. destruct (_ || _); reflexivity. Qed.
Lemma grow_mutation_tr h e u : grow_mutation (th h) (ti e) (ti u) = rmap tmu (grow_mutation h e u).
Proof. unfold grow_mutation. rewrite is_leaf_tr. destruct (negb _); reflexivity. Qed.
Lemma filter_tr (f f' : nat -> bool) l : (forall i, f' (ti i) = f i) -> filter f' (map ti l) = map ti (filter f l).
Proof. intros H. induction l as [|i l IH]; simpl; auto. rewrite H. destruct (f i); simpl; now rewrite IH. Qed.
Lemma leaf_nodes_tr h t : leaf_nodes (th h) (ttr t) = map ti (leaf_nodes h t).
Proof. apply filter_tr. apply is_leaf_tr. Qed.
Lemma splittable_leaf_nodes_tr h t : splittable_leaf_nodes (th h) (ttr t) = map ti (splittable_leaf_nodes h t).
Proof. unfold splittable_leaf_nodes. rewrite leaf_nodes_tr. apply filter_tr. apply is_splittable_tr. Qed.
Lemma decision_nodes_tr h t : decision_nodes (th h) (ttr t) = map ti (decision_nodes h t).
Proof. apply filter_tr. apply is_dec_tr. Qed.
Lemma prunable_decision_nodes_tr h t : prunable_decision_nodes (th h) (ttr t) = map ti (prunable_decision_nodes h t).
Proof. unfold prunable_decision_nodes. rewrite decision_nodes_tr. apply filter_tr. apply is_prunable_tr. Qed.

Definition ty (y : option (list R)) : option (list R) := option_map (map sv) y.
Lemma set_node_y_tr n y : set_node_y (tnd n) (ty y) = option_map tnd (set_node_y n y).
Proof. unfold set_node_y. destruct n as [k [s|c] d]; reflexivity. Qed.
Lemma node_update_y_tr : forall fuel h i y, node_update_y fuel (th h) (ti i) (ty y) = rmap th (node_update_y fuel h i y).
Proof.
  induction fuel as [|f IH]; intros h i y; auto. cbn [node_update_y]. rewrite th_get. destruct (h_get h i) as [n|]; cbn [option_map]; auto.
  rewrite set_node_y_tr. destruct (set_node_y n y) as [n'|]; cbn [option_map]; auto. rewrite th_set.
  destruct (nd_kind n) as [v|l r] eqn:E; unfold tnd; cbn [nd_kind]; rewrite E; cbn [tk]; auto.
  rewrite IH. destruct (node_update_y f (h_set h i n') l y) as [h2| |]; cbn [rbind rmap]; auto.
Qed.
Lemma nodes_update_y_tr f y : forall ids h, nodes_update_y f (th h) (map ti ids) (ty y) = rmap th (nodes_update_y f h ids y).
Proof.
  induction ids as [|i ids IH]; intros h; auto. cbn [nodes_update_y map]. rewrite node_update_y_tr.
  destruct (node_update_y f h i y) as [h1| |]; cbn [rbind rmap]; auto.
Qed.
Definition tht (p : heap * tree) : heap * tree := (th (fst p), ttr (snd p)).
Lemma tree_update_y_tr h t y : tree_update_y (th h) (ttr t) (ty y) = rmap tht (tree_update_y h t y).
Proof.
  unfold tree_update_y. cbn [ttr tr_nodes]. rewrite map_length, nodes_update_y_tr. destruct (nodes_update_y _ h _ y); reflexivity.
Qed.

Lemma assign_where_tr cond v buf : assign_where cond (sv v) (map sv buf) = map sv (assign_where cond v buf).
Proof. unfold assign_where. revert buf. induction cond as [|b c IH]; intros [|x buf]; simpl; auto. rewrite IH. now destruct b. Qed.
Lemma map_sv_repeat n : map sv (repeat 0 n) = repeat 0 n.
Proof. induction n; simpl; auto. now rewrite IHn, sv_0. Qed.
Lemma predict_loop_tr h nn : forall leaves buf,
  predict_loop (th h) (option_map ti nn) (map ti leaves) (ty buf) = rmap ty (predict_loop h nn leaves buf).
Proof.
  induction leaves as [|i l IH]; intros buf; auto. cbn [predict_loop map].
  set (B := match buf with Some b => Ok b | None => _ end).
  set (B' := match ty buf with Some b => Ok b | None => _ end).
  assert (EB : B' = rmap (map sv) B).
  { unfold B, B'. destruct buf as [b|]; cbn [ty option_map]; auto. destruct nn as [i0|]; cbn [option_map]; auto. rewrite node_data_tr.
    destruct (node_data h i0) as [d|]; simpl; auto. destruct (_ <? 0)%Z; simpl; auto. now rewrite map_sv_repeat. }
  rewrite EB. clearbody B. clear EB B'. destruct B as [b| |]; cbn [rbind rmap]; auto. rewrite th_get.
  destruct (h_get h i) as [[[v|? ?] [s|c] d]|]; unfold tnd; cbn [option_map tk tns nd_kind nd_split]; auto.
  change (split_condition_in (tsp s)) with (split_condition_in s). rewrite map_length. destruct (negb _); auto.
  rewrite assign_where_tr. apply (IH (Some (assign_where (split_condition_in s) v b))).
Qed.
Definition tvt (p : list R * tree) : list R * tree := (map sv (fst p), ttr (snd p)).
Lemma tree_predict_tr h t : tree_predict (th h) (ttr t) = rmap tvt (tree_predict h t).
Proof.
  unfold tree_predict. set (B := if tr_fresh t then _ else _). set (B' := if tr_fresh (ttr t) then _ else _).
  assert (EB : B' = rmap ty B).
  { unfold B, B'. cbn [ttr tr_fresh tr_pred tr_nodes]. destruct (tr_fresh t); auto. rewrite leaf_nodes_tr.
    replace (hd_error (map ti (tr_nodes t))) with (option_map ti (hd_error (tr_nodes t))) by now destruct (tr_nodes t). apply predict_loop_tr. }
  rewrite EB. clearbody B. destruct B as [[v|]| |]; reflexivity.
Qed.
Lemma out_loop_tr h X : forall leaves buf, out_loop (th h) (tX X) (map ti leaves) (map sv buf) = rmap (map sv) (out_loop h X leaves buf).
Proof.
  induction leaves as [|i l IH]; intros buf; auto. cbn [out_loop map]. rewrite th_get.
  destruct (h_get h i) as [[[v|? ?] s d]|]; unfold tnd; cbn [option_map tk nd_kind nd_split]; auto.
  rewrite nsplit_cc_tr, cc_condition_tr. destruct (cc_condition (nsplit_cc s) X) as [c| |]; cbn [rbind rmap]; auto.
  rewrite assign_where_tr. apply IH.
Qed.
Lemma tree_predict_out_tr h t X : tree_predict_out (th h) (ttr t) (tX X) = rmap (map sv) (tree_predict_out h t X).
Proof.
  unfold tree_predict_out. rewrite leaf_nodes_tr. rewrite <- out_loop_tr, map_sv_repeat. simpl. now rewrite map_length.
Qed.

Lemma relink_node_tr e u n : relink_node (ti e) (ti u) (tnd n) = tnd (relink_node e u n).
Proof.
  unfold relink_node. destruct n as [[v|l r] s d]; simpl; auto. rewrite !ti_eqb. unfold tnd. simpl.
  destruct (Nat.eqb l e), (Nat.eqb r e); reflexivity.
Qed.
Lemma relink_tr e u : forall ids h, relink (th h) (map ti ids) (ti e) (ti u) = th (relink h ids e u).
Proof.
  induction ids as [|i ids IH]; intros h; auto. cbn [relink map]. rewrite th_get. destruct (h_get h i) as [n|]; cbn [option_map]; auto.
  rewrite relink_node_tr, th_set. apply IH.
Qed.
Lemma remove_first_tr x l : remove_first (ti x) (map ti l) = option_map (map ti) (remove_first x l).
Proof.
  induction l as [|y l IH]; simpl; auto. rewrite ti_eqb. destruct (Nat.eqb x y); auto. rewrite IH. now destruct (remove_first x l).
Qed.
Lemma remove_id_tr x l : remove_id (option_map ti x) (map ti l) = option_map (map ti) (remove_id x l).
Proof. destruct x; simpl; auto. apply remove_first_tr. Qed.
Lemma mutate_tr h t m :
  mutate (th h) (ttr t) (tmu m) = (let '(h', t', e) := mutate h t m in (th h', ttr t', e)).
Proof.
  unfold mutate. destruct m as [k e u]. cbn [tmu mu_kind mu_existing mu_updated ttr tr_nodes tr_pred].
  destruct k.
  - rewrite remove_first_tr. destruct (remove_first e (tr_nodes t)) as [l1|]; cbn [option_map]; auto.
    rewrite left_child_tr, right_child_tr. destruct (left_child h u) as [ul|], (right_child h u) as [ur|]; cbn [option_map]; auto.
    change [ti ul; ti ur; ti u] with (map ti [ul; ur; u]). rewrite <- map_app, relink_tr. reflexivity.
  - rewrite remove_first_tr. destruct (remove_first e (tr_nodes t)) as [l1|]; cbn [option_map]; auto.
    rewrite left_child_tr, remove_id_tr. destruct (remove_id (left_child h e) l1) as [l2|]; cbn [option_map]; auto.
    rewrite right_child_tr, remove_id_tr. destruct (remove_id (right_child h e) l2) as [l3|]; cbn [option_map]; auto.
    change [ti u] with (map ti [u]). rewrite <- map_app, relink_tr. reflexivity.
  - rewrite relink_tr. reflexivity.
Qed.
Definition tlh (p : list nat * heap) : list nat * heap := (map ti (fst p), th (snd p)).
Lemma deep_copy_nodes_tr : forall ids h, (n0 <= h_next h)%nat -> deep_copy_nodes (th h) (map ti ids) = rmap tlh (deep_copy_nodes h ids).
Proof.
  induction ids as [|i ids IH]; intros h L; auto. cbn [deep_copy_nodes map]. rewrite deep_copy_node_tr by auto.
  destruct (deep_copy_node h i) as [[j h1]| |] eqn:E; cbn [rbind rmap tnh fst snd]; auto.
  rewrite IH by (pose proof (deep_copy_nodes_grows [i] h [j] h1) as G; cbn [deep_copy_nodes] in G; rewrite E in G; destruct (G eq_refl) as [G1 _]; eapply le_grows; eauto).
  destruct (deep_copy_nodes h1 ids) as [[js h2]| |]; reflexivity.
Qed.
Definition tth (p : tree * heap) : tree * heap := (ttr (fst p), th (snd p)).
Lemma deep_copy_tree_tr h t : (n0 <= h_next h)%nat -> deep_copy_tree (th h) (ttr t) = rmap tth (deep_copy_tree h t).
Proof.
  intros L. unfold deep_copy_tree. cbn [ttr tr_nodes]. rewrite deep_copy_nodes_tr by auto. destruct (deep_copy_nodes h (tr_nodes t)) as [[js h1]| |]; reflexivity.
Qed.

(** ** the samplers *)
Definition trg (r : rng) : rng := Rng (rg_method r) (rg_index r) (rg_unif r) (map sv (rg_norm r)) (rg_gamma r).
Lemma np_choice_tr l idx : np_choice 0%nat (map ti l) idx = rmap (fun xd => (ti (fst xd), snd xd)) (np_choice 0%nat l idx).
Proof.
  unfold np_choice. destruct l as [|i l]; auto. destruct idx as [|d ds]; auto. cbn [map rmap fst snd]. do 2 f_equal.
  change (ti i :: map ti l) with (map ti (i :: l)). unfold choose. rewrite map_length.
  assert (d mod length (i :: l) < length (i :: l))%nat by (apply Nat.mod_upper_bound; discriminate).
  rewrite (nth_indep _ 0%nat (ti 0)) by now rewrite map_length. apply map_nth.
Qed.
Lemma random_splittable_leaf_node_tr h t idx :
  random_splittable_leaf_node (th h) (ttr t) idx = rmap (fun xd => (ti (fst xd), snd xd)) (random_splittable_leaf_node h t idx).
Proof.
  unfold random_splittable_leaf_node. rewrite splittable_leaf_nodes_tr. destruct (splittable_leaf_nodes h t); auto.
  apply (np_choice_tr (n :: l)).
Qed.
Lemma random_prunable_decision_node_tr h t idx :
  random_prunable_decision_node (th h) (ttr t) idx = rmap (fun xd => (ti (fst xd), snd xd)) (random_prunable_decision_node h t idx).
Proof.
  unfold random_prunable_decision_node. rewrite prunable_decision_nodes_tr. destruct (prunable_decision_nodes h t); auto.
  apply (np_choice_tr (n :: l)).
Qed.
Lemma sample_split_condition_tr c idx :
  sample_split_condition (tcm c) idx = rmap (fun ccd => (tsc (fst (fst ccd)), tsc (snd (fst ccd)), snd ccd)) (sample_split_condition c idx).
Proof.
  unfold sample_split_condition. rewrite splittable_variables_tr. cbn [fst].
  destruct (np_choice 0%nat (fst (splittable_variables c)) idx) as [[v idx1]| |]; cbn [rbind rmap]; auto.
  rewrite random_splittable_value_tr. destruct (random_splittable_value c v idx1) as [[x idx2]| |]; reflexivity.
Qed.
Definition tnhd (p : nat * heap * list nat) := (ti (fst (fst p)), th (snd (fst p)), snd p).
Lemma sample_split_node_tr h i idx : (n0 <= h_next h)%nat -> sample_split_node (th h) (ti i) idx = rmap tnhd (sample_split_node h i idx).
Proof.
  intros L. unfold sample_split_node. rewrite node_data_tr. destruct (node_data h i) as [d|]; cbn [option_map]; auto.
  change (d_X (tdt d)) with (tcm (d_X d)). rewrite sample_split_condition_tr.
  destruct (sample_split_condition (d_X d) idx) as [[[c0 c1] idx1]| |]; cbn [rbind rmap fst snd]; auto.
  rewrite split_node_tr by auto. destruct (split_node h i c0 c1) as [[p h1]| |]; reflexivity.
Qed.
Definition tmhd {A} (p : mutation * heap * A) := (tmu (fst (fst p)), th (snd (fst p)), snd p).
Lemma sample_grow_mutation_tr h t idx : (n0 <= h_next h)%nat -> sample_grow_mutation (th h) (ttr t) idx = rmap tmhd (sample_grow_mutation h t idx).
Proof.
  intros L. unfold sample_grow_mutation. rewrite random_splittable_leaf_node_tr.
  destruct (random_splittable_leaf_node h t idx) as [[i idx1]| |]; cbn [rbind rmap fst snd]; auto. rewrite sample_split_node_tr by auto.
  destruct (sample_split_node h i idx1) as [[[p h1] idx2]| |]; cbn [rbind rmap fst snd tnhd]; auto. rewrite grow_mutation_tr.
  destruct (grow_mutation h1 i p); reflexivity.
Qed.
Lemma sample_prune_mutation_tr h t idx : (n0 <= h_next h)%nat -> sample_prune_mutation (th h) (ttr t) idx = rmap tmhd (sample_prune_mutation h t idx).
Proof.
  intros L. unfold sample_prune_mutation. rewrite random_prunable_decision_node_tr.
  destruct (random_prunable_decision_node h t idx) as [[i idx1]| |]; cbn [rbind rmap fst snd]; auto. rewrite th_get.
  destruct (h_get h i) as [n|]; cbn [option_map]; auto.
  pose proof (th_alloc h (Nd (KLeaf 0) (nd_split n) (nd_depth n)) L) as E. unfold tnd in E at 1. cbn [nd_kind nd_split nd_depth tk] in E.
  rewrite sv_0 in E. unfold tnd; cbn [nd_split nd_depth]. rewrite E. destruct (h_alloc h _) as [u h1]. cbn [fst snd]. rewrite prune_mutation_tr.
  destruct (prune_mutation h1 i u); reflexivity.
Qed.
Definition tmhr (p : mutation * heap * rng) := (tmu (fst (fst p)), th (snd (fst p)), trg (snd p)).
Lemma propose_tr h t : (n0 <= h_next h)%nat -> forall limit r, propose limit (th h) (ttr t) (trg r) = rmap tmhr (propose limit h t r).
Proof.
  intros L. induction limit as [|k IH]; intros r; auto. cbn [propose]. change (rg_method (trg r)) with (rg_method r). change (rg_index (trg r)) with (rg_index r).
  destruct (rg_method r) as [|b bs]; auto.
  replace (if b then sample_grow_mutation (th h) (ttr t) (rg_index r) else sample_prune_mutation (th h) (ttr t) (rg_index r))
    with (rmap tmhd (if b then sample_grow_mutation h t (rg_index r) else sample_prune_mutation h t (rg_index r)))
    by (destruct b; [now rewrite sample_grow_mutation_tr by auto|now rewrite sample_prune_mutation_tr by auto]).
  destruct (if b then _ else _) as [[[m h1] idx]|e|]; cbn [rmap tmhd fst snd]; auto. destruct e; auto; apply (IH (rng_set_method r bs)).
Qed.

Lemma log_grow_ratio_tr n nl nr a b c s sm : log_grow_ratio n nl nr (sv a) (sv b) (sv c) s sm = log_grow_ratio n nl nr a b c s sm.
Proof. unfold log_grow_ratio. now rewrite !sv_sq. Qed.
Lemma node_n_tr h i : node_n (th h) (ti i) = node_n h i.
Proof. unfold node_n. rewrite node_data_tr. now destruct (node_data h i). Qed.
Lemma node_sum_tr h i : node_sum (th h) (ti i) = rmap sv (node_sum h i).
Proof.
  unfold node_sum. rewrite node_data_tr. destruct (node_data h i) as [d|]; cbn [option_map]; auto.
  change (d_y (tdt d)) with (ttg (d_y d)). rewrite summed_y_tr. destruct (summed_y (d_y d)) as [[s t]| |]; reflexivity.
Qed.
Lemma log_grow_ratio_nodes_tr h c l r s p : log_grow_ratio_nodes (th h) (ti c) (ti l) (ti r) s p = log_grow_ratio_nodes h c l r s p.
Proof.
  unfold log_grow_ratio_nodes. rewrite !node_n_tr, !node_sum_tr.
  destruct (node_n h c) as [n| |]; cbn [rbind]; auto. destruct (node_n h l) as [nl| |]; cbn [rbind]; auto.
  destruct (node_n h r) as [nr| |]; cbn [rbind]; auto. destruct (node_sum h c) as [yc| |]; cbn [rbind rmap]; auto.
  destruct (node_sum h l) as [yl| |]; cbn [rbind rmap]; auto. destruct (node_sum h r) as [yr| |]; cbn [rbind rmap]; auto.
  now rewrite log_grow_ratio_tr.
Qed.
Lemma get_children_tr h i : get_children (th h) (ti i) = rmap (fun lr => (ti (fst lr), ti (snd lr))) (get_children h i).
Proof. unfold get_children. rewrite left_child_tr, right_child_tr. destruct (left_child h i), (right_child h i); reflexivity. Qed.
Lemma log_likihood_ratio_tr h m s p : log_likihood_ratio (th h) (tmu m) s p = log_likihood_ratio h m s p.
Proof.
  unfold log_likihood_ratio. destruct m as [k e u]. cbn [tmu mu_kind mu_existing mu_updated]. destruct k; auto; rewrite get_children_tr.
  - destruct (get_children h u) as [[l r]| |]; cbn [rbind rmap fst snd]; auto. apply log_grow_ratio_nodes_tr.
  - destruct (get_children h e) as [[l r]| |]; cbn [rbind rmap fst snd]; auto. now rewrite log_grow_ratio_nodes_tr.
Qed.
Lemma n_prunable_tr h t : n_prunable_decision_nodes (th h) (ttr t) = n_prunable_decision_nodes h t.
Proof. unfold n_prunable_decision_nodes. now rewrite prunable_decision_nodes_tr, map_length. Qed.
Lemma n_splittable_tr h t : n_splittable_leaf_nodes (th h) (ttr t) = n_splittable_leaf_nodes h t.
Proof. unfold n_splittable_leaf_nodes. now rewrite splittable_leaf_nodes_tr, map_length. Qed.
Lemma within_node_tr h e u : log_probability_split_within_node (th h) (ti e) (ti u) = log_probability_split_within_node h e u.
Proof.
  unfold log_probability_split_within_node. rewrite node_data_tr. destruct (node_data h e) as [d|]; cbn [option_map]; auto.
  change (d_X (tdt d)) with (tcm (d_X d)). rewrite dec_most_recent_tr. unfold n_splittable_variables. rewrite splittable_variables_tr.
  destruct (splittable_variables (d_X d)) as [vs c1]. cbn [fst snd].
  destruct (dec_most_recent h u) as [s|]; cbn [option_map]; auto. change (sc_var (tsc s)) with (sc_var s).
  change (sc_val (tsc s)) with (phi (sc_var s) (sc_val s)). rewrite proportion_tr.
  destruct (proportion_of_value_in_variable (d_X d) (sc_var s) (sc_val s)) as [[q c2]| |]; reflexivity.
Qed.
Lemma within_tree_tr h t e u : log_probability_split_within_tree (th h) (ttr t) (ti e) (ti u) = log_probability_split_within_tree h t e u.
Proof. unfold log_probability_split_within_tree. now rewrite within_node_tr, n_splittable_tr. Qed.
Lemma node_depth_tr h i : node_depth (th h) (ti i) = node_depth h i.
Proof. unfold node_depth. rewrite th_get. now destruct (h_get h i). Qed.
Lemma log_transition_ratio_tr h t m p : log_transition_ratio (th h) (ttr t) (tmu m) p = log_transition_ratio h t m p.
Proof.
  unfold log_transition_ratio, log_prune_transition_ratio, log_grow_transition_ratio. destruct m as [k e u]. cbn [tmu mu_kind mu_existing mu_updated].
  destruct k; auto.
  - now rewrite n_prunable_tr, within_tree_tr.
  - rewrite n_prunable_tr, n_splittable_tr, grow_mutation_tr, within_node_tr. destruct (grow_mutation h u e); reflexivity.
Qed.
Lemma log_tree_ratio_tr h t m p : log_tree_ratio (th h) (ttr t) (tmu m) p = log_tree_ratio h t m p.
Proof.
  unfold log_tree_ratio, log_tree_ratio_grow, log_tree_ratio_prune. destruct m as [k e u]. cbn [tmu mu_kind mu_existing mu_updated].
  destruct k; auto.
  - rewrite !node_depth_tr, get_children_tr. destruct (node_depth h e); cbn [rbind]; auto. destruct (get_children h u) as [[l r]| |]; cbn [rbind rmap fst snd]; auto.
    now rewrite !node_depth_tr, within_tree_tr.
  - rewrite !node_depth_tr, get_children_tr. destruct (node_depth h u); cbn [rbind]; auto. destruct (get_children h e) as [[l r]| |]; cbn [rbind rmap fst snd]; auto.
    rewrite !node_depth_tr, within_node_tr, grow_mutation_tr. destruct (node_depth h l); cbn [rbind]; auto. destruct (node_depth h e); cbn [rbind]; auto.
    destruct (grow_mutation h u e); reflexivity.
Qed.
Lemma log_probability_ratio_tr h t m s p : log_probability_ratio (th h) (ttr t) (tmu m) s p = log_probability_ratio h t m s p.
Proof. unfold log_probability_ratio. now rewrite log_transition_ratio_tr, log_likihood_ratio_tr, log_tree_ratio_tr. Qed.
Definition tstep (p : option mutation * heap * tree * rng) :=
  (option_map tmu (fst (fst (fst p))), th (snd (fst (fst p))), ttr (snd (fst p)), trg (snd p)).
Lemma tree_step_tr h t s p r : (n0 <= h_next h)%nat -> tree_step (th h) (ttr t) s p (trg r) = rmap tstep (tree_step h t s p r).
Proof.
  intros L. unfold tree_step, tree_sample. rewrite propose_tr by auto. destruct (propose (pa_limit p) h t r) as [[[m h1] r1]| |]; cbn [rbind rmap tmhr fst snd]; auto.
  rewrite log_probability_ratio_tr. destruct (log_probability_ratio h1 t m s p) as [q| |]; cbn [rbind]; auto.
  change (rg_unif (trg r1)) with (rg_unif r1). destruct (rg_unif r1) as [|u us]; cbn [rbind]; auto.
  destruct (accepts u q); auto. rewrite mutate_tr. destruct (mutate h1 t m) as [[h2 t2] [e|]]; reflexivity.
Qed.

(** ** leaf values *)
Lemma xneg_add a b : xadd (xneg a) (xneg b) = xneg (xadd a b).
Proof. destruct a, b; simpl; auto. f_equal. ring. Qed.
Lemma rsign_neg x : rsign (- x) = CompOpp (rsign x).
Proof. unfold rsign. destruct (Rlt_dec (-x) 0), (Rlt_dec x 0), (Rlt_dec 0 (-x)), (Rlt_dec 0 x); simpl; auto; lra. Qed.
Lemma xneg_mul a b : xmul (xneg a) b = xneg (xmul a b).
Proof.
  destruct a as [| |x|], b as [| |y|]; simpl; auto; try (rewrite rsign_neg; now destruct (rsign x)); try (now destruct (rsign y)). f_equal. ring.
Qed.
Lemma xneg_div x b : xdiv (XFin (- x)) b = xneg (xdiv (XFin x) b).
Proof.
  destruct b as [| |y|]; simpl; auto; try (f_equal; ring). destruct (Req_EM_T y 0); simpl.
  - rewrite rsign_neg. now destruct (rsign x).
  - f_equal. unfold Rdiv. ring.
Qed.
Lemma leaf_sample_tr n s sigma p z :
  match leaf_sample n s sigma p z with
  | XFin v => leaf_sample n (sv s) sigma p (sv z) = XFin (sv v)
  | _ => forall v, leaf_sample n (sv s) sigma p (sv z) <> XFin v
  end.
Proof.
  assert (E : leaf_sample n (sv s) sigma p (sv z) = if Req_EM_T sg 1 then leaf_sample n s sigma p z else xneg (leaf_sample n s sigma p z)).
  { destruct (Req_EM_T sg 1) as [E|E].
    - unfold sv. now rewrite E, !Rmult_1_l.
    - destruct sg_cases as [|E']; [contradiction|]. unfold sv. rewrite E'. replace (-1 * s) with (- s) by ring. replace (-1 * z) with (- z) by ring.
      unfold leaf_sample. rewrite xneg_div, xneg_mul. change (XFin (- z)) with (xneg (XFin z)). now rewrite xneg_mul, xneg_add. }
  destruct (leaf_sample n s sigma p z) as [| |v|]; rewrite E; destruct (Req_EM_T sg 1) as [E1|E1]; try (intros w; simpl; discriminate).
  - unfold sv. now rewrite E1, Rmult_1_l.
  - destruct sg_cases as [|E']; [contradiction|]. unfold sv. rewrite E'. simpl. f_equal. ring.
Qed.
Definition thr (p : heap * rng) : heap * rng := (th (fst p), trg (snd p)).
Lemma leaf_step_tr h i s p r : leaf_step (th h) (ti i) s p (trg r) = rmap thr (leaf_step h i s p r).
Proof.
  unfold leaf_step. rewrite node_n_tr, node_sum_tr. destruct (node_n h i) as [n| |]; cbn [rbind]; auto.
  destruct (node_sum h i) as [y| |]; cbn [rbind rmap]; auto. change (rg_norm (trg r)) with (map sv (rg_norm r)).
  destruct (rg_norm r) as [|z zs]; cbn [map]; auto. pose proof (leaf_sample_tr n y s p z) as H.
  destruct (leaf_sample n y s p z) as [| |v|].
  2-4: idtac.
  - destruct (leaf_sample n (sv y) s p (sv z)) as [| |w|]; auto. now destruct (H w).
  - destruct (leaf_sample n (sv y) s p (sv z)) as [| |w|]; auto. now destruct (H w).
  - rewrite H. rewrite set_value_tr. reflexivity.
  - destruct (leaf_sample n (sv y) s p (sv z)) as [| |w|]; auto. now destruct (H w).
Qed.

(** ** models *)
Definition tmd (m : model) : model := Md (th (m_heap m)) (map ttr (m_trees m)) (tdt (m_data m)) (ty (m_pred m)) (m_sigma m) (m_par m).
Arguments tmd _ : simpl never.
Arguments ttr _ : simpl never.
Arguments trg _ : simpl never.
Arguments tdt _ : simpl never.
Lemma vop_tr f a b : (forall x y, f (sv x) (sv y) = sv (f x y)) -> vop f (map sv a) (map sv b) = rmap (map sv) (vop f a b).
Proof.
  intros H. unfold vop. rewrite !map_length. destruct (_ =? _)%nat; auto. cbn [rmap]. f_equal.
  revert b. induction a as [|x a IH]; intros [|y b]; simpl; auto. now rewrite H, IH.
Qed.
Lemma vop_add_tr a b : vop Rplus (map sv a) (map sv b) = rmap (map sv) (vop Rplus a b).
Proof. apply vop_tr. apply sv_add. Qed.
Lemma vop_sub_tr a b : vop Rminus (map sv a) (map sv b) = rmap (map sv) (vop Rminus a b).
Proof. apply vop_tr. apply sv_sub. Qed.
Definition thts (p : heap * list tree) : heap * list tree := (th (fst p), map ttr (snd p)).
Lemma new_trees_tr d : forall n h, (n0 <= h_next h)%nat -> new_trees n (th h) (tdt d) = rmap thts (new_trees n h d).
Proof.
  induction n as [|n IH]; intros h L; auto. cbn [new_trees]. rewrite make_split_tr. destruct (make_split d) as [s| |]; cbn [rbind rmap]; auto.
  pose proof (th_alloc h (Nd (KLeaf 0) (SFull s) 0) L) as E. unfold tnd in E at 1. cbn [nd_kind nd_split nd_depth tk tns] in E. rewrite sv_0 in E. rewrite E.
  destruct (h_alloc h _) as [i h1] eqn:Ea. cbn [fst snd]. rewrite IH by (injection Ea as <- <-; cbn [h_next]; lia). destruct (new_trees n h1 d) as [[h2 ts]| |]; reflexivity.
Qed.
Lemma init_targets_tr y : forall ts h, init_targets (th h) (map ttr ts) (map sv y) = rmap thts (init_targets h ts y).
Proof.
  induction ts as [|t ts IH]; intros h; auto. cbn [init_targets map]. change (Some (map sv y)) with (ty (Some y)). rewrite tree_update_y_tr.
  destruct (tree_update_y h t (Some y)) as [[h1 t1]| |]; cbn [rbind rmap tht fst snd]; auto. change (@None (list R)) with (ty None) at 1. rewrite tree_update_y_tr.
  destruct (tree_update_y h1 t1 None) as [[h2 t2]| |]; cbn [rbind rmap tht fst snd]; auto. rewrite IH.
  destruct (init_targets h2 ts y) as [[h3 ts3]| |]; reflexivity.
Qed.
Lemma data_values_tr d : data_values (tdt d) = rmap (map sv) (data_values d).
Proof. unfold data_values. change (t_y (d_y (tdt d))) with (ty (t_y (d_y d))). now destruct (t_y (d_y d)). Qed.
Lemma initialize_trees_tr h d n : (n0 <= h_next h)%nat -> initialize_trees (th h) (tdt d) n = rmap thts (initialize_trees h d n).
Proof.
  intros L. unfold initialize_trees. rewrite new_trees_tr by auto. destruct (new_trees n h d) as [[h1 ts]| |]; cbn [rbind rmap thts fst snd]; auto.
  destruct ts as [|t ts]; auto. cbn [map]. rewrite data_values_tr. destruct (data_values d) as [y| |]; cbn [rbind rmap]; auto.
  replace (map (fun v => v / INR n) (map sv y)) with (map sv (map (fun v => v / INR n) y)).
  - apply (init_targets_tr _ (t :: ts)).
  - rewrite !map_map. apply map_ext. intros v. unfold sv, Rdiv. ring.
Qed.
Lemma make_model_tr h d s p : (n0 <= h_next h)%nat -> make_model (th h) (tdt d) s p = rmap tmd (make_model h d s p).
Proof. intros L. unfold make_model. rewrite initialize_trees_tr by auto. destruct (initialize_trees h d (pa_ntrees p)) as [[h1 ts]| |]; reflexivity. Qed.

Definition tvts (p : list (list R) * list tree) := (map (map sv) (fst p), map ttr (snd p)).
Lemma predict_all_tr h : forall ts, predict_all (th h) (map ttr ts) = rmap tvts (predict_all h ts).
Proof.
  induction ts as [|t ts IH]; auto. cbn [predict_all map]. rewrite tree_predict_tr.
  destruct (tree_predict h t) as [[v t1]| |]; cbn [rbind rmap tvt fst snd]; auto. rewrite IH. destruct (predict_all h ts) as [[vs ts1]| |]; reflexivity.
Qed.
Lemma vsum_tr n : forall vs, vsum n (map (map sv) vs) = rmap (map sv) (vsum n vs).
Proof.
  induction vs as [|v vs IH]; cbn [vsum map].
  - cbn [rmap]. now rewrite map_sv_repeat.
  - rewrite IH. destruct (vsum n vs) as [s| |]; cbn [rbind rmap]; auto. apply vop_add_tr.
Qed.
Definition tvm (p : list R * model) := (map sv (fst p), tmd (snd p)).
Lemma model_predict_tr m : model_predict (tmd m) = rmap tvm (model_predict m).
Proof.
  unfold model_predict. cbn [tmd]. unfold tmd at 1 2 3. cbn [m_heap m_trees m_data]. rewrite predict_all_tr.
  destruct (predict_all (m_heap m) (m_trees m)) as [[vs ts]| |]; cbn [rbind rmap tvts fst snd]; auto.
  change (d_mask (tdt (m_data m))) with (d_mask (m_data m)). rewrite vsum_tr. destruct (vsum _ vs); reflexivity.
Qed.
Lemma predict_out_all_tr h X : forall ts, predict_out_all (th h) (map ttr ts) (tX X) = rmap (map (map sv)) (predict_out_all h ts X).
Proof.
  induction ts as [|t ts IH]; auto. cbn [predict_out_all map]. rewrite tree_predict_out_tr.
  destruct (tree_predict_out h t X) as [v| |]; cbn [rbind rmap]; auto. rewrite IH. destruct (predict_out_all h ts X); reflexivity.
Qed.
Lemma trees_predict_out_tr h ts X : trees_predict_out (th h) (map ttr ts) (tX X) = rmap (map sv) (trees_predict_out h ts X).
Proof.
  unfold trees_predict_out. rewrite predict_out_all_tr. destruct (predict_out_all h ts X) as [vs| |]; cbn [rbind rmap]; auto.
  simpl. rewrite map_length. apply vsum_tr.
Qed.
Lemma residuals_tr m : residuals (tmd m) = rmap tvm (residuals m).
Proof.
  unfold residuals. change (m_data (tmd m)) with (tdt (m_data m)). rewrite data_values_tr.
  destruct (data_values (m_data m)) as [y| |]; cbn [rbind rmap]; auto. rewrite model_predict_tr.
  destruct (model_predict m) as [[v m1]| |]; cbn [rbind rmap tvm fst snd]; auto. rewrite vop_sub_tr. destruct (vop Rminus y v); reflexivity.
Qed.
Lemma rt_start_tr m : rt_start (tmd m) = rmap tmd (rt_start m).
Proof.
  unfold rt_start. change (m_pred (tmd m)) with (ty (m_pred m)). destruct (m_pred m); cbn [ty option_map]; auto. rewrite model_predict_tr.
  destruct (model_predict m) as [[v m1]| |]; reflexivity.
Qed.
Lemma nth_trees_tr m j : nth_error (m_trees (tmd m)) j = option_map ttr (nth_error (m_trees m) j).
Proof. apply nth_error_map. Qed.
Lemma set_nth_map {A B} (f : A -> B) i x l : set_nth i (f x) (map f l) = map f (set_nth i x l).
Proof. revert i. induction l as [|y l IH]; intros [|i]; simpl; auto. now rewrite IH. Qed.
Lemma rt_open_tr m j : rt_open (tmd m) j = rmap tmd (rt_open m j).
Proof.
  unfold rt_open. rewrite nth_trees_tr. change (m_pred (tmd m)) with (ty (m_pred m)). destruct (nth_error (m_trees m) j) as [t|]; cbn [option_map]; auto.
  destruct (m_pred m) as [pr|]; cbn [ty option_map]; auto. change (m_heap (tmd m)) with (th (m_heap m)). rewrite tree_predict_tr.
  destruct (tree_predict (m_heap m) t) as [[v t1]| |]; cbn [rbind rmap tvt fst snd]; auto. rewrite vop_sub_tr.
  destruct (vop Rminus pr v) as [pr1| |]; cbn [rbind rmap]; auto. change (m_data (tmd m)) with (tdt (m_data m)). rewrite data_values_tr.
  destruct (data_values (m_data m)) as [y| |]; cbn [rbind rmap]; auto. rewrite vop_sub_tr.
  destruct (vop Rminus y pr1) as [tg| |]; cbn [rbind rmap]; auto. change (Some (map sv tg)) with (ty (Some tg)). rewrite tree_update_y_tr.
  destruct (tree_update_y (m_heap m) t1 (Some tg)) as [[h1 t2]| |]; cbn [rbind rmap tht fst snd]; auto.
  change (m_trees (tmd m)) with (map ttr (m_trees m)). rewrite set_nth_map. reflexivity.
Qed.
Lemma rt_close_tr m j : rt_close (tmd m) j = rmap tmd (rt_close m j).
Proof.
  unfold rt_close. rewrite nth_trees_tr. change (m_pred (tmd m)) with (ty (m_pred m)). destruct (nth_error (m_trees m) j) as [t|]; cbn [option_map]; auto.
  destruct (m_pred m) as [pr|]; cbn [ty option_map]; auto. change (m_heap (tmd m)) with (th (m_heap m)). rewrite tree_predict_tr.
  destruct (tree_predict (m_heap m) t) as [[v t1]| |]; cbn [rbind rmap tvt fst snd]; auto. rewrite vop_add_tr.
  destruct (vop Rplus pr v) as [pr1| |]; cbn [rbind rmap]; auto.
  change (m_trees (tmd m)) with (map ttr (m_trees m)). rewrite set_nth_map. reflexivity.
Qed.
Definition tmr (p : model * rng) : model * rng := (tmd (fst p), trg (snd p)).
Lemma sigma_step_tr m r : sigma_step (tmd m) (trg r) = rmap tmr (sigma_step m r).
Proof.
  unfold sigma_step. rewrite residuals_tr. change (m_par (tmd m)) with (m_par m).
  change (cm_nobsv (d_X (m_data (tmd m)))) with (cm_nobsv (d_X (m_data m))). change (rg_gamma (trg r)) with (rg_gamma r).
  destruct (residuals m) as [[e m1]| |]; cbn [rbind rmap tvm fst snd]; auto. rewrite map_map.
  rewrite (map_ext (fun x => sv x * sv x) (fun x => x * x)) by apply sv_sq.
  destruct (Req_EM_T _ 0); auto. destruct (Rlt_dec _ 0); auto. destruct (Rlt_dec _ 0); auto.
  destruct (rg_gamma r) as [|gm gs]; auto. destruct (sigma_value _); reflexivity.
Qed.
Definition tfr (f : frame) : frame := Fr (fr_tree f) (option_map ti (fr_leaf f)).
Definition tpc (p : gpc) : gpc := match p with GLeaf j rest => GLeaf j (map ti rest) | _ => p end.
Definition tact (a : act) : act := match a with DoLeaf i => DoLeaf (ti i) | _ => a end.
Definition tgen (p : yield * gpc * frame * model) := (fst (fst (fst p)), tpc (snd (fst (fst p))), tfr (snd (fst p)), tmd (snd p)).
Lemma gen_tree_tr m fr j : gen_tree (tmd m) (tfr fr) j = rmap tgen (gen_tree m fr j).
Proof.
  unfold gen_tree. change (m_trees (tmd m)) with (map ttr (m_trees m)). rewrite map_length. destruct (_ <? _)%nat; auto.
  rewrite rt_open_tr. destruct (rt_open m j); reflexivity.
Qed.
Lemma gen_leaves_tr m fr j rest : gen_leaves (tmd m) (tfr fr) j (map ti rest) = rmap tgen (gen_leaves m fr j rest).
Proof.
  unfold gen_leaves. destruct rest as [|i rest]; cbn [map]; auto. rewrite rt_close_tr. destruct (rt_close m j) as [m1| |]; cbn [rbind rmap]; auto.
  apply gen_tree_tr.
Qed.
Lemma gen_next_tr m fr pc : gen_next (tmd m) (tfr fr) (tpc pc) = rmap tgen (gen_next m fr pc).
Proof.
  destruct pc as [|j|j rest|]; cbn [gen_next tpc]; auto.
  - rewrite rt_start_tr. destruct (rt_start m) as [m1| |]; cbn [rbind rmap]; auto. apply gen_tree_tr.
  - rewrite nth_trees_tr. destruct (nth_error (m_trees m) j) as [t|]; cbn [option_map]; auto.
    change (m_heap (tmd m)) with (th (m_heap m)). rewrite leaf_nodes_tr. apply gen_leaves_tr.
  - apply gen_leaves_tr.
Qed.
Definition tcall (p : bool * act * model * rng) := (fst (fst (fst p)), tact (snd (fst (fst p))), tmd (snd (fst p)), trg (snd p)).
Lemma call_tr m fr k r : (n0 <= h_next (m_heap m))%nat -> call (tmd m) (tfr fr) k (trg r) = rmap tcall (call m fr k r).
Proof.
  intros L. destruct k; cbn [call].
  - change (fr_tree (tfr fr)) with (fr_tree fr). destruct (fr_tree fr) as [j|]; auto. rewrite nth_trees_tr.
    destruct (nth_error (m_trees m) j) as [t|]; cbn [option_map]; auto. change (m_heap (tmd m)) with (th (m_heap m)).
    change (m_sigma (tmd m)) with (m_sigma m). change (m_par (tmd m)) with (m_par m). rewrite tree_step_tr by auto.
    destruct (tree_step (m_heap m) t (m_sigma m) (m_par m) r) as [[[[om h1] t1] r1]| |]; cbn [rbind rmap tstep fst snd]; auto.
    change (m_trees (tmd m)) with (map ttr (m_trees m)). rewrite set_nth_map. now destruct om.
  - change (fr_leaf (tfr fr)) with (option_map ti (fr_leaf fr)). destruct (fr_leaf fr) as [i|]; cbn [option_map]; auto.
    change (m_heap (tmd m)) with (th (m_heap m)). change (m_sigma (tmd m)) with (m_sigma m). change (m_par (tmd m)) with (m_par m). rewrite leaf_step_tr.
    destruct (leaf_step (m_heap m) i (m_sigma m) (m_par m) r) as [[h1 r1]| |]; reflexivity.
  - rewrite sigma_step_tr. destruct (sigma_step m r) as [[m1 r1]| |]; reflexivity.
Qed.
Definition tdrive {A} (p : A * list act * model * rng) := (fst (fst (fst p)), map tact (snd (fst (fst p))), tmd (snd (fst p)), trg (snd p)).
Lemma drive_tr : forall fuel m fr pc r, (n0 <= h_next (m_heap m))%nat -> drive fuel (tmd m) (tfr fr) (tpc pc) (trg r) = rmap tdrive (drive fuel m fr pc r).
Proof.
  induction fuel as [|f IH]; intros m fr pc r L; auto. cbn [drive]. rewrite gen_next_tr.
  destruct (gen_next m fr pc) as [[[[y pc1] fr1] m1]| |] eqn:Eg; cbn [rbind rmap tgen fst snd]; auto. destruct y as [[k th0]|]; auto.
  pose proof (le_grows _ _ (gen_next_grows _ _ _ _ _ _ _ Eg) L) as L1.
  rewrite call_tr by auto. destruct (call m1 fr1 th0 r) as [[[[b a] m2] r1]| |] eqn:Ec; cbn [rbind rmap tcall fst snd]; auto. rewrite IH by (eapply le_grows; [eapply call_grows|]; eauto).
  destruct (drive f m2 fr1 pc1 r1) as [[[[log acts] m3] r2]| |]; reflexivity.
Qed.
Lemma drive_fuel_tr m : drive_fuel (tmd m) = drive_fuel m.
Proof.
  unfold drive_fuel. change (m_trees (tmd m)) with (map ttr (m_trees m)). f_equal. induction (m_trees m) as [|t ts IH]; auto. cbn [map fold_right].
  rewrite IH. unfold ttr. cbn [tr_nodes]. now rewrite map_length.
Qed.
Lemma gibbs_step_tr m r : (n0 <= h_next (m_heap m))%nat -> gibbs_step (tmd m) (trg r) = rmap tdrive (gibbs_step m r).
Proof.
  intros L. unfold gibbs_step. rewrite drive_fuel_tr. change (Fr None None) with (tfr (Fr None None)) at 1. change GStart with (tpc GStart) at 1. rewrite drive_tr by auto.
  destruct (drive (drive_fuel m) m (Fr None None) GStart r) as [[[[log acts] m1] r1]| |]; reflexivity.
Qed.
Definition tsm (s : sample) : sample := Sm (map ttr (sm_trees s)) (sm_sigma s).
Definition ttsh (p : list tree * heap) := (map ttr (fst p), th (snd p)).
Lemma copy_trees_tr : forall ts h, (n0 <= h_next h)%nat -> copy_trees (th h) (map ttr ts) = rmap ttsh (copy_trees h ts).
Proof.
  induction ts as [|t ts IH]; intros h L; auto. cbn [copy_trees map]. rewrite deep_copy_tree_tr by auto.
  destruct (deep_copy_tree h t) as [[t1 h1]| |] eqn:E; cbn [rbind rmap tth fst snd]; auto. rewrite IH by (pose proof (copy_trees_grows [t] h [t1] h1) as G; cbn [copy_trees] in G; rewrite E in G; destruct (G eq_refl) as [G1 _]; eapply le_grows; eauto). destruct (copy_trees h1 ts) as [[ts1 h2]| |]; reflexivity.
Qed.
Definition tsmm (p : sample * model) := (tsm (fst p), tmd (snd p)).
Lemma deep_copy_model_tr m : (n0 <= h_next (m_heap m))%nat -> deep_copy_model (tmd m) = rmap tsmm (deep_copy_model m).
Proof.
  intros L. unfold deep_copy_model. change (m_heap (tmd m)) with (th (m_heap m)). change (m_trees (tmd m)) with (map ttr (m_trees m)). rewrite copy_trees_tr by auto.
  destruct (copy_trees (m_heap m) (m_trees m)) as [[ts h]| |]; reflexivity.
Qed.
Definition tch (c : chain) : chain := Ch (map tsm (ch_models c)) (ch_accept c) (map (map sv) (ch_preds c)).
Definition tcmr (p : chain * model * rng) := (tch (fst (fst p)), tmd (snd (fst p)), trg (snd p)).
Lemma burn_tr : forall n m r, (n0 <= h_next (m_heap m))%nat -> burn n (tmd m) (trg r) = rmap tmr (burn n m r).
Proof.
  induction n as [|n IH]; intros m r L; auto. cbn [burn]. rewrite gibbs_step_tr by auto.
  destruct (gibbs_step m r) as [[[[d acts] m1] r1]| |] eqn:E; cbn [rbind rmap tdrive fst snd]; auto. apply IH. eapply le_grows; [eapply gibbs_grows|]; eauto.
Qed.
Lemma sample_iter_tr ss num den sp sa m r : (n0 <= h_next (m_heap m))%nat -> sample_iter ss num den sp sa (tmd m) (trg r) = rmap tcmr (sample_iter ss num den sp sa m r).
Proof.
  intros L. unfold sample_iter. rewrite gibbs_step_tr by auto. destruct (gibbs_step m r) as [[[[d acts] m1] r1]| |] eqn:E; cbn [rbind rmap tdrive fst snd]; auto.
  pose proof (le_grows _ _ (gibbs_grows _ _ _ _ _ _ E) L) as L1. destruct (num =? 0)%Z; auto. destruct (keeps_sample ss num den); auto. destruct sp.
  - rewrite model_predict_tr. destruct (model_predict m1) as [[v m2]| |] eqn:Ep; cbn [rbind rmap tvm fst snd]; auto. rewrite deep_copy_model_tr by (rewrite (model_predict_heap _ _ _ Ep); auto).
    destruct (deep_copy_model m2) as [[s m3]| |]; cbn [rbind rmap tsmm fst snd]; auto.
  - cbn [rbind]. rewrite deep_copy_model_tr by auto. destruct (deep_copy_model m1) as [[s m3]| |]; cbn [rbind rmap tsmm fst snd]; auto.
Qed.
Lemma ch_app_tr a b : ch_app (tch a) (tch b) = tch (ch_app a b).
Proof. unfold ch_app, tch. simpl. now rewrite !map_app. Qed.
Lemma sample_loop_tr num den sp sa : forall todo ss m r, (n0 <= h_next (m_heap m))%nat -> sample_loop ss todo num den sp sa (tmd m) (trg r) = rmap tcmr (sample_loop ss todo num den sp sa m r).
Proof.
  induction todo as [|n IH]; intros ss m r L; auto. cbn [sample_loop]. rewrite sample_iter_tr by auto.
  destruct (sample_iter ss num den sp sa m r) as [[[c m1] r1]| |] eqn:E; cbn [rbind rmap tcmr fst snd]; auto. rewrite IH by (destruct (sample_iter_grows _ _ _ _ _ _ _ _ _ _ E) as [G _]; eapply le_grows; eauto).
  destruct (sample_loop (S ss) n num den sp sa m1 r1) as [[[c' m2] r2]| |]; cbn [rbind rmap tcmr fst snd]; auto. now rewrite ch_app_tr.
Qed.
Lemma samples_tr m ns nb thn sp sa r : (n0 <= h_next (m_heap m))%nat -> samples (tmd m) ns nb thn sp sa (trg r) = rmap tcmr (samples m ns nb thn sp sa r).
Proof.
  intros L. unfold samples. rewrite burn_tr by auto. destruct (burn nb m r) as [[m1 r1]| |] eqn:E; cbn [rbind rmap tmr fst snd]; auto. destruct thn; auto. apply sample_loop_tr. eapply le_grows; [eapply burn_grows|]; eauto.
Qed.
Lemma sample_predict_tr h s X : sample_predict (th h) (tsm s) (tX X) = rmap (map sv) (sample_predict h s X).
Proof. apply trees_predict_out_tr. Qed.
End Tr.
