(** The rows of the training data in another order: every model function that draws no row commutes with the exchange. *)
From Coq Require Import Reals Lra FunctionalExtensionality Permutation.
From Verif Require Import Base Fl Ext MData MSplit MTree MSampler MModel MSklearn MFeatures MDiag MOblivious MObModel MObSklearn SpecInvariance SpecOrder SpecRows LFl LList PHeap PRel PCol PSim PPerm PDiag PData PSklearn2.
Local Open Scope nat_scope.

(** ** exchanging neighbours *)
Fixpoint sw {A} (k : nat) (l : list A) : list A :=
  match k, l with
  | O, a :: b :: l' => b :: a :: l'
  | S k', a :: l' => a :: sw k' l'
  | _, _ => l
  end.
Lemma sw_length {A} : forall k (l : list A), length (sw k l) = length l.
Proof. induction k as [|k IH]; intros [|a l]; auto; [now destruct l|]. simpl. now rewrite IH. Qed.
Lemma sw_map {A B} (f : A -> B) : forall k l, sw k (map f l) = map f (sw k l).
Proof. induction k as [|k IH]; intros [|a l]; auto; [now destruct l|]. simpl. now rewrite IH. Qed.
Lemma sw_map2 {A B C} (f : A -> B -> C) : forall k l m, length l = length m -> sw k (map2 f l m) = map2 f (sw k l) (sw k m).
Proof.
  induction k as [|k IH]; intros [|a l] [|b m] L; try discriminate; auto.
  - destruct l, m; try discriminate; reflexivity.
  - simpl. f_equal. apply IH. now injection L.
Qed.
Lemma sw_perm {A} : forall k (l : list A), Permutation l (sw k l).
Proof. induction k as [|k IH]; intros [|a l]; auto; simpl; auto. destruct l; auto. constructor. Qed.
Lemma sw_repeat {A} (x : A) n : forall k, sw k (repeat x n) = repeat x n.
Proof. induction n as [|n IH]; intros [|k]; auto; [|simpl; now rewrite IH]. destruct n; auto. Qed.
Definition pm {A} (ks : list nat) (l : list A) : list A := fold_left (fun l k => sw k l) ks l.
Lemma pm_length {A} : forall ks (l : list A), length (pm ks l) = length l.
Proof. induction ks as [|k ks IH]; intros l; simpl; auto. now rewrite IH, sw_length. Qed.
Lemma pm_map {A B} (f : A -> B) : forall ks l, pm ks (map f l) = map f (pm ks l).
Proof. induction ks as [|k ks IH]; intros l; simpl; auto. now rewrite sw_map, IH. Qed.
Lemma pm_map2 {A B C} (f : A -> B -> C) : forall ks l m, length l = length m -> pm ks (map2 f l m) = map2 f (pm ks l) (pm ks m).
Proof. induction ks as [|k ks IH]; intros l m L; simpl; auto. rewrite sw_map2 by auto. apply IH. now rewrite !sw_length. Qed.
Lemma pm_perm {A} : forall ks (l : list A), Permutation l (pm ks l).
Proof. induction ks as [|k ks IH]; intros l; simpl; auto. etransitivity; [apply (sw_perm k)|apply IH]. Qed.
Lemma pm_repeat {A} (x : A) n : forall ks, pm ks (repeat x n) = repeat x n.
Proof. induction ks as [|k ks IH]; simpl; auto. now rewrite sw_repeat. Qed.
(** every order is reached by exchanging neighbours *)
Lemma pm_cons {A} (x : A) : forall ks l, pm (map S ks) (x :: l) = x :: pm ks l.
Proof. induction ks as [|k ks IH]; intros l; simpl; auto. Qed.
Lemma pm_app {A} ks ks' (l : list A) : pm (ks ++ ks') l = pm ks' (pm ks l).
Proof. apply fold_left_app. Qed.
Lemma perm_pm {A} (l l' : list A) : Permutation l l' -> exists ks, l' = pm ks l.
Proof.
  induction 1 as [|x l l' P (ks&E)|x y l|l l' l'' P (ks&E) P' (ks'&E')].
  - now exists [].
  - exists (map S ks). now rewrite pm_cons, E.
  - now exists [0].
  - exists (ks ++ ks'). now rewrite pm_app, <- E.
Qed.
(** the same, as a computation *)
Lemma bring {A} (dec : forall a b : A, {a = b} + {a <> b}) (b : A) : forall l : list A, In b l -> { ks : list nat & { l2 | pm ks l = b :: l2 } }.
Proof.
  induction l as [|a l IH]; intros I; [easy|]. destruct (dec a b) as [->|NE]; [now exists [], l|].
  destruct IH as (ks&l2&E); [destruct I; [congruence|auto]|]. exists (map S ks ++ [0]), (a :: l2). now rewrite pm_app, pm_cons, E.
Qed.
Lemma perm_pm_sig {A} (dec : forall a b : A, {a = b} + {a <> b}) : forall l' l : list A, Permutation l l' -> { ks | l' = pm ks l }.
Proof.
  induction l' as [|b l' IH]; intros l P.
  - exists []. apply Permutation_sym, Permutation_nil in P. now subst.
  - destruct (bring dec b l) as (ks&l2&E); [apply (Permutation_in _ (Permutation_sym P)); now left|].
    destruct (IH l2) as (ks'&E'); [apply (Permutation_cons_inv (a := b)); rewrite <- E; rewrite <- P; symmetry; apply pm_perm|].
    exists (ks ++ map S ks'). now rewrite pm_app, E, pm_cons, <- E'.
Qed.
Lemma map_nth_seq {A} (d : A) l : map (fun j => nth j l d) (seq 0 (length l)) = l.
Proof.
  induction l as [|x l IH]; auto. cbn [length seq map nth]. f_equal. rewrite <- seq_shift, map_map. exact IH.
Qed.
Lemma order_pm order n : row_order order n -> exists ks, forall A (d : A) l, length l = n -> in_order d order l = pm ks l.
Proof.
  intros P. destruct (perm_pm _ _ (Permutation_sym P)) as (ks&E). exists ks. intros A d l L. unfold in_order. rewrite E, <- pm_map. f_equal. rewrite <- L. apply map_nth_seq.
Qed.

(** ** what does not depend on an order *)
Lemma rmin_swap a b c : Rmin (Rmin a b) c = Rmin (Rmin a c) b.
Proof. unfold Rmin. repeat destruct (Rle_dec _ _); lra. Qed.
Lemma rmax_swap a b c : Rmax (Rmax a b) c = Rmax (Rmax a c) b.
Proof. unfold Rmax. repeat destruct (Rle_dec _ _); lra. Qed.
Section Fold.
Variables (A : Type) (f : A -> A -> A).
Hypothesis Hs : forall a b c, f (f a b) c = f (f a c) b.
Hypothesis Hc : forall a b, f a b = f b a.
Lemma fold_perm l l' : Permutation l l' -> forall a, fold_left f l a = fold_left f l' a.
Proof. induction 1; intros z; simpl; auto. - now rewrite Hs. - now rewrite IHPermutation1. Qed.
Lemma fold_head a l b l' : Permutation (a :: l) (b :: l') -> fold_left f l a = fold_left f l' b.
Proof.
  intros P. assert (E : forall x y m, fold_left f (y :: m) x = fold_left f (x :: m) y) by (intros; simpl; f_equal; apply Hc).
  destruct (in_inv (Permutation_in _ P (or_introl eq_refl))) as [->|I].
  - apply Permutation_cons_inv in P. now apply fold_perm.
  - apply in_split in I. destruct I as (m1&m2&->). assert (P2 : Permutation l (b :: m1 ++ m2)).
    { apply (Permutation_cons_inv (a := a)). rewrite P. rewrite perm_swap. constructor. symmetry. apply Permutation_middle. }
    rewrite (fold_perm _ _ P2 a), E. apply fold_perm. apply Permutation_middle.
Qed.
End Fold.
Lemma vmin_perm l l' : Permutation l l' -> vmin l = vmin l'.
Proof.
  intros P. destruct l as [|a l]; [now rewrite (Permutation_nil P)|]. destruct l' as [|b l']; [now apply Permutation_sym, Permutation_nil in P|].
  simpl. apply fold_head; auto using rmin_swap, Rmin_comm.
Qed.
Lemma vmax_perm l l' : Permutation l l' -> vmax l = vmax l'.
Proof.
  intros P. destruct l as [|a l]; [now rewrite (Permutation_nil P)|]. destruct l' as [|b l']; [now apply Permutation_sym, Permutation_nil in P|].
  simpl. apply fold_head; auto using rmax_swap, Rmax_comm.
Qed.
Lemma is_nan_eq a : is_nan a = true -> a = FNaN.
Proof. destruct a; easy. Qed.
Lemma fmax_nan_l b : fmax FNaN b = FNaN.
Proof. reflexivity. Qed.
Lemma fmax_nan_r a : fmax a FNaN = FNaN.
Proof. unfold fmax. destruct (is_nan a) eqn:E; auto. now apply is_nan_eq. Qed.
Lemma fmax_le a b c : is_nan a = false -> is_nan b = false -> fle (fmax a b) c = true <-> fle a c = true /\ fle b c = true.
Proof.
  intros Ha Hb. split.
  - intros H. split; (eapply fle_trans; [|exact H]); [now apply fmax_ge_l|now apply fmax_ge_r].
  - intros [H1 H2]. destruct (fmax_in a b) as [->| ->]; auto.
Qed.
Lemma fmax_ext a b : is_nan a = false -> is_nan b = false -> (forall c, fle a c = true <-> fle b c = true) -> a = b.
Proof. intros Ha Hb H. apply fle_antisym; [apply H|apply H]; now apply fle_refl. Qed.
Lemma fmax_comm a b : fmax a b = fmax b a.
Proof.
  destruct (is_nan a) eqn:Ea; [rewrite (is_nan_eq a Ea); now rewrite fmax_nan_r|]. destruct (is_nan b) eqn:Eb; [rewrite (is_nan_eq b Eb); now rewrite fmax_nan_r|].
  apply fmax_ext; auto using fmax_nan. intros c. rewrite !fmax_le by auto. tauto.
Qed.
Lemma fmax_swap a b c : fmax (fmax a b) c = fmax (fmax a c) b.
Proof.
  destruct (is_nan a) eqn:Ea; [now rewrite (is_nan_eq a Ea)|]. destruct (is_nan b) eqn:Eb; [rewrite (is_nan_eq b Eb); now rewrite !fmax_nan_r|].
  destruct (is_nan c) eqn:Ec; [rewrite (is_nan_eq c Ec); now rewrite !fmax_nan_r|].
  apply fmax_ext; auto using fmax_nan. intros d. rewrite !fmax_le by auto using fmax_nan. tauto.
Qed.
Lemma list_max_perm l l' : Permutation l l' -> list_max l = list_max l'.
Proof.
  intros P. destruct l as [|a l]; [now rewrite (Permutation_nil P)|]. destruct l' as [|b l']; [now apply Permutation_sym, Permutation_nil in P|].
  simpl. f_equal. apply fold_head; auto using fmax_swap, fmax_comm.
Qed.
Lemma n_unique_perm l l' : Permutation l l' -> n_unique l = n_unique l'.
Proof.
  intros P. unfold n_unique. apply Permutation_length. apply NoDup_Permutation; try apply NoDup_nodup. intros x. rewrite !nodup_In. split; apply Permutation_in; auto using Permutation_sym.
Qed.
Lemma count_eq_perm l l' x : Permutation l l' -> count_eq l x = count_eq l' x.
Proof. intros P. unfold count_eq. apply Permutation_length. now apply filter_perm. Qed.
Lemma masked_sum_pm ks y mask : length y = length mask -> masked_sum (pm ks y) (pm ks mask) = masked_sum y mask.
Proof.
  intros L. unfold masked_sum. rewrite <- pm_map, <- pm_map2 by now rewrite map_length. symmetry. apply rsum_perm. apply pm_perm.
Qed.
Lemma count_false_perm l l' : Permutation l l' -> count_false l = count_false l'.
Proof. induction 1; simpl; lia. Qed.
Lemma select_filter {A} (g : A -> bool) l : select (map g l) l = filter (fun r => negb (g r)) l.
Proof. induction l as [|x l IH]; simpl; auto. destruct (g x); simpl; now rewrite IH. Qed.
Lemma finite_vec_pm ks v : finite_vec (pm ks v) = option_map (pm ks) (finite_vec v).
Proof.
  revert v. induction ks as [|k ks IH]; intros v; simpl; [now destruct (finite_vec v)|]. rewrite IH.
  assert (E : finite_vec (sw k v) = option_map (sw k) (finite_vec v)).
  { revert v. induction k as [|k IHk]; intros [|a v]; auto.
    - destruct v as [|b v]; simpl; [now destruct (xfin a)|]. destruct (xfin a), (xfin b), (finite_vec v); auto.
    - simpl. rewrite IHk. destruct (xfin a), (finite_vec v); auto. }
  rewrite E. now destruct (finite_vec v).
Qed.
(** the test for something to split, in the words of the specification *)
Lemma not_constant_iff rows v : is_not_constant (map (fun r => cell r v) rows) = true <-> looks_splittable rows v.
Proof.
  unfold is_not_constant, looks_splittable. rewrite map_length. destruct rows as [|r0 [|r1 rows]]; simpl length.
  1, 2: split; [discriminate|intros (i&j&?&?&_); lia].
  change (tl (map (fun r : row => cell r v) (r0 :: r1 :: rows))) with (cell r1 v :: map (fun r : row => cell r v) rows). cbn [Nat.leb inc_loop]. rewrite inc_loop_some. split.
  - intros (x&I&E). apply in_map_iff in I. destruct I as (r&<-&I). apply In_nth with (d := []) in I. destruct I as (k&L&<-). exists 1, (S (S k)). split; [lia|]. split; [lia|].
    rewrite feqb_sym. exact E.
  - intros (i&j&L&L2&E). destruct i as [|[|i]]; [lia| |].
    + destruct j as [|[|j]]; [lia|lia|]. exists (cell (nth j rows []) v). split; [|rewrite feqb_sym; exact E]. apply in_map_iff. exists (nth j rows []). split; auto. apply nth_In. lia.
    + destruct j as [|[|j]]; [lia|lia|]. cbn [nth] in E. assert (I : forall k, k < length rows -> In (cell (nth k rows []) v) (map (fun r : row => cell r v) rows)) by (intros k Lk; apply in_map_iff; exists (nth k rows []); split; auto; apply nth_In; lia).
      destruct (feqb (cell (nth i rows []) v) (cell r1 v)) eqn:E2; [|exists (cell (nth i rows []) v); split; auto; apply I; lia].
      apply feqb_eq in E2. destruct E2 as [E2 _]. rewrite E2 in E. exists (cell (nth j rows []) v). split; [apply I; lia|]. now rewrite feqb_sym.
Qed.

Section Rows.
Variables (ks : list nat) (X0 : matrix).
Let n := mx_ncols X0.
Let N := length (mx_rows X0).
Let X1 := Mx n (pm ks (mx_rows X0)).
Hypothesis Hsame : same_tests X0 X1.
Notation pk := (pm ks).

(** ** data *)
Definition cutb (ss : list side) (r : row) : bool := forallb (fun s => on_side s r) ss.
Definition hides (ss : list side) (r : row) : bool := negb (cutb ss r).
Definition wfc (c : covmat) : Prop :=
  cm_X c = X0 /\ cm_unique c = repeat None n /\ cm_split c = repeat None n /\ cm_max c = repeat None n /\ exists ss, cm_mask c = map (hides ss) (mx_rows X0).
Definition tcm (c : covmat) : covmat := CM X1 (pk (cm_mask c)) (cm_nobsv c) (repeat None n) (repeat None n) (repeat None n).
Definition tty (t : target) : target := Tg (option_map pk (t_y t)) (pk (t_mask t)) (t_fresh t) (t_sum t) (t_range t).
Definition tdt (d : data) : data := Dt (tcm (d_X d)) (tty (d_y d)).
Definition wfd (d : data) : Prop := wfc (d_X d).
Lemma hidden_select ss rows : select (map (hides ss) rows) rows = cut_out ss rows.
Proof. rewrite select_filter. apply filter_ext. intros r. apply Bool.negb_involutive. Qed.
Lemma get_column_wf c i : wfc c -> exists ss, get_column c i = map (fun r => cell r i) (cut_out ss (mx_rows X0)) /\ get_column (tcm c) i = map (fun r => cell r i) (cut_out ss (pk (mx_rows X0))).
Proof.
  intros (E&_&_&_&ss&M). exists ss. unfold get_column. rewrite E, M. cbn [tcm cm_mask cm_X X1 mx_rows]. rewrite M, pm_map, !hidden_select. auto.
Qed.
Lemma get_column_tr c i : wfc c -> Permutation (get_column c i) (get_column (tcm c) i).
Proof. intros W. destruct (get_column_wf c i W) as (ss&->&->). apply Permutation_map. apply filter_perm. apply pm_perm. Qed.
Lemma get_column_len c i : wfc c -> length (get_column c i) <= N.
Proof. intros W. destruct (get_column_wf c i W) as (ss&->&_). rewrite map_length. apply filter_length_le. Qed.
Lemma not_constant_tr c i : wfc c -> i < n -> is_not_constant (get_column (tcm c) i) = is_not_constant (get_column c i).
Proof.
  intros W L. destruct (get_column_wf c i W) as (ss&->&->). apply eq_true_iff_eq. rewrite !not_constant_iff. symmetry. exact (Hsame ss i L).
Qed.
Lemma nfeat_tr c : wfc c -> cm_nfeat (tcm c) = cm_nfeat c.
Proof. intros (E&_). unfold cm_nfeat. now rewrite E. Qed.
Lemma wf_unique c : wfc c -> exists m, cm_unique c = repeat None m.
Proof. intros (_&E&_). eauto. Qed.
Lemma wf_split c : wfc c -> exists m, cm_split c = repeat None m.
Proof. intros (_&_&E&_). eauto. Qed.
Lemma wf_max c : wfc c -> exists m, cm_max c = repeat None m.
Proof. intros (_&_&_&E&_). eauto. Qed.
Lemma tr_unique c : exists m, cm_unique (tcm c) = repeat None m.
Proof. now exists n. Qed.
Lemma tr_split c : exists m, cm_split (tcm c) = repeat None m.
Proof. now exists n. Qed.
Lemma tr_max c : exists m, cm_max (tcm c) = repeat None m.
Proof. now exists n. Qed.
Lemma splittable_tr c : wfc c -> fst (splittable_variables (tcm c)) = fst (splittable_variables c).
Proof.
  intros W. rewrite !splittable_eq by auto using wf_split, tr_split. rewrite nfeat_tr by auto. apply filter_ext_in. intros i I. apply in_seq in I. apply not_constant_tr; auto.
  destruct W as (E&_). unfold cm_nfeat in I. rewrite E in I. unfold n. lia.
Qed.
Lemma one_splittable_tr c : wfc c -> fst (is_at_least_one_splittable_variable (tcm c)) = fst (is_at_least_one_splittable_variable c).
Proof. intros W. rewrite !one_splittable_eq by auto using wf_split, tr_split. now rewrite splittable_tr. Qed.
Lemma proportion_tr c i x : wfc c -> rmap fst (proportion_of_value_in_variable (tcm c) i x) = rmap fst (proportion_of_value_in_variable c i x).
Proof.
  intros W. rewrite !proportion_eq by auto using wf_unique, tr_unique. pose proof (get_column_tr c i W) as P. rewrite <- (n_unique_perm _ _ P), <- (count_eq_perm _ _ x P), <- (Permutation_length P), nfeat_tr by auto. reflexivity.
Qed.
Definition side_of (s : scond) : side := Side (sc_var s) (sc_val s) (match sc_op s with OpGt => true | _ => false end).
Lemma update_mask_tr c s : wfc c -> update_mask (tcm c) s = rmap pk (update_mask c s) /\ (forall m, update_mask c s = Ok m -> exists ss, m = map (hides ss) (mx_rows X0)).
Proof.
  intros (E&_&_&_&ss&M).
  assert (H : forall (f : fl -> fl -> bool), (forall r, f (cell r (sc_var s)) (sc_val s) = negb (on_side (side_of s) r)) ->
    forall rows, map2 orb (map (hides ss) rows) (map (fun r => f (cell r (sc_var s)) (sc_val s)) rows) = map (hides (side_of s :: ss)) rows).
  { intros f Hf. induction rows as [|r rows IH]; auto. cbn [map map2]. rewrite IH. f_equal. unfold hides, cutb. cbn [forallb]. rewrite Hf. now destruct (on_side (side_of s) r), (forallb _ ss). }
  unfold update_mask, column_mask, cm_nfeat. rewrite E, M. cbn [tcm cm_X cm_mask X1 mx_ncols mx_rows]. rewrite M, pm_map. fold n.
  destruct (sc_op s) eqn:Eo; try (split; auto; discriminate); destruct (n <=? sc_var s); try (split; auto; discriminate); cbn [rbind]; rewrite !map_length, !Nat.eqb_refl; cbn [negb rmap].
  - assert (Hf : forall r, fgt (cell r (sc_var s)) (sc_val s) = negb (on_side (side_of s) r)) by (intros r; unfold on_side, side_of; rewrite Eo; cbn [sd_above sd_column sd_threshold]; now rewrite Bool.negb_involutive).
    rewrite !(H fgt Hf). split; [now rewrite pm_map|]. intros m [= <-]. eauto.
  - assert (Hf : forall r, fle (cell r (sc_var s)) (sc_val s) = negb (on_side (side_of s) r)) by (intros r; unfold on_side, side_of; rewrite Eo; cbn [sd_above sd_column sd_threshold]; now rewrite Bool.negb_involutive).
    rewrite !(H fle Hf). split; [now rewrite pm_map|]. intros m [= <-]. eauto.
Qed.
Lemma data_add_tr d s : wfd d -> data_add (tdt d) s = rmap tdt (data_add d s) /\ (forall d', data_add d s = Ok d' -> wfd d').
Proof.
  intros W. unfold data_add. cbn [tdt d_X]. destruct (update_mask_tr (d_X d) s W) as [Eu Wu]. rewrite Eu. destruct W as (E&U&P&M&_).
  destruct (update_mask (d_X d) s) as [m| |]; cbn [rbind rmap]; split; try discriminate; auto.
  - unfold tdt, tcm, tty, make_covmat. cbn [d_X d_y cm_mask cm_nobsv cm_X cm_unique cm_split t_y t_mask t_fresh t_sum t_range]. rewrite !map_repeat_none by auto.
    rewrite <- (count_false_perm _ _ (pm_perm ks m)). reflexivity.
  - intros d' [= <-]. unfold wfd, wfc, make_covmat. cbn [d_X cm_X cm_unique cm_split cm_max cm_mask]. rewrite E, U, P, !map_repeat_none by auto. auto 10.
Qed.
Lemma summed_y_tr t : summed_y (tty t) = rmap (fun q => (fst q, tty (snd q))) (summed_y t).
Proof.
  unfold summed_y. cbn [tty t_fresh t_sum t_y t_mask t_range]. destruct (t_fresh t); [now destruct (t_sum t)|]. destruct (t_y t) as [y|]; cbn [option_map]; auto.
  rewrite !pm_length. destruct (length y =? length (t_mask t)) eqn:E; cbn [negb]; auto. apply Nat.eqb_eq in E. cbn [rmap fst snd]. unfold tty. cbn [t_fresh t_sum t_y t_mask t_range option_map]. now rewrite masked_sum_pm.
Qed.
Definition tsp (s : split) : split := Sp (tdt (sp_data s)) (sp_cc s).
Definition wfs (s : split) : Prop := wfd (sp_data s).
Lemma make_split_tr d : wfd d -> make_split (tdt d) = rmap tsp (make_split d) /\ (forall s, make_split d = Ok s -> wfs s).
Proof.
  intros W. unfold make_split. cbn [tdt d_X]. rewrite nfeat_tr by auto. destruct (make_cc _ []) as [c| |]; cbn [rbind rmap]; split; auto; try discriminate. intros s [= <-]. exact W.
Qed.
Lemma split_add_tr s c : wfs s -> split_add (tsp s) c = rmap tsp (split_add s c) /\ (forall s', split_add s c = Ok s' -> wfs s').
Proof.
  intros W. destruct (data_add_tr (sp_data s) c W) as [E W']. unfold split_add. cbn [tsp sp_data sp_cc]. rewrite E.
  destruct (data_add (sp_data s) c) as [d| |]; cbn [rbind rmap]; try (split; auto; discriminate). destruct (cc_add (sp_cc s) c) as [c'| |]; cbn [rbind rmap]; split; try discriminate; auto.
  intros s' [= <-]. now apply W'.
Qed.
Definition tsps (abc : split * split * split) := (tsp (fst (fst abc)), tsp (snd (fst abc)), tsp (snd abc)).
Lemma split_children_tr s c0 c1 : wfs s ->
  split_children (tsp s) c0 c1 = rmap tsps (split_children s c0 c1) /\
  (forall a b c, split_children s c0 c1 = Ok (a, b, c) -> wfs a /\ wfs b /\ wfs c).
Proof.
  intros W. destruct (split_add_tr s c0 W) as [E W']. unfold split_children. rewrite E. destruct (split_add s c0) as [sl| |]; cbn [rbind rmap]; split; try discriminate; auto.
  - change (d_y (sp_data (tsp s))) with (tty (d_y (sp_data s))). rewrite summed_y_tr. destruct (summed_y (d_y (sp_data s))) as [[sy ty]| |]; cbn [rbind rmap fst snd]; auto.
    change (d_y (sp_data (tsp sl))) with (tty (d_y (sp_data sl))). rewrite summed_y_tr. destruct (summed_y (d_y (sp_data sl))) as [[ly tl]| |]; cbn [rbind rmap fst snd]; auto.
    change (sp_set_y (tsp s) (tty ty)) with (tsp (sp_set_y s ty)).
    match goal with |- context [split_add (sp_set_y s ty) ?c] => destruct (split_add_tr (sp_set_y s ty) c W) as [H _] end.
    change (cm_nobsv (d_X (sp_data (tsp s)))) with (cm_nobsv (d_X (sp_data s))).
    change (cm_nobsv (d_X (sp_data (tsp sl)))) with (cm_nobsv (d_X (sp_data sl))).
    rewrite H. destruct (split_add (sp_set_y s ty) _); reflexivity.
  - intros a b c. destruct (summed_y (d_y (sp_data s))) as [[sy ty]| |]; try discriminate. cbn [rbind]. destruct (summed_y (d_y (sp_data sl))) as [[ly tl]| |]; try discriminate. cbn [rbind].
    match goal with |- context [split_add (sp_set_y s ty) ?c] => destruct (split_add_tr (sp_set_y s ty) c W) as [_ H] end.
    destruct (split_add (sp_set_y s ty) _) as [sr| |]; try discriminate. intros [= <- <- <-]. split; [exact W|split; [exact (W' sl eq_refl)|exact (H sr eq_refl)]].
Qed.

(** ** trees *)
Definition tns (s : nsplit) : nsplit := match s with SFull s => SFull (tsp s) | SCond c => SCond c end.
Definition tnd (a : tnode) : tnode := Nd (nd_kind a) (tns (nd_split a)) (nd_depth a).
Definition th (h : heap) : heap := Hp (h_next h) (fun j => option_map tnd (h_get h j)).
Definition wfn (a : tnode) : Prop := match nd_split a with SFull s => wfs s | SCond c => True end.
Definition wfh (h : heap) : Prop := forall j a, h_get h j = Some a -> wfn a.
Definition tt (t : tree) : tree := Tr (tr_nodes t) (tr_fresh t) (option_map pk (tr_pred t)).
Arguments tsp _ : simpl never.
Arguments tnd _ : simpl never.
Lemma wfh_set h i a : wfh h -> wfn a -> wfh (h_set h i a).
Proof. intros W V j b. simpl. destruct (Nat.eqb j i); [now intros [= <-]|apply W]. Qed.
Lemma wfh_alloc h a : wfh h -> wfn a -> wfh (snd (h_alloc h a)).
Proof. intros W V j b. simpl. destruct (Nat.eqb j (h_next h)); [now intros [= <-]|apply W]. Qed.
Lemma th_get h i : h_get (th h) i = option_map tnd (h_get h i).
Proof. reflexivity. Qed.
Lemma th_set h i a : h_set (th h) i (tnd a) = th (h_set h i a).
Proof. unfold h_set, th. simpl. f_equal. extensionality j. now destruct (Nat.eqb j i). Qed.
Lemma th_alloc h a : h_alloc (th h) (tnd a) = (h_next h, th (snd (h_alloc h a))).
Proof. unfold h_alloc, th. simpl. do 2 f_equal. extensionality j. now destruct (Nat.eqb j (h_next h)). Qed.
Arguments th _ : simpl never.
Ltac getn := rewrite th_get; match goal with |- context [h_get ?h ?i] => destruct (h_get h i) as [[[?|? ?] [?|?] ?]|] end; simpl; auto.
Lemma is_leaf_tr h i : is_leaf (th h) i = is_leaf h i.
Proof. unfold is_leaf. getn. Qed.
Lemma is_dec_tr h i : is_dec (th h) i = is_dec h i.
Proof. unfold is_dec. getn. Qed.
Lemma left_child_tr h i : left_child (th h) i = left_child h i.
Proof. unfold left_child. getn. Qed.
Lemma right_child_tr h i : right_child (th h) i = right_child h i.
Proof. unfold right_child. getn. Qed.
Lemma node_split_tr h i : node_split (th h) i = option_map tsp (node_split h i).
Proof. unfold node_split. getn. Qed.
Lemma node_data_tr h i : node_data (th h) i = option_map tdt (node_data h i).
Proof. unfold node_data. rewrite node_split_tr. now destruct (node_split h i). Qed.
Lemma node_data_wf h i d : wfh h -> node_data h i = Some d -> wfd d.
Proof.
  intros W. unfold node_data, node_split. destruct (h_get h i) as [[? [s|c] ?]|] eqn:E; try discriminate. intros [= <-]. exact (W _ _ E).
Qed.
Lemma set_value_tr h i v : set_value (th h) i v = th (set_value h i v).
Proof. unfold set_value. rewrite th_get. destruct (h_get h i) as [[[w|l r] s d]|] eqn:E; simpl; auto. now rewrite <- th_set. Qed.
Lemma set_value_wf h i v : wfh h -> wfh (set_value h i v).
Proof. intros W. unfold set_value. destruct (h_get h i) as [[[w|l r] s d]|] eqn:E; auto. apply wfh_set; auto. exact (W _ _ E). Qed.
Lemma is_splittable_tr h i : wfh h -> is_splittable (th h) i = is_splittable h i.
Proof. intros W. unfold is_splittable. rewrite node_data_tr. destruct (node_data h i) as [d|] eqn:E; simpl; auto. apply one_splittable_tr. eapply node_data_wf; eauto. Qed.
Lemma is_prunable_tr h i : is_prunable (th h) i = is_prunable h i.
Proof. unfold is_prunable. rewrite left_child_tr, right_child_tr. destruct (left_child h i), (right_child h i); auto. now rewrite !is_leaf_tr. Qed.
Lemma nsplit_cc_tr s : nsplit_cc (tns s) = nsplit_cc s.
Proof. now destruct s. Qed.
Lemma dec_most_recent_tr h i : dec_most_recent (th h) i = dec_most_recent h i.
Proof.
  unfold dec_most_recent. rewrite left_child_tr. destruct (left_child h i) as [l|]; auto. rewrite th_get.
  destruct (h_get h l) as [a|]; cbn [option_map]; auto. change (nd_split (tnd a)) with (tns (nd_split a)). now rewrite nsplit_cc_tr.
Qed.
Definition tp2 {A} (p : A * heap) : A * heap := (fst p, th (snd p)).
Lemma split_node_tr h i c0 c1 : wfh h -> split_node (th h) i c0 c1 = rmap tp2 (split_node h i c0 c1) /\
  (forall p h', split_node h i c0 c1 = Ok (p, h') -> wfh h').
Proof.
  intros W. unfold split_node. rewrite th_get. destruct (h_get h i) as [[kd [s|c] d]|] eqn:Eg; unfold tnd; cbn [option_map tns nd_kind nd_split nd_depth]; try (split; auto; discriminate).
  assert (Ws : wfs s) by exact (W _ _ Eg). destruct (split_children_tr s c0 c1 Ws) as [E W']. rewrite E. destruct (split_children s c0 c1) as [[[s' sl] sr]| |]; cbn [rbind rmap]; try (split; auto; discriminate).
  destruct (W' _ _ _ eq_refl) as (W1&W2&W3). unfold tsps. cbn [fst snd].
  assert (F : forall h kd s n, h_alloc (th h) (Nd kd (SFull (tsp s)) n) = (h_next h, th (snd (h_alloc h (Nd kd (SFull s) n))))) by (intros h0 kd0 s0 n0; exact (th_alloc h0 (Nd kd0 (SFull s0) n0))).
  split.
  - cbn beta iota. rewrite F. cbn beta iota. rewrite F. cbn beta iota. rewrite F. reflexivity.
  - destruct (h_alloc h _) as [l h1] eqn:E1. destruct (h_alloc h1 _) as [r h2] eqn:E2. destruct (h_alloc h2 _) as [q h3] eqn:E3. intros p h' [= <- <-].
    apply (f_equal snd) in E1, E2, E3. cbn [snd] in E1, E2, E3. rewrite <- E3, <- E2, <- E1. repeat apply wfh_alloc; auto.
Qed.
Lemma deep_copy_node_tr h i : wfh h -> deep_copy_node (th h) i = rmap tp2 (deep_copy_node h i) /\ (forall p h', deep_copy_node h i = Ok (p, h') -> wfh h').
Proof.
  intros W. unfold deep_copy_node. rewrite th_get. destruct (h_get h i) as [[kd [s|c] d]|] eqn:Eg; unfold tnd; cbn [option_map tns nd_kind nd_split nd_depth]; try (split; auto; discriminate).
  split.
  - cbn [rmap]. f_equal. apply (th_alloc h (Nd kd (SCond (sp_cc s)) d)).
  - intros p h' E. injection E as _ <-. apply (wfh_alloc h (Nd kd (SCond (sp_cc s)) d)); auto. exact I.
Qed.
Lemma prune_mutation_tr h e u : prune_mutation (th h) e u = prune_mutation h e u.
Proof. unfold prune_mutation. now rewrite is_dec_tr, is_prunable_tr. Qed.
Lemma grow_mutation_tr h e u : grow_mutation (th h) e u = grow_mutation h e u.
Proof. unfold grow_mutation. now rewrite is_leaf_tr. Qed.
Lemma leaf_nodes_tr h t : leaf_nodes (th h) (tt t) = leaf_nodes h t.
Proof. apply filter_ext. apply is_leaf_tr. Qed.
Lemma splittable_leaf_nodes_tr h t : wfh h -> splittable_leaf_nodes (th h) (tt t) = splittable_leaf_nodes h t.
Proof. intros W. unfold splittable_leaf_nodes. rewrite leaf_nodes_tr. apply filter_ext. intros i. now apply is_splittable_tr. Qed.
Lemma decision_nodes_tr h t : decision_nodes (th h) (tt t) = decision_nodes h t.
Proof. apply filter_ext. apply is_dec_tr. Qed.
Lemma prunable_decision_nodes_tr h t : prunable_decision_nodes (th h) (tt t) = prunable_decision_nodes h t.
Proof. unfold prunable_decision_nodes. rewrite decision_nodes_tr. apply filter_ext. apply is_prunable_tr. Qed.
Lemma set_node_y_tr a y : set_node_y (tnd a) (option_map pk y) = option_map tnd (set_node_y a y).
Proof. unfold set_node_y. destruct a as [kd [s|c] d]; reflexivity. Qed.
Lemma set_node_y_wf a y a' : wfn a -> set_node_y a y = Some a' -> wfn a'.
Proof. unfold set_node_y, wfn. destruct a as [kd [s|c] d]; cbn [nd_split nd_kind nd_depth]; try discriminate. now intros W [= <-]. Qed.
Lemma node_update_y_tr : forall fuel h i y, node_update_y fuel (th h) i (option_map pk y) = rmap th (node_update_y fuel h i y).
Proof.
  induction fuel as [|f IH]; intros h i y; auto. cbn [node_update_y]. rewrite th_get. destruct (h_get h i) as [a|]; cbn [option_map]; auto.
  rewrite set_node_y_tr. destruct (set_node_y a y) as [a'|]; cbn [option_map]; auto. rewrite th_set. change (nd_kind (tnd a)) with (nd_kind a).
  destruct (nd_kind a) as [v|l r]; auto. rewrite IH. destruct (node_update_y f (h_set h i a') l y) as [h2| |]; cbn [rbind rmap]; auto.
Qed.
Lemma node_update_y_wf : forall fuel h i y h', wfh h -> node_update_y fuel h i y = Ok h' -> wfh h'.
Proof.
  induction fuel as [|f IH]; intros h i y h' W; cbn [node_update_y]; [discriminate|]. destruct (h_get h i) as [a|] eqn:E; [|discriminate].
  destruct (set_node_y a y) as [a'|] eqn:E1; [|discriminate]. assert (V : wfh (h_set h i a')) by (apply wfh_set; auto; eapply set_node_y_wf; eauto; exact (W _ _ E)).
  destruct (nd_kind a) as [v|l r]; [now intros [= <-]|]. inv_ok. intros E2. eauto.
Qed.
Lemma nodes_update_y_tr f y : forall ids h, nodes_update_y f (th h) ids (option_map pk y) = rmap th (nodes_update_y f h ids y).
Proof.
  induction ids as [|i ids IH]; intros h; auto. cbn [nodes_update_y]. rewrite node_update_y_tr. destruct (node_update_y f h i y) as [h1| |]; cbn [rbind rmap]; auto.
Qed.
Lemma nodes_update_y_wf f y : forall ids h h', wfh h -> nodes_update_y f h ids y = Ok h' -> wfh h'.
Proof. induction ids as [|i ids IH]; intros h h' W; cbn [nodes_update_y]; [now intros [= <-]|]. inv_ok. intros E2. eauto using node_update_y_wf. Qed.
Definition tp1 {A} (p : heap * A) : heap * A := (th (fst p), snd p).
Definition tpt (p : heap * tree) : heap * tree := (th (fst p), tt (snd p)).
Definition tpl (p : heap * list tree) : heap * list tree := (th (fst p), map tt (snd p)).
Lemma tree_update_y_tr h t y : tree_update_y (th h) (tt t) (option_map pk y) = rmap tpt (tree_update_y h t y).
Proof. unfold tree_update_y. change (tr_nodes (tt t)) with (tr_nodes t). rewrite nodes_update_y_tr. destruct (nodes_update_y _ h _ y); reflexivity. Qed.
Lemma tree_update_y_wf h t y h' t' : wfh h -> tree_update_y h t y = Ok (h', t') -> wfh h'.
Proof. intros W. unfold tree_update_y. inv_ok. intros [= <- _]. eauto using nodes_update_y_wf. Qed.
Lemma assign_where_tr c v b : length c = length b -> assign_where (pk c) v (pk b) = pk (assign_where c v b).
Proof. intros L. unfold assign_where. now rewrite pm_map2. Qed.
Lemma predict_loop_tr h nn : forall leaves buf, predict_loop (th h) nn leaves (option_map pk buf) = rmap (option_map pk) (predict_loop h nn leaves buf).
Proof.
  induction leaves as [|i l IH]; intros buf; auto. cbn [predict_loop].
  set (first := match nn with Some i0 => match node_data h i0 with None => Raise EAttributeError | Some d => if (pz (cm_nobsv (d_X d)) <? 0)%Z then Raise EValueError else Ok (repeat 0%R (Z.to_nat (pz (cm_nobsv (d_X d))))) end | None => Raise EIndexError end).
  replace (match nn with Some i0 => match node_data (th h) i0 with None => Raise EAttributeError | Some d => if (pz (cm_nobsv (d_X d)) <? 0)%Z then Raise EValueError else Ok (repeat 0%R (Z.to_nat (pz (cm_nobsv (d_X d))))) end | None => Raise EIndexError end)
    with (rmap pk first).
  2:{ unfold first. destruct nn as [i0|]; auto; rewrite node_data_tr; destruct (node_data h i0) as [d|]; auto. cbn [option_map tdt d_X tcm cm_nobsv]. destruct (_ <? 0)%Z; auto. cbn [rmap]. now rewrite pm_repeat. }
  replace (match option_map pk buf with Some b => Ok b | None => rmap pk first end) with (rmap pk (match buf with Some b => Ok b | None => first end)) by now destruct buf.
  destruct (match buf with Some b => _ | None => _ end) as [b| |]; cbn [rbind rmap]; auto. rewrite th_get.
  destruct (h_get h i) as [[[v|? ?] [s|c] d]|]; auto. unfold tnd. cbn [option_map nd_kind nd_split nd_depth tns].
  change (split_condition_in (tsp s)) with (map negb (pk (d_mask (sp_data s)))). change (split_condition_in s) with (map negb (d_mask (sp_data s))). rewrite <- pm_map, !pm_length.
  destruct (_ =? _) eqn:El; cbn [negb]; auto. apply Nat.eqb_eq in El. rewrite assign_where_tr by auto. apply (IH (Some _)).
Qed.
Definition tpv (p : list R * tree) : list R * tree := (pk (fst p), tt (snd p)).
Lemma tree_predict_tr h t : tree_predict (th h) (tt t) = rmap tpv (tree_predict h t).
Proof.
  unfold tree_predict. rewrite leaf_nodes_tr. cbn [tt tr_fresh tr_pred tr_nodes]. rewrite predict_loop_tr.
  destruct (tr_fresh t); [now destruct (tr_pred t)|]. destruct (predict_loop h _ _ _) as [[v|]| |]; reflexivity.
Qed.
Lemma out_loop_tr h X : forall leaves buf, out_loop (th h) X leaves buf = out_loop h X leaves buf.
Proof.
  induction leaves as [|i l IH]; intros buf; auto. cbn [out_loop]. rewrite th_get.
  destruct (h_get h i) as [[[v|? ?] s d]|] eqn:Eg; auto. unfold tnd. cbn [option_map nd_kind nd_split].
  rewrite nsplit_cc_tr. destruct (cc_condition (nsplit_cc s) X) as [c| |]; cbn [rbind]; auto.
Qed.
Lemma tree_predict_out_tr h t X : tree_predict_out (th h) t X = tree_predict_out h t X.
Proof. unfold tree_predict_out. rewrite out_loop_tr. f_equal. apply (leaf_nodes_tr h t). Qed.
Lemma relink_tr e u : forall ids h, relink (th h) ids e u = th (relink h ids e u).
Proof.
  induction ids as [|i ids IH]; intros h; auto. cbn [relink]. rewrite th_get. destruct (h_get h i) as [a|]; cbn [option_map]; auto.
  replace (relink_node e u (tnd a)) with (tnd (relink_node e u a)) by now destruct a as [[v|l r] s d]. rewrite th_set. apply IH.
Qed.
Lemma relink_wf e u : forall ids h, wfh h -> wfh (relink h ids e u).
Proof.
  induction ids as [|i ids IH]; intros h W; auto. cbn [relink]. destruct (h_get h i) as [a|] eqn:E; auto. apply IH. apply wfh_set; auto.
  pose proof (W _ _ E) as V. now destruct a as [[v|l r] s d].
Qed.
Lemma mutate_tr h t m : mutate (th h) (tt t) m = (let '(h', t', e) := mutate h t m in (th h', tt t', e)).
Proof.
  unfold mutate. rewrite !left_child_tr, !right_child_tr. cbn [tt tr_nodes tr_pred]. destruct (mu_kind m).
  - destruct (remove_first _ _) as [l1|]; auto. destruct (left_child h (mu_updated m)), (right_child h (mu_updated m)); auto. now rewrite relink_tr.
  - destruct (remove_first _ _) as [l1|]; auto. destruct (remove_id _ _) as [l2|]; auto. destruct (remove_id _ _) as [l3|]; auto. now rewrite relink_tr.
  - now rewrite relink_tr.
Qed.
Lemma mutate_wf h t m h' t' e : wfh h -> mutate h t m = (h', t', e) -> wfh h'.
Proof.
  intros W. unfold mutate. destruct (mu_kind m).
  - destruct (remove_first _ _); [|now intros [= <- _ _]]. destruct (left_child h (mu_updated m)), (right_child h (mu_updated m)); intros [= <- _ _]; auto using relink_wf.
  - destruct (remove_first _ _); [|now intros [= <- _ _]]. destruct (remove_id _ _); [|now intros [= <- _ _]].
    destruct (remove_id _ _); [|now intros [= <- _ _]]. intros [= <- _ _]. now apply relink_wf.
  - intros [= <- _ _]. now apply relink_wf.
Qed.
Lemma deep_copy_nodes_tr : forall ids h, wfh h -> deep_copy_nodes (th h) ids = rmap tp2 (deep_copy_nodes h ids) /\ (forall p h', deep_copy_nodes h ids = Ok (p, h') -> wfh h').
Proof.
  induction ids as [|i ids IH]; intros h W; cbn [deep_copy_nodes]; [split; auto; now intros p h' [= _ <-]|].
  destruct (deep_copy_node_tr h i W) as [E W1]. rewrite E. destruct (deep_copy_node h i) as [[j h1]| |]; cbn [rbind rmap tp2 fst snd]; try (split; auto; discriminate).
  destruct (IH h1 (W1 _ _ eq_refl)) as [E2 W2]. rewrite E2. destruct (deep_copy_nodes h1 ids) as [[js h2]| |]; cbn [rbind rmap tp2 fst snd]; try (split; auto; discriminate).
  split; auto. intros p h' [= _ <-]. eauto.
Qed.
Lemma deep_copy_tree_tr h t : wfh h -> deep_copy_tree (th h) (tt t) = rmap tp2 (deep_copy_tree h t) /\ (forall p h', deep_copy_tree h t = Ok (p, h') -> wfh h').
Proof.
  intros W. destruct (deep_copy_nodes_tr (tr_nodes t) h W) as [E W1]. unfold deep_copy_tree. change (tr_nodes (tt t)) with (tr_nodes t). rewrite E. destruct (deep_copy_nodes h (tr_nodes t)) as [[js h1]| |]; cbn [rbind rmap]; split; auto; try discriminate.
  intros p h' [= _ <-]. eauto.
Qed.

(** ** the samplers *)
Notation simL := (simL N).
Notation simR := (simR N).
Notation good := (good N).
Lemma simL_value_loop col col' mx : Permutation col col' -> length col <= N -> simL (fun x => x) (value_loop col mx) (value_loop col' mx).
Proof.
  intros P LE K HK.
  destruct (perm_pm_sig fl_eq_dec _ _ P) as (kz&Ek). set (m := length col) in *. set (ys := pm kz (seq 0 m)).
  assert (Py : Permutation (seq 0 m) ys) by apply pm_perm.
  assert (Lc : length col' = m) by (symmetry; now apply Permutation_length).
  assert (Ly : length ys = m) by (unfold ys; now rewrite pm_length, seq_length).
  assert (Ec : col' = map (fun j => nth j col FNaN) ys) by (unfold ys; rewrite <- pm_map; unfold m; now rewrite map_nth_seq).
  destruct (Nat.eq_dec m 0) as [Z|NZ].
  - assert (col = []) as -> by (destruct col; auto; discriminate). assert (col' = []) as -> by (destruct col'; auto; discriminate). clear -HK. revert K HK. fold (simL (fun x => x) (value_loop [] mx) (value_loop [] mx)).
    intros K HK. set (F := fix F (l : list nat) : list nat := match l with [] => [] | d :: ds => d :: (if feqb (choose FNaN [] d) mx then F ds else K (choose FNaN [] d) ds) end).
    exists F. split; [split; [|split]|].
    + induction l as [|d ds IH]; auto. cbn [F length]. f_equal. destruct (feqb _ mx); auto. apply HK.
    + induction l as [|d ds IH]; intros M HM L; auto. inversion L; subst. cbn [F]. constructor; auto. destruct (feqb _ mx); [now apply IH|]. now apply HK.
    + induction l as [|d ds IH]; intros [|d' ds']; try discriminate; auto. cbn [F]. intros [= <- E]. f_equal. destruct (feqb _ mx); auto. now apply HK in E.
    + induction l as [|d ds IH]; cbn [F value_loop]; auto. destruct (feqb (choose FNaN [] d) mx) eqn:E; auto.
  - set (g := swap (fun x => x) (seq 0 m) ys).
    assert (H1 : Permutation (map (fun x => x) (seq 0 m)) ys) by now rewrite map_id.
    assert (H2 : seq 0 m <> []) by (destruct m; [congruence|discriminate]).
    assert (H3 : length (seq 0 m) <= N) by now rewrite seq_length.
    assert (H0 : forall a b, In a (seq 0 m) -> In b (seq 0 m) -> a = b -> a = b) by auto.
    assert (Gc : forall d, choose FNaN col' (g d) = choose FNaN col d).
    { intros d. pose proof (swap_choose N (fun x => x) (seq 0 m) ys H0 (seq_NoDup _ _) H1 H2 H3 d) as S. fold g in S. unfold choose in S |- *. rewrite Ly, seq_length in S. rewrite Lc. fold m. rewrite Ec.
      rewrite (nth_indep _ FNaN ((fun j => nth j col FNaN) 0)) by (rewrite map_length, Ly; now apply Nat.mod_upper_bound). rewrite (map_nth (fun j => nth j col FNaN)), S. now rewrite seq_nth by now apply Nat.mod_upper_bound. }
    assert (Gi : forall d d', g d = g d' -> d = d') by exact (swap_inj N (fun x => x) (seq 0 m) ys H0 (seq_NoDup _ _) H1 H2 H3).
    assert (Gb : forall M d, multiple_of_all N M -> d < M -> g d < M) by exact (swap_below N (fun x => x) (seq 0 m) ys H0 (seq_NoDup _ _) H1 H2 H3).
    set (F := fix F (l : list nat) : list nat := match l with [] => [] | d :: ds => g d :: (if feqb (choose FNaN col d) mx then F ds else K (choose FNaN col d) ds) end).
    exists F. split; [split; [|split]|].
    + induction l as [|d ds IH]; auto. cbn [F length]. f_equal. destruct (feqb _ mx); auto. apply HK.
    + induction l as [|d ds IH]; intros M HM L; auto. inversion L; subst. cbn [F]. constructor; auto. destruct (feqb _ mx); [now apply IH|]. now apply HK.
    + induction l as [|d ds IH]; intros [|d' ds']; try discriminate; auto. cbn [F]. intros [= Eg E]. apply Gi in Eg. subst d'. f_equal. destruct (feqb _ mx); auto. now apply HK in E.
    + induction l as [|d ds IH]; cbn [F value_loop]; auto. rewrite Gc. destruct (feqb (choose FNaN col d) mx) eqn:E; auto.
Qed.
Lemma simL_value c v : wfc c -> simL (fun x => x) (random_splittable_value c v) (random_splittable_value (tcm c) v).
Proof.
  intros W. eapply simL_ext; [intros l; apply value_eq; now apply wf_max|intros l; apply value_eq; now apply tr_max|].
  rewrite splittable_tr, nfeat_tr by auto. rewrite <- (list_max_perm _ _ (get_column_tr c v W)).
  destruct (negb _); [apply simL_raise|]. destruct (_ <=? v); [apply simL_raise|]. destruct (list_max (get_column c v)) as [mx|e|]; cbn [rbind]; [|apply simL_raise|apply simL_none].
  apply simL_value_loop; auto using get_column_tr, get_column_len.
Qed.
Lemma sample_split_condition_sim c : wfc c -> simL (fun q => q) (sample_split_condition c) (sample_split_condition (tcm c)).
Proof.
  intros W. unfold sample_split_condition. rewrite splittable_tr by auto.
  eapply (simL_bind N (fun v => v) (fun q => q) _ _ (fun v l => let! (x, l2) := random_splittable_value c v l in Ok (SC v x OpLe None None, SC v x OpGt None None, l2))
     (fun v l => let! (x, l2) := random_splittable_value (tcm c) v l in Ok (SC v x OpLe None None, SC v x OpGt None None, l2)) (fun _ => True)); auto.
  - now apply simL_choice.
  - intros v _. apply (simL_bind N (fun x => x) (fun q => q) _ _ (fun x l => Ok (SC v x OpLe None None, SC v x OpGt None None, l)) (fun x l => Ok (SC v x OpLe None None, SC v x OpGt None None, l)) (fun _ => True)); auto using simL_value.
    intros x _. apply (simL_ret N (fun q => q) (SC v x OpLe None None, SC v x OpGt None None)).
Qed.
Lemma sample_split_node_sim h i : wfh h -> simL tp2 (sample_split_node h i) (sample_split_node (th h) i).
Proof.
  intros W. unfold sample_split_node. rewrite node_data_tr. destruct (node_data h i) as [d|] eqn:Ed; cbn [option_map]; [|apply simL_raise].
  apply node_data_wf in Ed; auto.
  eapply simL_ext; [| |apply (simL_bind N (fun q => q) tp2 _ _ (fun q l => let! (p, h1) := split_node h i (fst q) (snd q) in Ok (p, h1, l))
     (fun q l => let! (p, h1) := split_node (th h) i (fst q) (snd q) in Ok (p, h1, l)) (fun _ => True) (sample_split_condition_sim (d_X d) Ed))]; auto.
  - intros l. cbn beta. destruct (sample_split_condition (d_X d) l) as [[[c0 c1] l1]| |]; reflexivity.
  - intros l. cbn beta. cbn [tdt d_X]. destruct (sample_split_condition (tcm (d_X d)) l) as [[[c0 c1] l1]| |]; reflexivity.
  - intros [c0 c1] _. cbn [fst snd]. destruct (split_node_tr h i c0 c1 W) as [E _]. rewrite E. destruct (split_node h i c0 c1) as [[q h1]|e|]; cbn [rbind rmap]; [apply (simL_ret N tp2 (q, h1))|apply simL_raise|apply simL_none].
Qed.
Lemma sample_split_node_wf h i idx a h' b : wfh h -> sample_split_node h i idx = Ok (a, h', b) -> wfh h'.
Proof.
  intros W. unfold sample_split_node. destruct (node_data h i) as [d|]; [|discriminate]. destruct (sample_split_condition (d_X d) idx) as [[[c0 c1] l1]| |]; try discriminate. cbn [rbind].
  destruct (split_node h i c0 c1) as [[q h1]| |] eqn:E; try discriminate. intros [= _ <- _]. exact (proj2 (split_node_tr h i c0 c1 W) _ _ E).
Qed.
Lemma sample_grow_mutation_wf h t idx a h' b : wfh h -> sample_grow_mutation h t idx = Ok (a, h', b) -> wfh h'.
Proof.
  intros W. unfold sample_grow_mutation. destruct (random_splittable_leaf_node h t idx) as [[i l]| |]; try discriminate. cbn [rbind].
  destruct (sample_split_node h i l) as [[[q h1] l1]| |] eqn:E; try discriminate. cbn [rbind]. destruct (grow_mutation h1 i q); try discriminate. intros [= _ <- _]. eauto using sample_split_node_wf.
Qed.
Lemma sample_grow_mutation_sim h t : wfh h -> splittable_leaf_nodes h t <> [] -> simL tp2 (sample_grow_mutation h t) (sample_grow_mutation (th h) (tt t)).
Proof.
  intros W NE. unfold sample_grow_mutation, random_splittable_leaf_node. rewrite splittable_leaf_nodes_tr by auto. destruct (splittable_leaf_nodes h t) as [|i0 is]; [congruence|].
  apply (simL_bind N (fun x => x) tp2 _ _ (fun i l => let! (p, h1, l2) := sample_split_node h i l in let! m := grow_mutation h1 i p in Ok (m, h1, l2))
     (fun i l => let! (p, h1, l2) := sample_split_node (th h) i l in let! m := grow_mutation h1 i p in Ok (m, h1, l2)) (fun _ => True)); auto; [now apply simL_choice|].
  intros i _. eapply simL_ext; [| |apply (simL_bind N tp2 tp2 _ _ (fun q l => let! m := grow_mutation (snd q) i (fst q) in Ok (m, snd q, l))
     (fun q l => let! m := grow_mutation (snd q) i (fst q) in Ok (m, snd q, l)) (fun _ => True) (sample_split_node_sim h i W))]; auto.
  - intros l. cbn beta. destruct (sample_split_node h i l) as [[[q h1] l1]| |]; reflexivity.
  - intros l. cbn beta. destruct (sample_split_node (th h) i l) as [[[q h1] l1]| |]; reflexivity.
  - intros [q h1] _. cbn [tp2 fst snd]. rewrite grow_mutation_tr. destruct (grow_mutation h1 i q) as [m|e|]; cbn [rbind]; [apply (simL_ret N tp2 (m, h1))|apply simL_raise|apply simL_none].
Qed.
Lemma pruned_tr h i : wfh h -> pruned (th h) i = rmap tp2 (pruned h i) /\ (forall m h', pruned h i = Ok (m, h') -> wfh h').
Proof.
  intros W. unfold pruned. rewrite th_get. destruct (h_get h i) as [a|] eqn:Eg; cbn [option_map]; try (split; auto; discriminate).
  pose proof (th_alloc h (Nd (KLeaf 0) (nd_split a) (nd_depth a))) as E. unfold tnd in E at 1. cbn [nd_kind nd_split nd_depth] in E. unfold tnd; cbn [nd_split nd_depth]. rewrite E.
  destruct (h_alloc h _) as [u h1] eqn:Ea. cbn [fst snd]. rewrite prune_mutation_tr. assert (W1 : wfh h1) by (apply (f_equal snd) in Ea; cbn [snd] in Ea; rewrite <- Ea; apply wfh_alloc; auto; exact (W _ _ Eg)).
  assert (u = h_next h) as <- by (now apply (f_equal fst) in Ea). destruct (prune_mutation h1 i u); cbn [rbind rmap]; split; auto; try discriminate. now intros a' h' [= _ <-].
Qed.
Lemma sample_prune_mutation_wf h t idx a h' b : wfh h -> sample_prune_mutation h t idx = Ok (a, h', b) -> wfh h'.
Proof.
  intros W. rewrite pruned_eq. destruct (random_prunable_decision_node h t idx) as [[i l]| |]; try discriminate. cbn [rbind].
  destruct (pruned h i) as [[q h1]| |] eqn:E; try discriminate. intros [= _ <- _]. exact (proj2 (pruned_tr h i W) _ _ E).
Qed.
Lemma sample_prune_mutation_sim h t : wfh h -> prunable_decision_nodes h t <> [] -> simL tp2 (sample_prune_mutation h t) (sample_prune_mutation (th h) (tt t)).
Proof.
  intros W NE. eapply simL_ext; [intros l; apply pruned_eq|intros l; apply pruned_eq|]. unfold random_prunable_decision_node. rewrite prunable_decision_nodes_tr. destruct (prunable_decision_nodes h t) as [|i0 is]; [congruence|].
  apply (simL_bind N (fun x => x) tp2 _ _ (fun i l => let! q := pruned h i in Ok (q, l)) (fun i l => let! q := pruned (th h) i in Ok (q, l)) (fun _ => True)); auto; [now apply simL_choice|].
  intros i _. rewrite (proj1 (pruned_tr h i W)). destruct (pruned h i) as [q|e|]; cbn [rbind rmap]; [apply (simL_ret N tp2 q)|apply simL_raise|apply simL_none].
Qed.
(** with a node to choose, a proposal is not retried *)
Ltac quiet := repeat first [apply quiet_ok | apply quiet_none | apply quiet_raise; discriminate | apply quiet_bind; [|intros ? ?] |
  match goal with |- quiet (if ?b then _ else _) => destruct b | |- quiet (match ?x with _ => _ end) => destruct x end].
Lemma quiet_condition c l : wfc c -> quiet (sample_split_condition c l).
Proof.
  intros W. unfold sample_split_condition. apply quiet_bind; [apply quiet_choice|]. intros [v l1] E. apply quiet_bind; [|intros [x l2] _; apply quiet_ok].
  rewrite value_eq by now apply wf_max. replace (existsb (Nat.eqb v) (fst (splittable_variables c))) with true.
  - cbn [negb]. destruct (_ <=? v); [apply quiet_raise; discriminate|]. apply quiet_bind; [unfold list_max; quiet|]. intros mx _. generalize l1. induction l0 as [|d ds IH]; cbn [value_loop]; quiet. apply IH.
  - symmetry. apply existsb_exists. exists v. split; [|apply Nat.eqb_refl]. unfold np_choice in E. destruct (fst (splittable_variables c)) as [|v0 vs] eqn:Ev; [discriminate|]. destruct l as [|d ds]; [discriminate|].
    injection E as <- _. apply nth_In. apply Nat.mod_upper_bound. discriminate.
Qed.
Lemma quiet_grow h t l : wfh h -> splittable_leaf_nodes h t <> [] -> quiet (sample_grow_mutation h t l).
Proof.
  intros W NE. unfold sample_grow_mutation, random_splittable_leaf_node. destruct (splittable_leaf_nodes h t) as [|i0 is]; [congruence|]. apply quiet_bind; [apply quiet_choice|]. intros [i l1] _.
  apply quiet_bind; [|intros [[q h1] l2] _; unfold grow_mutation; quiet]. unfold sample_split_node. destruct (node_data h i) as [d|] eqn:E; [|apply quiet_raise; discriminate].
  apply quiet_bind; [apply quiet_condition; eapply node_data_wf; eauto|]. intros [[c0 c1] l2] _. apply quiet_bind; [apply quiet_split_node|]. intros [q h1] _. apply quiet_ok.
Qed.
Lemma quiet_prune h t l : prunable_decision_nodes h t <> [] -> quiet (sample_prune_mutation h t l).
Proof.
  intros NE. rewrite pruned_eq. unfold random_prunable_decision_node. destruct (prunable_decision_nodes h t) as [|i0 is]; [congruence|]. apply quiet_bind; [apply quiet_choice|]. intros [i l1] _.
  apply quiet_bind; [unfold pruned, prune_mutation; quiet|]. intros. apply quiet_ok.
Qed.
Lemma propose_wf h t : wfh h -> forall limit r a h' b, propose limit h t r = Ok (a, h', b) -> wfh h'.
Proof.
  intros W. induction limit as [|lim IH]; intros r a h' b; cbn [propose]; [discriminate|]. destruct (rg_method r) as [|g bs]; [discriminate|].
  destruct (if g then sample_grow_mutation h t (rg_index r) else sample_prune_mutation h t (rg_index r)) as [[[m h1] l]|e|] eqn:E.
  - intros [= _ <- _]. destruct g; eauto using sample_grow_mutation_wf, sample_prune_mutation_wf.
  - destruct e; try discriminate; apply IH.
  - discriminate.
Qed.
Lemma propose_sim h t limit : wfh h -> simR tp2 (propose limit h t) (propose limit (th h) (tt t)).
Proof.
  intros W. induction limit as [|lim IH]; [apply simR_raise|]. intros K HK.
  destruct (IH K HK) as (F0&G0&H0).
  assert (Grow : forall K1 : mutation * heap -> list nat -> list nat, (forall a, good (K1 a)) -> splittable_leaf_nodes h t <> [] ->
    { F | good F /\ forall l, match sample_grow_mutation h t l with Ok (a, l1) => sample_grow_mutation (th h) (tt t) (F l) = Ok (tp2 a, K1 a l1) | Raise e => sample_grow_mutation (th h) (tt t) (F l) = Raise e | NoDraws => sample_grow_mutation (th h) (tt t) (F l) = NoDraws end })
    by (intros K1 HK1 NE; exact (sample_grow_mutation_sim h t W NE K1 HK1)).
  assert (Prune : forall K1 : mutation * heap -> list nat -> list nat, (forall a, good (K1 a)) -> prunable_decision_nodes h t <> [] ->
    { F | good F /\ forall l, match sample_prune_mutation h t l with Ok (a, l1) => sample_prune_mutation (th h) (tt t) (F l) = Ok (tp2 a, K1 a l1) | Raise e => sample_prune_mutation (th h) (tt t) (F l) = Raise e | NoDraws => sample_prune_mutation (th h) (tt t) (F l) = NoDraws end })
    by (intros K1 HK1 NE; exact (sample_prune_mutation_sim h t W NE K1 HK1)).
  assert (D : forall xs : list nat, {xs = []} + {xs <> []}) by (intros [|x xs]; [now left|right; discriminate]).
  set (K1 := fun (q : rng) (bs : list bool) a => K a (rng_set_method q bs)).
  assert (HK1 : forall q bs a, good (K1 q bs a)) by (intros; apply HK).
  set (F := fun (q : rng) => match rg_method q with
    | [] => fun l => l
    | true :: bs => match D (splittable_leaf_nodes h t) with left _ => F0 (rng_set_method q bs) | right NE => proj1_sig (Grow (K1 q bs) (HK1 q bs) NE) end
    | false :: bs => match D (prunable_decision_nodes h t) with left _ => F0 (rng_set_method q bs) | right NE => proj1_sig (Prune (K1 q bs) (HK1 q bs) NE) end end).
  exists F. split.
  - intros q. unfold F. destruct (rg_method q) as [|[|] bs]; [apply good_id| |].
    + destruct (D (splittable_leaf_nodes h t)) as [E|NE]; [apply G0|apply (proj2_sig (Grow _ _ NE))].
    + destruct (D (prunable_decision_nodes h t)) as [E|NE]; [apply G0|apply (proj2_sig (Prune _ _ NE))].
  - intros r. cbn [propose]. change (rg_method (ap F r)) with (rg_method r). destruct (rg_method r) as [|b bs] eqn:Em; [reflexivity|].
    rewrite ap_index. destruct b.
    + destruct (D (splittable_leaf_nodes h t)) as [E|NE].
      * unfold sample_grow_mutation, random_splittable_leaf_node. rewrite splittable_leaf_nodes_tr, E by auto. cbn [rbind].
        specialize (H0 (rng_set_method r bs)). replace (rng_set_method (ap F r) bs) with (ap F0 (rng_set_method r bs)); [exact H0|].
        unfold ap, F, rng_set_index, rng_set_method. cbn. rewrite Em. destruct (D (splittable_leaf_nodes h t)); [reflexivity|congruence].
      * replace (F (rng_set_index r [])) with (proj1_sig (Grow (K1 (rng_set_index r []) bs) (HK1 (rng_set_index r []) bs) NE)).
        2:{ unfold F. cbn [rng_set_index rg_method]. rewrite Em. destruct (D (splittable_leaf_nodes h t)) as [E|NE']; [congruence|]. now rewrite (Classical_Prop.proof_irrelevance _ NE NE'). }
        destruct (Grow (K1 (rng_set_index r []) bs) (HK1 (rng_set_index r []) bs) NE) as (F1&G1&H1). cbn [proj1_sig]. specialize (H1 (rg_index r)). pose proof (quiet_grow h t (rg_index r) W NE) as Q.
        destruct (sample_grow_mutation h t (rg_index r)) as [[[m h1] l1]|e|]; rewrite H1; [reflexivity| |reflexivity]. destruct (Q e eq_refl). destruct e; congruence.
    + destruct (D (prunable_decision_nodes h t)) as [E|NE].
      * unfold sample_prune_mutation, random_prunable_decision_node. rewrite prunable_decision_nodes_tr, E by auto. cbn [rbind].
        specialize (H0 (rng_set_method r bs)). replace (rng_set_method (ap F r) bs) with (ap F0 (rng_set_method r bs)); [exact H0|].
        unfold ap, F, rng_set_index, rng_set_method. cbn. rewrite Em. destruct (D (prunable_decision_nodes h t)); [reflexivity|congruence].
      * replace (F (rng_set_index r [])) with (proj1_sig (Prune (K1 (rng_set_index r []) bs) (HK1 (rng_set_index r []) bs) NE)).
        2:{ unfold F. cbn [rng_set_index rg_method]. rewrite Em. destruct (D (prunable_decision_nodes h t)) as [E|NE']; [congruence|]. now rewrite (Classical_Prop.proof_irrelevance _ NE NE'). }
        destruct (Prune (K1 (rng_set_index r []) bs) (HK1 (rng_set_index r []) bs) NE) as (F1&G1&H1). cbn [proj1_sig]. specialize (H1 (rg_index r)). pose proof (quiet_prune h t (rg_index r) NE) as Q.
        destruct (sample_prune_mutation h t (rg_index r)) as [[[m h1] l1]|e|]; rewrite H1; [reflexivity| |reflexivity]. destruct (Q e eq_refl). destruct e; congruence.
Qed.
Lemma node_n_tr h i : node_n (th h) i = node_n h i.
Proof. unfold node_n. rewrite node_data_tr. now destruct (node_data h i). Qed.
Lemma node_sum_tr h i : node_sum (th h) i = node_sum h i.
Proof. unfold node_sum. rewrite node_data_tr. destruct (node_data h i) as [d|]; auto. cbn [option_map tdt d_y]. rewrite summed_y_tr. now destruct (summed_y (d_y d)) as [[? ?]| |]. Qed.
Lemma log_grow_ratio_nodes_tr h c l r s p : log_grow_ratio_nodes (th h) c l r s p = log_grow_ratio_nodes h c l r s p.
Proof. unfold log_grow_ratio_nodes. now rewrite !node_n_tr, !node_sum_tr. Qed.
Lemma get_children_tr h i : get_children (th h) i = get_children h i.
Proof. unfold get_children. now rewrite left_child_tr, right_child_tr. Qed.
Lemma log_likihood_ratio_tr h m s p : log_likihood_ratio (th h) m s p = log_likihood_ratio h m s p.
Proof.
  unfold log_likihood_ratio. rewrite !get_children_tr. destruct (mu_kind m); auto; destruct (get_children h _) as [[l r]| |]; cbn [rbind]; auto; now rewrite log_grow_ratio_nodes_tr.
Qed.
Lemma n_prunable_tr h t : n_prunable_decision_nodes (th h) (tt t) = n_prunable_decision_nodes h t.
Proof. unfold n_prunable_decision_nodes. now rewrite prunable_decision_nodes_tr. Qed.
Lemma n_splittable_tr h t : wfh h -> n_splittable_leaf_nodes (th h) (tt t) = n_splittable_leaf_nodes h t.
Proof. intros W. unfold n_splittable_leaf_nodes. now rewrite splittable_leaf_nodes_tr. Qed.
Lemma within_node_tr h e u : wfh h -> log_probability_split_within_node (th h) e u = log_probability_split_within_node h e u.
Proof.
  intros W. unfold log_probability_split_within_node. rewrite node_data_tr. destruct (node_data h e) as [d|] eqn:Ed; cbn [option_map]; auto. apply node_data_wf in Ed; auto.
  cbn [tdt d_X]. rewrite dec_most_recent_tr.
  replace (fst (n_splittable_variables (tcm (d_X d)))) with (fst (n_splittable_variables (d_X d))).
  - destruct (dec_most_recent h u) as [s|]; cbn [option_map]; auto. apply rbind_fst. now apply proportion_tr.
  - unfold n_splittable_variables. pose proof (splittable_tr (d_X d) Ed) as E. destruct (splittable_variables (d_X d)), (splittable_variables (tcm (d_X d))). cbn [fst] in *. now rewrite E.
Qed.
Lemma within_tree_tr h t e u : wfh h -> log_probability_split_within_tree (th h) (tt t) e u = log_probability_split_within_tree h t e u.
Proof. intros W. unfold log_probability_split_within_tree. now rewrite within_node_tr, n_splittable_tr. Qed.
Lemma node_depth_tr h i : node_depth (th h) i = node_depth h i.
Proof. unfold node_depth. rewrite th_get. now destruct (h_get h i). Qed.
Lemma log_probability_ratio_tr h t m s p : wfh h -> log_probability_ratio (th h) (tt t) m s p = log_probability_ratio h t m s p.
Proof.
  intros W. unfold log_probability_ratio, log_transition_ratio, log_prune_transition_ratio, log_grow_transition_ratio, log_tree_ratio, log_tree_ratio_grow, log_tree_ratio_prune.
  rewrite log_likihood_ratio_tr, n_prunable_tr, n_splittable_tr, !grow_mutation_tr, !within_tree_tr, !within_node_tr, !node_depth_tr, !get_children_tr by auto.
  match goal with |- rbind ?a ?f = rbind ?a ?g => destruct a; cbn [rbind]; auto end. destruct (log_likihood_ratio h m s p); cbn [rbind]; auto. f_equal.
  destruct (mu_kind m); auto.
  - destruct (node_depth h (mu_existing m)); cbn [rbind]; auto. destruct (get_children h (mu_updated m)) as [[l r]| |]; cbn [rbind]; auto. now rewrite !node_depth_tr.
  - destruct (node_depth h (mu_updated m)); cbn [rbind]; auto. destruct (get_children h (mu_existing m)) as [[l r]| |]; cbn [rbind]; auto. now rewrite !node_depth_tr.
Qed.

(** the rest of a tree step, with the proposal made *)
Definition tpm (a : option mutation * heap * tree) : option mutation * heap * tree := (fst (fst a), th (snd (fst a)), tt (snd a)).
Lemma tree_step_sim h t s p : wfh h -> simR tpm (tree_step h t s p) (tree_step (th h) (tt t) s p).
Proof.
  intros W. eapply simR_ext; [intros r; apply tree_step_eq|intros r; apply tree_step_eq|].
  apply (simR_bind N tp2 tpm _ _ (decided t s p) (decided (tt t) s p) (fun a => wfh (snd a)) (propose_sim h t (pa_limit p) W)).
  - intros r [m h1] r1 E. simpl. eauto using propose_wf.
  - intros [m h1] W1. cbn [snd] in W1. apply simR_pure; unfold decided; cbn [tp2 fst snd]; intros r.
    + intros l. destruct (log_probability_ratio h1 t m s p) as [q| |]; cbn [rbind]; auto. cbn [rng_set_index rg_unif]. destruct (rg_unif r) as [|u us]; auto.
      destruct (accepts u q); auto. destruct (mutate h1 t m) as [[h2 t2] [e|]]; auto.
    + rewrite log_probability_ratio_tr by auto. destruct (log_probability_ratio h1 t m s p) as [q| |]; cbn [rbind]; auto. destruct (rg_unif r) as [|u us]; auto.
      destruct (accepts u q); auto. rewrite mutate_tr. destruct (mutate h1 t m) as [[h2 t2] [e|]]; auto.
Qed.
Lemma tree_step_wf h t s p r a h' b c : wfh h -> tree_step h t s p r = Ok (a, h', b, c) -> wfh h'.
Proof.
  intros W. rewrite tree_step_eq. destruct (propose (pa_limit p) h t r) as [[[m h1] r1]| |] eqn:E; try discriminate. cbn [rbind]. apply propose_wf in E; auto. unfold decided. cbn [fst snd].
  destruct (log_probability_ratio h1 t m s p) as [q| |]; try discriminate. cbn [rbind]. destruct (rg_unif r1) as [|u us]; try discriminate. destruct (accepts u q); [|now intros [= _ <- _ _]].
  destruct (mutate h1 t m) as [[h2 t2] [e|]] eqn:Em; try discriminate. intros [= _ <- _ _]. eauto using mutate_wf.
Qed.
Lemma leaf_step_tr h i s p r : leaf_step (th h) i s p r = rmap tp1 (leaf_step h i s p r).
Proof.
  unfold leaf_step. rewrite node_n_tr, node_sum_tr. destruct (node_n h i) as [m| |]; cbn [rbind]; auto. destruct (node_sum h i) as [y| |]; cbn [rbind]; auto.
  destruct (rg_norm r); auto. destruct (leaf_sample _ _ _ _ _); auto. now rewrite set_value_tr.
Qed.
Lemma leaf_step_wf h i s p r h' r' : wfh h -> leaf_step h i s p r = Ok (h', r') -> wfh h'.
Proof. intros W. unfold leaf_step. inv_ok. inv_ok. destruct (rg_norm r); try discriminate. destruct (leaf_sample _ _ _ _ _); try discriminate. intros [= <- _]. now apply set_value_wf. Qed.

Lemma leaf_step_sim h i s p : simR th (leaf_step h i s p) (leaf_step (th h) i s p).
Proof.
  apply simR_pure; intros r.
  - intros l. unfold leaf_step. destruct (node_n h i); cbn [rbind]; auto. destruct (node_sum h i); cbn [rbind]; auto. cbn [rng_set_index rg_norm]. destruct (rg_norm r); auto. destruct (leaf_sample _ _ _ _ _); auto.
  - rewrite leaf_step_tr. destruct (leaf_step h i s p r) as [[h1 r1]| |]; reflexivity.
Qed.
(** ** models *)
Definition tmd (m : model) : model := Md (th (m_heap m)) (map tt (m_trees m)) (tdt (m_data m)) (option_map pk (m_pred m)) (m_sigma m) (m_par m).
Definition wfm (m : model) : Prop := wfh (m_heap m) /\ length (d_mask (m_data m)) = N.
Arguments tmd _ : simpl never.
Lemma new_trees_tr d : wfd d -> forall m h, wfh h -> new_trees m (th h) (tdt d) = rmap tpl (new_trees m h d) /\ (forall h' ts, new_trees m h d = Ok (h', ts) -> wfh h').
Proof.
  intros Wd. induction m as [|m IH]; intros h W; cbn [new_trees]; [split; auto; now intros h' ts [= <- _]|].
  destruct (make_split_tr d Wd) as [E V]. rewrite E. destruct (make_split d) as [s| |]; cbn [rbind rmap]; try (split; auto; discriminate).
  specialize (V _ eq_refl). pose proof (th_alloc h (Nd (KLeaf 0) (SFull s) 0)) as F. unfold tnd in F at 1. cbn [nd_kind nd_split nd_depth tns] in F. rewrite F.
  destruct (h_alloc h _) as [i h1] eqn:Ea. cbn [fst snd]. assert (W1 : wfh h1) by (apply (f_equal snd) in Ea; cbn [snd] in Ea; rewrite <- Ea; now apply wfh_alloc).
  assert (i = h_next h) as -> by (now apply (f_equal fst) in Ea). destruct (IH h1 W1) as [E2 V2]. rewrite E2.
  destruct (new_trees m h1 d) as [[h2 ts]| |]; cbn [rbind rmap]; split; auto; try discriminate. intros h' ts' [= <- _]. eauto.
Qed.
Lemma init_targets_tr y : forall ts h, init_targets (th h) (map tt ts) (pk y) = rmap tpl (init_targets h ts y).
Proof.
  induction ts as [|t ts IH]; intros h; auto. cbn [init_targets map]. change (Some (pk y)) with (option_map pk (Some y)). rewrite tree_update_y_tr. destruct (tree_update_y h t (Some y)) as [[h1 t1]| |]; cbn [rbind rmap tpt fst snd]; auto.
  pose proof (tree_update_y_tr h1 t1 None) as E1; cbn [option_map] in E1; rewrite E1; clear E1. destruct (tree_update_y h1 t1 None) as [[h2 t2]| |]; cbn [rbind rmap tpt fst snd]; auto. rewrite IH. destruct (init_targets h2 ts y) as [[h3 ts3]| |]; reflexivity.
Qed.
Lemma init_targets_wf y : forall ts h h' ts', wfh h -> init_targets h ts y = Ok (h', ts') -> wfh h'.
Proof. induction ts as [|t ts IH]; intros h h' ts' W; cbn [init_targets]; [now intros [= <- _]|]. inv_ok. inv_ok. inv_ok. intros [= <- _]. eauto using tree_update_y_wf. Qed.
Lemma data_values_tr d : data_values (tdt d) = rmap pk (data_values d).
Proof. unfold data_values. cbn [tdt d_y tty t_y]. now destruct (t_y (d_y d)). Qed.
Lemma initialize_trees_tr h d m : wfh h -> wfd d -> initialize_trees (th h) (tdt d) m = rmap tpl (initialize_trees h d m) /\ (forall h' ts, initialize_trees h d m = Ok (h', ts) -> wfh h').
Proof.
  intros W Wd. unfold initialize_trees. destruct (new_trees_tr d Wd m h W) as [E V]. rewrite E. destruct (new_trees m h d) as [[h1 ts]| |]; cbn [rbind rmap tpl fst snd]; try (split; auto; discriminate).
  specialize (V _ _ eq_refl). destruct ts as [|t ts]; [split; auto; now intros h' ts [= <- _]|]. cbn [map]. rewrite data_values_tr.
  destruct (data_values d) as [y| |]; cbn [rbind rmap]; try (split; auto; discriminate). split; [rewrite <- pm_map; apply (init_targets_tr _ (t :: ts))|]. intros h' ts'. now apply init_targets_wf.
Qed.
Lemma wfd_len d : wfd d -> length (d_mask d) = N.
Proof. intros (_&_&_&_&ss&M). unfold d_mask. rewrite M. apply map_length. Qed.
Lemma make_model_tr h d s p : wfh h -> wfd d -> make_model (th h) (tdt d) s p = rmap tmd (make_model h d s p) /\ (forall m, make_model h d s p = Ok m -> wfm m).
Proof.
  intros W Wd. unfold make_model. destruct (initialize_trees_tr h d (pa_ntrees p) W Wd) as [E V]. rewrite E. destruct (initialize_trees h d (pa_ntrees p)) as [[h1 ts]| |]; cbn [rbind rmap]; split; auto; try discriminate.
  intros m [= <-]. split; simpl; eauto using wfd_len.
Qed.
Definition tpvs (p : list (list R) * list tree) : list (list R) * list tree := (map pk (fst p), map tt (snd p)).
Lemma predict_all_tr h : forall ts, predict_all (th h) (map tt ts) = rmap tpvs (predict_all h ts).
Proof.
  induction ts as [|t ts IH]; auto. cbn [predict_all map]. rewrite tree_predict_tr, IH. destruct (tree_predict h t) as [[v t1]| |]; cbn [rbind rmap tpv fst snd]; auto.
  destruct (predict_all h ts) as [[vs ts1]| |]; reflexivity.
Qed.
Lemma vop_tr f a b : vop f (pk a) (pk b) = rmap pk (vop f a b).
Proof. unfold vop. rewrite !pm_length. destruct (Nat.eqb_spec (length a) (length b)) as [E|E]; auto. cbn [rmap]. now rewrite pm_map2. Qed.
Lemma vsum_tr k : forall vs, vsum k (map pk vs) = rmap pk (vsum k vs).
Proof.
  induction vs as [|v vs IH]; cbn [vsum map]; [cbn [rmap]; now rewrite pm_repeat|]. rewrite IH. destruct (vsum k vs); cbn [rbind rmap]; auto. apply vop_tr.
Qed.
Definition tqv (p : list R * model) : list R * model := (pk (fst p), tmd (snd p)).
Definition tq2 {A} (p : A * model) : A * model := (fst p, tmd (snd p)).
Lemma model_predict_tr m : model_predict (tmd m) = rmap tqv (model_predict m).
Proof.
  unfold model_predict. change (m_heap (tmd m)) with (th (m_heap m)). change (m_trees (tmd m)) with (map tt (m_trees m)). rewrite predict_all_tr.
  destruct (predict_all (m_heap m) (m_trees m)) as [[vs ts]| |]; cbn [rbind rmap tpvs fst snd]; auto. change (d_mask (m_data (tmd m))) with (pk (d_mask (m_data m))). rewrite pm_length, vsum_tr. destruct (vsum _ vs); reflexivity.
Qed.
Lemma model_predict_wf m v m' : wfm m -> model_predict m = Ok (v, m') -> wfm m'.
Proof. intros W. unfold model_predict. inv_ok. inv_ok. now intros [= _ <-]. Qed.
Lemma residuals_tr m : residuals (tmd m) = rmap tqv (residuals m).
Proof.
  unfold residuals. change (m_data (tmd m)) with (tdt (m_data m)). rewrite data_values_tr. destruct (data_values (m_data m)) as [y| |]; cbn [rbind rmap]; auto. rewrite model_predict_tr.
  destruct (model_predict m) as [[v m1]| |]; cbn [rbind rmap tqv fst snd]; auto. rewrite vop_tr. destruct (vop Rminus y v); reflexivity.
Qed.
Lemma residuals_wf m v m' : wfm m -> residuals m = Ok (v, m') -> wfm m'.
Proof. intros W. unfold residuals. inv_ok. inv_ok. inv_ok. intros [= _ <-]. eauto using model_predict_wf. Qed.
Lemma rt_start_tr m : rt_start (tmd m) = rmap tmd (rt_start m).
Proof.
  unfold rt_start. change (m_pred (tmd m)) with (option_map pk (m_pred m)). destruct (m_pred m); auto. cbn [option_map]. rewrite model_predict_tr. destruct (model_predict m) as [[v m1]| |]; reflexivity.
Qed.
Lemma set_nth_tt t : forall ts j, set_nth j (tt t) (map tt ts) = map tt (set_nth j t ts).
Proof. induction ts as [|x ts IH]; intros [|j]; simpl; auto. now rewrite IH. Qed.
Lemma nth_trees m j : nth_error (m_trees (tmd m)) j = option_map tt (nth_error (m_trees m) j).
Proof. apply nth_error_map. Qed.
Lemma rt_start_wf m m' : wfm m -> rt_start m = Ok m' -> wfm m'.
Proof. intros W. unfold rt_start. destruct (m_pred m); [now intros [= <-]|]. inv_ok. intros [= <-]. apply (model_predict_wf m l m0 W E). Qed.
Lemma rt_open_tr m j : rt_open (tmd m) j = rmap tmd (rt_open m j).
Proof.
  unfold rt_open. rewrite nth_trees. change (m_trees (tmd m)) with (map tt (m_trees m)). change (m_pred (tmd m)) with (option_map pk (m_pred m)). change (m_heap (tmd m)) with (th (m_heap m)).
  destruct (nth_error (m_trees m) j) as [t|]; cbn [option_map]; auto. destruct (m_pred m) as [pr|]; cbn [option_map]; auto. rewrite tree_predict_tr. destruct (tree_predict (m_heap m) t) as [[v t1]| |]; cbn [rbind rmap tpv fst snd]; auto.
  rewrite vop_tr. destruct (vop Rminus pr v) as [pr1| |]; cbn [rbind rmap]; auto. change (m_data (tmd m)) with (tdt (m_data m)). rewrite data_values_tr. destruct (data_values (m_data m)) as [y| |]; cbn [rbind rmap]; auto.
  rewrite vop_tr. destruct (vop Rminus y pr1) as [tg| |]; cbn [rbind rmap]; auto. change (Some (pk tg)) with (option_map pk (Some tg)). rewrite tree_update_y_tr. destruct (tree_update_y (m_heap m) t1 (Some tg)) as [[h1 t2]| |]; cbn [rbind rmap tpt fst snd]; auto.
  rewrite set_nth_tt. reflexivity.
Qed.
Lemma rt_open_wf m j m' : wfm m -> rt_open m j = Ok m' -> wfm m'.
Proof.
  intros W. unfold rt_open. destruct (nth_error (m_trees m) j); [|discriminate]. destruct (m_pred m); [|discriminate]. inv_ok. inv_ok. inv_ok. inv_ok. inv_ok. intros [= <-].
  split; simpl; [|exact (proj2 W)]. destruct W as [W _]. eauto using tree_update_y_wf.
Qed.
Lemma rt_close_tr m j : rt_close (tmd m) j = rmap tmd (rt_close m j).
Proof.
  unfold rt_close. rewrite nth_trees. change (m_trees (tmd m)) with (map tt (m_trees m)). change (m_pred (tmd m)) with (option_map pk (m_pred m)). change (m_heap (tmd m)) with (th (m_heap m)).
  destruct (nth_error (m_trees m) j) as [t|]; cbn [option_map]; auto. destruct (m_pred m) as [pr|]; cbn [option_map]; auto. rewrite tree_predict_tr. destruct (tree_predict (m_heap m) t) as [[v t1]| |]; cbn [rbind rmap tpv fst snd]; auto.
  rewrite vop_tr. destruct (vop Rplus pr v) as [pr1| |]; cbn [rbind rmap]; auto. rewrite set_nth_tt. reflexivity.
Qed.
Lemma rt_close_wf m j m' : wfm m -> rt_close m j = Ok m' -> wfm m'.
Proof. intros W. unfold rt_close. destruct (nth_error (m_trees m) j); [|discriminate]. destruct (m_pred m); [|discriminate]. inv_ok. inv_ok. now intros [= <-]. Qed.
Lemma sigma_step_tr m r : sigma_step (tmd m) r = rmap (fun p => (tmd (fst p), snd p)) (sigma_step m r).
Proof.
  unfold sigma_step. rewrite residuals_tr. destruct (residuals m) as [[e m1]| |]; cbn [rbind rmap tqv fst snd]; auto.
  rewrite <- pm_map, <- (rsum_perm _ _ (pm_perm ks (map (fun x => (x * x)%R) e))).
  change (m_par (tmd m)) with (m_par m). change (cm_nobsv (d_X (m_data (tmd m)))) with (cm_nobsv (d_X (m_data m))).
  destruct (Req_EM_T _ _); auto. destruct (Rlt_dec _ _); auto. destruct (Rlt_dec _ _); auto. destruct (rg_gamma r); auto. destruct (sigma_value _); auto.
Qed.
Lemma sigma_step_wf m r m' r' : wfm m -> sigma_step m r = Ok (m', r') -> wfm m'.
Proof.
  intros W. unfold sigma_step. inv_ok. destruct (Req_EM_T _ _); try discriminate. destruct (Rlt_dec _ _); try discriminate. destruct (Rlt_dec _ _); try discriminate.
  destruct (rg_gamma r); try discriminate. destruct (sigma_value _); try discriminate. intros [= <- _]. exact (residuals_wf m l m0 W E).
Qed.
Definition tq4 {A B C} (p : A * B * C * model) : A * B * C * model := (fst p, tmd (snd p)).
Lemma gen_tree_tr m fr j : gen_tree (tmd m) fr j = rmap tq4 (gen_tree m fr j).
Proof. unfold gen_tree. change (m_trees (tmd m)) with (map tt (m_trees m)). rewrite map_length. destruct (_ <? _); auto. rewrite rt_open_tr. destruct (rt_open m j); reflexivity. Qed.
Lemma gen_tree_wf m fr j y pc fr' m' : wfm m -> gen_tree m fr j = Ok (y, pc, fr', m') -> wfm m'.
Proof. intros W. unfold gen_tree. destruct (_ <? _); [|now intros [= _ _ _ <-]]. inv_ok. intros [= _ _ _ <-]. eauto using rt_open_wf. Qed.
Lemma gen_leaves_tr m fr j rest : gen_leaves (tmd m) fr j rest = rmap tq4 (gen_leaves m fr j rest).
Proof. unfold gen_leaves. destruct rest; auto. rewrite rt_close_tr. destruct (rt_close m j); cbn [rbind rmap]; auto. apply gen_tree_tr. Qed.
Lemma gen_leaves_wf m fr j rest y pc fr' m' : wfm m -> gen_leaves m fr j rest = Ok (y, pc, fr', m') -> wfm m'.
Proof. intros W. unfold gen_leaves. destruct rest; [|now intros [= _ _ _ <-]]. inv_ok. intros E2. eauto using rt_close_wf, gen_tree_wf. Qed.
Lemma gen_next_tr m fr pc : gen_next (tmd m) fr pc = rmap tq4 (gen_next m fr pc).
Proof.
  destruct pc; cbn [gen_next]; auto using gen_leaves_tr.
  - rewrite rt_start_tr. destruct (rt_start m); cbn [rbind rmap]; auto using gen_tree_tr.
  - rewrite nth_trees. destruct (nth_error (m_trees m) j); cbn [option_map]; auto. change (m_heap (tmd m)) with (th (m_heap m)). rewrite leaf_nodes_tr. apply gen_leaves_tr.
Qed.
Lemma gen_next_wf m fr pc y pc' fr' m' : wfm m -> gen_next m fr pc = Ok (y, pc', fr', m') -> wfm m'.
Proof.
  intros W. destruct pc; cbn [gen_next].
  - inv_ok. intros E2. eauto using rt_start_wf, gen_tree_wf.
  - destruct (nth_error (m_trees m) j); [|discriminate]. now apply gen_leaves_wf.
  - now apply gen_leaves_wf.
  - now intros [= _ _ _ <-].
Qed.

Lemma sigma_step_sim m : simR tmd (sigma_step m) (sigma_step (tmd m)).
Proof.
  apply simR_pure; intros r.
  - intros l. unfold sigma_step. destruct (residuals m) as [[e m1]| |]; cbn [rbind]; auto. destruct (Req_EM_T _ _); auto. destruct (Rlt_dec _ _); auto. destruct (Rlt_dec _ _); auto.
    cbn [rng_set_index rg_gamma]. destruct (rg_gamma r); auto. destruct (sigma_value _); auto.
  - rewrite sigma_step_tr. destruct (sigma_step m r) as [[m1 r1]| |]; reflexivity.
Qed.
Lemma call_wf m fr thk r a m' b : wfm m -> call m fr thk r = Ok (a, m', b) -> wfm m'.
Proof.
  intros W. destruct thk; cbn [call].
  - destruct (fr_tree fr) as [j|]; try discriminate. destruct (nth_error (m_trees m) j) as [t|]; try discriminate.
    destruct (tree_step (m_heap m) t (m_sigma m) (m_par m) r) as [[[[om h1] t1] r1]| |] eqn:E; try discriminate. intros [= _ <- _]. split; simpl; [|exact (proj2 W)]. destruct W as [W _]. eauto using tree_step_wf.
  - destruct (fr_leaf fr) as [i|]; try discriminate. destruct (leaf_step (m_heap m) i (m_sigma m) (m_par m) r) as [[h1 r1]| |] eqn:E; try discriminate. intros [= _ <- _]. split; simpl; [|exact (proj2 W)]. destruct W as [W _]. eauto using leaf_step_wf.
  - destruct (sigma_step m r) as [[m1 r1]| |] eqn:E; try discriminate. intros [= _ <- _]. eauto using sigma_step_wf.
Qed.
Lemma call_sim m fr thk : wfm m -> simR tq2 (call m fr thk) (call (tmd m) fr thk).
Proof.
  intros W. destruct thk; unfold call.
  - destruct (fr_tree fr) as [j|]; [|apply simR_raise]. rewrite nth_trees. destruct (nth_error (m_trees m) j) as [t|]; cbn [option_map]; [|apply simR_raise].
    change (m_heap (tmd m)) with (th (m_heap m)). change (m_sigma (tmd m)) with (m_sigma m). change (m_par (tmd m)) with (m_par m).
    assert (SetT : forall a, (match fst (fst (tpm a)) with Some _ => true | None => false end, DoTree j, m_set_trees (tmd m) (snd (fst (tpm a))) (set_nth j (snd (tpm a)) (m_trees (tmd m)))) =
      tq2 (match fst (fst a) with Some _ => true | None => false end, DoTree j, m_set_trees m (snd (fst a)) (set_nth j (snd a) (m_trees m)))).
    { intros [[om h1] t1]. cbn [tpm fst snd tq2]. change (m_trees (tmd m)) with (map tt (m_trees m)). rewrite set_nth_tt. reflexivity. }
    eapply simR_ext; [| |apply (simR_map N tpm tq2 _ _ (fun a => (match fst (fst a) with Some _ => true | None => false end, DoTree j, m_set_trees m (snd (fst a)) (set_nth j (snd a) (m_trees m))))
      (fun a => (match fst (fst a) with Some _ => true | None => false end, DoTree j, m_set_trees (tmd m) (snd (fst a)) (set_nth j (snd a) (m_trees (tmd m))))) SetT (tree_step_sim (m_heap m) t (m_sigma m) (m_par m) (proj1 W)))].
    + intros r. cbn beta. destruct (tree_step (m_heap m) t (m_sigma m) (m_par m) r) as [[[[om h1] t1] r1]| |]; reflexivity.
    + intros r. cbn beta. destruct (tree_step (th (m_heap m)) (tt t) (m_sigma m) (m_par m) r) as [[[[om h1] t1] r1]| |]; reflexivity.
  - destruct (fr_leaf fr) as [i|]; [|apply simR_raise]. change (m_heap (tmd m)) with (th (m_heap m)). change (m_sigma (tmd m)) with (m_sigma m). change (m_par (tmd m)) with (m_par m).
    apply (simR_map N th tq2 _ _ (fun h1 => (true, DoLeaf i, m_set_trees m h1 (m_trees m))) (fun h1 => (true, DoLeaf i, m_set_trees (tmd m) h1 (m_trees (tmd m)))) (fun a => eq_refl) (leaf_step_sim (m_heap m) i (m_sigma m) (m_par m))).
  - apply (simR_map N tmd tq2 _ _ (fun m1 => (true, DoSigma, m1)) (fun m1 => (true, DoSigma, m1)) (fun a => eq_refl) (sigma_step_sim m)).
Qed.
Lemma drive_wf : forall fuel m fr pc r a m' b, wfm m -> drive fuel m fr pc r = Ok (a, m', b) -> wfm m'.
Proof.
  induction fuel as [|f IH]; intros m fr pc r a m' b W; cbn [drive]; [discriminate|]. destruct (gen_next m fr pc) as [[[[y pc1] fr1] m1]| |] eqn:E1; try discriminate. cbn [rbind]. apply gen_next_wf in E1; auto.
  destruct y as [[ky thk]|]; [|now intros [= _ <- _]]. destruct (call m1 fr1 thk r) as [[[[result ac] m2] r1]| |] eqn:E2; try discriminate. cbn [rbind]. apply call_wf in E2; auto.
  destruct (drive f m2 fr1 pc1 r1) as [[[[log acts] m3] r2]| |] eqn:E3; try discriminate. intros [= _ <- _]. eauto.
Qed.
Lemma drive_sim : forall fuel m fr pc, wfm m -> simR tq2 (drive fuel m fr pc) (drive fuel (tmd m) fr pc).
Proof.
  induction fuel as [|f IH]; intros m fr pc W; unfold drive; fold drive; [apply simR_none|]. rewrite gen_next_tr.
  destruct (gen_next m fr pc) as [[[[y pc1] fr1] m1]|e|] eqn:E1; cbn [rbind rmap tq4 fst snd]; [|apply simR_raise|apply simR_none]. apply gen_next_wf in E1; auto.
  destruct y as [[ky thk]|]; [|apply (simR_ret N tq2 ([], [], m1))].
  eapply simR_ext; [| |apply (simR_bind N tq2 tq2 _ _
     (fun a r1 => let! (log, acts, m3, r2) := drive f (snd a) fr1 pc1 r1 in Ok (match trace_log ky (fst (fst a)) with Some b => (ky, b) :: log | None => log end, snd (fst a) :: acts, m3, r2))
     (fun a r1 => let! (log, acts, m3, r2) := drive f (snd a) fr1 pc1 r1 in Ok (match trace_log ky (fst (fst a)) with Some b => (ky, b) :: log | None => log end, snd (fst a) :: acts, m3, r2))
     (fun a => wfm (snd a)) (call_sim m1 fr1 thk E1))].
  - intros r. cbn beta. destruct (call m1 fr1 thk r) as [[[[result ac] m2] r1]| |]; reflexivity.
  - intros r. cbn beta. destruct (call (tmd m1) fr1 thk r) as [[[[result ac] m2] r1]| |]; reflexivity.
  - intros r [[result ac] m2] r1 E. simpl. eauto using call_wf.
  - intros [[result ac] m2] W2. cbn [fst snd tq2] in *.
    eapply simR_ext; [| |apply (simR_map N tq2 tq2 _ _ (fun a => (match trace_log ky result with Some b => (ky, b) :: fst (fst a) | None => fst (fst a) end, ac :: snd (fst a), snd a))
       (fun a => (match trace_log ky result with Some b => (ky, b) :: fst (fst a) | None => fst (fst a) end, ac :: snd (fst a), snd a)) (fun a => eq_refl) (IH m2 fr1 pc1 W2))].
    + intros r. cbn beta. destruct (drive f m2 fr1 pc1 r) as [[[[log acts] m3] r2]| |]; reflexivity.
    + intros r. cbn beta. destruct (drive f (tmd m2) fr1 pc1 r) as [[[[log acts] m3] r2]| |]; reflexivity.
Qed.
Lemma gibbs_step_wf m r a m' b : wfm m -> gibbs_step m r = Ok (a, m', b) -> wfm m'.
Proof.
  intros W. unfold gibbs_step. destruct (drive (drive_fuel m) m (Fr None None) GStart r) as [[[[log acts] m1] r1]| |] eqn:E; try discriminate. intros [= _ <- _]. eauto using drive_wf.
Qed.
Lemma drive_fuel_tr m : drive_fuel (tmd m) = drive_fuel m.
Proof. unfold drive_fuel. change (m_trees (tmd m)) with (map tt (m_trees m)). f_equal. induction (m_trees m) as [|t ts IH]; auto. cbn [map fold_right]. now rewrite IH. Qed.
Lemma gibbs_step_sim m : wfm m -> simR tq2 (gibbs_step m) (gibbs_step (tmd m)).
Proof.
  intros W. unfold gibbs_step. rewrite drive_fuel_tr.
  eapply simR_ext; [| |apply (simR_map N tq2 tq2 _ _ (fun a => (step_dict (fst (fst a)), snd (fst a), snd a)) (fun a => (step_dict (fst (fst a)), snd (fst a), snd a)) (fun a => eq_refl) (drive_sim (drive_fuel m) m (Fr None None) GStart W))].
  - intros r. cbn beta. destruct (drive (drive_fuel m) m (Fr None None) GStart r) as [[[[log acts] m1] r1]| |]; reflexivity.
  - intros r. cbn beta. destruct (drive (drive_fuel m) (tmd m) (Fr None None) GStart r) as [[[[log acts] m1] r1]| |]; reflexivity.
Qed.
Lemma copy_trees_tr : forall ts h, wfh h -> copy_trees (th h) (map tt ts) = rmap tp2 (copy_trees h ts) /\ (forall p h', copy_trees h ts = Ok (p, h') -> wfh h').
Proof.
  induction ts as [|t ts IH]; intros h W; cbn [copy_trees map]; [split; auto; now intros p h' [= _ <-]|].
  destruct (deep_copy_tree_tr h t W) as [E V]. rewrite E. destruct (deep_copy_tree h t) as [[t1 h1]| |]; cbn [rbind rmap tp2 fst snd]; try (split; auto; discriminate).
  destruct (IH h1 (V _ _ eq_refl)) as [E2 V2]. rewrite E2. destruct (copy_trees h1 ts) as [[ts1 h2]| |]; cbn [rbind rmap tp2 fst snd]; split; auto; try discriminate. intros p h' [= _ <-]. eauto.
Qed.
Lemma deep_copy_model_tr m : wfm m -> deep_copy_model (tmd m) = rmap tq2 (deep_copy_model m) /\ (forall a m', deep_copy_model m = Ok (a, m') -> wfm m').
Proof.
  intros W. unfold deep_copy_model. change (m_heap (tmd m)) with (th (m_heap m)). change (m_trees (tmd m)) with (map tt (m_trees m)). destruct (copy_trees_tr (m_trees m) (m_heap m) (proj1 W)) as [E V]. rewrite E.
  destruct (copy_trees (m_heap m) (m_trees m)) as [[ts h]| |]; cbn [rbind rmap tp2 fst snd]; split; auto; try discriminate. intros a m' [= _ <-]. split; simpl; [eauto|exact (proj2 W)].
Qed.
Lemma burn_wf : forall b m r m' r', wfm m -> burn b m r = Ok (m', r') -> wfm m'.
Proof.
  induction b as [|b IH]; intros m r m' r' W; cbn [burn]; [now intros [= <- _]|]. destruct (gibbs_step m r) as [[[[dd acts] m1] r1]| |] eqn:E; try discriminate. cbn [rbind]. apply IH. eauto using gibbs_step_wf.
Qed.
Lemma burn_sim : forall b m, wfm m -> simR tmd (burn b m) (burn b (tmd m)).
Proof.
  induction b as [|b IH]; intros m W; unfold burn; fold burn; [apply (simR_ret N tmd m)|].
  eapply simR_ext; [| |apply (simR_bind N tq2 tmd _ _ (fun a r1 => burn b (snd a) r1) (fun a r1 => burn b (snd a) r1) (fun a => wfm (snd a)) (gibbs_step_sim m W))].
  - intros r. cbn beta. destruct (gibbs_step m r) as [[[[dd acts] m1] r1]| |]; reflexivity.
  - intros r. cbn beta. destruct (gibbs_step (tmd m) r) as [[[[dd acts] m1] r1]| |]; reflexivity.
  - intros r [[dd acts] m1] r1 E. simpl. eauto using gibbs_step_wf.
  - intros a Wa. now apply IH.
Qed.
(** what is kept of one iteration *)
Definition tch (c : chain) : chain := Ch (ch_models c) (ch_accept c) (map pk (ch_preds c)).
Definition tqc (p : chain * model) : chain * model := (tch (fst p), tmd (snd p)).
Definition tqp (p : list (list R) * model) : list (list R) * model := (map pk (fst p), tmd (snd p)).
Lemma kept_tr ss num den sp sa d m1 : wfm m1 -> kept ss num den sp sa d (tmd m1) = rmap tqc (kept ss num den sp sa d m1) /\ (forall c m', kept ss num den sp sa d m1 = Ok (c, m') -> wfm m').
Proof.
  intros V. unfold kept. destruct (num =? 0)%Z; try (split; auto; discriminate). destruct (keeps_sample ss num den); [|split; auto; now intros a m' [= _ <-]].
  assert (F : (if sp then let! (v, m2) := model_predict (tmd m1) in Ok ([v], m2) else Ok ([], tmd m1)) = rmap tqp (if sp then let! (v, m2) := model_predict m1 in Ok ([v], m2) else Ok ([], m1)))
    by (destruct sp; auto; rewrite model_predict_tr; destruct (model_predict m1) as [[v m2]| |]; reflexivity).
  rewrite F. clear F. destruct (if sp then let! (v, m2) := model_predict m1 in Ok ([v], m2) else Ok ([], m1)) as [[ps m2]| |] eqn:Ep; cbn [rbind rmap tqp fst snd]; try (split; auto; discriminate).
  assert (W2 : wfm m2).
  { destruct sp; [|now injection Ep as _ <-]. destruct (model_predict m1) as [[v m2']| |] eqn:E3; try discriminate. injection Ep as _ <-. eauto using model_predict_wf. }
  destruct (deep_copy_model_tr m2 W2) as [E4 V4]. rewrite E4. destruct (deep_copy_model m2) as [[s m3]| |]; cbn [rbind rmap tq2 fst snd]; split; auto; try discriminate. intros a m' [= _ <-]. eauto.
Qed.
Lemma sample_iter_wf ss num den sp sa m r a m' b : wfm m -> sample_iter ss num den sp sa m r = Ok (a, m', b) -> wfm m'.
Proof.
  intros W. rewrite sample_iter_eq. destruct (gibbs_step m r) as [[[[dd acts] m1] r1]| |] eqn:E; try discriminate. cbn [rbind fst snd]. apply gibbs_step_wf in E; auto.
  destruct (kept ss num den sp sa dd m1) as [[c m2]| |] eqn:E2; try discriminate. intros [= _ <- _]. exact (proj2 (kept_tr ss num den sp sa dd m1 E) _ _ E2).
Qed.
Lemma sample_iter_sim ss num den sp sa m : wfm m -> simR tqc (sample_iter ss num den sp sa m) (sample_iter ss num den sp sa (tmd m)).
Proof.
  intros W. eapply simR_ext; [intros r; apply sample_iter_eq|intros r; apply sample_iter_eq|].
  apply (simR_bind N tq2 tqc _ _ (fun a r1 => let! q := kept ss num den sp sa (fst (fst a)) (snd a) in Ok (q, r1)) (fun a r1 => let! q := kept ss num den sp sa (fst (fst a)) (snd a) in Ok (q, r1)) (fun a => wfm (snd a)) (gibbs_step_sim m W)).
  - intros r [[dd acts] m1] r1 E. simpl. eauto using gibbs_step_wf.
  - intros [[dd acts] m1] W1. cbn [fst snd tq2 tqc] in *. rewrite (proj1 (kept_tr ss num den sp sa dd m1 W1)). destruct (kept ss num den sp sa dd m1) as [q|e|]; cbn [rbind rmap]; [apply (simR_ret N tqc q)|apply simR_raise|apply simR_none].
Qed.
Lemma sample_loop_wf num den sp sa : forall todo ss m r a m' b, wfm m -> sample_loop ss todo num den sp sa m r = Ok (a, m', b) -> wfm m'.
Proof.
  induction todo as [|todo IH]; intros ss m r a m' b W; cbn [sample_loop]; [now intros [= _ <- _]|].
  destruct (sample_iter ss num den sp sa m r) as [[[c m1] r1]| |] eqn:E; try discriminate. cbn [rbind]. apply sample_iter_wf in E; auto.
  destruct (sample_loop (S ss) todo num den sp sa m1 r1) as [[[c' m2] r2]| |] eqn:E2; try discriminate. intros [= _ <- _]. eauto.
Qed.
Lemma tch_app a b : ch_app (tch a) (tch b) = tch (ch_app a b).
Proof. unfold ch_app, tch. cbn [ch_models ch_accept ch_preds]. now rewrite map_app. Qed.
Lemma sample_loop_sim num den sp sa : forall todo ss m, wfm m -> simR tqc (sample_loop ss todo num den sp sa m) (sample_loop ss todo num den sp sa (tmd m)).
Proof.
  induction todo as [|todo IH]; intros ss m W; unfold sample_loop; fold sample_loop; [apply (simR_ret N tqc (Ch [] [] [], m))|].
  eapply simR_ext; [| |apply (simR_bind N tqc tqc _ _ (fun a r1 => let! (c', m2, r2) := sample_loop (S ss) todo num den sp sa (snd a) r1 in Ok (ch_app (fst a) c', m2, r2))
     (fun a r1 => let! (c', m2, r2) := sample_loop (S ss) todo num den sp sa (snd a) r1 in Ok (ch_app (fst a) c', m2, r2)) (fun a => wfm (snd a)) (sample_iter_sim ss num den sp sa m W))].
  - intros r. cbn beta. destruct (sample_iter ss num den sp sa m r) as [[[c m1] r1]| |]; reflexivity.
  - intros r. cbn beta. destruct (sample_iter ss num den sp sa (tmd m) r) as [[[c m1] r1]| |]; reflexivity.
  - intros r [c m1] r1 E. simpl. eauto using sample_iter_wf.
  - intros [c m1] W1. cbn [fst snd tq2 tqc] in *.
    assert (AppT : forall a, (ch_app (tch c) (fst (tqc a)), snd (tqc a)) = tqc (ch_app c (fst a), snd a)) by (intros [c2 m2]; unfold tqc; cbn [fst snd]; now rewrite tch_app).
    eapply simR_ext; [| |apply (simR_map N tqc tqc _ _ (fun a => (ch_app c (fst a), snd a)) (fun a => (ch_app (tch c) (fst a), snd a)) AppT (IH (S ss) m1 W1))].
    + intros r. cbn beta. destruct (sample_loop (S ss) todo num den sp sa m1 r) as [[[c' m2] r2]| |]; reflexivity.
    + intros r. cbn beta. destruct (sample_loop (S ss) todo num den sp sa (tmd m1) r) as [[[c' m2] r2]| |]; reflexivity.
Qed.
Lemma samples_wf m ns nb thn sp sa r a m' b : wfm m -> samples m ns nb thn sp sa r = Ok (a, m', b) -> wfm m'.
Proof.
  intros W. unfold samples. destruct (burn nb m r) as [[m1 r1]| |] eqn:E; try discriminate. cbn [rbind]. destruct thn as [|num den]; try discriminate. apply sample_loop_wf. eauto using burn_wf.
Qed.
Lemma samples_sim m ns nb thn sp sa : wfm m -> simR tqc (samples m ns nb thn sp sa) (samples (tmd m) ns nb thn sp sa).
Proof.
  intros W. unfold samples.
  apply (simR_bind N tmd tqc _ _ (fun m1 r1 => match thn with TZero => Raise EZeroDivisionError | TInv num den => sample_loop 0 ns num den sp sa m1 r1 end)
     (fun m1 r1 => match thn with TZero => Raise EZeroDivisionError | TInv num den => sample_loop 0 ns num den sp sa m1 r1 end) wfm (burn_sim nb m W)).
  - intros r m1 r1 E. eauto using burn_wf.
  - intros m1 W1. destruct thn as [|num den]; [apply simR_raise|]. now apply sample_loop_sim.
Qed.
(** the stored predictions have one number per row *)
Definition lenN (v : list R) : Prop := length v = N.
Lemma kept_len ss num den sp sa d m c m' : wfm m -> kept ss num den sp sa d m = Ok (c, m') -> Forall lenN (ch_preds c).
Proof.
  intros W. unfold kept. destruct (num =? 0)%Z; try discriminate. destruct (keeps_sample ss num den); [|intros [= <- _]; constructor].
  destruct (if sp then let! (v, m2) := model_predict m in Ok ([v], m2) else Ok ([], m)) as [[ps m2]| |] eqn:Ep; try discriminate. cbn [rbind].
  destruct (deep_copy_model m2) as [[s m3]| |]; try discriminate. intros [= <- _]. cbn [ch_preds]. destruct sp; [|injection Ep as <- _; constructor].
  destruct (model_predict m) as [[v m4]| |] eqn:E; try discriminate. injection Ep as <- _. constructor; [|constructor]. unfold model_predict in E.
  destruct (predict_all (m_heap m) (m_trees m)) as [[vs ts]| |]; try discriminate. cbn [rbind] in E. destruct (vsum _ vs) as [z| |] eqn:Ez; try discriminate. injection E as <- _.
  apply vsum_lengths in Ez as [Ez _]. unfold lenN. now rewrite Ez, (proj2 W).
Qed.
Lemma sample_iter_len ss num den sp sa m r c m' b : wfm m -> sample_iter ss num den sp sa m r = Ok (c, m', b) -> Forall lenN (ch_preds c).
Proof.
  intros W. rewrite sample_iter_eq. destruct (gibbs_step m r) as [[[[dd acts] m1] r1]| |] eqn:E; try discriminate. cbn [rbind fst snd]. apply gibbs_step_wf in E; auto.
  destruct (kept ss num den sp sa dd m1) as [[c2 m2]| |] eqn:E2; try discriminate. intros [= <- _ _]. eauto using kept_len.
Qed.
Lemma sample_loop_len num den sp sa : forall todo ss m r c m' b, wfm m -> sample_loop ss todo num den sp sa m r = Ok (c, m', b) -> Forall lenN (ch_preds c).
Proof.
  induction todo as [|todo IH]; intros ss m r a m' b W; cbn [sample_loop]; [intros [= <- _ _]; constructor|].
  destruct (sample_iter ss num den sp sa m r) as [[[c m1] r1]| |] eqn:E; try discriminate. cbn [rbind]. pose proof (sample_iter_len _ _ _ _ _ _ _ _ _ _ W E) as L. apply sample_iter_wf in E; auto.
  destruct (sample_loop (S ss) todo num den sp sa m1 r1) as [[[c' m2] r2]| |] eqn:E2; try discriminate. intros [= <- _ _]. cbn [ch_app ch_preds]. apply Forall_app. eauto.
Qed.
Lemma samples_len m ns nb thn sp sa r c m' b : wfm m -> samples m ns nb thn sp sa r = Ok (c, m', b) -> Forall lenN (ch_preds c).
Proof.
  intros W. unfold samples. destruct (burn nb m r) as [[m1 r1]| |] eqn:E; try discriminate. cbn [rbind]. destruct thn as [|num den]; try discriminate. apply sample_loop_len. eauto using burn_wf.
Qed.
Lemma predict_out_all_tr h X : forall ts, predict_out_all (th h) ts X = predict_out_all h ts X.
Proof. induction ts as [|t ts IH]; auto. cbn [predict_out_all]. now rewrite tree_predict_out_tr, IH. Qed.
Lemma sample_predict_tr h s X : sample_predict (th h) s X = sample_predict h s X.
Proof. unfold sample_predict, trees_predict_out. now rewrite predict_out_all_tr. Qed.

(** ** the estimator *)
Lemma normalize_pk y : normalize_y (pk y) = pk (normalize_y y).
Proof. unfold normalize_y. rewrite <- (vmin_perm _ _ (pm_perm ks y)), <- (vmax_perm _ _ (pm_perm ks y)). now rewrite pm_map. Qed.
Lemma whole_mask : map (hides []) (mx_rows X0) = repeat false N.
Proof. unfold N. generalize (mx_rows X0). induction l as [|r l IH]; auto. cbn [map length repeat]. now rewrite IH. Qed.
Lemma convert_tr y : length y = N -> convert_to_data X1 (pk y) = rmap tdt (convert_to_data X0 y) /\ (forall d, convert_to_data X0 y = Ok d -> wfd d).
Proof.
  intros L. unfold convert_to_data, make_data. rewrite pm_length. unfold make_target. destruct y as [|y0 y1].
  - replace (pk (@nil R)) with (@nil R) by (symmetry; apply length_zero_iff_nil; apply pm_length). cbn [rbind rmap]. split; auto; discriminate.
  - set (y := y0 :: y1) in *. assert (Ey : exists a l, pk y = a :: l) by (destruct (pk y) eqn:Ep; [apply (f_equal (@length R)) in Ep; rewrite pm_length in Ep; discriminate|eauto]).
    destruct Ey as (a&l&Ey). rewrite <- (vmin_perm _ _ (pm_perm ks y)), <- (vmax_perm _ _ (pm_perm ks y)), normalize_pk, finite_vec_pm. rewrite Ey.
    destruct (finite_vec (normalize_y y)) as [ny|]; cbn [option_map rbind rmap]; split; auto; try discriminate.
    + unfold tdt, tcm, tty, make_covmat. cbn [d_X d_y cm_mask cm_nobsv cm_X cm_unique cm_split t_y t_mask t_fresh t_sum t_range option_map]. now rewrite pm_repeat.
    + intros d [= <-]. unfold wfd, wfc, make_covmat. cbn [d_X cm_X cm_unique cm_split cm_max cm_mask]. repeat split; auto. exists []. rewrite whole_mask, <- L. reflexivity.
Qed.
Definition tsk (s : sklearn) : sklearn :=
  Sk (sk_par s) (sk_nchains s) (sk_nsamples s) (sk_nburn s) (sk_thin s) (sk_store_preds s) (sk_store_accept s)
     (option_map tdt (sk_data s)) (option_map tmd (sk_model s)) (option_map (map (fun hs => (th (fst hs), snd hs))) (sk_samples s)) (option_map (map pk) (sk_preds s)) (sk_accept s).
Definition wfsk (s : sklearn) : Prop := forall ps, sk_preds s = Some ps -> Forall lenN ps.
Lemma construct_tr s h y : length y = N -> wfh h -> construct_model (tsk s) (th h) X1 (pk y) = rmap tsk (construct_model s h X0 y) /\
  (forall s', construct_model s h X0 y = Ok s' -> forall m, sk_model s' = Some m -> wfm m).
Proof.
  intros L W. unfold construct_model. replace (length (mx_rows X1)) with (length (mx_rows X0)) by (symmetry; apply pm_length). change (mx_ncols X1) with (mx_ncols X0).
  destruct ((length (mx_rows X0) =? 0) || (mx_ncols X0 =? 0))%bool; try (split; auto; discriminate). destruct (convert_tr y L) as [E V]. rewrite E. destruct (convert_to_data X0 y) as [d| |]; cbn [rbind rmap]; try (split; auto; discriminate).
  specialize (V _ eq_refl). change (normalizing_scale (d_y (tdt d))) with (normalizing_scale (d_y d)). destruct (normalizing_scale (d_y d)); cbn [rbind]; try (split; auto; discriminate).
  change (sk_par (tsk s)) with (sk_par s). destruct (make_model_tr h d 1 (sk_par s) W V) as [E2 V2]. rewrite E2. destruct (make_model h d 1 (sk_par s)) as [m| |]; cbn [rbind rmap]; split; auto; try discriminate.
  intros s' [= <-]. simpl. intros ? [= <-]; auto.
Qed.
Definition trc (q : chain * sklearn * heap) : chain * sklearn * heap := (tch (fst (fst q)), tsk (snd (fst q)), th (snd q)).
Definition tex (e : extract) : extract := (th (fst e), tch (snd e)).
Lemma run_chain_sim s h y : length y = N -> wfh h ->
  { F : rng -> list nat -> list nat | (forall q, good (F q)) /\ forall r, run_chain (tsk s) (th h) X1 (pk y) (ap F r) = rmap trc (run_chain s h X0 y r) }.
Proof.
  intros L W. unfold run_chain. destruct (construct_tr s h y L W) as [E V]. rewrite E. destruct (construct_model s h X0 y) as [s1| |]; cbn [rbind rmap].
  2,3: exists (fun _ l => l); split; [intros; apply good_id|reflexivity].
  pose proof (V _ eq_refl) as V2. cbn [tsk sk_model sk_data sk_nsamples sk_nburn sk_thin sk_store_preds sk_store_accept].
  destruct (sk_model s1) as [m|]; cbn [option_map]; [|exists (fun _ l => l); split; [intros; apply good_id|reflexivity]].
  destruct (sk_data s1) as [d|]; cbn [option_map]; [|exists (fun _ l => l); split; [intros; apply good_id|reflexivity]].
  destruct (samples_sim m (sk_nsamples s) (sk_nburn s) (sk_thin s) (sk_store_preds s) (sk_store_accept s) (V2 _ eq_refl) (fun _ _ l => l) (fun _ _ => good_id N)) as (F&G&H).
  exists F. split; auto. intros r. specialize (H r). destruct (samples m _ _ _ _ _ r) as [[[c m1] r1]| |]; rewrite H; reflexivity.
Qed.
Lemma run_chain_len s h y r c s1 h1 : length y = N -> wfh h -> run_chain s h X0 y r = Ok (c, s1, h1) -> Forall lenN (ch_preds c).
Proof.
  intros L W. unfold run_chain. destruct (construct_tr s h y L W) as [_ V]. destruct (construct_model s h X0 y) as [s2| |]; try discriminate. cbn [rbind]. pose proof (V _ eq_refl) as V2.
  destruct (sk_model s2) as [m|]; try discriminate. destruct (sk_data s2) as [d|]; try discriminate. destruct (samples m _ _ _ _ _ r) as [[[c1 m1] r1]| |] eqn:E; try discriminate.
  intros [= <- _ _]. apply samples_len in E; auto.
Qed.
Lemma run_processes_sim s h y F : length y = N -> wfh h -> (forall r, run_chain (tsk s) (th h) X1 (pk y) (ap F r) = rmap trc (run_chain s h X0 y r)) -> forall nc rs,
  run_processes (repeat (tsk s, th h, X1, pk y) nc) (map (ap F) rs) = rmap (map tex) (run_processes (repeat (s, h, X0, y) nc) rs) /\
  (forall es, run_processes (repeat (s, h, X0, y) nc) rs = Ok es -> Forall (fun e : extract => Forall lenN (ch_preds (snd e))) es).
Proof.
  intros L W H. induction nc as [|nc IH]; intros rs; [split; auto; now intros es [= <-]|]. cbn [repeat run_processes]. destruct rs as [|r rs]; cbn [map]; [split; auto; discriminate|]. rewrite H.
  destruct (run_chain s h X0 y r) as [[[c s1] h1]| |] eqn:E; cbn [rbind rmap fst snd]; try (split; auto; discriminate). unfold trc. cbn [rbind fst snd]. destruct (IH rs) as [E2 V2]. rewrite E2. destruct (run_processes (repeat (s, h, X0, y) nc) rs) as [es| |]; cbn [rbind rmap]; split; auto; try discriminate.
  intros es' [= <-]. constructor; cbn [snd]; eauto using run_chain_len.
Qed.
Lemma flat_map_preds (es : list extract) : flat_map (fun e : extract => ch_preds (snd e)) (map tex es) = map pk (flat_map (fun e : extract => ch_preds (snd e)) es).
Proof. induction es as [|e es IH]; auto. cbn [map flat_map]. rewrite map_app, IH. reflexivity. Qed.
Lemma flat_map_accept (es : list extract) : flat_map (fun e : extract => ch_accept (snd e)) (map tex es) = flat_map (fun e : extract => ch_accept (snd e)) es.
Proof. induction es as [|e es IH]; auto. cbn [map flat_map]. now rewrite IH. Qed.
Lemma flat_map_samples (es : list extract) : flat_map (fun e : extract => map (fun sm => (fst e, sm)) (ch_models (snd e))) (map tex es) =
  map (fun hs : stored_sample => (th (fst hs), snd hs)) (flat_map (fun e : extract => map (fun sm => (fst e, sm)) (ch_models (snd e))) es).
Proof. induction es as [|e es IH]; auto. cbn [map flat_map]. rewrite map_app, IH, map_map. reflexivity. Qed.
Lemma store_chains_tr s es : store_chains (tsk s) (map tex es) = rmap tsk (store_chains s es).
Proof.
  unfold store_chains, combine_chains. destruct es as [|e0 es0]; auto. set (es := e0 :: es0). change (map tex (e0 :: es0)) with (map tex es).
  transitivity (Ok (sk_set_chains (tsk s) (flat_map (fun e : extract => map (fun sm => (fst e, sm)) (ch_models (snd e))) (map tex es)) (flat_map (fun e : extract => ch_preds (snd e)) (map tex es)) (flat_map (fun e : extract => ch_accept (snd e)) (map tex es)))); [reflexivity|].
  rewrite flat_map_preds, flat_map_accept, flat_map_samples. reflexivity.
Qed.
Lemma store_chains_wf s es s' : Forall (fun e : extract => Forall lenN (ch_preds (snd e))) es -> store_chains s es = Ok s' -> wfsk s'.
Proof.
  intros F. unfold store_chains, combine_chains. destruct es as [|e0 es0]; [discriminate|]. intros [= <-]. intros ps [= <-]. change (Forall lenN (flat_map (fun e : extract => ch_preds (snd e)) (e0 :: es0))).
  induction F as [|e es H F IH]; [constructor|]. cbn [flat_map]. apply Forall_app. auto.
Qed.
Lemma fit_sim s y : length y = N -> { F : rng -> list nat -> list nat | (forall q, good (F q)) /\
  forall rs, fit Processes (tsk s) h_empty X1 (pk y) (map (ap F) rs) = rmap tsk (fit Processes s h_empty X0 y rs) /\ (forall s', fit Processes s h_empty X0 y rs = Ok s' -> wfsk s') }.
Proof.
  intros L. assert (W : wfh h_empty) by (intros j a; discriminate). change h_empty with (th h_empty) at 1. unfold fit. destruct (construct_tr s h_empty y L W) as [E V].
  rewrite E. destruct (construct_model s h_empty X0 y) as [s1| |]; cbn [rbind rmap].
  2,3: exists (fun _ l => l); split; [intros; apply good_id|split; [reflexivity|discriminate]].
  pose proof (V _ eq_refl) as V2.
  change (sk_model (tsk s1)) with (option_map tmd (sk_model s1)). change (sk_nchains (tsk s1)) with (sk_nchains s1).
  destruct (sk_model s1) as [m|] eqn:Em; cbn [option_map]; [|exists (fun _ l => l); split; [intros; apply good_id|split; [reflexivity|discriminate]]].
  change (m_heap (tmd m)) with (th (m_heap m)). assert (Wm : wfh (m_heap m)) by (apply V2; auto). destruct (run_chain_sim s1 (m_heap m) y L Wm) as (F&G&H). exists F. split; auto. intros rs.
  destruct (run_processes_sim s1 (m_heap m) y F L Wm H (sk_nchains s1) rs) as [E2 V3]. rewrite E2.
  destruct (run_processes (repeat (s1, m_heap m, X0, y) (sk_nchains s1)) rs) as [es| |]; cbn [rbind rmap]; [|split; auto; discriminate..].
  split; [apply store_chains_tr|]. intros s' Es. exact (store_chains_wf _ _ _ (V3 _ eq_refl) Es).
Qed.
Lemma predict_samples_tr X : forall ss, predict_samples (map (fun hs : stored_sample => (th (fst hs), snd hs)) ss) X = predict_samples ss X.
Proof. induction ss as [|[h s] ss IH]; auto. cbn [map predict_samples fst snd] in *. now rewrite sample_predict_tr, IH. Qed.
Lemma node_variables_tr h : forall ids, node_variables (th h) ids = node_variables h ids.
Proof.
  induction ids as [|i ids IH]; auto. cbn [node_variables]. change (h_get (th h) i) with (option_map tnd (h_get h i)). rewrite IH. now destruct (h_get h i) as [[q [s|c] dp]|].
Qed.
Lemma tree_variables_tr h : forall ts, tree_variables (th h) ts = tree_variables h ts.
Proof. induction ts as [|t ts IH]; auto. cbn [tree_variables]. now rewrite node_variables_tr, IH. Qed.
Lemma sample_variables_tr : forall ss, sample_variables (map (fun hs : stored_sample => (th (fst hs), snd hs)) ss) = sample_variables ss.
Proof. induction ss as [|[h s] ss IH]; auto. cbn [map sample_variables fst snd]. now rewrite tree_variables_tr, IH. Qed.
Lemma node_depths_tr h : forall ids, node_depths (th h) ids = node_depths h ids.
Proof. induction ids as [|i ids IH]; auto. cbn [node_depths]. change (h_get (th h) i) with (option_map tnd (h_get h i)). rewrite IH. now destruct (h_get h i) as [[q s dp]|]. Qed.
Lemma model_depths_tr h : forall ts, model_depths (th h) ts = model_depths h ts.
Proof. induction ts as [|t ts IH]; auto. cbn [model_depths]. now rewrite node_depths_tr, IH. Qed.
Lemma depth_summaries_tr : forall ss, depth_summaries (map (fun hs : stored_sample => (th (fst hs), snd hs)) ss) = depth_summaries ss.
Proof. induction ss as [|[h s] ss IH]; auto. cbn [map depth_summaries fst snd]. now rewrite model_depths_tr, IH. Qed.
Lemma vmean_tr vs : vmean (map pk vs) = rmap pk (vmean vs).
Proof.
  unfold vmean. destruct vs as [|v vs]; auto. cbn [map]. rewrite pm_length. change (pk v :: map pk vs) with (map pk (v :: vs)). rewrite vsum_tr.
  destruct (vsum (length v) (v :: vs)) as [z| |]; cbn [rbind rmap]; auto. now rewrite map_length, pm_map.
Qed.
Lemma tsk_reshuffles order s : (forall A (d : A) l, length l = N -> in_order d order l = pk l) -> wfsk s -> reshuffles order s (tsk s).
Proof.
  intros Ho W. split; [|split; [|split; [|split; [|split]]]].
  - unfold sk_predict. cbn [tsk sk_store_preds sk_data sk_preds]. destruct (sk_store_preds s); [|reflexivity]. destruct (sk_data s) as [d|]; cbn [option_map]; [|reflexivity].
    destruct (sk_preds s) as [ps|] eqn:Eps; cbn [option_map]; [|reflexivity]. rewrite vmean_tr. destruct (vmean ps) as [v| |] eqn:Ev; cbn [rbind rmap]; [|reflexivity|exact I].
    unfold unnormalize_y. cbn [tdt d_y tty t_range]. destruct (t_range (d_y d)) as [[lo hi]|]; [|reflexivity]. cbn [same_outcome]. unfold unnormalize_with. rewrite <- pm_map. symmetry. apply Ho.
    rewrite map_length. unfold vmean in Ev. destruct ps as [|v0 ps]; [discriminate|]. destruct (vsum _ _) as [z| |] eqn:Ez; try discriminate. injection Ev as <-. rewrite map_length.
    apply vsum_lengths in Ez as [-> _]. specialize (W _ Eps). now inversion W.
  - intros X. unfold sk_predict, out_of_sample_predict. cbn [tsk sk_data sk_samples]. destruct (sk_data s) as [d|]; cbn [option_map]; auto.
    destruct (sk_samples s) as [ss|]; cbn [option_map]; auto. now rewrite predict_samples_tr.
  - reflexivity.
  - cbn [tsk sk_samples]. destruct (sk_samples s); cbn [option_map]; auto. now rewrite map_map.
  - unfold plot_tree_depth. cbn [tsk sk_samples]. destruct (sk_samples s); cbn [option_map]; auto. apply depth_summaries_tr.
  - intros columns. unfold feature_split_proportions. cbn [tsk sk_samples]. destruct (sk_samples s); cbn [option_map]; auto. now rewrite sample_variables_tr.
Qed.
(** ** the oblivious sampler *)
Lemma one_splittable_ne c : wfc c -> fst (is_at_least_one_splittable_variable c) = true -> fst (splittable_variables c) <> [].
Proof. intros W. rewrite one_splittable_eq by auto using wf_split. destruct (fst (splittable_variables c)); [discriminate|intros _; discriminate]. Qed.
Lemma ob_condition_eq c idx : wfc c -> fst (is_at_least_one_splittable_variable c) = true -> ob_sample_split_condition c idx = sample_split_condition c idx.
Proof.
  intros W E. pose proof (one_splittable_ne c W E) as NE. unfold ob_sample_split_condition, sample_split_condition, random_splittable_variable, np_choice. rewrite E.
  destruct (fst (splittable_variables c)) as [|v vs]; [congruence|]. now destruct idx.
Qed.
Lemma ob_split_node_eq h i idx : wfh h -> is_splittable h i = true -> ob_split_node h i idx = sample_split_node h i idx.
Proof.
  intros W S. unfold ob_split_node, sample_split_node. rewrite S. unfold is_splittable in S. destruct (node_data h i) as [d|] eqn:E; auto. rewrite ob_condition_eq; auto. eapply node_data_wf; eauto.
Qed.
Lemma twinned_tr h i : wfh h -> twinned (th h) i = rmap tp2 (twinned h i) /\ (forall p h', twinned h i = Ok (p, h') -> wfh h').
Proof.
  intros W. unfold twinned. rewrite th_get. destruct (h_get h i) as [[kd s d]|] eqn:Eg; cbn [option_map]; [|split; auto; discriminate].
  assert (F : forall h kd d, h_alloc (th h) (Nd kd (tns s) d) = (h_next h, th (snd (h_alloc h (Nd kd s d))))) by (intros h0 kd0 d0; exact (th_alloc h0 (Nd kd0 s d0))).
  assert (V : forall kd0 d0, wfn (Nd kd0 s d0)) by (intros; exact (W _ _ Eg)).
  unfold tnd. cbn [nd_kind nd_split nd_depth]. split.
  - rewrite F. cbn beta iota. rewrite F. cbn beta iota. rewrite F. reflexivity.
  - destruct (h_alloc h _) as [l h1] eqn:E1. destruct (h_alloc h1 _) as [r h2] eqn:E2. destruct (h_alloc h2 _) as [q h3] eqn:E3. intros a h' [= _ <-].
    apply (f_equal snd) in E1, E2, E3. cbn [snd] in E1, E2, E3. rewrite <- E3, <- E2, <- E1. repeat apply wfh_alloc; auto.
Qed.
Lemma ob_split_node_wf h i idx a h' b : wfh h -> ob_split_node h i idx = Ok (a, h', b) -> wfh h'.
Proof.
  intros W. destruct (is_splittable h i) eqn:S; [rewrite ob_split_node_eq by auto; eauto using sample_split_node_wf|]. rewrite ob_split_node_twin by auto.
  destruct (twinned h i) as [[q h1]| |] eqn:E; try discriminate. intros [= _ <- _]. exact (proj2 (twinned_tr h i W) _ _ E).
Qed.
Lemma ob_split_node_sim h i : wfh h -> simL tp2 (ob_split_node h i) (ob_split_node (th h) i).
Proof.
  intros W. pose proof (is_splittable_tr h i W) as S'. destruct (is_splittable h i) eqn:S.
  - apply (simL_ext N tp2 (sample_split_node h i) (sample_split_node (th h) i)); [intros l; now apply ob_split_node_eq| |now apply sample_split_node_sim].
    intros l. unfold ob_split_node, sample_split_node. rewrite S'. rewrite node_data_tr. unfold is_splittable in S. destruct (node_data h i) as [d|] eqn:E; cbn [option_map]; auto.
    apply node_data_wf in E; auto. cbn [tdt d_X]. replace (ob_sample_split_condition (tcm (d_X d)) l) with (sample_split_condition (tcm (d_X d)) l); auto.
    pose proof (one_splittable_tr (d_X d) E) as S2. rewrite S in S2. pose proof (splittable_tr (d_X d) E) as L. pose proof (one_splittable_ne (d_X d) E S) as NE.
    unfold ob_sample_split_condition, sample_split_condition, random_splittable_variable, np_choice. rewrite S2.
    rewrite L. destruct (fst (splittable_variables (d_X d))) as [|v vs]; [congruence|]. now destruct l.
  - eapply simL_ext; [intros l; now apply ob_split_node_twin|intros l; now apply ob_split_node_twin|]. rewrite (proj1 (twinned_tr h i W)).
    destruct (twinned h i) as [q|e|]; cbn [rbind rmap]; [apply (simL_ret N tp2 q)|apply simL_raise|apply simL_none].
Qed.
Lemma ob_grows_wf : forall ids h idx a h' b, wfh h -> ob_grows h ids idx = Ok (a, h', b) -> wfh h'.
Proof.
  induction ids as [|i ids IH]; intros h idx a h' b W; cbn [ob_grows]; [now intros [= _ <- _]|].
  destruct (ob_split_node h i idx) as [[[q h1] l1]| |] eqn:E; try discriminate. cbn [rbind]. apply ob_split_node_wf in E; auto. destruct (grow_mutation h1 i q) as [m| |]; try discriminate. cbn [rbind].
  destruct (ob_grows h1 ids l1) as [[[ms h2] l2]| |] eqn:E2; try discriminate. intros [= _ <- _]. eauto.
Qed.
Lemma ob_grows_sim : forall ids h, wfh h -> simL tp2 (ob_grows h ids) (ob_grows (th h) ids).
Proof.
  induction ids as [|i ids IH]; intros h W; unfold ob_grows; fold ob_grows; [apply (simL_ret N tp2 ([], h))|].
  eapply simL_ext; [| |apply (simL_bind N tp2 tp2 _ _ (fun q l => let! m := grow_mutation (snd q) i (fst q) in let! (ms, h2, l2) := ob_grows (snd q) ids l in Ok (m :: ms, h2, l2))
     (fun q l => let! m := grow_mutation (snd q) i (fst q) in let! (ms, h2, l2) := ob_grows (snd q) ids l in Ok (m :: ms, h2, l2)) (fun q => wfh (snd q)) (ob_split_node_sim h i W))].
  - intros l. cbn beta. destruct (ob_split_node h i l) as [[[q h1] l1]| |]; reflexivity.
  - intros l. cbn beta. destruct (ob_split_node (th h) i l) as [[[q h1] l1]| |]; reflexivity.
  - intros l [q h1] l1 E. simpl. eauto using ob_split_node_wf.
  - intros [q h1] W1. cbn [tp2 fst snd] in *. rewrite grow_mutation_tr. destruct (grow_mutation h1 i q) as [m|e|]; cbn [rbind]; [|apply simL_raise|apply simL_none].
    eapply simL_ext; [| |apply (simL_bind N tp2 tp2 _ _ (fun q l => Ok (m :: fst q, snd q, l)) (fun q l => Ok (m :: fst q, snd q, l)) (fun _ => True) (IH h1 W1))]; auto.
    + intros l. cbn beta. destruct (ob_grows h1 ids l) as [[[ms h2] l2]| |]; reflexivity.
    + intros l. cbn beta. destruct (ob_grows (th h1) ids l) as [[[ms h2] l2]| |]; reflexivity.
    + intros [ms h2] _. apply (simL_ret N tp2 (m :: ms, h2)).
Qed.
Lemma quiet_ob_split h i idx : wfh h -> quiet (ob_split_node h i idx).
Proof.
  intros W. destruct (is_splittable h i) eqn:S.
  - rewrite ob_split_node_eq by auto. unfold sample_split_node. destruct (node_data h i) as [d|] eqn:E; [|apply quiet_raise; discriminate].
    apply quiet_bind; [apply quiet_condition; eapply node_data_wf; eauto|]. intros [[c0 c1] l2] _. apply quiet_bind; [apply quiet_split_node|]. intros [q h1] _. apply quiet_ok.
  - rewrite ob_split_node_twin by auto. apply quiet_bind; [apply quiet_twin|intros; apply quiet_ok].
Qed.
Lemma quiet_ob_grows : forall ids h idx, wfh h -> quiet (ob_grows h ids idx).
Proof.
  induction ids as [|i ids IH]; intros h idx W; cbn [ob_grows]; [apply quiet_ok|]. apply quiet_bind; [now apply quiet_ob_split|]. intros [[q h1] l1] E. apply ob_split_node_wf in E; auto.
  apply quiet_bind; [unfold grow_mutation; quiet|]. intros m _. apply quiet_bind; [now apply IH|]. intros [[ms h2] l2] _. apply quiet_ok.
Qed.
Lemma ob_prunes_tr : forall ids h, wfh h -> ob_prunes (th h) ids = rmap tp2 (ob_prunes h ids) /\ (forall a h', ob_prunes h ids = Ok (a, h') -> wfh h') /\ quiet (ob_prunes h ids).
Proof.
  induction ids as [|i ids IH]; intros h W; cbn [ob_prunes]; [split; [reflexivity|split; [now intros a h' [= _ <-]|apply quiet_ok]]|].
  rewrite th_get. destruct (h_get h i) as [a|] eqn:Eg; cbn [option_map]; [|split; [reflexivity|split; [discriminate|apply quiet_raise; discriminate]]].
  pose proof (th_alloc h (Nd (KLeaf 0) (nd_split a) (nd_depth a))) as E. unfold tnd in E at 1. cbn [nd_kind nd_split nd_depth] in E. unfold tnd; cbn [nd_split nd_depth]. rewrite E.
  destruct (h_alloc h _) as [u h1] eqn:Ea. cbn [fst snd]. rewrite prune_mutation_tr. assert (W1 : wfh h1) by (apply (f_equal snd) in Ea; cbn [snd] in Ea; rewrite <- Ea; apply wfh_alloc; auto; exact (W _ _ Eg)).
  assert (u = h_next h) as <- by (now apply (f_equal fst) in Ea). assert (Q : quiet (prune_mutation h1 i u)) by (unfold prune_mutation; quiet).
  destruct (prune_mutation h1 i u) as [m|e|]; cbn [rbind]; [|split; [reflexivity|split; [discriminate|intros e' [= <-]; now apply Q]]|split; [reflexivity|split; [discriminate|apply quiet_none]]].
  destruct (IH h1 W1) as (E2&V2&Q2). rewrite E2. destruct (ob_prunes h1 ids) as [[ms h2]|e|]; cbn [rbind rmap tp2 fst snd]; (split; [reflexivity|split]); try discriminate.
  - intros a' h' [= _ <-]. eauto.
  - intros e' [= <-]. now apply Q2.
Qed.
Lemma ob_propose_wf h t : wfh h -> forall limit r a h' b, ob_propose limit h t r = Ok (a, h', b) -> wfh h'.
Proof.
  intros W. induction limit as [|lim IH]; intros r a h' b; cbn [ob_propose]; [discriminate|]. destruct (rg_method r) as [|g bs]; [discriminate|].
  destruct (if g then ob_grow_mutations h t (rg_index r) else let! (ms, h1) := ob_prune_mutations h t in Ok (ms, h1, rg_index r)) as [[[m h1] l]|e|] eqn:E.
  - intros [= _ <- _]. destruct g; [unfold ob_grow_mutations in E; eauto using ob_grows_wf|]. destruct (ob_prune_mutations h t) as [[ms h2]| |] eqn:E2; try discriminate. injection E as _ <- _.
    exact (proj1 (proj2 (ob_prunes_tr _ h W)) _ _ E2).
  - destruct e; try discriminate; apply IH.
  - discriminate.
Qed.
Lemma ob_propose_sim h t limit : wfh h -> simR tp2 (ob_propose limit h t) (ob_propose limit (th h) (tt t)).
Proof.
  intros W. destruct limit as [|lim]; [apply simR_raise|]. intros K HK.
  assert (Grow : forall K1 : list mutation * heap -> list nat -> list nat, (forall a, good (K1 a)) ->
    { F | good F /\ forall l, match ob_grow_mutations h t l with Ok (a, l1) => ob_grow_mutations (th h) (tt t) (F l) = Ok (tp2 a, K1 a l1) | Raise e => ob_grow_mutations (th h) (tt t) (F l) = Raise e | NoDraws => ob_grow_mutations (th h) (tt t) (F l) = NoDraws end })
    by (intros K1 HK1; unfold ob_grow_mutations; rewrite leaf_nodes_tr; exact (ob_grows_sim (leaf_nodes h t) h W K1 HK1)).
  assert (Prune : ob_prune_mutations (th h) (tt t) = rmap tp2 (ob_prune_mutations h t) /\ quiet (ob_prune_mutations h t))
    by (unfold ob_prune_mutations; rewrite prunable_decision_nodes_tr; destruct (ob_prunes_tr (prunable_decision_nodes h t) h W) as (A&_&B); auto).
  destruct Prune as [Prune PQ].
  set (K1 := fun (q : rng) (bs : list bool) a => K a (rng_set_method q bs)).
  assert (HK1 : forall q bs a, good (K1 q bs a)) by (intros; apply HK).
  set (F := fun (q : rng) => match rg_method q with
    | [] => fun l => l
    | true :: bs => proj1_sig (Grow (K1 q bs) (HK1 q bs))
    | false :: bs => match ob_prune_mutations h t with Ok a => K1 q bs a | _ => fun l => l end end).
  exists F. split.
  - intros q. unfold F. destruct (rg_method q) as [|[|] bs]; [apply good_id| |].
    + apply (proj2_sig (Grow _ _)).
    + destruct (ob_prune_mutations h t); [apply HK1|apply good_id..].
  - intros r. cbn [ob_propose]. change (rg_method (ap F r)) with (rg_method r). destruct (rg_method r) as [|b bs] eqn:Em; [reflexivity|].
    rewrite ap_index. destruct b.
    + replace (F (rng_set_index r [])) with (proj1_sig (Grow (K1 (rng_set_index r []) bs) (HK1 (rng_set_index r []) bs))).
      2:{ unfold F. cbn [rng_set_index rg_method]. rewrite Em. reflexivity. }
      destruct (Grow (K1 (rng_set_index r []) bs) (HK1 (rng_set_index r []) bs)) as (F1&G1&H1). cbn [proj1_sig]. specialize (H1 (rg_index r)).
      assert (Q : quiet (ob_grow_mutations h t (rg_index r))) by (unfold ob_grow_mutations; now apply quiet_ob_grows).
      destruct (ob_grow_mutations h t (rg_index r)) as [[[m h1] l1]|e|]; rewrite H1; [reflexivity| |reflexivity]. destruct (Q e eq_refl). destruct e; congruence.
    + rewrite Prune. replace (F (rng_set_index r [])) with (match ob_prune_mutations h t with Ok a => K1 (rng_set_index r []) bs a | _ => fun l => l end).
      2:{ unfold F. cbn [rng_set_index rg_method]. rewrite Em. reflexivity. }
      destruct (ob_prune_mutations h t) as [[ms h1]|e|]; cbn [rbind rmap tp2 fst snd]; [reflexivity| |reflexivity]. destruct (PQ e eq_refl). destruct e; congruence.
Qed.
Lemma ob_log_split_tr h e u : wfh h -> ob_log_split (th h) e u = ob_log_split h e u.
Proof.
  intros W. unfold ob_log_split. rewrite dec_most_recent_tr. destruct (dec_most_recent h u) as [s|]; auto. rewrite node_data_tr.
  destruct (node_data h e) as [d|] eqn:Ed; cbn [option_map]; auto. apply node_data_wf in Ed; auto. cbn [tdt d_X]. apply rbind_fst. now apply proportion_tr.
Qed.
Lemma ob_log_ratio_tr h m s p : wfh h -> ob_log_ratio (th h) m s p = ob_log_ratio h m s p.
Proof.
  intros W. unfold ob_log_ratio, ob_log_transition, ob_log_prune_transition, ob_log_grow_transition, ob_log_tree, ob_log_tree_grow, ob_log_tree_prune.
  rewrite log_likihood_ratio_tr, !grow_mutation_tr, !ob_log_split_tr, !node_depth_tr, !get_children_tr by auto.
  match goal with |- rbind ?a ?f = rbind ?a ?g => destruct a; cbn [rbind]; auto end. destruct (log_likihood_ratio h m s p); cbn [rbind]; auto. f_equal.
  destruct (mu_kind m); auto.
  - destruct (node_depth h (mu_existing m)); cbn [rbind]; auto. destruct (get_children h (mu_updated m)) as [[l r]| |]; cbn [rbind]; auto. now rewrite !node_depth_tr.
  - destruct (node_depth h (mu_updated m)); cbn [rbind]; auto. destruct (get_children h (mu_existing m)) as [[l r]| |]; cbn [rbind]; auto. now rewrite !node_depth_tr.
Qed.
Lemma ob_ratio_tr h s p : wfh h -> forall ms acc, ob_ratio_from acc (th h) ms s p = ob_ratio_from acc h ms s p.
Proof. intros W. induction ms as [|m ms IH]; intros acc; auto. cbn [ob_ratio_from]. rewrite ob_log_ratio_tr by auto. destruct (ob_log_ratio h m s p); cbn [rbind]; auto. Qed.
Lemma mutate_all_tr : forall ms h t, mutate_all (th h) (tt t) ms = rmap tpt (mutate_all h t ms).
Proof. induction ms as [|m ms IH]; intros h t; auto. cbn [mutate_all]. rewrite mutate_tr. destruct (mutate h t m) as [[h1 t1] [e|]]; auto. Qed.
Lemma mutate_all_wf : forall ms h t h' t', wfh h -> mutate_all h t ms = Ok (h', t') -> wfh h'.
Proof.
  induction ms as [|m ms IH]; intros h t h' t' W; cbn [mutate_all]; [now intros [= <- _]|]. destruct (mutate h t m) as [[h1 t1] [e|]] eqn:E; [discriminate|]. intros E2. apply (IH h1 t1 h' t'); auto. eapply mutate_wf; eauto.
Qed.
Definition tpo (a : option (list mutation) * heap * tree) : option (list mutation) * heap * tree := (fst (fst a), th (snd (fst a)), tt (snd a)).
Lemma ob_step_sim h t s p : wfh h -> simR tpo (ob_step h t s p) (ob_step (th h) (tt t) s p).
Proof.
  intros W. eapply simR_ext; [intros r; apply ob_step_eq|intros r; apply ob_step_eq|].
  apply (simR_bind N tp2 tpo _ _ (ob_decided t s p) (ob_decided (tt t) s p) (fun a => wfh (snd a)) (ob_propose_sim h t (pa_limit p) W)).
  - intros r [m h1] r1 E. simpl. eauto using ob_propose_wf.
  - intros [m h1] W1. cbn [snd] in W1. apply simR_pure; unfold ob_decided; cbn [tp2 fst snd]; intros r.
    + intros l. destruct (ob_ratio_from _ h1 m s p) as [q| |]; cbn [rbind]; auto. cbn [rng_set_index rg_unif]. destruct (rg_unif r) as [|u us]; auto.
      destruct (accepts u q); auto. destruct (mutate_all h1 t m) as [[h2 t2]| |]; auto.
    + rewrite ob_ratio_tr by auto. destruct (ob_ratio_from _ h1 m s p) as [q| |]; cbn [rbind]; auto. destruct (rg_unif r) as [|u us]; auto.
      destruct (accepts u q); auto. rewrite mutate_all_tr. destruct (mutate_all h1 t m) as [[h2 t2]| |]; auto.
Qed.
Lemma ob_step_wf h t s p r a h' b c : wfh h -> ob_step h t s p r = Ok (a, h', b, c) -> wfh h'.
Proof.
  intros W. rewrite ob_step_eq. destruct (ob_propose (pa_limit p) h t r) as [[[m h1] r1]| |] eqn:E; try discriminate. cbn [rbind]. apply ob_propose_wf in E; auto. unfold ob_decided. cbn [fst snd].
  destruct (ob_ratio_from _ h1 m s p) as [q| |]; try discriminate. cbn [rbind]. destruct (rg_unif r1) as [|u us]; try discriminate. destruct (accepts u q); [|now intros [= _ <- _ _]].
  destruct (mutate_all h1 t m) as [[h2 t2]| |] eqn:Em; try discriminate. intros [= _ <- _ _]. eauto using mutate_all_wf.
Qed.
Lemma ob_call_wf m fr thk r a m' b : wfm m -> ob_call m fr thk r = Ok (a, m', b) -> wfm m'.
Proof.
  intros W. destruct thk; try (apply call_wf; exact W). cbn [ob_call]. destruct (fr_tree fr) as [j|]; [|discriminate]. destruct (nth_error (m_trees m) j) as [t|]; [|discriminate].
  destruct (ob_step (m_heap m) t (m_sigma m) (m_par m) r) as [[[[om h1] t1] r1]| |] eqn:E; try discriminate. intros [= _ <- _]. split; simpl; [|exact (proj2 W)]. destruct W as [W _]. eauto using ob_step_wf.
Qed.
Lemma ob_call_sim m fr thk : wfm m -> simR tq2 (ob_call m fr thk) (ob_call (tmd m) fr thk).
Proof.
  intros W. destruct thk; [|exact (call_sim m fr ThLeaf W)|exact (call_sim m fr ThSigma W)]. unfold ob_call.
  destruct (fr_tree fr) as [j|]; [|apply simR_raise]. rewrite nth_trees. destruct (nth_error (m_trees m) j) as [t|]; cbn [option_map]; [|apply simR_raise].
  change (m_heap (tmd m)) with (th (m_heap m)). change (m_sigma (tmd m)) with (m_sigma m). change (m_par (tmd m)) with (m_par m).
  assert (SetT : forall a, (match fst (fst (tpo a)) with Some _ => true | None => false end, DoTree j, m_set_trees (tmd m) (snd (fst (tpo a))) (set_nth j (snd (tpo a)) (m_trees (tmd m)))) =
    tq2 (match fst (fst a) with Some _ => true | None => false end, DoTree j, m_set_trees m (snd (fst a)) (set_nth j (snd a) (m_trees m)))).
  { intros [[om h1] t1]. cbn [tpo fst snd tq2]. change (m_trees (tmd m)) with (map tt (m_trees m)). rewrite set_nth_tt. reflexivity. }
  eapply simR_ext; [| |apply (simR_map N tpo tq2 _ _ (fun a => (match fst (fst a) with Some _ => true | None => false end, DoTree j, m_set_trees m (snd (fst a)) (set_nth j (snd a) (m_trees m))))
    (fun a => (match fst (fst a) with Some _ => true | None => false end, DoTree j, m_set_trees (tmd m) (snd (fst a)) (set_nth j (snd a) (m_trees (tmd m))))) SetT (ob_step_sim (m_heap m) t (m_sigma m) (m_par m) (proj1 W)))].
  - intros r. cbn beta. destruct (ob_step (m_heap m) t (m_sigma m) (m_par m) r) as [[[[om h1] t1] r1]| |]; reflexivity.
  - intros r. cbn beta. destruct (ob_step (th (m_heap m)) (tt t) (m_sigma m) (m_par m) r) as [[[[om h1] t1] r1]| |]; reflexivity.
Qed.
Lemma ob_drive_wf : forall fuel m fr pc r a m' b, wfm m -> ob_drive fuel m fr pc r = Ok (a, m', b) -> wfm m'.
Proof.
  induction fuel as [|f IH]; intros m fr pc r a m' b W; cbn [ob_drive]; [discriminate|]. destruct (gen_next m fr pc) as [[[[y pc1] fr1] m1]| |] eqn:E1; try discriminate. cbn [rbind]. apply gen_next_wf in E1; auto.
  destruct y as [[ky thk]|]; [|now intros [= _ <- _]]. destruct (ob_call m1 fr1 thk r) as [[[[result ac] m2] r1]| |] eqn:E2; try discriminate. cbn [rbind]. apply ob_call_wf in E2; auto.
  destruct (ob_drive f m2 fr1 pc1 r1) as [[[[log acts] m3] r2]| |] eqn:E3; try discriminate. intros [= _ <- _]. eauto.
Qed.
Lemma ob_drive_sim : forall fuel m fr pc, wfm m -> simR tq2 (ob_drive fuel m fr pc) (ob_drive fuel (tmd m) fr pc).
Proof.
  induction fuel as [|f IH]; intros m fr pc W; unfold ob_drive; fold ob_drive; [apply simR_none|]. rewrite gen_next_tr.
  destruct (gen_next m fr pc) as [[[[y pc1] fr1] m1]|e|] eqn:E1; cbn [rbind rmap tq4 fst snd]; [|apply simR_raise|apply simR_none]. apply gen_next_wf in E1; auto.
  destruct y as [[ky thk]|]; [|apply (simR_ret N tq2 ([], [], m1))].
  eapply simR_ext; [| |apply (simR_bind N tq2 tq2 _ _
     (fun a r1 => let! (log, acts, m3, r2) := ob_drive f (snd a) fr1 pc1 r1 in Ok (match trace_log ky (fst (fst a)) with Some b => (ky, b) :: log | None => log end, snd (fst a) :: acts, m3, r2))
     (fun a r1 => let! (log, acts, m3, r2) := ob_drive f (snd a) fr1 pc1 r1 in Ok (match trace_log ky (fst (fst a)) with Some b => (ky, b) :: log | None => log end, snd (fst a) :: acts, m3, r2))
     (fun a => wfm (snd a)) (ob_call_sim m1 fr1 thk E1))].
  - intros r. cbn beta. destruct (ob_call m1 fr1 thk r) as [[[[result ac] m2] r1]| |]; reflexivity.
  - intros r. cbn beta. destruct (ob_call (tmd m1) fr1 thk r) as [[[[result ac] m2] r1]| |]; reflexivity.
  - intros r [[result ac] m2] r1 E. simpl. eauto using ob_call_wf.
  - intros [[result ac] m2] W2. cbn [fst snd tq2] in *.
    eapply simR_ext; [| |apply (simR_map N tq2 tq2 _ _ (fun a => (match trace_log ky result with Some b => (ky, b) :: fst (fst a) | None => fst (fst a) end, ac :: snd (fst a), snd a))
       (fun a => (match trace_log ky result with Some b => (ky, b) :: fst (fst a) | None => fst (fst a) end, ac :: snd (fst a), snd a)) (fun a => eq_refl) (IH m2 fr1 pc1 W2))].
    + intros r. cbn beta. destruct (ob_drive f m2 fr1 pc1 r) as [[[[log acts] m3] r2]| |]; reflexivity.
    + intros r. cbn beta. destruct (ob_drive f (tmd m2) fr1 pc1 r) as [[[[log acts] m3] r2]| |]; reflexivity.
Qed.
Lemma ob_gibbs_step_wf m r a m' b : wfm m -> ob_gibbs_step m r = Ok (a, m', b) -> wfm m'.
Proof.
  intros W. unfold ob_gibbs_step. destruct (ob_drive (ob_drive_fuel m) m (Fr None None) GStart r) as [[[[log acts] m1] r1]| |] eqn:E; try discriminate. intros [= _ <- _]. eauto using ob_drive_wf.
Qed.
Lemma ob_drive_fuel_tr m : ob_drive_fuel (tmd m) = ob_drive_fuel m.
Proof. unfold ob_drive_fuel. change (m_trees (tmd m)) with (map tt (m_trees m)). rewrite ?map_length. f_equal. induction (m_trees m) as [|t ts IH]; auto. cbn [map fold_right]. now rewrite IH. Qed.
Lemma ob_gibbs_step_sim m : wfm m -> simR tq2 (ob_gibbs_step m) (ob_gibbs_step (tmd m)).
Proof.
  intros W. unfold ob_gibbs_step. rewrite ob_drive_fuel_tr.
  eapply simR_ext; [| |apply (simR_map N tq2 tq2 _ _ (fun a => (step_dict (fst (fst a)), snd (fst a), snd a)) (fun a => (step_dict (fst (fst a)), snd (fst a), snd a)) (fun a => eq_refl) (ob_drive_sim (ob_drive_fuel m) m (Fr None None) GStart W))].
  - intros r. cbn beta. destruct (ob_drive (ob_drive_fuel m) m (Fr None None) GStart r) as [[[[log acts] m1] r1]| |]; reflexivity.
  - intros r. cbn beta. destruct (ob_drive (ob_drive_fuel m) (tmd m) (Fr None None) GStart r) as [[[[log acts] m1] r1]| |]; reflexivity.
Qed.
Lemma ob_burn_wf : forall b m r m' r', wfm m -> ob_burn b m r = Ok (m', r') -> wfm m'.
Proof.
  induction b as [|b IH]; intros m r m' r' W; cbn [ob_burn]; [now intros [= <- _]|]. destruct (ob_gibbs_step m r) as [[[[dd acts] m1] r1]| |] eqn:E; try discriminate. cbn [rbind]. apply IH. eauto using ob_gibbs_step_wf.
Qed.
Lemma ob_burn_sim : forall b m, wfm m -> simR tmd (ob_burn b m) (ob_burn b (tmd m)).
Proof.
  induction b as [|b IH]; intros m W; unfold ob_burn; fold ob_burn; [apply (simR_ret N tmd m)|].
  eapply simR_ext; [| |apply (simR_bind N tq2 tmd _ _ (fun a r1 => ob_burn b (snd a) r1) (fun a r1 => ob_burn b (snd a) r1) (fun a => wfm (snd a)) (ob_gibbs_step_sim m W))].
  - intros r. cbn beta. destruct (ob_gibbs_step m r) as [[[[dd acts] m1] r1]| |]; reflexivity.
  - intros r. cbn beta. destruct (ob_gibbs_step (tmd m) r) as [[[[dd acts] m1] r1]| |]; reflexivity.
  - intros r [[dd acts] m1] r1 E. simpl. eauto using ob_gibbs_step_wf.
  - intros a Wa. now apply IH.
Qed.
Lemma ob_sample_iter_wf ss num den sp sa m r a m' b : wfm m -> ob_sample_iter ss num den sp sa m r = Ok (a, m', b) -> wfm m'.
Proof.
  intros W. rewrite ob_sample_iter_eq. destruct (ob_gibbs_step m r) as [[[[dd acts] m1] r1]| |] eqn:E; try discriminate. cbn [rbind fst snd]. apply ob_gibbs_step_wf in E; auto.
  destruct (kept ss num den sp sa dd m1) as [[c m2]| |] eqn:E2; try discriminate. intros [= _ <- _]. exact (proj2 (kept_tr ss num den sp sa dd m1 E) _ _ E2).
Qed.
Lemma ob_sample_iter_sim ss num den sp sa m : wfm m -> simR tqc (ob_sample_iter ss num den sp sa m) (ob_sample_iter ss num den sp sa (tmd m)).
Proof.
  intros W. eapply simR_ext; [intros r; apply ob_sample_iter_eq|intros r; apply ob_sample_iter_eq|].
  apply (simR_bind N tq2 tqc _ _ (fun a r1 => let! q := kept ss num den sp sa (fst (fst a)) (snd a) in Ok (q, r1)) (fun a r1 => let! q := kept ss num den sp sa (fst (fst a)) (snd a) in Ok (q, r1)) (fun a => wfm (snd a)) (ob_gibbs_step_sim m W)).
  - intros r [[dd acts] m1] r1 E. simpl. eauto using ob_gibbs_step_wf.
  - intros [[dd acts] m1] W1. cbn [fst snd tq2 tqc] in *. rewrite (proj1 (kept_tr ss num den sp sa dd m1 W1)). destruct (kept ss num den sp sa dd m1) as [q|e|]; cbn [rbind rmap]; [apply (simR_ret N tqc q)|apply simR_raise|apply simR_none].
Qed.
Lemma ob_sample_loop_wf num den sp sa : forall todo ss m r a m' b, wfm m -> ob_sample_loop ss todo num den sp sa m r = Ok (a, m', b) -> wfm m'.
Proof.
  induction todo as [|todo IH]; intros ss m r a m' b W; cbn [ob_sample_loop]; [now intros [= _ <- _]|].
  destruct (ob_sample_iter ss num den sp sa m r) as [[[c m1] r1]| |] eqn:E; try discriminate. cbn [rbind]. apply ob_sample_iter_wf in E; auto.
  destruct (ob_sample_loop (S ss) todo num den sp sa m1 r1) as [[[c' m2] r2]| |] eqn:E2; try discriminate. intros [= _ <- _]. eauto.
Qed.
Lemma ob_sample_loop_sim num den sp sa : forall todo ss m, wfm m -> simR tqc (ob_sample_loop ss todo num den sp sa m) (ob_sample_loop ss todo num den sp sa (tmd m)).
Proof.
  induction todo as [|todo IH]; intros ss m W; unfold ob_sample_loop; fold ob_sample_loop; [apply (simR_ret N tqc (Ch [] [] [], m))|].
  eapply simR_ext; [| |apply (simR_bind N tqc tqc _ _ (fun a r1 => let! (c', m2, r2) := ob_sample_loop (S ss) todo num den sp sa (snd a) r1 in Ok (ch_app (fst a) c', m2, r2))
     (fun a r1 => let! (c', m2, r2) := ob_sample_loop (S ss) todo num den sp sa (snd a) r1 in Ok (ch_app (fst a) c', m2, r2)) (fun a => wfm (snd a)) (ob_sample_iter_sim ss num den sp sa m W))].
  - intros r. cbn beta. destruct (ob_sample_iter ss num den sp sa m r) as [[[c m1] r1]| |]; reflexivity.
  - intros r. cbn beta. destruct (ob_sample_iter ss num den sp sa (tmd m) r) as [[[c m1] r1]| |]; reflexivity.
  - intros r [c m1] r1 E. simpl. eauto using ob_sample_iter_wf.
  - intros [c m1] W1. cbn [fst snd tq2 tqc] in *.
    assert (AppT : forall a, (ch_app (tch c) (fst (tqc a)), snd (tqc a)) = tqc (ch_app c (fst a), snd a)) by (intros [c2 m2]; unfold tqc; cbn [fst snd]; now rewrite tch_app).
    eapply simR_ext; [| |apply (simR_map N tqc tqc _ _ (fun a => (ch_app c (fst a), snd a)) (fun a => (ch_app (tch c) (fst a), snd a)) AppT (IH (S ss) m1 W1))].
    + intros r. cbn beta. destruct (ob_sample_loop (S ss) todo num den sp sa m1 r) as [[[c' m2] r2]| |]; reflexivity.
    + intros r. cbn beta. destruct (ob_sample_loop (S ss) todo num den sp sa (tmd m1) r) as [[[c' m2] r2]| |]; reflexivity.
Qed.
Lemma ob_samples_wf m ns nb thn sp sa r a m' b : wfm m -> ob_samples m ns nb thn sp sa r = Ok (a, m', b) -> wfm m'.
Proof.
  intros W. unfold ob_samples. destruct (ob_burn nb m r) as [[m1 r1]| |] eqn:E; try discriminate. cbn [rbind]. destruct thn as [|num den]; try discriminate. apply ob_sample_loop_wf. eauto using ob_burn_wf.
Qed.
Lemma ob_samples_sim m ns nb thn sp sa : wfm m -> simR tqc (ob_samples m ns nb thn sp sa) (ob_samples (tmd m) ns nb thn sp sa).
Proof.
  intros W. unfold ob_samples.
  apply (simR_bind N tmd tqc _ _ (fun m1 r1 => match thn with TZero => Raise EZeroDivisionError | TInv num den => ob_sample_loop 0 ns num den sp sa m1 r1 end)
     (fun m1 r1 => match thn with TZero => Raise EZeroDivisionError | TInv num den => ob_sample_loop 0 ns num den sp sa m1 r1 end) wfm (ob_burn_sim nb m W)).
  - intros r m1 r1 E. eauto using ob_burn_wf.
  - intros m1 W1. destruct thn as [|num den]; [apply simR_raise|]. now apply ob_sample_loop_sim.
Qed.

Lemma ob_sample_iter_len ss num den sp sa m r c m' b : wfm m -> ob_sample_iter ss num den sp sa m r = Ok (c, m', b) -> Forall lenN (ch_preds c).
Proof.
  intros W. rewrite ob_sample_iter_eq. destruct (ob_gibbs_step m r) as [[[[dd acts] m1] r1]| |] eqn:E; try discriminate. cbn [rbind fst snd]. apply ob_gibbs_step_wf in E; auto.
  destruct (kept ss num den sp sa dd m1) as [[c2 m2]| |] eqn:E2; try discriminate. intros [= <- _ _]. eauto using kept_len.
Qed.
Lemma ob_sample_loop_len num den sp sa : forall todo ss m r c m' b, wfm m -> ob_sample_loop ss todo num den sp sa m r = Ok (c, m', b) -> Forall lenN (ch_preds c).
Proof.
  induction todo as [|todo IH]; intros ss m r a m' b W; cbn [ob_sample_loop]; [intros [= <- _ _]; constructor|].
  destruct (ob_sample_iter ss num den sp sa m r) as [[[c m1] r1]| |] eqn:E; try discriminate. cbn [rbind]. pose proof (ob_sample_iter_len _ _ _ _ _ _ _ _ _ _ W E) as L. apply ob_sample_iter_wf in E; auto.
  destruct (ob_sample_loop (S ss) todo num den sp sa m1 r1) as [[[c' m2] r2]| |] eqn:E2; try discriminate. intros [= <- _ _]. cbn [ch_app ch_preds]. apply Forall_app. eauto.
Qed.
Lemma ob_samples_len m ns nb thn sp sa r c m' b : wfm m -> ob_samples m ns nb thn sp sa r = Ok (c, m', b) -> Forall lenN (ch_preds c).
Proof.
  intros W. unfold ob_samples. destruct (ob_burn nb m r) as [[m1 r1]| |] eqn:E; try discriminate. cbn [rbind]. destruct thn as [|num den]; try discriminate. apply ob_sample_loop_len. eauto using ob_burn_wf.
Qed.
Lemma ob_run_chain_sim s h y : length y = N -> wfh h ->
  { F : rng -> list nat -> list nat | (forall q, good (F q)) /\ forall r, ob_run_chain (tsk s) (th h) X1 (pk y) (ap F r) = rmap trc (ob_run_chain s h X0 y r) }.
Proof.
  intros L W. unfold ob_run_chain. destruct (construct_tr s h y L W) as [E V]. rewrite E. destruct (construct_model s h X0 y) as [s1| |]; cbn [rbind rmap].
  2,3: exists (fun _ l => l); split; [intros; apply good_id|reflexivity].
  pose proof (V _ eq_refl) as V2. cbn [tsk sk_model sk_data sk_nsamples sk_nburn sk_thin sk_store_preds sk_store_accept].
  destruct (sk_model s1) as [m|]; cbn [option_map]; [|exists (fun _ l => l); split; [intros; apply good_id|reflexivity]].
  destruct (sk_data s1) as [d|]; cbn [option_map]; [|exists (fun _ l => l); split; [intros; apply good_id|reflexivity]].
  destruct (ob_samples_sim m (sk_nsamples s) (sk_nburn s) (sk_thin s) (sk_store_preds s) (sk_store_accept s) (V2 _ eq_refl) (fun _ _ l => l) (fun _ _ => good_id N)) as (F&G&H).
  exists F. split; auto. intros r. specialize (H r). destruct (ob_samples m _ _ _ _ _ r) as [[[c m1] r1]| |]; rewrite H; reflexivity.
Qed.
Lemma ob_run_chain_len s h y r c s1 h1 : length y = N -> wfh h -> ob_run_chain s h X0 y r = Ok (c, s1, h1) -> Forall lenN (ch_preds c).
Proof.
  intros L W. unfold ob_run_chain. destruct (construct_tr s h y L W) as [_ V]. destruct (construct_model s h X0 y) as [s2| |]; try discriminate. cbn [rbind]. pose proof (V _ eq_refl) as V2.
  destruct (sk_model s2) as [m|]; try discriminate. destruct (sk_data s2) as [d|]; try discriminate. destruct (ob_samples m _ _ _ _ _ r) as [[[c1 m1] r1]| |] eqn:E; try discriminate.
  intros [= <- _ _]. apply ob_samples_len in E; auto.
Qed.
Lemma ob_run_processes_sim s h y F : length y = N -> wfh h -> (forall r, ob_run_chain (tsk s) (th h) X1 (pk y) (ap F r) = rmap trc (ob_run_chain s h X0 y r)) -> forall nc rs,
  ob_run_processes (repeat (tsk s, th h, X1, pk y) nc) (map (ap F) rs) = rmap (map tex) (ob_run_processes (repeat (s, h, X0, y) nc) rs) /\
  (forall es, ob_run_processes (repeat (s, h, X0, y) nc) rs = Ok es -> Forall (fun e : extract => Forall lenN (ch_preds (snd e))) es).
Proof.
  intros L W H. induction nc as [|nc IH]; intros rs; [split; auto; now intros es [= <-]|]. cbn [repeat ob_run_processes]. destruct rs as [|r rs]; cbn [map]; [split; auto; discriminate|]. rewrite H.
  destruct (ob_run_chain s h X0 y r) as [[[c s1] h1]| |] eqn:E; cbn [rbind rmap fst snd]; try (split; auto; discriminate). unfold trc. cbn [rbind fst snd]. destruct (IH rs) as [E2 V2]. rewrite E2. destruct (ob_run_processes (repeat (s, h, X0, y) nc) rs) as [es| |]; cbn [rbind rmap]; split; auto; try discriminate.
  intros es' [= <-]. constructor; cbn [snd]; eauto using ob_run_chain_len.
Qed.
Lemma ob_fit_sim s y : length y = N -> { F : rng -> list nat -> list nat | (forall q, good (F q)) /\
  forall rs, ob_fit Processes (tsk s) h_empty X1 (pk y) (map (ap F) rs) = rmap tsk (ob_fit Processes s h_empty X0 y rs) /\ (forall s', ob_fit Processes s h_empty X0 y rs = Ok s' -> wfsk s') }.
Proof.
  intros L. assert (W : wfh h_empty) by (intros j a; discriminate). change h_empty with (th h_empty) at 1. unfold ob_fit. destruct (construct_tr s h_empty y L W) as [E V].
  rewrite E. destruct (construct_model s h_empty X0 y) as [s1| |]; cbn [rbind rmap].
  2,3: exists (fun _ l => l); split; [intros; apply good_id|split; [reflexivity|discriminate]].
  pose proof (V _ eq_refl) as V2.
  change (sk_model (tsk s1)) with (option_map tmd (sk_model s1)). change (sk_nchains (tsk s1)) with (sk_nchains s1).
  destruct (sk_model s1) as [m|] eqn:Em; cbn [option_map]; [|exists (fun _ l => l); split; [intros; apply good_id|split; [reflexivity|discriminate]]].
  change (m_heap (tmd m)) with (th (m_heap m)). assert (Wm : wfh (m_heap m)) by (apply V2; auto). destruct (ob_run_chain_sim s1 (m_heap m) y L Wm) as (F&G&H). exists F. split; auto. intros rs.
  destruct (ob_run_processes_sim s1 (m_heap m) y F L Wm H (sk_nchains s1) rs) as [E2 V3]. rewrite E2.
  destruct (ob_run_processes (repeat (s1, m_heap m, X0, y) (sk_nchains s1)) rs) as [es| |]; cbn [rbind rmap]; [|split; auto; discriminate..].
  split; [apply store_chains_tr|]. intros s' Es. exact (store_chains_wf _ _ _ (V3 _ eq_refl) Es).
Qed.
End Rows.
