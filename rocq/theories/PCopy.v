(** Copied columns: every model function that draws no column commutes with the return from the copies to the columns. *)
From Coq Require Import Reals FunctionalExtensionality Permutation Lra.
From Verif Require Import Base Fl Ext MData MSplit MTree MSampler MModel MSklearn MFeatures MDiag MOblivious MObModel MObSklearn SpecInvariance SpecColumn SpecCopy LFl LList PHeap PRel PCol PSim2.
Local Open Scope R_scope.

Section Copy.
Local Open Scope nat_scope.
Variables (po : list nat) (X1 : matrix).
Let n := length po.
Let n1 := mx_ncols X1.
Hypothesis Hcov : covers po n1.
Hypothesis Hrect : rectangular X1.
Let X0 := copies po X1.

Definition iv (j : nat) : nat := nth j po (n1 + j).
Lemma iv_in j : j < n -> iv j < n1.
Proof. intros L. apply Hcov. unfold iv. now apply nth_In. Qed.
Lemma iv_out j : n <= j -> iv j = n1 + j.
Proof. intros L. unfold iv. now apply nth_overflow. Qed.
Lemma iv_onto v : v < n1 -> exists j, j < n /\ iv j = v.
Proof. intros L. apply Hcov in L. apply (In_nth po v 0) in L as (j&Lj&<-). exists j. split; auto. unfold iv. now apply nth_indep. Qed.
Lemma iv_ltb v : (iv v <? n1) = (v <? n).
Proof.
  destruct (Nat.ltb_spec v n) as [L|L]; [apply Nat.ltb_lt, iv_in, L|]. rewrite iv_out by auto. apply Nat.ltb_ge. lia.
Qed.
Lemma leb_iv v : (n1 <=? iv v) = (n <=? v).
Proof. pose proof (iv_ltb v) as H. rewrite !Nat.ltb_antisym in H. apply (f_equal negb) in H. now rewrite !Bool.negb_involutive in H. Qed.
Lemma cell_copied r v : length r = n1 -> cell r (iv v) = cell (map (fun j => nth j r FNaN) po) v.
Proof.
  intros L. unfold cell. destruct (Nat.lt_ge_cases v n) as [H|H].
  - rewrite (nth_indep (map _ po) FNaN ((fun j => nth j r FNaN) (n1 + v))) by now rewrite map_length. now rewrite (map_nth (fun j => nth j r FNaN)).
  - rewrite iv_out by auto. rewrite !nth_overflow; auto; rewrite ?map_length; unfold n in *; lia.
Qed.

(** ** data *)
Definition wfc (c : covmat) : Prop :=
  cm_X c = X0 /\ cm_unique c = repeat None n /\ cm_split c = repeat None n /\ cm_max c = repeat None n.
Definition tcm (c : covmat) : covmat := CM X1 (cm_mask c) (cm_nobsv c) (repeat None n1) (repeat None n1) (repeat None n1).
Definition tsc (s : scond) : scond := SC (iv (sc_var s)) (sc_val s) (sc_op s) (sc_ysum s) (sc_n s).
Definition tdt (d : data) : data := Dt (tcm (d_X d)) (d_y d).
Definition wfd (d : data) : Prop := wfc (d_X d).

Lemma select_copied i : forall mask rows, Forall (fun r : row => length r = n1) rows ->
  map (fun r => cell r (iv i)) (select mask rows) = map (fun r => cell r i) (select mask (map (fun r : row => map (fun j => nth j r FNaN) po) rows)).
Proof.
  induction mask as [|b mask IH]; intros [|r rows] F; simpl; auto.
  inversion F; subst. destruct b; auto. cbn [map]. now rewrite cell_copied, IH.
Qed.
Lemma get_column_tr c i : wfc c -> get_column (tcm c) (iv i) = get_column c i.
Proof. intros (E&_). unfold get_column. rewrite E. simpl. apply select_copied. exact Hrect. Qed.
Lemma nfeat_tr c : cm_nfeat (tcm c) = n1.
Proof. reflexivity. Qed.
Lemma nfeat_wf c : wfc c -> cm_nfeat c = n.
Proof. intros (E&_). unfold cm_nfeat. now rewrite E. Qed.
Lemma wf_unique c : wfc c -> exists m, cm_unique c = repeat None m.
Proof. intros (_&E&_). eauto. Qed.
Lemma wf_split c : wfc c -> exists m, cm_split c = repeat None m.
Proof. intros (_&_&E&_). eauto. Qed.
Lemma wf_max c : wfc c -> exists m, cm_max c = repeat None m.
Proof. intros (_&_&_&E). eauto. Qed.
Lemma tr_unique c : exists m, cm_unique (tcm c) = repeat None m.
Proof. now exists n1. Qed.
Lemma tr_split c : exists m, cm_split (tcm c) = repeat None m.
Proof. now exists n1. Qed.
Lemma tr_max c : exists m, cm_max (tcm c) = repeat None m.
Proof. now exists n1. Qed.
Lemma splittable_in c v : wfc c -> In v (fst (splittable_variables c)) <-> v < n /\ is_not_constant (get_column c v) = true.
Proof. intros W. rewrite splittable_eq by auto using wf_split. rewrite filter_In, in_seq, nfeat_wf by auto. intuition lia. Qed.
Lemma splittable_in' c v : In v (fst (splittable_variables (tcm c))) <-> v < n1 /\ is_not_constant (get_column (tcm c) v) = true.
Proof. rewrite splittable_eq by auto using tr_split. rewrite filter_In, in_seq, nfeat_tr. intuition lia. Qed.
Lemma splittable_tr c v : wfc c -> (In (iv v) (fst (splittable_variables (tcm c))) <-> In v (fst (splittable_variables c))).
Proof.
  intros W. rewrite (splittable_in c v W), splittable_in', (get_column_tr c v W). rewrite <- !Nat.ltb_lt, iv_ltb. tauto.
Qed.
Lemma splittable_onto c v : wfc c -> In v (fst (splittable_variables (tcm c))) -> exists j, In j (fst (splittable_variables c)) /\ iv j = v.
Proof.
  intros W I. pose proof I as L. apply splittable_in' in L as [L _]. destruct (iv_onto v L) as (j&Lj&<-). exists j. split; auto. now apply splittable_tr.
Qed.
Lemma splittable_nodup c : NoDup (fst (splittable_variables (tcm c))).
Proof. rewrite splittable_eq by auto using tr_split. apply NoDup_filter, seq_NoDup. Qed.
Lemma splittable_nil c : wfc c -> fst (splittable_variables (tcm c)) = [] <-> fst (splittable_variables c) = [].
Proof.
  intros W. split; intros E.
  - destruct (fst (splittable_variables c)) as [|v vs] eqn:Ev; auto. exfalso. assert (I : In (iv v) (fst (splittable_variables (tcm c)))) by (apply splittable_tr; auto; rewrite Ev; now left). rewrite E in I. destruct I.
  - destruct (fst (splittable_variables (tcm c))) as [|v vs] eqn:Ev; auto. exfalso. destruct (splittable_onto c v W) as (j&I&_); [rewrite Ev; now left|]. rewrite E in I. destruct I.
Qed.
Lemma one_splittable_tr c : wfc c -> fst (is_at_least_one_splittable_variable (tcm c)) = fst (is_at_least_one_splittable_variable c).
Proof.
  intros W. rewrite !one_splittable_eq by auto using wf_split, tr_split. pose proof (splittable_nil c W) as [A B].
  destruct (fst (splittable_variables (tcm c))) as [|v vs], (fst (splittable_variables c)) as [|v' vs']; auto; [discriminate (A eq_refl)|discriminate (B eq_refl)].
Qed.
Lemma existsb_iv c v : wfc c -> existsb (Nat.eqb (iv v)) (fst (splittable_variables (tcm c))) = existsb (Nat.eqb v) (fst (splittable_variables c)).
Proof.
  intros W. apply Bool.eq_iff_eq_true. rewrite !existsb_exists. split; intros (x&I&E); apply Nat.eqb_eq in E; subst x; [exists v|exists (iv v)]; (split; [|apply Nat.eqb_refl]); now apply splittable_tr.
Qed.
Lemma random_splittable_value_tr c v draws : wfc c -> random_splittable_value (tcm c) (iv v) draws = random_splittable_value c v draws.
Proof.
  intros W. rewrite !value_eq by auto using wf_max, tr_max. rewrite existsb_iv, get_column_tr by auto.
  replace (cm_nfeat (tcm c) <=? iv v) with (cm_nfeat c <=? v); auto. rewrite nfeat_tr, nfeat_wf by auto. symmetry. apply leb_iv.
Qed.
Lemma proportion_tr c i x : wfc c -> rmap fst (proportion_of_value_in_variable (tcm c) (iv i) x) = rmap fst (proportion_of_value_in_variable c i x).
Proof.
  intros W. rewrite !proportion_eq by auto using wf_unique, tr_unique. rewrite get_column_tr by auto. cbn [tcm cm_nobsv].
  replace (cm_nfeat (tcm c) <=? iv i) with (cm_nfeat c <=? i); auto. rewrite nfeat_tr, nfeat_wf by auto. symmetry. apply leb_iv.
Qed.
Lemma map_copied_cell {A} (f : fl -> A) v : forall rows, Forall (fun r : row => length r = n1) rows ->
  map (fun r => f (cell r (iv v))) rows = map (fun r => f (cell r v)) (map (fun r : row => map (fun j => nth j r FNaN) po) rows).
Proof. induction 1 as [|r rows L F IH]; simpl; auto. now rewrite cell_copied, IH. Qed.
Lemma update_mask_tr c s : wfc c -> update_mask (tcm c) (tsc s) = update_mask c s.
Proof.
  intros (E&_). unfold update_mask, column_mask, cm_nfeat. rewrite E. cbn [tcm cm_X cm_mask tsc sc_op sc_var sc_val X0 copies mx_ncols mx_rows].
  fold n n1. rewrite leb_iv. destruct (sc_op s); auto; destruct (n <=? sc_var s); auto.
  - now rewrite (map_copied_cell (fun x => fgt x (sc_val s))) by exact Hrect.
  - now rewrite (map_copied_cell (fun x => fle x (sc_val s))) by exact Hrect.
Qed.
Lemma data_add_tr d s : wfd d -> data_add (tdt d) (tsc s) = rmap tdt (data_add d s) /\ (forall d', data_add d s = Ok d' -> wfd d').
Proof.
  intros W. unfold data_add. cbn [tdt d_X]. rewrite update_mask_tr by auto. destruct W as (E&U&P&M).
  destruct (update_mask (d_X d) s) as [m| |]; cbn [rbind rmap]; split; try discriminate; auto.
  - unfold tdt, tcm, make_covmat. cbn [d_X d_y cm_mask cm_nobsv cm_X cm_unique cm_split]. rewrite !map_repeat_none by auto. reflexivity.
  - intros d' [= <-]. unfold wfd, wfc, make_covmat. cbn [d_X cm_X cm_unique cm_split cm_max]. rewrite E, U, P, !map_repeat_none by auto. auto.
Qed.

(** ** conditions and splits *)
Definition tcc (c : ccond) : ccond :=
  CC (match make_cc (seq 0 n1) (map tsc (cc_conds c)) with Ok c' => cc_vars c' | _ => [] end) (map tsc (cc_conds c)).
Definition wfcc (c : ccond) : Prop := make_cc (seq 0 n) (cc_conds c) = Ok c.
Definition tsp (s : split) : split := Sp (tdt (sp_data s)) (tcc (sp_cc s)).
Definition wfs (s : split) : Prop := wfd (sp_data s) /\ wfcc (sp_cc s).
Lemma dict_get_in (l : list (nat * cvc)) v : dict_get v l <> None <-> In v (map fst l).
Proof.
  induction l as [|[v' x] l IH]; simpl; [tauto|]. destruct (Nat.eqb_spec v v') as [->|N]; [split; [auto|discriminate]|]. rewrite IH. intuition congruence.
Qed.
Lemma dict_set_fst {A} v (x : A) : forall d, dict_get v d <> None -> map fst (dict_set v x d) = map fst d.
Proof. induction d as [|[v' y] d IH]; simpl; [easy|]. destruct (Nat.eqb_spec v v') as [->|N]; simpl; auto. intros H. now rewrite IH. Qed.
(** building a condition fails just when a column is unknown *)
Lemma forallb_map {A B} (f : B -> bool) (g : A -> B) l : forallb f (map g l) = forallb (fun x => f (g x)) l.
Proof. induction l; simpl; auto. now rewrite IHl. Qed.
Lemma forallb_ext {A} (f g : A -> bool) l : (forall x, f x = g x) -> forallb f l = forallb g l.
Proof. intros H. induction l; simpl; auto. now rewrite H, IHl. Qed.
Lemma fold_keys : forall conds vars v', fold_conditions vars conds = Ok v' -> map fst v' = map fst vars /\ Forall (fun s => In (sc_var s) (map fst vars)) conds.
Proof.
  induction conds as [|s l IH]; intros vars v'; cbn [fold_conditions]; [intros [= <-]; auto|]. destruct (dict_get (sc_var s) vars) as [b|] eqn:E; [|discriminate]. intros H.
  assert (E' : dict_get (sc_var s) vars <> None) by congruence. apply IH in H as [A B]. rewrite dict_set_fst in A, B by auto. split; auto. constructor; auto. now apply dict_get_in.
Qed.
Lemma fold_outcome : forall conds vars vars', (forall s, In s conds -> (In (sc_var s) (map fst vars) <-> In (iv (sc_var s)) (map fst vars'))) ->
  match fold_conditions vars conds with Ok _ => exists v', fold_conditions vars' (map tsc conds) = Ok v' | Raise e => fold_conditions vars' (map tsc conds) = Raise e | NoDraws => False end.
Proof.
  induction conds as [|s l IH]; intros vars vars' H; cbn [fold_conditions map]; [eauto|]. change (sc_var (tsc s)) with (iv (sc_var s)). pose proof (H s (or_introl eq_refl)) as H1. rewrite <- !dict_get_in in H1.
  destruct (dict_get (sc_var s) vars) as [b|] eqn:E, (dict_get (iv (sc_var s)) vars') as [b'|] eqn:E'.
  - apply IH. intros s' I. rewrite !dict_set_fst by congruence. apply H. now right.
  - exfalso. apply (proj1 H1); congruence.
  - exfalso. apply (proj2 H1); congruence.
  - reflexivity.
Qed.
Lemma make_cc_tr conds : make_cc (seq 0 n1) (map tsc conds) = rmap tcc (make_cc (seq 0 n) conds) /\ (forall c, make_cc (seq 0 n) conds = Ok c -> wfcc c).
Proof.
  assert (C : forall c, make_cc (seq 0 n) conds = Ok c -> cc_conds c = conds) by (intros c; unfold make_cc; destruct (fold_conditions _ conds); try discriminate; now intros [= <-]).
  split; [|intros c E; unfold wfcc; now rewrite (C c E)].
  destruct (make_cc (seq 0 n) conds) as [c| |] eqn:E; cbn [rmap].
  - unfold tcc. rewrite (C c eq_refl). unfold make_cc in *. pose proof (fold_outcome conds (map (fun v => (v, CV FNInf FPInf)) (seq 0 n)) (map (fun v => (v, CV FNInf FPInf)) (seq 0 n1))) as H.
    destruct (fold_conditions (map _ (seq 0 n)) conds) as [v'| |]; try discriminate. destruct H as (w&Hw).
    + intros s I. rewrite !map_map, !map_id. rewrite !in_seq. cbn [Nat.add]; rewrite <- !Nat.ltb_lt, iv_ltb; intuition lia.
    + now rewrite Hw.
  - unfold make_cc in *. pose proof (fold_outcome conds (map (fun v => (v, CV FNInf FPInf)) (seq 0 n)) (map (fun v => (v, CV FNInf FPInf)) (seq 0 n1))) as H.
    destruct (fold_conditions (map _ (seq 0 n)) conds) as [v'| |]; try discriminate. injection E as ->. rewrite H; auto.
    intros s I. rewrite !map_map, !map_id. rewrite !in_seq. cbn [Nat.add]; rewrite <- !Nat.ltb_lt, iv_ltb; intuition lia.
  - unfold make_cc in *. pose proof (fold_outcome conds (map (fun v => (v, CV FNInf FPInf)) (seq 0 n)) (map (fun v => (v, CV FNInf FPInf)) (seq 0 n1))) as H.
    destruct (fold_conditions (map _ (seq 0 n)) conds) as [v'| |]; try discriminate. destruct H.
    intros s I. rewrite !map_map, !map_id. rewrite !in_seq. cbn [Nat.add]; rewrite <- !Nat.ltb_lt, iv_ltb; intuition lia.
Qed.
Lemma wfcc_keys c : wfcc c -> map fst (cc_vars c) = seq 0 n.
Proof.
  unfold wfcc, make_cc. intros E. destruct (fold_conditions _ (cc_conds c)) as [v'| |] eqn:F; try discriminate. apply (f_equal (fun r => match r with Ok c => cc_vars c | _ => [] end)) in E. cbn in E. rewrite <- E.
  apply fold_keys in F as [F _]. rewrite F, map_map. apply map_id.
Qed.
Lemma wfcc_vars c : wfcc c -> Forall (fun s => sc_var s < n) (cc_conds c).
Proof.
  unfold wfcc, make_cc. destruct (fold_conditions _ (cc_conds c)) as [v'| |] eqn:F; try discriminate. intros _. apply fold_keys in F as [_ F]. eapply Forall_impl; [|exact F].
  intros s I. cbn beta in I. rewrite map_map, map_id in I. apply in_seq in I. lia.
Qed.
Lemma tcc_made c : wfcc c -> make_cc (seq 0 n1) (cc_conds (tcc c)) = Ok (tcc c).
Proof. intros W. unfold tcc at 1. cbn [cc_conds]. destruct (make_cc_tr (cc_conds c)) as [E _]. rewrite E, W. reflexivity. Qed.
Lemma tcc_keys c : wfcc c -> map fst (cc_vars (tcc c)) = seq 0 n1.
Proof.
  intros W. apply tcc_made in W. unfold make_cc in W. destruct (fold_conditions _ (cc_conds (tcc c))) as [v'| |] eqn:F; try discriminate. cbn [rbind] in W.
  apply (f_equal (fun r => match r with Ok c => cc_vars c | _ => [] end)) in W. assert (E : cc_vars (tcc c) = v') by (symmetry; exact W). rewrite E. apply fold_keys in F as [F _]. rewrite F, map_map. apply map_id.
Qed.
Lemma cc_add_tr c s : wfcc c -> cc_add (tcc c) (tsc s) = rmap tcc (cc_add c s) /\ (forall c', cc_add c s = Ok c' -> wfcc c').
Proof.
  intros W. unfold cc_add. rewrite (tcc_keys c W), (wfcc_keys c W). cbn [tcc cc_conds].
  replace (map tsc (cc_conds c) ++ [tsc s]) with (map tsc (cc_conds c ++ [s])) by now rewrite map_app. apply make_cc_tr.
Qed.
Lemma cc_most_recent_tr c : cc_most_recent (tcc c) = option_map tsc (cc_most_recent c).
Proof. unfold cc_most_recent. cbn [tcc cc_conds]. now rewrite last_opt_map. Qed.
Lemma make_split_tr d : wfd d -> make_split (tdt d) = rmap tsp (make_split d) /\ (forall s, make_split d = Ok s -> wfs s).
Proof.
  intros W. unfold make_split. cbn [tdt d_X]. rewrite nfeat_tr, nfeat_wf by auto.
  destruct (make_cc_tr []) as [E1 V1]. change (map tsc []) with (@nil scond) in E1. split.
  - rewrite E1 at 1. now destruct (make_cc (seq 0 n) []).
  - intros s. destruct (make_cc (seq 0 n) []) as [c| |]; cbn [rbind]; try discriminate. intros [= <-]. split; auto.
Qed.
Lemma split_add_tr s c : wfs s -> split_add (tsp s) (tsc c) = rmap tsp (split_add s c) /\ (forall s', split_add s c = Ok s' -> wfs s').
Proof.
  intros [W Wc]. destruct (data_add_tr (sp_data s) c W) as [E W']. destruct (cc_add_tr (sp_cc s) c Wc) as [E2 W2]. unfold split_add. cbn [tsp sp_data sp_cc]. rewrite E.
  destruct (data_add (sp_data s) c) as [d| |]; cbn [rbind rmap]; try (split; auto; discriminate). rewrite E2. destruct (cc_add (sp_cc s) c) as [c'| |]; cbn [rbind rmap]; split; try discriminate; auto.
  intros s' [= <-]. split; [now apply W'|now apply W2].
Qed.
Definition tsps (abc : split * split * split) := (tsp (fst (fst abc)), tsp (snd (fst abc)), tsp (snd abc)).
Lemma split_children_tr s c0 c1 : wfs s ->
  split_children (tsp s) (tsc c0) (tsc c1) = rmap tsps (split_children s c0 c1) /\
  (forall a b c, split_children s c0 c1 = Ok (a, b, c) -> wfs a /\ wfs b /\ wfs c).
Proof.
  intros W. destruct (split_add_tr s c0 W) as [E W']. unfold split_children. rewrite E. destruct (split_add s c0) as [sl| |]; cbn [rbind rmap]; split; try discriminate; auto.
  - change (d_y (sp_data (tsp s))) with (d_y (sp_data s)). destruct (summed_y (d_y (sp_data s))) as [[sy ty]| |]; cbn [rbind rmap fst snd]; auto.
    change (d_y (sp_data (tsp sl))) with (d_y (sp_data sl)). destruct (summed_y (d_y (sp_data sl))) as [[ly tl]| |]; cbn [rbind rmap fst snd]; auto.
    change (sp_set_y (tsp s) ty) with (tsp (sp_set_y s ty)).
    match goal with |- context [split_add (sp_set_y s ty) ?c] => destruct (split_add_tr (sp_set_y s ty) c W) as [H _] end.
    unfold tsc in H at 1. cbn [sc_var sc_val sc_op sc_ysum sc_n] in H. cbn [tsc sc_var sc_val sc_op].
    change (cm_nobsv (d_X (sp_data (tsp s)))) with (cm_nobsv (d_X (sp_data s))).
    change (cm_nobsv (d_X (sp_data (tsp sl)))) with (cm_nobsv (d_X (sp_data sl))).
    rewrite H. destruct (split_add (sp_set_y s ty) _); reflexivity.
  - intros a b c. destruct (summed_y (d_y (sp_data s))) as [[sy ty]| |]; try discriminate. cbn [rbind]. destruct (summed_y (d_y (sp_data sl))) as [[ly tl]| |]; try discriminate. cbn [rbind].
    match goal with |- context [split_add (sp_set_y s ty) ?c] => destruct (split_add_tr (sp_set_y s ty) c W) as [_ H] end.
    destruct (split_add (sp_set_y s ty) _) as [sr| |]; try discriminate. intros [= <- <- <-]. split; [exact W|split; [exact (W' sl eq_refl)|exact (H sr eq_refl)]].
Qed.

(** ** new rows *)
(** what a condition asks of a row, and of its copy *)
Definition within (b : cvc) (x : fl) : bool := fgt x (cv_min b) && fle x (cv_max b).
Definition asked (s : scond) (x : fl) : bool := match sc_op s with OpGt => is_nan (sc_val s) || fgt x (sc_val s) | OpLe => is_nan (sc_val s) || fle x (sc_val s) | OpOther => true end.
Definition plain (b : cvc) : Prop := is_nan (cv_min b) = false /\ is_nan (cv_max b) = false.
Lemma add_within b s x : plain b -> plain (add_condition b s) /\ within (add_condition b s) x = within b x && asked s x.
Proof.
  intros [A B]. unfold add_condition, asked, within, plain. destruct (sc_op s) eqn:O.
  - destruct (is_nan (sc_val s)) eqn:N; [replace (flt (sc_val s) (cv_max b)) with false by (destruct (sc_val s); try discriminate; now destruct (cv_max b)); cbn [orb]; rewrite Bool.andb_true_r; auto|].
    cbn [orb]. destruct (flt (sc_val s) (cv_max b)) eqn:E; cbn [cv_min cv_max].
    + split; auto. destruct (fle x (sc_val s)) eqn:F; [|now rewrite !Bool.andb_false_r]. rewrite (flt_fle _ _ (fle_flt_trans _ _ _ F E)). now rewrite !Bool.andb_true_r.
    + split; auto. destruct (fle x (cv_max b)) eqn:F; [|now rewrite !Bool.andb_false_r]. replace (fle x (sc_val s)) with true; [now rewrite !Bool.andb_true_r|]. symmetry.
      apply fle_trans with (cv_max b); auto. rewrite fle_negb by auto. now rewrite E.
  - destruct (is_nan (sc_val s)) eqn:N; [replace (fgt (sc_val s) (cv_min b)) with false by (destruct (sc_val s); try discriminate; now destruct (cv_min b)); cbn [orb]; rewrite Bool.andb_true_r; auto|].
    cbn [orb]. destruct (fgt (sc_val s) (cv_min b)) eqn:E; cbn [cv_min cv_max].
    + split; auto. destruct (fgt x (sc_val s)) eqn:F; [|now rewrite Bool.andb_false_r]. unfold fgt in *. rewrite (flt_trans _ _ _ E F). now rewrite Bool.andb_true_r.
    + split; auto. destruct (fgt x (cv_min b)) eqn:F; auto. replace (fgt x (sc_val s)) with true; [now rewrite Bool.andb_true_r|]. symmetry. unfold fgt in *.
      apply fle_flt_trans with (cv_min b); auto. rewrite fle_negb by auto. now rewrite E.
  - rewrite Bool.andb_true_r. auto.
Qed.
Lemma dict_get_plain v b : forall d, Forall (fun vb : nat * cvc => plain (snd vb)) d -> dict_get v d = Some b -> plain b.
Proof. induction 1 as [|[v' b'] d A F IH]; simpl; [discriminate|]. destruct (v =? v'); [intros [= <-]; exact A|auto]. Qed.
Lemma dict_set_plain v b : forall d, Forall (fun vb : nat * cvc => plain (snd vb)) d -> plain b -> Forall (fun vb : nat * cvc => plain (snd vb)) (dict_set v b d).
Proof. induction 1 as [|[v' b'] d A F IH]; simpl; auto. intros P. destruct (v =? v'); constructor; auto. Qed.
Lemma dict_set_selected (r : row) v b b' e : (forall x, x = cell r v -> within b' x = within b x && e) -> forall d, dict_get v d = Some b ->
  forallb (fun vb : nat * cvc => within (snd vb) (cell r (fst vb))) (dict_set v b' d) = forallb (fun vb : nat * cvc => within (snd vb) (cell r (fst vb))) d && e.
Proof.
  intros H. induction d as [|[v' c] d IH]; simpl; [discriminate|]. destruct (Nat.eqb_spec v v') as [<-|N].
  - intros [= ->]. cbn [forallb fst snd]. rewrite (H _ eq_refl), <- !Bool.andb_assoc. f_equal. apply Bool.andb_comm.
  - intros G. cbn [forallb fst snd]. rewrite (IH G). apply Bool.andb_assoc.
Qed.
Lemma fold_selected (r : row) : forall conds vars v', Forall (fun vb : nat * cvc => plain (snd vb)) vars -> fold_conditions vars conds = Ok v' ->
  forallb (fun vb : nat * cvc => within (snd vb) (cell r (fst vb))) v' = forallb (fun vb : nat * cvc => within (snd vb) (cell r (fst vb))) vars && forallb (fun s => asked s (cell r (sc_var s))) conds.
Proof.
  induction conds as [|s l IH]; intros vars v' F; cbn [fold_conditions forallb]; [intros [= <-]; now rewrite Bool.andb_true_r|].
  destruct (dict_get (sc_var s) vars) as [b|] eqn:E; [|discriminate]. intros H. pose proof (dict_get_plain _ _ _ F E) as P.
  apply IH in H; [|apply dict_set_plain; auto; now apply (add_within b s FNaN)]. rewrite H.
  rewrite (dict_set_selected r (sc_var s) b _ (asked s (cell r (sc_var s)))); auto; [now rewrite <- Bool.andb_assoc|]. intros x ->. now apply add_within.
Qed.
Lemma made_selected m c (r : row) : make_cc (seq 0 m) (cc_conds c) = Ok c ->
  row_selected c r = forallb (fun v => within (CV FNInf FPInf) (cell r v)) (seq 0 m) && forallb (fun s => asked s (cell r (sc_var s))) (cc_conds c).
Proof.
  unfold make_cc. destruct (fold_conditions _ (cc_conds c)) as [v'| |] eqn:F; try discriminate. cbn [rbind]. intros E. apply (f_equal (fun r => match r with Ok c => cc_vars c | _ => [] end)) in E. assert (E' : cc_vars c = v') by (symmetry; exact E).
  unfold row_selected. rewrite E'. etransitivity; [apply (fold_selected r) with (2 := F)|].
  - rewrite Forall_map. apply Forall_forall. intros v I. split; reflexivity.
  - now rewrite forallb_map.
Qed.
Lemma row_selected_tr c r : wfcc c -> length r = n1 -> row_selected (tcc c) r = row_selected c (map (fun j => nth j r FNaN) po).
Proof.
  intros W L. rewrite (made_selected n1 _ _ (tcc_made c W)), (made_selected n _ _ W). f_equal.
  - apply Bool.eq_iff_eq_true. rewrite !forallb_forall. split; intros H v I; apply in_seq in I.
    + rewrite <- cell_copied by auto. apply H, in_seq. pose proof (iv_in v). lia.
    + destruct (iv_onto v) as (j&Lj&<-); [lia|]. rewrite cell_copied by auto. apply H, in_seq. lia.
  - cbn [tcc cc_conds]. rewrite forallb_map. apply forallb_ext. intros s. cbn [tsc sc_var]. rewrite cell_copied by auto. reflexivity.
Qed.
Lemma cc_condition_tr c X : wfcc c -> rectangular X -> mx_ncols X = n1 -> cc_condition (tcc c) X = cc_condition c (copies po X).
Proof.
  intros W R N. unfold cc_condition. cbn [copies mx_ncols mx_rows]. rewrite N. change (length po) with n.
  assert (H : forall l m, map fst l = seq 0 m -> forallb (fun vb : nat * cvc => fst vb <? m) l = true).
  { intros l m Wl. apply forallb_forall. intros q I. apply Nat.ltb_lt. apply (in_map fst) in I. rewrite Wl in I. apply in_seq in I. lia. }
  rewrite (H _ _ (wfcc_keys c W)), (H _ _ (tcc_keys c W)). f_equal. rewrite map_map. apply map_ext_in. intros r I. apply row_selected_tr; auto. unfold rectangular in R. rewrite Forall_forall in R. rewrite <- N. auto.
Qed.

(** ** trees *)
Definition tns (s : nsplit) : nsplit := match s with SFull s => SFull (tsp s) | SCond c => SCond (tcc c) end.
Definition tnd (a : tnode) : tnode := Nd (nd_kind a) (tns (nd_split a)) (nd_depth a).
Definition th (h : heap) : heap := Hp (h_next h) (fun j => option_map tnd (h_get h j)).
Definition wfn (a : tnode) : Prop := match nd_split a with SFull s => wfs s | SCond c => wfcc c end.
Definition wfh (h : heap) : Prop := forall j a, h_get h j = Some a -> wfn a.
Arguments tsp _ : simpl never.
Arguments tcc _ : simpl never.
Arguments tnd _ : simpl never.
Lemma wfh_set h i a : wfh h -> wfn a -> wfh (h_set h i a).
Proof. intros W V j b. simpl. destruct (Nat.eqb j i); [now intros [= <-]|apply W]. Qed.
Lemma wfh_alloc h a : wfh h -> wfn a -> wfh (snd (h_alloc h a)).
Proof. intros W V j b. simpl. destruct (Nat.eqb j (h_next h)); [now intros [= <-]|apply W]. Qed.
Lemma th_get h i : h_get (th h) i = option_map tnd (h_get h i).
Proof. reflexivity. Qed.
Lemma th_set h i a : h_set (th h) i (tnd a) = th (h_set h i a).
Proof. unfold h_set, th. simpl. f_equal. extensionality j. now destruct (Nat.eqb j i). Qed.
Lemma th_alloc h a : h_alloc (th h) (tnd a) = (h_next h, th (snd (h_alloc h a))).
Proof. unfold h_alloc, th. simpl. do 2 f_equal. extensionality j. now destruct (Nat.eqb j (h_next h)). Qed.
Arguments th _ : simpl never.
Ltac getn := rewrite th_get; match goal with |- context [h_get ?h ?i] => destruct (h_get h i) as [[[?|? ?] [?|?] ?]|] end; simpl; auto.
Lemma is_leaf_tr h i : is_leaf (th h) i = is_leaf h i.
Proof. unfold is_leaf. getn. Qed.
Lemma is_dec_tr h i : is_dec (th h) i = is_dec h i.
Proof. unfold is_dec. getn. Qed.
Lemma left_child_tr h i : left_child (th h) i = left_child h i.
Proof. unfold left_child. getn. Qed.
Lemma right_child_tr h i : right_child (th h) i = right_child h i.
Proof. unfold right_child. getn. Qed.
Lemma node_split_tr h i : node_split (th h) i = option_map tsp (node_split h i).
Proof. unfold node_split. getn. Qed.
Lemma node_data_tr h i : node_data (th h) i = option_map tdt (node_data h i).
Proof. unfold node_data. rewrite node_split_tr. now destruct (node_split h i). Qed.
Lemma node_data_wf h i d : wfh h -> node_data h i = Some d -> wfd d.
Proof.
  intros W. unfold node_data, node_split. destruct (h_get h i) as [[? [s|c] ?]|] eqn:E; try discriminate. intros [= <-]. exact (proj1 (W _ _ E)).
Qed.
Lemma set_value_tr h i v : set_value (th h) i v = th (set_value h i v).
Proof. unfold set_value. rewrite th_get. destruct (h_get h i) as [[[w|l r] s d]|] eqn:E; simpl; auto. now rewrite <- th_set. Qed.
Lemma set_value_wf h i v : wfh h -> wfh (set_value h i v).
Proof. intros W. unfold set_value. destruct (h_get h i) as [[[w|l r] s d]|] eqn:E; auto. apply wfh_set; auto. exact (W _ _ E). Qed.
Lemma is_splittable_tr h i : wfh h -> is_splittable (th h) i = is_splittable h i.
Proof. intros W. unfold is_splittable. rewrite node_data_tr. destruct (node_data h i) as [d|] eqn:E; simpl; auto. apply one_splittable_tr. eapply node_data_wf; eauto. Qed.
Lemma is_prunable_tr h i : is_prunable (th h) i = is_prunable h i.
Proof. unfold is_prunable. rewrite left_child_tr, right_child_tr. destruct (left_child h i), (right_child h i); auto. now rewrite !is_leaf_tr. Qed.
Lemma nsplit_cc_tr s : nsplit_cc (tns s) = tcc (nsplit_cc s).
Proof. now destruct s. Qed.
Lemma dec_most_recent_tr h i : dec_most_recent (th h) i = option_map tsc (dec_most_recent h i).
Proof.
  unfold dec_most_recent. rewrite left_child_tr. destruct (left_child h i) as [l|]; auto. rewrite th_get.
  destruct (h_get h l) as [a|]; cbn [option_map]; auto. change (nd_split (tnd a)) with (tns (nd_split a)). rewrite nsplit_cc_tr. apply cc_most_recent_tr.
Qed.
Definition tp2 {A} (p : A * heap) : A * heap := (fst p, th (snd p)).
Lemma split_node_tr h i c0 c1 : wfh h -> split_node (th h) i (tsc c0) (tsc c1) = rmap tp2 (split_node h i c0 c1) /\
  (forall p h', split_node h i c0 c1 = Ok (p, h') -> wfh h').
Proof.
  intros W. unfold split_node. rewrite th_get. destruct (h_get h i) as [[kd [s|c] d]|] eqn:Eg; unfold tnd; cbn [option_map tns nd_kind nd_split nd_depth]; try (split; auto; discriminate).
  assert (Ws : wfs s) by exact (W _ _ Eg). destruct (split_children_tr s c0 c1 Ws) as [E W']. rewrite E. destruct (split_children s c0 c1) as [[[s' sl] sr]| |]; cbn [rbind rmap]; try (split; auto; discriminate).
  destruct (W' _ _ _ eq_refl) as (W1&W2&W3). unfold tsps. cbn [fst snd].
  assert (F : forall h kd s n, h_alloc (th h) (Nd kd (SFull (tsp s)) n) = (h_next h, th (snd (h_alloc h (Nd kd (SFull s) n))))) by (intros h0 kd0 s0 n0; exact (th_alloc h0 (Nd kd0 (SFull s0) n0))).
  split.
  - cbn beta iota. rewrite F. cbn beta iota. rewrite F. cbn beta iota. rewrite F. reflexivity.
  - destruct (h_alloc h _) as [l h1] eqn:E1. destruct (h_alloc h1 _) as [r h2] eqn:E2. destruct (h_alloc h2 _) as [q h3] eqn:E3. intros p h' [= <- <-].
    apply (f_equal snd) in E1, E2, E3. cbn [snd] in E1, E2, E3. rewrite <- E3, <- E2, <- E1. repeat apply wfh_alloc; auto.
Qed.
Lemma deep_copy_node_tr h i : wfh h -> deep_copy_node (th h) i = rmap tp2 (deep_copy_node h i) /\ (forall p h', deep_copy_node h i = Ok (p, h') -> wfh h').
Proof.
  intros W. unfold deep_copy_node. rewrite th_get. destruct (h_get h i) as [[kd [s|c] d]|] eqn:Eg; unfold tnd; cbn [option_map tns nd_kind nd_split nd_depth]; try (split; auto; discriminate).
  split.
  - cbn [rmap]. f_equal. apply (th_alloc h (Nd kd (SCond (sp_cc s)) d)).
  - intros p h' E. injection E as _ <-. apply (wfh_alloc h (Nd kd (SCond (sp_cc s)) d)); auto. exact (proj2 (W _ _ Eg)).
Qed.
Lemma prune_mutation_tr h e u : prune_mutation (th h) e u = prune_mutation h e u.
Proof. unfold prune_mutation. now rewrite is_dec_tr, is_prunable_tr. Qed.
Lemma grow_mutation_tr h e u : grow_mutation (th h) e u = grow_mutation h e u.
Proof. unfold grow_mutation. now rewrite is_leaf_tr. Qed.
Lemma leaf_nodes_tr h t : leaf_nodes (th h) t = leaf_nodes h t.
Proof. apply filter_ext. apply is_leaf_tr. Qed.
Lemma splittable_leaf_nodes_tr h t : wfh h -> splittable_leaf_nodes (th h) t = splittable_leaf_nodes h t.
Proof. intros W. unfold splittable_leaf_nodes. rewrite leaf_nodes_tr. apply filter_ext. intros i. now apply is_splittable_tr. Qed.
Lemma decision_nodes_tr h t : decision_nodes (th h) t = decision_nodes h t.
Proof. apply filter_ext. apply is_dec_tr. Qed.
Lemma prunable_decision_nodes_tr h t : prunable_decision_nodes (th h) t = prunable_decision_nodes h t.
Proof. unfold prunable_decision_nodes. rewrite decision_nodes_tr. apply filter_ext. apply is_prunable_tr. Qed.
Lemma set_node_y_tr a y : set_node_y (tnd a) y = option_map tnd (set_node_y a y).
Proof. unfold set_node_y. destruct a as [kd [s|c] d]; reflexivity. Qed.
Lemma set_node_y_wf a y a' : wfn a -> set_node_y a y = Some a' -> wfn a'.
Proof. unfold set_node_y, wfn. destruct a as [kd [s|c] d]; cbn [nd_split nd_kind nd_depth]; try discriminate. now intros W [= <-]. Qed.
Lemma node_update_y_tr : forall fuel h i y, node_update_y fuel (th h) i y = rmap th (node_update_y fuel h i y).
Proof.
  induction fuel as [|f IH]; intros h i y; auto. cbn [node_update_y]. rewrite th_get. destruct (h_get h i) as [a|]; cbn [option_map]; auto.
  rewrite set_node_y_tr. destruct (set_node_y a y) as [a'|]; cbn [option_map]; auto. rewrite th_set. change (nd_kind (tnd a)) with (nd_kind a).
  destruct (nd_kind a) as [v|l r]; auto. rewrite IH. destruct (node_update_y f (h_set h i a') l y) as [h2| |]; cbn [rbind rmap]; auto.
Qed.
Lemma node_update_y_wf : forall fuel h i y h', wfh h -> node_update_y fuel h i y = Ok h' -> wfh h'.
Proof.
  induction fuel as [|f IH]; intros h i y h' W; cbn [node_update_y]; [discriminate|]. destruct (h_get h i) as [a|] eqn:E; [|discriminate].
  destruct (set_node_y a y) as [a'|] eqn:E1; [|discriminate]. assert (V : wfh (h_set h i a')) by (apply wfh_set; auto; eapply set_node_y_wf; eauto; exact (W _ _ E)).
  destruct (nd_kind a) as [v|l r]; [now intros [= <-]|]. inv_ok. intros E2. eauto.
Qed.
Lemma nodes_update_y_tr f y : forall ids h, nodes_update_y f (th h) ids y = rmap th (nodes_update_y f h ids y).
Proof.
  induction ids as [|i ids IH]; intros h; auto. cbn [nodes_update_y]. rewrite node_update_y_tr. destruct (node_update_y f h i y) as [h1| |]; cbn [rbind rmap]; auto.
Qed.
Lemma nodes_update_y_wf f y : forall ids h h', wfh h -> nodes_update_y f h ids y = Ok h' -> wfh h'.
Proof. induction ids as [|i ids IH]; intros h h' W; cbn [nodes_update_y]; [now intros [= <-]|]. inv_ok. intros E2. eauto using node_update_y_wf. Qed.
Definition tp1 {A} (p : heap * A) : heap * A := (th (fst p), snd p).
Lemma tree_update_y_tr h t y : tree_update_y (th h) t y = rmap tp1 (tree_update_y h t y).
Proof. unfold tree_update_y. rewrite nodes_update_y_tr. destruct (nodes_update_y _ h _ y); reflexivity. Qed.
Lemma tree_update_y_wf h t y h' t' : wfh h -> tree_update_y h t y = Ok (h', t') -> wfh h'.
Proof. intros W. unfold tree_update_y. inv_ok. intros [= <- _]. eauto using nodes_update_y_wf. Qed.
Lemma predict_loop_tr h nn : forall leaves buf, predict_loop (th h) nn leaves buf = predict_loop h nn leaves buf.
Proof.
  induction leaves as [|i l IH]; intros buf; auto. cbn [predict_loop].
  replace (match nn with Some i0 => match node_data (th h) i0 with None => Raise EAttributeError | Some d => if (pz (cm_nobsv (d_X d)) <? 0)%Z then Raise EValueError else Ok (repeat 0%R (Z.to_nat (pz (cm_nobsv (d_X d))))) end | None => Raise EIndexError end)
    with (match nn with Some i0 => match node_data h i0 with None => Raise EAttributeError | Some d => if (pz (cm_nobsv (d_X d)) <? 0)%Z then Raise EValueError else Ok (repeat 0%R (Z.to_nat (pz (cm_nobsv (d_X d))))) end | None => Raise EIndexError end)
    by (destruct nn as [i0|]; auto; rewrite node_data_tr; destruct (node_data h i0); auto).
  destruct (match buf with Some b => _ | None => _ end) as [b| |]; cbn [rbind]; auto. rewrite th_get.
  destruct (h_get h i) as [[[v|? ?] [s|c] d]|]; auto. cbn [option_map tnd tns nd_kind nd_split nd_depth]. unfold tnd. cbn [nd_kind nd_split nd_depth tns].
  change (split_condition_in (tsp s)) with (split_condition_in s). destruct (negb _); auto.
Qed.
Lemma tree_predict_tr h t : tree_predict (th h) t = tree_predict h t.
Proof. unfold tree_predict. now rewrite leaf_nodes_tr, predict_loop_tr. Qed.
Lemma out_loop_tr h X : wfh h -> rectangular X -> mx_ncols X = n1 -> forall leaves buf, out_loop (th h) X leaves buf = out_loop h (copies po X) leaves buf.
Proof.
  intros W F O. induction leaves as [|i l IH]; intros buf; auto. cbn [out_loop]. rewrite th_get.
  destruct (h_get h i) as [[[v|? ?] s d]|] eqn:Eg; auto. unfold tnd. cbn [option_map nd_kind nd_split].
  assert (V : wfcc (nsplit_cc s)) by (apply W in Eg; unfold wfn in Eg; cbn [nd_split] in Eg; destruct s; [apply Eg|exact Eg]).
  rewrite nsplit_cc_tr, cc_condition_tr by auto. destruct (cc_condition (nsplit_cc s) (copies po X)) as [c| |]; cbn [rbind]; auto.
Qed.
Lemma copies_rows X : length (mx_rows (copies po X)) = length (mx_rows X).
Proof. simpl. apply map_length. Qed.
Lemma tree_predict_out_tr h t X : wfh h -> rectangular X -> mx_ncols X = n1 -> tree_predict_out (th h) t X = tree_predict_out h t (copies po X).
Proof. intros W F O. unfold tree_predict_out. now rewrite leaf_nodes_tr, out_loop_tr, copies_rows by auto. Qed.
Lemma relink_tr e u : forall ids h, relink (th h) ids e u = th (relink h ids e u).
Proof.
  induction ids as [|i ids IH]; intros h; auto. cbn [relink]. rewrite th_get. destruct (h_get h i) as [a|]; cbn [option_map]; auto.
  replace (relink_node e u (tnd a)) with (tnd (relink_node e u a)) by now destruct a as [[v|l r] s d]. rewrite th_set. apply IH.
Qed.
Lemma relink_wf e u : forall ids h, wfh h -> wfh (relink h ids e u).
Proof.
  induction ids as [|i ids IH]; intros h W; auto. cbn [relink]. destruct (h_get h i) as [a|] eqn:E; auto. apply IH. apply wfh_set; auto.
  pose proof (W _ _ E) as V. now destruct a as [[v|l r] s d].
Qed.
Lemma mutate_tr h t m : mutate (th h) t m = (let '(h', t', e) := mutate h t m in (th h', t', e)).
Proof.
  unfold mutate. rewrite !left_child_tr, !right_child_tr. destruct (mu_kind m).
  - destruct (remove_first _ _) as [l1|]; auto. destruct (left_child h (mu_updated m)), (right_child h (mu_updated m)); auto. now rewrite relink_tr.
  - destruct (remove_first _ _) as [l1|]; auto. destruct (remove_id _ _) as [l2|]; auto. destruct (remove_id _ _) as [l3|]; auto. now rewrite relink_tr.
  - now rewrite relink_tr.
Qed.
Lemma mutate_wf h t m h' t' e : wfh h -> mutate h t m = (h', t', e) -> wfh h'.
Proof.
  intros W. unfold mutate. destruct (mu_kind m).
  - destruct (remove_first _ _); [|now intros [= <- _ _]]. destruct (left_child h (mu_updated m)), (right_child h (mu_updated m)); intros [= <- _ _]; auto using relink_wf.
  - destruct (remove_first _ _); [|now intros [= <- _ _]]. destruct (remove_id _ _); [|now intros [= <- _ _]].
    destruct (remove_id _ _); [|now intros [= <- _ _]]. intros [= <- _ _]. now apply relink_wf.
  - intros [= <- _ _]. now apply relink_wf.
Qed.
Lemma deep_copy_nodes_tr : forall ids h, wfh h -> deep_copy_nodes (th h) ids = rmap tp2 (deep_copy_nodes h ids) /\ (forall p h', deep_copy_nodes h ids = Ok (p, h') -> wfh h').
Proof.
  induction ids as [|i ids IH]; intros h W; cbn [deep_copy_nodes]; [split; auto; now intros p h' [= _ <-]|].
  destruct (deep_copy_node_tr h i W) as [E W1]. rewrite E. destruct (deep_copy_node h i) as [[j h1]| |]; cbn [rbind rmap tp2 fst snd]; try (split; auto; discriminate).
  destruct (IH h1 (W1 _ _ eq_refl)) as [E2 W2]. rewrite E2. destruct (deep_copy_nodes h1 ids) as [[js h2]| |]; cbn [rbind rmap tp2 fst snd]; try (split; auto; discriminate).
  split; auto. intros p h' [= _ <-]. eauto.
Qed.
Lemma deep_copy_tree_tr h t : wfh h -> deep_copy_tree (th h) t = rmap tp2 (deep_copy_tree h t) /\ (forall p h', deep_copy_tree h t = Ok (p, h') -> wfh h').
Proof.
  intros W. destruct (deep_copy_nodes_tr (tr_nodes t) h W) as [E W1]. unfold deep_copy_tree. rewrite E. destruct (deep_copy_nodes h (tr_nodes t)) as [[js h1]| |]; cbn [rbind rmap]; split; auto; try discriminate.
  intros p h' [= _ <-]. eauto.
Qed.

(** ** the samplers *)
Lemma simL_value_loop col mx : simL (fun x => x) (value_loop col mx) (value_loop col mx).
Proof.
  intros K HK.
  set (F := fix F (l : list nat) : list nat := match l with [] => [] | d :: ds => d :: (if feqb (choose FNaN col d) mx then F ds else K (choose FNaN col d) ds) end).
  exists F. split; [split|].
  - induction l as [|d ds IH]; auto. cbn [F length]. f_equal. destruct (feqb _ mx); auto. apply HK.
  - induction l' as [|d ds' IH]; [now exists []|]. destruct (feqb (choose FNaN col d) mx) eqn:E.
    + destruct IH as (l&E2). exists (d :: l). cbn [F]. now rewrite E, E2.
    + destruct (proj2 (HK (choose FNaN col d)) ds') as (ds&E2). exists (d :: ds). cbn [F]. now rewrite E, E2.
  - induction l as [|d ds IH]; cbn [F value_loop]; auto. destruct (feqb (choose FNaN col d) mx) eqn:E; auto.
Qed.
Lemma simL_value c v : wfc c -> simL (fun x => x) (random_splittable_value c v) (random_splittable_value (tcm c) (iv v)).
Proof.
  intros W. eapply simL_ext; [intros l; reflexivity|intros l; now apply random_splittable_value_tr|].
  eapply simL_ext; [intros l; apply value_eq; now apply wf_max|intros l; apply value_eq; now apply wf_max|].
  destruct (negb _); [apply simL_raise|]. destruct (_ <=? v); [apply simL_raise|]. destruct (list_max (get_column c v)) as [mx|e|]; cbn [rbind]; [apply simL_value_loop|apply simL_raise|apply simL_none].
Qed.
Definition tsc2 (q : scond * scond) : scond * scond := (tsc (fst q), tsc (snd q)).
Lemma sample_split_condition_sim c : wfc c -> simL tsc2 (sample_split_condition c) (sample_split_condition (tcm c)).
Proof.
  intros W. unfold sample_split_condition.
  eapply (simL_bind iv tsc2 _ _ (fun v l => let! (x, l2) := random_splittable_value c v l in Ok (SC v x OpLe None None, SC v x OpGt None None, l2))
     (fun v l => let! (x, l2) := random_splittable_value (tcm c) v l in Ok (SC v x OpLe None None, SC v x OpGt None None, l2)) (fun _ => True)); auto.
  - destruct (fst (splittable_variables c)) as [|v0 vs] eqn:E.
    + rewrite (proj2 (splittable_nil c W) E). apply simL_raise.
    + rewrite <- E. apply simL_onto; [intros x; now apply splittable_tr|intros y; now apply splittable_onto|rewrite E; discriminate|apply splittable_nodup].
  - intros v _. apply (simL_bind (fun x => x) tsc2 _ _ (fun x l => Ok (SC v x OpLe None None, SC v x OpGt None None, l)) (fun x l => Ok (SC (iv v) x OpLe None None, SC (iv v) x OpGt None None, l)) (fun _ => True)); auto using simL_value.
    intros x _. apply (simL_ret tsc2 (SC v x OpLe None None, SC v x OpGt None None)).
Qed.
Lemma sample_split_node_sim h i : wfh h -> simL tp2 (sample_split_node h i) (sample_split_node (th h) i).
Proof.
  intros W. unfold sample_split_node. rewrite node_data_tr. destruct (node_data h i) as [d|] eqn:Ed; cbn [option_map]; [|apply simL_raise].
  apply node_data_wf in Ed; auto.
  eapply simL_ext; [| |apply (simL_bind tsc2 tp2 _ _ (fun q l => let! (p, h1) := split_node h i (fst q) (snd q) in Ok (p, h1, l))
     (fun q l => let! (p, h1) := split_node (th h) i (fst q) (snd q) in Ok (p, h1, l)) (fun _ => True) (sample_split_condition_sim (d_X d) Ed))]; auto.
  - intros l. cbn beta. destruct (sample_split_condition (d_X d) l) as [[[c0 c1] l1]| |]; reflexivity.
  - intros l. cbn beta. cbn [tdt d_X]. destruct (sample_split_condition (tcm (d_X d)) l) as [[[c0 c1] l1]| |]; reflexivity.
  - intros [c0 c1] _. cbn [tsc2 fst snd]. destruct (split_node_tr h i c0 c1 W) as [E _]. rewrite E. destruct (split_node h i c0 c1) as [[q h1]|e|]; cbn [rbind rmap]; [apply (simL_ret tp2 (q, h1))|apply simL_raise|apply simL_none].
Qed.
Lemma sample_split_node_wf h i idx a h' b : wfh h -> sample_split_node h i idx = Ok (a, h', b) -> wfh h'.
Proof.
  intros W. unfold sample_split_node. destruct (node_data h i) as [d|]; [|discriminate]. destruct (sample_split_condition (d_X d) idx) as [[[c0 c1] l1]| |]; try discriminate. cbn [rbind].
  destruct (split_node h i c0 c1) as [[q h1]| |] eqn:E; try discriminate. intros [= _ <- _]. exact (proj2 (split_node_tr h i c0 c1 W) _ _ E).
Qed.
Lemma sample_grow_mutation_wf h t idx a h' b : wfh h -> sample_grow_mutation h t idx = Ok (a, h', b) -> wfh h'.
Proof.
  intros W. unfold sample_grow_mutation. destruct (random_splittable_leaf_node h t idx) as [[i l]| |]; try discriminate. cbn [rbind].
  destruct (sample_split_node h i l) as [[[q h1] l1]| |] eqn:E; try discriminate. cbn [rbind]. destruct (grow_mutation h1 i q); try discriminate. intros [= _ <- _]. eauto using sample_split_node_wf.
Qed.
Lemma sample_grow_mutation_sim h t : wfh h -> splittable_leaf_nodes h t <> [] -> simL tp2 (sample_grow_mutation h t) (sample_grow_mutation (th h) t).
Proof.
  intros W NE. unfold sample_grow_mutation, random_splittable_leaf_node. rewrite splittable_leaf_nodes_tr by auto. destruct (splittable_leaf_nodes h t) as [|i0 is]; [congruence|].
  apply (simL_bind (fun x => x) tp2 _ _ (fun i l => let! (p, h1, l2) := sample_split_node h i l in let! m := grow_mutation h1 i p in Ok (m, h1, l2))
     (fun i l => let! (p, h1, l2) := sample_split_node (th h) i l in let! m := grow_mutation h1 i p in Ok (m, h1, l2)) (fun _ => True)); auto; [now apply simL_choice|].
  intros i _. eapply simL_ext; [| |apply (simL_bind tp2 tp2 _ _ (fun q l => let! m := grow_mutation (snd q) i (fst q) in Ok (m, snd q, l))
     (fun q l => let! m := grow_mutation (snd q) i (fst q) in Ok (m, snd q, l)) (fun _ => True) (sample_split_node_sim h i W))]; auto.
  - intros l. cbn beta. destruct (sample_split_node h i l) as [[[q h1] l1]| |]; reflexivity.
  - intros l. cbn beta. destruct (sample_split_node (th h) i l) as [[[q h1] l1]| |]; reflexivity.
  - intros [q h1] _. cbn [tp2 fst snd]. rewrite grow_mutation_tr. destruct (grow_mutation h1 i q) as [m|e|]; cbn [rbind]; [apply (simL_ret tp2 (m, h1))|apply simL_raise|apply simL_none].
Qed.
Definition pruned (h : heap) (i : nat) : res (mutation * heap) :=
  match h_get h i with
  | None => Raise EAttributeError
  | Some n => let (u, h1) := h_alloc h (Nd (KLeaf 0) (nd_split n) (nd_depth n)) in let! m := prune_mutation h1 i u in Ok (m, h1)
  end.
Lemma pruned_eq h t idx : sample_prune_mutation h t idx = let! (i, l) := random_prunable_decision_node h t idx in let! q := pruned h i in Ok (q, l).
Proof.
  unfold sample_prune_mutation, pruned. destruct (random_prunable_decision_node h t idx) as [[i l]| |]; cbn [rbind]; auto. destruct (h_get h i); auto. destruct (h_alloc h _) as [u h1]. destruct (prune_mutation h1 i u); reflexivity.
Qed.
Lemma pruned_tr h i : wfh h -> pruned (th h) i = rmap tp2 (pruned h i) /\ (forall m h', pruned h i = Ok (m, h') -> wfh h').
Proof.
  intros W. unfold pruned. rewrite th_get. destruct (h_get h i) as [a|] eqn:Eg; cbn [option_map]; try (split; auto; discriminate).
  pose proof (th_alloc h (Nd (KLeaf 0) (nd_split a) (nd_depth a))) as E. unfold tnd in E at 1. cbn [nd_kind nd_split nd_depth] in E. unfold tnd; cbn [nd_split nd_depth]. rewrite E.
  destruct (h_alloc h _) as [u h1] eqn:Ea. cbn [fst snd]. rewrite prune_mutation_tr. assert (W1 : wfh h1) by (apply (f_equal snd) in Ea; cbn [snd] in Ea; rewrite <- Ea; apply wfh_alloc; auto; exact (W _ _ Eg)).
  assert (u = h_next h) as <- by (now apply (f_equal fst) in Ea). destruct (prune_mutation h1 i u); cbn [rbind rmap]; split; auto; try discriminate. now intros a' h' [= _ <-].
Qed.
Lemma sample_prune_mutation_wf h t idx a h' b : wfh h -> sample_prune_mutation h t idx = Ok (a, h', b) -> wfh h'.
Proof.
  intros W. rewrite pruned_eq. destruct (random_prunable_decision_node h t idx) as [[i l]| |]; try discriminate. cbn [rbind].
  destruct (pruned h i) as [[q h1]| |] eqn:E; try discriminate. intros [= _ <- _]. exact (proj2 (pruned_tr h i W) _ _ E).
Qed.
Lemma sample_prune_mutation_sim h t : wfh h -> prunable_decision_nodes h t <> [] -> simL tp2 (sample_prune_mutation h t) (sample_prune_mutation (th h) t).
Proof.
  intros W NE. eapply simL_ext; [intros l; apply pruned_eq|intros l; apply pruned_eq|]. unfold random_prunable_decision_node. rewrite prunable_decision_nodes_tr. destruct (prunable_decision_nodes h t) as [|i0 is]; [congruence|].
  apply (simL_bind (fun x => x) tp2 _ _ (fun i l => let! q := pruned h i in Ok (q, l)) (fun i l => let! q := pruned (th h) i in Ok (q, l)) (fun _ => True)); auto; [now apply simL_choice|].
  intros i _. rewrite (proj1 (pruned_tr h i W)). destruct (pruned h i) as [q|e|]; cbn [rbind rmap]; [apply (simL_ret tp2 q)|apply simL_raise|apply simL_none].
Qed.
(** with a node to choose, a proposal is not retried *)
Definition quiet {A} (m : res A) : Prop := forall e, m = Raise e -> e <> ENoSplittableVariable /\ e <> ENoPrunableNode.
Lemma quiet_bind {A B} (m : res A) (f : A -> res B) : quiet m -> (forall a, m = Ok a -> quiet (f a)) -> quiet (rbind m f).
Proof. intros H1 H2 e. destruct m; cbn [rbind]; [now apply H2|intros [= <-]; now apply H1|discriminate]. Qed.
Lemma quiet_ok {A} (a : A) : quiet (Ok a).
Proof. intros e; discriminate. Qed.
Lemma quiet_raise {A} e : e <> ENoSplittableVariable -> e <> ENoPrunableNode -> quiet (@Raise A e).
Proof. intros H1 H2 e' [= <-]. auto. Qed.
Lemma quiet_none {A} : quiet (@NoDraws A).
Proof. intros e; discriminate. Qed.
Ltac quiet := repeat first [apply quiet_ok | apply quiet_none | apply quiet_raise; discriminate | apply quiet_bind; [|intros ? ?] |
  match goal with |- quiet (if ?b then _ else _) => destruct b | |- quiet (match ?x with _ => _ end) => destruct x end].
Lemma quiet_choice {A} (d : A) xs l : quiet (np_choice d xs l).
Proof. unfold np_choice. quiet. Qed.
Lemma quiet_fold conds : forall vars, quiet (fold_conditions vars conds).
Proof. induction conds as [|s l IH]; intros vars; cbn [fold_conditions]; quiet. apply IH. Qed.
Lemma quiet_mask c s : quiet (update_mask c s).
Proof. unfold update_mask, column_mask. quiet. Qed.
Lemma quiet_split_add s c : quiet (split_add s c).
Proof. unfold split_add, data_add, cc_add, make_cc. quiet; auto using quiet_fold, quiet_mask. Qed.
Lemma quiet_sum t : quiet (summed_y t).
Proof. unfold summed_y. quiet. Qed.
Lemma quiet_split_node h i c0 c1 : quiet (split_node h i c0 c1).
Proof. unfold split_node, split_children. quiet; auto using quiet_fold, quiet_mask, quiet_sum. Qed.
Lemma quiet_condition c l : wfc c -> quiet (sample_split_condition c l).
Proof.
  intros W. unfold sample_split_condition. apply quiet_bind; [apply quiet_choice|]. intros [v l1] E. apply quiet_bind; [|intros [x l2] _; apply quiet_ok].
  rewrite value_eq by now apply wf_max. replace (existsb (Nat.eqb v) (fst (splittable_variables c))) with true.
  - cbn [negb]. destruct (_ <=? v); [apply quiet_raise; discriminate|]. apply quiet_bind; [unfold list_max; quiet|]. intros mx _. generalize l1. induction l0 as [|d ds IH]; cbn [value_loop]; quiet. apply IH.
  - symmetry. apply existsb_exists. exists v. split; [|apply Nat.eqb_refl]. unfold np_choice in E. destruct (fst (splittable_variables c)) as [|v0 vs] eqn:Ev; [discriminate|]. destruct l as [|d ds]; [discriminate|].
    injection E as <- _. apply nth_In. apply Nat.mod_upper_bound. discriminate.
Qed.
Lemma quiet_grow h t l : wfh h -> splittable_leaf_nodes h t <> [] -> quiet (sample_grow_mutation h t l).
Proof.
  intros W NE. unfold sample_grow_mutation, random_splittable_leaf_node. destruct (splittable_leaf_nodes h t) as [|i0 is]; [congruence|]. apply quiet_bind; [apply quiet_choice|]. intros [i l1] _.
  apply quiet_bind; [|intros [[q h1] l2] _; unfold grow_mutation; quiet]. unfold sample_split_node. destruct (node_data h i) as [d|] eqn:E; [|apply quiet_raise; discriminate].
  apply quiet_bind; [apply quiet_condition; eapply node_data_wf; eauto|]. intros [[c0 c1] l2] _. apply quiet_bind; [apply quiet_split_node|]. intros [q h1] _. apply quiet_ok.
Qed.
Lemma quiet_prune h t l : prunable_decision_nodes h t <> [] -> quiet (sample_prune_mutation h t l).
Proof.
  intros NE. rewrite pruned_eq. unfold random_prunable_decision_node. destruct (prunable_decision_nodes h t) as [|i0 is]; [congruence|]. apply quiet_bind; [apply quiet_choice|]. intros [i l1] _.
  apply quiet_bind; [unfold pruned, prune_mutation; quiet|]. intros. apply quiet_ok.
Qed.
Lemma propose_wf h t : wfh h -> forall limit r a h' b, propose limit h t r = Ok (a, h', b) -> wfh h'.
Proof.
  intros W. induction limit as [|lim IH]; intros r a h' b; cbn [propose]; [discriminate|]. destruct (rg_method r) as [|g bs]; [discriminate|].
  destruct (if g then sample_grow_mutation h t (rg_index r) else sample_prune_mutation h t (rg_index r)) as [[[m h1] l]|e|] eqn:E.
  - intros [= _ <- _]. destruct g; eauto using sample_grow_mutation_wf, sample_prune_mutation_wf.
  - destruct e; try discriminate; apply IH.
  - discriminate.
Qed.
Lemma propose_sim h t limit : wfh h -> simR tp2 (propose limit h t) (propose limit (th h) t).
Proof.
  intros W. induction limit as [|lim IH]; [apply simR_raise|]. intros K HK.
  destruct (IH K HK) as (F0&G0&H0).
  assert (Grow : forall K1 : mutation * heap -> list nat -> list nat, (forall a, good (K1 a)) -> splittable_leaf_nodes h t <> [] ->
    { F | good F /\ forall l, match sample_grow_mutation h t l with Ok (a, l1) => sample_grow_mutation (th h) t (F l) = Ok (tp2 a, K1 a l1) | Raise e => sample_grow_mutation (th h) t (F l) = Raise e | NoDraws => sample_grow_mutation (th h) t (F l) = NoDraws end })
    by (intros K1 HK1 NE; exact (sample_grow_mutation_sim h t W NE K1 HK1)).
  assert (Prune : forall K1 : mutation * heap -> list nat -> list nat, (forall a, good (K1 a)) -> prunable_decision_nodes h t <> [] ->
    { F | good F /\ forall l, match sample_prune_mutation h t l with Ok (a, l1) => sample_prune_mutation (th h) t (F l) = Ok (tp2 a, K1 a l1) | Raise e => sample_prune_mutation (th h) t (F l) = Raise e | NoDraws => sample_prune_mutation (th h) t (F l) = NoDraws end })
    by (intros K1 HK1 NE; exact (sample_prune_mutation_sim h t W NE K1 HK1)).
  assert (D : forall xs : list nat, {xs = []} + {xs <> []}) by (intros [|x xs]; [now left|right; discriminate]).
  set (K1 := fun (q : rng) (bs : list bool) a => K a (rng_set_method q bs)).
  assert (HK1 : forall q bs a, good (K1 q bs a)) by (intros; apply HK).
  set (F := fun (q : rng) => match rg_method q with
    | [] => fun l => l
    | true :: bs => match D (splittable_leaf_nodes h t) with left _ => F0 (rng_set_method q bs) | right NE => proj1_sig (Grow (K1 q bs) (HK1 q bs) NE) end
    | false :: bs => match D (prunable_decision_nodes h t) with left _ => F0 (rng_set_method q bs) | right NE => proj1_sig (Prune (K1 q bs) (HK1 q bs) NE) end end).
  exists F. split.
  - intros q. unfold F. destruct (rg_method q) as [|[|] bs]; [apply good_id| |].
    + destruct (D (splittable_leaf_nodes h t)) as [E|NE]; [apply G0|apply (proj2_sig (Grow _ _ NE))].
    + destruct (D (prunable_decision_nodes h t)) as [E|NE]; [apply G0|apply (proj2_sig (Prune _ _ NE))].
  - intros r. cbn [propose]. change (rg_method (ap F r)) with (rg_method r). destruct (rg_method r) as [|b bs] eqn:Em; [reflexivity|].
    rewrite ap_index. destruct b.
    + destruct (D (splittable_leaf_nodes h t)) as [E|NE].
      * unfold sample_grow_mutation, random_splittable_leaf_node. rewrite splittable_leaf_nodes_tr, E by auto. cbn [rbind].
        specialize (H0 (rng_set_method r bs)). replace (rng_set_method (ap F r) bs) with (ap F0 (rng_set_method r bs)); [exact H0|].
        unfold ap, F, rng_set_index, rng_set_method. cbn. rewrite Em. destruct (D (splittable_leaf_nodes h t)); [reflexivity|congruence].
      * replace (F (rng_set_index r [])) with (proj1_sig (Grow (K1 (rng_set_index r []) bs) (HK1 (rng_set_index r []) bs) NE)).
        2:{ unfold F. cbn [rng_set_index rg_method]. rewrite Em. destruct (D (splittable_leaf_nodes h t)) as [E|NE']; [congruence|]. now rewrite (Classical_Prop.proof_irrelevance _ NE NE'). }
        destruct (Grow (K1 (rng_set_index r []) bs) (HK1 (rng_set_index r []) bs) NE) as (F1&G1&H1). cbn [proj1_sig]. specialize (H1 (rg_index r)). pose proof (quiet_grow h t (rg_index r) W NE) as Q.
        destruct (sample_grow_mutation h t (rg_index r)) as [[[m h1] l1]|e|]; rewrite H1; [reflexivity| |reflexivity]. destruct (Q e eq_refl). destruct e; congruence.
    + destruct (D (prunable_decision_nodes h t)) as [E|NE].
      * unfold sample_prune_mutation, random_prunable_decision_node. rewrite prunable_decision_nodes_tr, E by auto. cbn [rbind].
        specialize (H0 (rng_set_method r bs)). replace (rng_set_method (ap F r) bs) with (ap F0 (rng_set_method r bs)); [exact H0|].
        unfold ap, F, rng_set_index, rng_set_method. cbn. rewrite Em. destruct (D (prunable_decision_nodes h t)); [reflexivity|congruence].
      * replace (F (rng_set_index r [])) with (proj1_sig (Prune (K1 (rng_set_index r []) bs) (HK1 (rng_set_index r []) bs) NE)).
        2:{ unfold F. cbn [rng_set_index rg_method]. rewrite Em. destruct (D (prunable_decision_nodes h t)) as [E|NE']; [congruence|]. now rewrite (Classical_Prop.proof_irrelevance _ NE NE'). }
        destruct (Prune (K1 (rng_set_index r []) bs) (HK1 (rng_set_index r []) bs) NE) as (F1&G1&H1). cbn [proj1_sig]. specialize (H1 (rg_index r)). pose proof (quiet_prune h t (rg_index r) NE) as Q.
        destruct (sample_prune_mutation h t (rg_index r)) as [[[m h1] l1]|e|]; rewrite H1; [reflexivity| |reflexivity]. destruct (Q e eq_refl). destruct e; congruence.
Qed.
Lemma node_n_tr h i : node_n (th h) i = node_n h i.
Proof. unfold node_n. rewrite node_data_tr. now destruct (node_data h i). Qed.
Lemma node_sum_tr h i : node_sum (th h) i = node_sum h i.
Proof. unfold node_sum. rewrite node_data_tr. now destruct (node_data h i). Qed.
Lemma log_grow_ratio_nodes_tr h c l r s p : log_grow_ratio_nodes (th h) c l r s p = log_grow_ratio_nodes h c l r s p.
Proof. unfold log_grow_ratio_nodes. now rewrite !node_n_tr, !node_sum_tr. Qed.
Lemma get_children_tr h i : get_children (th h) i = get_children h i.
Proof. unfold get_children. now rewrite left_child_tr, right_child_tr. Qed.
Lemma log_likihood_ratio_tr h m s p : log_likihood_ratio (th h) m s p = log_likihood_ratio h m s p.
Proof.
  unfold log_likihood_ratio. rewrite !get_children_tr. destruct (mu_kind m); auto; destruct (get_children h _) as [[l r]| |]; cbn [rbind]; auto; now rewrite log_grow_ratio_nodes_tr.
Qed.
Lemma n_prunable_tr h t : n_prunable_decision_nodes (th h) t = n_prunable_decision_nodes h t.
Proof. unfold n_prunable_decision_nodes. now rewrite prunable_decision_nodes_tr. Qed.
Lemma n_splittable_tr h t : wfh h -> n_splittable_leaf_nodes (th h) t = n_splittable_leaf_nodes h t.
Proof. intros W. unfold n_splittable_leaf_nodes. now rewrite splittable_leaf_nodes_tr. Qed.
Lemma rbind_fst {A B C} (m m' : res (A * B)) (f : A -> res C) : rmap fst m' = rmap fst m -> (let! (q, _) := m' in f q) = (let! (q, _) := m in f q).
Proof. destruct m as [[a b]| |], m' as [[a' b']| |]; simpl; intros [=]; subst; auto. Qed.
(** the number of columns on offer differs, but its logarithm is finite on both sides or on neither *)
Definition alike (x y : ext) : Prop := x = y \/ exists r s, x = XFin r /\ y = XFin s.
Definition ralike (x y : res ext) : Prop := match x, y with Ok a, Ok b => alike a b | Raise e, Raise e' => e = e' | NoDraws, NoDraws => True | _, _ => False end.
Lemma alike_add a b c : alike a b -> alike (xadd a c) (xadd b c).
Proof. intros [->|(r&s&->&->)]; [now left|]. destruct c; try (now left). right. simpl. eauto. Qed.
Lemma log_count k : k <> 0 -> exists r, xneg (xlog (XFin (INR k))) = XFin r.
Proof.
  intros H. assert (P : (0 < INR k)%R) by (apply lt_0_INR; lia). unfold xlog, rsign. destruct (Rlt_dec (INR k) 0); [lra|]. destruct (Rlt_dec 0 (INR k)); [|lra]. simpl. eauto.
Qed.
Lemma n_splittable_count c : fst (n_splittable_variables c) = length (fst (splittable_variables c)).
Proof. unfold n_splittable_variables. now destruct (splittable_variables c). Qed.
Lemma within_node_tr h e u : wfh h -> ralike (log_probability_split_within_node (th h) e u) (log_probability_split_within_node h e u).
Proof.
  intros W. unfold log_probability_split_within_node. rewrite node_data_tr. destruct (node_data h e) as [d|] eqn:Ed; cbn [option_map]; [|reflexivity]. apply node_data_wf in Ed; auto.
  cbn [tdt d_X]. rewrite dec_most_recent_tr. rewrite !n_splittable_count. destruct (dec_most_recent h u) as [s|]; cbn [option_map]; [|reflexivity]. cbn [tsc sc_var sc_val].
  pose proof (proportion_tr (d_X d) (sc_var s) (sc_val s) Ed) as E.
  destruct (proportion_of_value_in_variable (tcm (d_X d)) _ _) as [[q c1]| |], (proportion_of_value_in_variable (d_X d) _ _) as [[q' c2]| |]; cbn [rmap] in E; try discriminate; cbn [rbind ralike]; auto.
  - assert (q = q') as <- by (now apply (f_equal (fun r => match r with Ok q => q | _ => XNaN end)) in E). apply alike_add.
    pose proof (splittable_nil (d_X d) Ed) as [A B].
    destruct (fst (splittable_variables (d_X d))) as [|v vs], (fst (splittable_variables (tcm (d_X d)))) as [|v' vs'].
    + now left.
    + discriminate (B eq_refl).
    + discriminate (A eq_refl).
    + right. destruct (log_count (length (v' :: vs'))) as (r1&E1); [simpl; lia|]. destruct (log_count (length (v :: vs))) as (r2&E2); [simpl; lia|]. eauto.
  - congruence.
Qed.
Lemma node_depth_tr h i : node_depth (th h) i = node_depth h i.
Proof. unfold node_depth. rewrite th_get. now destruct (h_get h i). Qed.
Lemma ext_grow a b c d e l w w' : alike w w' ->
  xadd (xadd (xadd a (xsub b (xadd c w))) l) (xsub (xadd d (xadd c w)) e) = xadd (xadd (xadd a (xsub b (xadd c w'))) l) (xsub (xadd d (xadd c w')) e).
Proof.
  intros [->|(r&s&->&->)]; auto. unfold xsub. destruct c; cbn [xadd]; auto. destruct a; cbn [xadd]; auto; destruct b; cbn [xadd xneg]; auto; destruct l; cbn [xadd]; auto; destruct d; cbn [xadd]; auto; destruct e; cbn [xadd xneg]; auto. f_equal. lra.
Qed.
Lemma ext_prune a b c d e l w w' : alike w w' ->
  xadd (xadd (xadd a (xsub (xadd c w) b)) l) (xsub e (xadd d w)) = xadd (xadd (xadd a (xsub (xadd c w') b)) l) (xsub e (xadd d w')).
Proof.
  intros [->|(r&s&->&->)]; auto. unfold xsub. destruct c; cbn [xadd]; auto; destruct a; cbn [xadd]; auto; destruct b; cbn [xadd xneg]; auto; destruct l; cbn [xadd]; auto; destruct d; cbn [xadd xneg]; auto; destruct e; cbn [xadd xneg]; auto. f_equal. lra.
Qed.
Lemma log_probability_ratio_tr h t m s p : wfh h -> log_probability_ratio (th h) t m s p = log_probability_ratio h t m s p.
Proof.
  intros W. unfold log_probability_ratio, log_transition_ratio, log_prune_transition_ratio, log_grow_transition_ratio, log_tree_ratio, log_tree_ratio_grow, log_tree_ratio_prune, log_probability_split_within_tree.
  rewrite log_likihood_ratio_tr, n_prunable_tr, n_splittable_tr, !grow_mutation_tr, !node_depth_tr, !get_children_tr by auto.
  destruct (mu_kind m); auto.
  - pose proof (within_node_tr h (mu_existing m) (mu_updated m) W) as A.
    destruct (log_probability_split_within_node (th h) _ _) as [w| |], (log_probability_split_within_node h _ _) as [w'| |]; cbn [ralike] in A; try contradiction; cbn [rbind]; [| now rewrite A |reflexivity].
    destruct (py_div _ _) as [q| |]; cbn [rbind]; auto. destruct (log_likihood_ratio h m s p) as [l| |]; cbn [rbind]; auto. destruct (node_depth h (mu_existing m)); cbn [rbind]; auto.
    destruct (get_children h (mu_updated m)) as [[c1 c2]| |]; cbn [rbind]; auto. rewrite !node_depth_tr. destruct (node_depth h c1); cbn [rbind]; auto. destruct (node_depth h c2); cbn [rbind]; auto.
    destruct (node_depth h (mu_updated m)); cbn [rbind]; auto. f_equal. now apply ext_grow.
  - pose proof (within_node_tr h (mu_updated m) (mu_existing m) W) as A. destruct (grow_mutation h (mu_updated m) (mu_existing m)); cbn [rbind]; auto.
    destruct (log_probability_split_within_node (th h) _ _) as [w| |], (log_probability_split_within_node h _ _) as [w'| |]; cbn [ralike] in A; try contradiction; cbn [rbind]; [| now rewrite A |reflexivity].
    destruct (py_div _ _) as [q| |]; cbn [rbind]; auto. destruct (log_likihood_ratio h m s p) as [l| |]; cbn [rbind]; auto. destruct (node_depth h (mu_updated m)); cbn [rbind]; auto.
    destruct (get_children h (mu_existing m)) as [[c1 c2]| |]; cbn [rbind]; auto. rewrite !node_depth_tr. destruct (node_depth h c1); cbn [rbind]; auto. 
    destruct (node_depth h (mu_existing m)); cbn [rbind]; auto. f_equal. now apply ext_prune.
Qed.

(** the rest of a tree step, with the proposal made *)
Definition decided (t : tree) (s : R) (p : params) (a : mutation * heap) (r : rng) : res (option mutation * heap * tree * rng) :=
  let! ratio := log_probability_ratio (snd a) t (fst a) s p in
  match rg_unif r with
  | [] => NoDraws
  | u :: us => if accepts u ratio then match mutate (snd a) t (fst a) with
                                       | (h2, t2, None) => Ok (Some (fst a), h2, t2, rng_set_unif r us)
                                       | (_, _, Some e) => Raise e end
               else Ok (None, snd a, t, rng_set_unif r us)
  end.
Lemma tree_step_eq h t s p r : tree_step h t s p r = let! (a, r1) := propose (pa_limit p) h t r in decided t s p a r1.
Proof.
  unfold tree_step, tree_sample, decided. destruct (propose (pa_limit p) h t r) as [[[m h1] r1]| |]; cbn [rbind fst snd]; auto. destruct (log_probability_ratio h1 t m s p) as [q| |]; cbn [rbind]; auto.
  destruct (rg_unif r1) as [|u us]; auto. cbn [rbind]. destruct (accepts u q); auto.
Qed.
Definition tpm (a : option mutation * heap * tree) : option mutation * heap * tree := (fst (fst a), th (snd (fst a)), snd a).
Lemma tree_step_sim h t s p : wfh h -> simR tpm (tree_step h t s p) (tree_step (th h) t s p).
Proof.
  intros W. eapply simR_ext; [intros r; apply tree_step_eq|intros r; apply tree_step_eq|].
  apply (simR_bind tp2 tpm _ _ (decided t s p) (decided t s p) (fun a => wfh (snd a)) (propose_sim h t (pa_limit p) W)).
  - intros r [m h1] r1 E. simpl. eauto using propose_wf.
  - intros [m h1] W1. cbn [snd] in W1. apply simR_pure; unfold decided; cbn [tp2 fst snd]; intros r.
    + intros l. destruct (log_probability_ratio h1 t m s p) as [q| |]; cbn [rbind]; auto. cbn [rng_set_index rg_unif]. destruct (rg_unif r) as [|u us]; auto.
      destruct (accepts u q); auto. destruct (mutate h1 t m) as [[h2 t2] [e|]]; auto.
    + rewrite log_probability_ratio_tr by auto. destruct (log_probability_ratio h1 t m s p) as [q| |]; cbn [rbind]; auto. destruct (rg_unif r) as [|u us]; auto.
      destruct (accepts u q); auto. rewrite mutate_tr. destruct (mutate h1 t m) as [[h2 t2] [e|]]; auto.
Qed.
Lemma tree_step_wf h t s p r a h' b c : wfh h -> tree_step h t s p r = Ok (a, h', b, c) -> wfh h'.
Proof.
  intros W. rewrite tree_step_eq. destruct (propose (pa_limit p) h t r) as [[[m h1] r1]| |] eqn:E; try discriminate. cbn [rbind]. apply propose_wf in E; auto. unfold decided. cbn [fst snd].
  destruct (log_probability_ratio h1 t m s p) as [q| |]; try discriminate. cbn [rbind]. destruct (rg_unif r1) as [|u us]; try discriminate. destruct (accepts u q); [|now intros [= _ <- _ _]].
  destruct (mutate h1 t m) as [[h2 t2] [e|]] eqn:Em; try discriminate. intros [= _ <- _ _]. eauto using mutate_wf.
Qed.
Lemma leaf_step_tr h i s p r : leaf_step (th h) i s p r = rmap tp1 (leaf_step h i s p r).
Proof.
  unfold leaf_step. rewrite node_n_tr, node_sum_tr. destruct (node_n h i) as [m| |]; cbn [rbind]; auto. destruct (node_sum h i) as [y| |]; cbn [rbind]; auto.
  destruct (rg_norm r); auto. destruct (leaf_sample _ _ _ _ _); auto. now rewrite set_value_tr.
Qed.
Lemma leaf_step_wf h i s p r h' r' : wfh h -> leaf_step h i s p r = Ok (h', r') -> wfh h'.
Proof. intros W. unfold leaf_step. inv_ok. inv_ok. destruct (rg_norm r); try discriminate. destruct (leaf_sample _ _ _ _ _); try discriminate. intros [= <- _]. now apply set_value_wf. Qed.

Lemma leaf_step_sim h i s p : simR th (leaf_step h i s p) (leaf_step (th h) i s p).
Proof.
  apply simR_pure; intros r.
  - intros l. unfold leaf_step. destruct (node_n h i); cbn [rbind]; auto. destruct (node_sum h i); cbn [rbind]; auto. cbn [rng_set_index rg_norm]. destruct (rg_norm r); auto. destruct (leaf_sample _ _ _ _ _); auto.
  - rewrite leaf_step_tr. destruct (leaf_step h i s p r) as [[h1 r1]| |]; reflexivity.
Qed.
(** ** models *)
Definition tmd (m : model) : model := Md (th (m_heap m)) (m_trees m) (tdt (m_data m)) (m_pred m) (m_sigma m) (m_par m).
Definition wfm (m : model) : Prop := wfh (m_heap m).
Arguments tmd _ : simpl never.
Lemma new_trees_tr d : wfd d -> forall m h, wfh h -> new_trees m (th h) (tdt d) = rmap tp1 (new_trees m h d) /\ (forall h' ts, new_trees m h d = Ok (h', ts) -> wfh h').
Proof.
  intros Wd. induction m as [|m IH]; intros h W; cbn [new_trees]; [split; auto; now intros h' ts [= <- _]|].
  destruct (make_split_tr d Wd) as [E V]. rewrite E. destruct (make_split d) as [s| |]; cbn [rbind rmap]; try (split; auto; discriminate).
  specialize (V _ eq_refl). pose proof (th_alloc h (Nd (KLeaf 0) (SFull s) 0)) as F. unfold tnd in F at 1. cbn [nd_kind nd_split nd_depth tns] in F. rewrite F.
  destruct (h_alloc h _) as [i h1] eqn:Ea. cbn [fst snd]. assert (W1 : wfh h1) by (apply (f_equal snd) in Ea; cbn [snd] in Ea; rewrite <- Ea; now apply wfh_alloc).
  assert (i = h_next h) as -> by (now apply (f_equal fst) in Ea). destruct (IH h1 W1) as [E2 V2]. rewrite E2.
  destruct (new_trees m h1 d) as [[h2 ts]| |]; cbn [rbind rmap]; split; auto; try discriminate. intros h' ts' [= <- _]. eauto.
Qed.
Lemma init_targets_tr y : forall ts h, init_targets (th h) ts y = rmap tp1 (init_targets h ts y).
Proof.
  induction ts as [|t ts IH]; intros h; auto. cbn [init_targets]. rewrite tree_update_y_tr. destruct (tree_update_y h t (Some y)) as [[h1 t1]| |]; cbn [rbind rmap tp1 fst snd]; auto.
  rewrite tree_update_y_tr. destruct (tree_update_y h1 t1 None) as [[h2 t2]| |]; cbn [rbind rmap tp1 fst snd]; auto. rewrite IH. destruct (init_targets h2 ts y) as [[h3 ts3]| |]; reflexivity.
Qed.
Lemma init_targets_wf y : forall ts h h' ts', wfh h -> init_targets h ts y = Ok (h', ts') -> wfh h'.
Proof. induction ts as [|t ts IH]; intros h h' ts' W; cbn [init_targets]; [now intros [= <- _]|]. inv_ok. inv_ok. inv_ok. intros [= <- _]. eauto using tree_update_y_wf. Qed.
Lemma initialize_trees_tr h d m : wfh h -> wfd d -> initialize_trees (th h) (tdt d) m = rmap tp1 (initialize_trees h d m) /\ (forall h' ts, initialize_trees h d m = Ok (h', ts) -> wfh h').
Proof.
  intros W Wd. unfold initialize_trees. destruct (new_trees_tr d Wd m h W) as [E V]. rewrite E. destruct (new_trees m h d) as [[h1 ts]| |]; cbn [rbind rmap tp1 fst snd]; try (split; auto; discriminate).
  specialize (V _ _ eq_refl). destruct ts as [|t ts]; [split; auto; now intros h' ts [= <- _]|]. change (data_values (tdt d)) with (data_values d).
  destruct (data_values d) as [y| |]; cbn [rbind]; try (split; auto; discriminate). split; [apply init_targets_tr|]. intros h' ts'. now apply init_targets_wf.
Qed.
Lemma make_model_tr h d s p : wfh h -> wfd d -> make_model (th h) (tdt d) s p = rmap tmd (make_model h d s p) /\ (forall m, make_model h d s p = Ok m -> wfm m).
Proof.
  intros W Wd. unfold make_model. destruct (initialize_trees_tr h d (pa_ntrees p) W Wd) as [E V]. rewrite E. destruct (initialize_trees h d (pa_ntrees p)) as [[h1 ts]| |]; cbn [rbind rmap]; split; auto; try discriminate.
  intros m [= <-]. unfold wfm. simpl. eauto.
Qed.
Lemma predict_all_tr h : forall ts, predict_all (th h) ts = predict_all h ts.
Proof. induction ts as [|t ts IH]; auto. cbn [predict_all]. now rewrite tree_predict_tr, IH. Qed.
Definition tq2 {A} (p : A * model) : A * model := (fst p, tmd (snd p)).
Lemma model_predict_tr m : model_predict (tmd m) = rmap tq2 (model_predict m).
Proof.
  unfold model_predict. change (m_heap (tmd m)) with (th (m_heap m)). change (m_trees (tmd m)) with (m_trees m). rewrite predict_all_tr.
  destruct (predict_all (m_heap m) (m_trees m)) as [[vs ts]| |]; cbn [rbind rmap]; auto. change (d_mask (m_data (tmd m))) with (d_mask (m_data m)). destruct (vsum _ vs); reflexivity.
Qed.
Lemma model_predict_wf m v m' : wfm m -> model_predict m = Ok (v, m') -> wfm m'.
Proof. intros W. unfold model_predict. inv_ok. inv_ok. now intros [= _ <-]. Qed.
Lemma residuals_tr m : residuals (tmd m) = rmap tq2 (residuals m).
Proof.
  unfold residuals. change (data_values (m_data (tmd m))) with (data_values (m_data m)). destruct (data_values (m_data m)) as [y| |]; cbn [rbind rmap]; auto. rewrite model_predict_tr.
  destruct (model_predict m) as [[v m1]| |]; cbn [rbind rmap tq2 fst snd]; auto. destruct (vop Rminus y v); reflexivity.
Qed.
Lemma residuals_wf m v m' : wfm m -> residuals m = Ok (v, m') -> wfm m'.
Proof. intros W. unfold residuals. inv_ok. inv_ok. inv_ok. intros [= _ <-]. eauto using model_predict_wf. Qed.
Lemma rt_start_tr m : rt_start (tmd m) = rmap tmd (rt_start m).
Proof.
  unfold rt_start. change (m_pred (tmd m)) with (m_pred m). destruct (m_pred m); auto. rewrite model_predict_tr. destruct (model_predict m) as [[v m1]| |]; reflexivity.
Qed.
Lemma rt_start_wf m m' : wfm m -> rt_start m = Ok m' -> wfm m'.
Proof. intros W. unfold rt_start. destruct (m_pred m); [now intros [= <-]|]. inv_ok. intros [= <-]. apply (model_predict_wf m l m0 W E). Qed.
Lemma rt_open_tr m j : rt_open (tmd m) j = rmap tmd (rt_open m j).
Proof.
  unfold rt_open. change (m_trees (tmd m)) with (m_trees m). change (m_pred (tmd m)) with (m_pred m). change (m_heap (tmd m)) with (th (m_heap m)).
  destruct (nth_error (m_trees m) j) as [t|]; auto. destruct (m_pred m) as [pr|]; auto. rewrite tree_predict_tr. destruct (tree_predict (m_heap m) t) as [[v t1]| |]; cbn [rbind]; auto.
  destruct (vop Rminus pr v) as [pr1| |]; cbn [rbind]; auto. change (data_values (m_data (tmd m))) with (data_values (m_data m)). destruct (data_values (m_data m)) as [y| |]; cbn [rbind]; auto.
  destruct (vop Rminus y pr1) as [tg| |]; cbn [rbind]; auto. rewrite tree_update_y_tr. destruct (tree_update_y (m_heap m) t1 (Some tg)) as [[h1 t2]| |]; reflexivity.
Qed.
Lemma rt_open_wf m j m' : wfm m -> rt_open m j = Ok m' -> wfm m'.
Proof.
  intros W. unfold rt_open. destruct (nth_error (m_trees m) j); [|discriminate]. destruct (m_pred m); [|discriminate]. inv_ok. inv_ok. inv_ok. inv_ok. inv_ok. intros [= <-].
  unfold wfm. simpl. eauto using tree_update_y_wf.
Qed.
Lemma rt_close_tr m j : rt_close (tmd m) j = rmap tmd (rt_close m j).
Proof.
  unfold rt_close. change (m_trees (tmd m)) with (m_trees m). change (m_pred (tmd m)) with (m_pred m). change (m_heap (tmd m)) with (th (m_heap m)).
  destruct (nth_error (m_trees m) j) as [t|]; auto. destruct (m_pred m) as [pr|]; auto. rewrite tree_predict_tr. destruct (tree_predict (m_heap m) t) as [[v t1]| |]; cbn [rbind]; auto.
  destruct (vop Rplus pr v) as [pr1| |]; reflexivity.
Qed.
Lemma rt_close_wf m j m' : wfm m -> rt_close m j = Ok m' -> wfm m'.
Proof. intros W. unfold rt_close. destruct (nth_error (m_trees m) j); [|discriminate]. destruct (m_pred m); [|discriminate]. inv_ok. inv_ok. now intros [= <-]. Qed.
Lemma sigma_step_tr m r : sigma_step (tmd m) r = rmap (fun p => (tmd (fst p), snd p)) (sigma_step m r).
Proof.
  unfold sigma_step. rewrite residuals_tr. destruct (residuals m) as [[e m1]| |]; cbn [rbind rmap tq2 fst snd]; auto.
  change (m_par (tmd m)) with (m_par m). change (cm_nobsv (d_X (m_data (tmd m)))) with (cm_nobsv (d_X (m_data m))).
  destruct (Req_EM_T _ _); auto. destruct (Rlt_dec _ _); auto. destruct (Rlt_dec _ _); auto. destruct (rg_gamma r); auto. destruct (sigma_value _); auto.
Qed.
Lemma sigma_step_wf m r m' r' : wfm m -> sigma_step m r = Ok (m', r') -> wfm m'.
Proof.
  intros W. unfold sigma_step. inv_ok. destruct (Req_EM_T _ _); try discriminate. destruct (Rlt_dec _ _); try discriminate. destruct (Rlt_dec _ _); try discriminate.
  destruct (rg_gamma r); try discriminate. destruct (sigma_value _); try discriminate. intros [= <- _]. unfold wfm. simpl. exact (residuals_wf m l m0 W E).
Qed.
Definition tq4 {A B C} (p : A * B * C * model) : A * B * C * model := (fst p, tmd (snd p)).
Lemma gen_tree_tr m fr j : gen_tree (tmd m) fr j = rmap tq4 (gen_tree m fr j).
Proof. unfold gen_tree. change (m_trees (tmd m)) with (m_trees m). destruct (_ <? _); auto. rewrite rt_open_tr. destruct (rt_open m j); reflexivity. Qed.
Lemma gen_tree_wf m fr j y pc fr' m' : wfm m -> gen_tree m fr j = Ok (y, pc, fr', m') -> wfm m'.
Proof. intros W. unfold gen_tree. destruct (_ <? _); [|now intros [= _ _ _ <-]]. inv_ok. intros [= _ _ _ <-]. eauto using rt_open_wf. Qed.
Lemma gen_leaves_tr m fr j rest : gen_leaves (tmd m) fr j rest = rmap tq4 (gen_leaves m fr j rest).
Proof. unfold gen_leaves. destruct rest; auto. rewrite rt_close_tr. destruct (rt_close m j); cbn [rbind rmap]; auto. apply gen_tree_tr. Qed.
Lemma gen_leaves_wf m fr j rest y pc fr' m' : wfm m -> gen_leaves m fr j rest = Ok (y, pc, fr', m') -> wfm m'.
Proof. intros W. unfold gen_leaves. destruct rest; [|now intros [= _ _ _ <-]]. inv_ok. intros E2. eauto using rt_close_wf, gen_tree_wf. Qed.
Lemma gen_next_tr m fr pc : gen_next (tmd m) fr pc = rmap tq4 (gen_next m fr pc).
Proof.
  destruct pc; cbn [gen_next]; auto using gen_leaves_tr.
  - rewrite rt_start_tr. destruct (rt_start m); cbn [rbind rmap]; auto using gen_tree_tr.
  - change (m_trees (tmd m)) with (m_trees m). destruct (nth_error (m_trees m) j); auto. change (m_heap (tmd m)) with (th (m_heap m)). rewrite leaf_nodes_tr. apply gen_leaves_tr.
Qed.
Lemma gen_next_wf m fr pc y pc' fr' m' : wfm m -> gen_next m fr pc = Ok (y, pc', fr', m') -> wfm m'.
Proof.
  intros W. destruct pc; cbn [gen_next].
  - inv_ok. intros E2. eauto using rt_start_wf, gen_tree_wf.
  - destruct (nth_error (m_trees m) j); [|discriminate]. now apply gen_leaves_wf.
  - now apply gen_leaves_wf.
  - now intros [= _ _ _ <-].
Qed.

Lemma sigma_step_sim m : simR tmd (sigma_step m) (sigma_step (tmd m)).
Proof.
  apply simR_pure; intros r.
  - intros l. unfold sigma_step. destruct (residuals m) as [[e m1]| |]; cbn [rbind]; auto. destruct (Req_EM_T _ _); auto. destruct (Rlt_dec _ _); auto. destruct (Rlt_dec _ _); auto.
    cbn [rng_set_index rg_gamma]. destruct (rg_gamma r); auto. destruct (sigma_value _); auto.
  - rewrite sigma_step_tr. destruct (sigma_step m r) as [[m1 r1]| |]; reflexivity.
Qed.
Lemma call_wf m fr thk r a m' b : wfm m -> call m fr thk r = Ok (a, m', b) -> wfm m'.
Proof.
  intros W. destruct thk; cbn [call].
  - destruct (fr_tree fr) as [j|]; try discriminate. destruct (nth_error (m_trees m) j) as [t|]; try discriminate.
    destruct (tree_step (m_heap m) t (m_sigma m) (m_par m) r) as [[[[om h1] t1] r1]| |] eqn:E; try discriminate. intros [= _ <- _]. unfold wfm. simpl. eauto using tree_step_wf.
  - destruct (fr_leaf fr) as [i|]; try discriminate. destruct (leaf_step (m_heap m) i (m_sigma m) (m_par m) r) as [[h1 r1]| |] eqn:E; try discriminate. intros [= _ <- _]. unfold wfm. simpl. eauto using leaf_step_wf.
  - destruct (sigma_step m r) as [[m1 r1]| |] eqn:E; try discriminate. intros [= _ <- _]. eauto using sigma_step_wf.
Qed.
Lemma call_sim m fr thk : wfm m -> simR tq2 (call m fr thk) (call (tmd m) fr thk).
Proof.
  intros W. destruct thk; unfold call.
  - destruct (fr_tree fr) as [j|]; [|apply simR_raise]. change (m_trees (tmd m)) with (m_trees m). destruct (nth_error (m_trees m) j) as [t|]; [|apply simR_raise].
    change (m_heap (tmd m)) with (th (m_heap m)). change (m_sigma (tmd m)) with (m_sigma m). change (m_par (tmd m)) with (m_par m).
    eapply simR_ext; [| |apply (simR_map tpm tq2 _ _ (fun a => (match fst (fst a) with Some _ => true | None => false end, DoTree j, m_set_trees m (snd (fst a)) (set_nth j (snd a) (m_trees m))))
      (fun a => (match fst (fst a) with Some _ => true | None => false end, DoTree j, m_set_trees (tmd m) (snd (fst a)) (set_nth j (snd a) (m_trees m)))) (fun a => eq_refl) (tree_step_sim (m_heap m) t (m_sigma m) (m_par m) W))].
    + intros r. cbn beta. destruct (tree_step (m_heap m) t (m_sigma m) (m_par m) r) as [[[[om h1] t1] r1]| |]; reflexivity.
    + intros r. cbn beta. destruct (tree_step (th (m_heap m)) t (m_sigma m) (m_par m) r) as [[[[om h1] t1] r1]| |]; reflexivity.
  - destruct (fr_leaf fr) as [i|]; [|apply simR_raise]. change (m_heap (tmd m)) with (th (m_heap m)). change (m_sigma (tmd m)) with (m_sigma m). change (m_par (tmd m)) with (m_par m).
    apply (simR_map th tq2 _ _ (fun h1 => (true, DoLeaf i, m_set_trees m h1 (m_trees m))) (fun h1 => (true, DoLeaf i, m_set_trees (tmd m) h1 (m_trees m))) (fun a => eq_refl) (leaf_step_sim (m_heap m) i (m_sigma m) (m_par m))).
  - apply (simR_map tmd tq2 _ _ (fun m1 => (true, DoSigma, m1)) (fun m1 => (true, DoSigma, m1)) (fun a => eq_refl) (sigma_step_sim m)).
Qed.
Lemma drive_wf : forall fuel m fr pc r a m' b, wfm m -> drive fuel m fr pc r = Ok (a, m', b) -> wfm m'.
Proof.
  induction fuel as [|f IH]; intros m fr pc r a m' b W; cbn [drive]; [discriminate|]. destruct (gen_next m fr pc) as [[[[y pc1] fr1] m1]| |] eqn:E1; try discriminate. cbn [rbind]. apply gen_next_wf in E1; auto.
  destruct y as [[ky thk]|]; [|now intros [= _ <- _]]. destruct (call m1 fr1 thk r) as [[[[result ac] m2] r1]| |] eqn:E2; try discriminate. cbn [rbind]. apply call_wf in E2; auto.
  destruct (drive f m2 fr1 pc1 r1) as [[[[log acts] m3] r2]| |] eqn:E3; try discriminate. intros [= _ <- _]. eauto.
Qed.
Lemma drive_sim : forall fuel m fr pc, wfm m -> simR tq2 (drive fuel m fr pc) (drive fuel (tmd m) fr pc).
Proof.
  induction fuel as [|f IH]; intros m fr pc W; unfold drive; fold drive; [apply simR_none|]. rewrite gen_next_tr.
  destruct (gen_next m fr pc) as [[[[y pc1] fr1] m1]|e|] eqn:E1; cbn [rbind rmap tq4 fst snd]; [|apply simR_raise|apply simR_none]. apply gen_next_wf in E1; auto.
  destruct y as [[ky thk]|]; [|apply (simR_ret tq2 ([], [], m1))].
  eapply simR_ext; [| |apply (simR_bind tq2 tq2 _ _
     (fun a r1 => let! (log, acts, m3, r2) := drive f (snd a) fr1 pc1 r1 in Ok (match trace_log ky (fst (fst a)) with Some b => (ky, b) :: log | None => log end, snd (fst a) :: acts, m3, r2))
     (fun a r1 => let! (log, acts, m3, r2) := drive f (snd a) fr1 pc1 r1 in Ok (match trace_log ky (fst (fst a)) with Some b => (ky, b) :: log | None => log end, snd (fst a) :: acts, m3, r2))
     (fun a => wfm (snd a)) (call_sim m1 fr1 thk E1))].
  - intros r. cbn beta. destruct (call m1 fr1 thk r) as [[[[result ac] m2] r1]| |]; reflexivity.
  - intros r. cbn beta. destruct (call (tmd m1) fr1 thk r) as [[[[result ac] m2] r1]| |]; reflexivity.
  - intros r [[result ac] m2] r1 E. simpl. eauto using call_wf.
  - intros [[result ac] m2] W2. cbn [fst snd tq2] in *.
    eapply simR_ext; [| |apply (simR_map tq2 tq2 _ _ (fun a => (match trace_log ky result with Some b => (ky, b) :: fst (fst a) | None => fst (fst a) end, ac :: snd (fst a), snd a))
       (fun a => (match trace_log ky result with Some b => (ky, b) :: fst (fst a) | None => fst (fst a) end, ac :: snd (fst a), snd a)) (fun a => eq_refl) (IH m2 fr1 pc1 W2))].
    + intros r. cbn beta. destruct (drive f m2 fr1 pc1 r) as [[[[log acts] m3] r2]| |]; reflexivity.
    + intros r. cbn beta. destruct (drive f (tmd m2) fr1 pc1 r) as [[[[log acts] m3] r2]| |]; reflexivity.
Qed.
Lemma gibbs_step_wf m r a m' b : wfm m -> gibbs_step m r = Ok (a, m', b) -> wfm m'.
Proof.
  intros W. unfold gibbs_step. destruct (drive (drive_fuel m) m (Fr None None) GStart r) as [[[[log acts] m1] r1]| |] eqn:E; try discriminate. intros [= _ <- _]. eauto using drive_wf.
Qed.
Lemma gibbs_step_sim m : wfm m -> simR tq2 (gibbs_step m) (gibbs_step (tmd m)).
Proof.
  intros W. unfold gibbs_step. change (drive_fuel (tmd m)) with (drive_fuel m).
  eapply simR_ext; [| |apply (simR_map tq2 tq2 _ _ (fun a => (step_dict (fst (fst a)), snd (fst a), snd a)) (fun a => (step_dict (fst (fst a)), snd (fst a), snd a)) (fun a => eq_refl) (drive_sim (drive_fuel m) m (Fr None None) GStart W))].
  - intros r. cbn beta. destruct (drive (drive_fuel m) m (Fr None None) GStart r) as [[[[log acts] m1] r1]| |]; reflexivity.
  - intros r. cbn beta. destruct (drive (drive_fuel m) (tmd m) (Fr None None) GStart r) as [[[[log acts] m1] r1]| |]; reflexivity.
Qed.
Lemma copy_trees_tr : forall ts h, wfh h -> copy_trees (th h) ts = rmap tp2 (copy_trees h ts) /\ (forall p h', copy_trees h ts = Ok (p, h') -> wfh h').
Proof.
  induction ts as [|t ts IH]; intros h W; cbn [copy_trees]; [split; auto; now intros p h' [= _ <-]|].
  destruct (deep_copy_tree_tr h t W) as [E V]. rewrite E. destruct (deep_copy_tree h t) as [[t1 h1]| |]; cbn [rbind rmap tp2 fst snd]; try (split; auto; discriminate).
  destruct (IH h1 (V _ _ eq_refl)) as [E2 V2]. rewrite E2. destruct (copy_trees h1 ts) as [[ts1 h2]| |]; cbn [rbind rmap tp2 fst snd]; split; auto; try discriminate. intros p h' [= _ <-]. eauto.
Qed.
Lemma deep_copy_model_tr m : wfm m -> deep_copy_model (tmd m) = rmap tq2 (deep_copy_model m) /\ (forall a m', deep_copy_model m = Ok (a, m') -> wfm m').
Proof.
  intros W. unfold deep_copy_model. change (m_heap (tmd m)) with (th (m_heap m)). change (m_trees (tmd m)) with (m_trees m). destruct (copy_trees_tr (m_trees m) (m_heap m) W) as [E V]. rewrite E.
  destruct (copy_trees (m_heap m) (m_trees m)) as [[ts h]| |]; cbn [rbind rmap tp2 fst snd]; split; auto; try discriminate. intros a m' [= _ <-]. unfold wfm. simpl. eauto.
Qed.
Lemma burn_wf : forall b m r m' r', wfm m -> burn b m r = Ok (m', r') -> wfm m'.
Proof.
  induction b as [|b IH]; intros m r m' r' W; cbn [burn]; [now intros [= <- _]|]. destruct (gibbs_step m r) as [[[[dd acts] m1] r1]| |] eqn:E; try discriminate. cbn [rbind]. apply IH. eauto using gibbs_step_wf.
Qed.
Lemma burn_sim : forall b m, wfm m -> simR tmd (burn b m) (burn b (tmd m)).
Proof.
  induction b as [|b IH]; intros m W; unfold burn; fold burn; [apply (simR_ret tmd m)|].
  eapply simR_ext; [| |apply (simR_bind tq2 tmd _ _ (fun a r1 => burn b (snd a) r1) (fun a r1 => burn b (snd a) r1) (fun a => wfm (snd a)) (gibbs_step_sim m W))].
  - intros r. cbn beta. destruct (gibbs_step m r) as [[[[dd acts] m1] r1]| |]; reflexivity.
  - intros r. cbn beta. destruct (gibbs_step (tmd m) r) as [[[[dd acts] m1] r1]| |]; reflexivity.
  - intros r [[dd acts] m1] r1 E. simpl. eauto using gibbs_step_wf.
  - intros a Wa. now apply IH.
Qed.
(** what is kept of one iteration *)
Definition kept (ss : nat) (num : Z) (den : positive) (sp sa : bool) (d : list (skey * R)) (m1 : model) : res (chain * model) :=
  if (num =? 0)%Z then Raise EZeroDivisionError else
  if keeps_sample ss num den then
    let! (ps, m2) := (if sp then let! (v, m2) := model_predict m1 in Ok ([v], m2) else Ok ([], m1)) in
    let! (s, m3) := deep_copy_model m2 in
    Ok (Ch [s] (if sa then [d] else []) ps, m3)
  else Ok (Ch [] [] [], m1).
Lemma sample_iter_eq ss num den sp sa m r : sample_iter ss num den sp sa m r = let! (a, r1) := gibbs_step m r in let! q := kept ss num den sp sa (fst (fst a)) (snd a) in Ok (q, r1).
Proof.
  unfold sample_iter, kept. destruct (gibbs_step m r) as [[[[dd acts] m1] r1]| |]; cbn [rbind fst snd]; auto. destruct (num =? 0)%Z; auto. destruct (keeps_sample ss num den); auto.
  destruct (if sp then let! (v, m2) := model_predict m1 in Ok ([v], m2) else Ok ([], m1)) as [[ps m2]| |]; cbn [rbind]; auto. destruct (deep_copy_model m2) as [[s m3]| |]; reflexivity.
Qed.
Lemma kept_tr ss num den sp sa d m1 : wfm m1 -> kept ss num den sp sa d (tmd m1) = rmap tq2 (kept ss num den sp sa d m1) /\ (forall c m', kept ss num den sp sa d m1 = Ok (c, m') -> wfm m').
Proof.
  intros V. unfold kept. destruct (num =? 0)%Z; try (split; auto; discriminate). destruct (keeps_sample ss num den); [|split; auto; now intros a m' [= _ <-]].
  assert (F : (if sp then let! (v, m2) := model_predict (tmd m1) in Ok ([v], m2) else Ok ([], tmd m1)) = rmap tq2 (if sp then let! (v, m2) := model_predict m1 in Ok ([v], m2) else Ok ([], m1)))
    by (destruct sp; auto; rewrite model_predict_tr; destruct (model_predict m1) as [[v m2]| |]; reflexivity).
  rewrite F. clear F. destruct (if sp then let! (v, m2) := model_predict m1 in Ok ([v], m2) else Ok ([], m1)) as [[ps m2]| |] eqn:Ep; cbn [rbind rmap tq2 fst snd]; try (split; auto; discriminate).
  assert (W2 : wfm m2).
  { destruct sp; [|now injection Ep as _ <-]. destruct (model_predict m1) as [[v m2']| |] eqn:E3; try discriminate. injection Ep as _ <-. eauto using model_predict_wf. }
  destruct (deep_copy_model_tr m2 W2) as [E4 V4]. rewrite E4. destruct (deep_copy_model m2) as [[s m3]| |]; cbn [rbind rmap tq2 fst snd]; split; auto; try discriminate. intros a m' [= _ <-]. eauto.
Qed.
Lemma sample_iter_wf ss num den sp sa m r a m' b : wfm m -> sample_iter ss num den sp sa m r = Ok (a, m', b) -> wfm m'.
Proof.
  intros W. rewrite sample_iter_eq. destruct (gibbs_step m r) as [[[[dd acts] m1] r1]| |] eqn:E; try discriminate. cbn [rbind fst snd]. apply gibbs_step_wf in E; auto.
  destruct (kept ss num den sp sa dd m1) as [[c m2]| |] eqn:E2; try discriminate. intros [= _ <- _]. exact (proj2 (kept_tr ss num den sp sa dd m1 E) _ _ E2).
Qed.
Lemma sample_iter_sim ss num den sp sa m : wfm m -> simR tq2 (sample_iter ss num den sp sa m) (sample_iter ss num den sp sa (tmd m)).
Proof.
  intros W. eapply simR_ext; [intros r; apply sample_iter_eq|intros r; apply sample_iter_eq|].
  apply (simR_bind tq2 tq2 _ _ (fun a r1 => let! q := kept ss num den sp sa (fst (fst a)) (snd a) in Ok (q, r1)) (fun a r1 => let! q := kept ss num den sp sa (fst (fst a)) (snd a) in Ok (q, r1)) (fun a => wfm (snd a)) (gibbs_step_sim m W)).
  - intros r [[dd acts] m1] r1 E. simpl. eauto using gibbs_step_wf.
  - intros [[dd acts] m1] W1. cbn [fst snd tq2] in *. rewrite (proj1 (kept_tr ss num den sp sa dd m1 W1)). destruct (kept ss num den sp sa dd m1) as [q|e|]; cbn [rbind rmap]; [apply (simR_ret tq2 q)|apply simR_raise|apply simR_none].
Qed.
Lemma sample_loop_wf num den sp sa : forall todo ss m r a m' b, wfm m -> sample_loop ss todo num den sp sa m r = Ok (a, m', b) -> wfm m'.
Proof.
  induction todo as [|todo IH]; intros ss m r a m' b W; cbn [sample_loop]; [now intros [= _ <- _]|].
  destruct (sample_iter ss num den sp sa m r) as [[[c m1] r1]| |] eqn:E; try discriminate. cbn [rbind]. apply sample_iter_wf in E; auto.
  destruct (sample_loop (S ss) todo num den sp sa m1 r1) as [[[c' m2] r2]| |] eqn:E2; try discriminate. intros [= _ <- _]. eauto.
Qed.
Lemma sample_loop_sim num den sp sa : forall todo ss m, wfm m -> simR tq2 (sample_loop ss todo num den sp sa m) (sample_loop ss todo num den sp sa (tmd m)).
Proof.
  induction todo as [|todo IH]; intros ss m W; unfold sample_loop; fold sample_loop; [apply (simR_ret tq2 (Ch [] [] [], m))|].
  eapply simR_ext; [| |apply (simR_bind tq2 tq2 _ _ (fun a r1 => let! (c', m2, r2) := sample_loop (S ss) todo num den sp sa (snd a) r1 in Ok (ch_app (fst a) c', m2, r2))
     (fun a r1 => let! (c', m2, r2) := sample_loop (S ss) todo num den sp sa (snd a) r1 in Ok (ch_app (fst a) c', m2, r2)) (fun a => wfm (snd a)) (sample_iter_sim ss num den sp sa m W))].
  - intros r. cbn beta. destruct (sample_iter ss num den sp sa m r) as [[[c m1] r1]| |]; reflexivity.
  - intros r. cbn beta. destruct (sample_iter ss num den sp sa (tmd m) r) as [[[c m1] r1]| |]; reflexivity.
  - intros r [c m1] r1 E. simpl. eauto using sample_iter_wf.
  - intros [c m1] W1. cbn [fst snd tq2] in *.
    eapply simR_ext; [| |apply (simR_map tq2 tq2 _ _ (fun a => (ch_app c (fst a), snd a)) (fun a => (ch_app c (fst a), snd a)) (fun a => eq_refl) (IH (S ss) m1 W1))].
    + intros r. cbn beta. destruct (sample_loop (S ss) todo num den sp sa m1 r) as [[[c' m2] r2]| |]; reflexivity.
    + intros r. cbn beta. destruct (sample_loop (S ss) todo num den sp sa (tmd m1) r) as [[[c' m2] r2]| |]; reflexivity.
Qed.
Lemma samples_wf m ns nb thn sp sa r a m' b : wfm m -> samples m ns nb thn sp sa r = Ok (a, m', b) -> wfm m'.
Proof.
  intros W. unfold samples. destruct (burn nb m r) as [[m1 r1]| |] eqn:E; try discriminate. cbn [rbind]. destruct thn as [|num den]; try discriminate. apply sample_loop_wf. eauto using burn_wf.
Qed.
Lemma samples_sim m ns nb thn sp sa : wfm m -> simR tq2 (samples m ns nb thn sp sa) (samples (tmd m) ns nb thn sp sa).
Proof.
  intros W. unfold samples.
  apply (simR_bind tmd tq2 _ _ (fun m1 r1 => match thn with TZero => Raise EZeroDivisionError | TInv num den => sample_loop 0 ns num den sp sa m1 r1 end)
     (fun m1 r1 => match thn with TZero => Raise EZeroDivisionError | TInv num den => sample_loop 0 ns num den sp sa m1 r1 end) wfm (burn_sim nb m W)).
  - intros r m1 r1 E. eauto using burn_wf.
  - intros m1 W1. destruct thn as [|num den]; [apply simR_raise|]. now apply sample_loop_sim.
Qed.
Lemma predict_out_all_tr h X : wfh h -> rectangular X -> mx_ncols X = n1 -> forall ts, predict_out_all (th h) ts X = predict_out_all h ts (copies po X).
Proof. intros W F O. induction ts as [|t ts IH]; auto. cbn [predict_out_all]. now rewrite tree_predict_out_tr, IH. Qed.
Lemma sample_predict_tr h s X : wfh h -> rectangular X -> mx_ncols X = n1 -> sample_predict (th h) s X = sample_predict h s (copies po X).
Proof. intros W F O. unfold sample_predict, trees_predict_out. now rewrite predict_out_all_tr, copies_rows by auto. Qed.

(** ** the estimator *)
Lemma convert_tr y : convert_to_data X1 y = rmap tdt (convert_to_data X0 y) /\ (forall d, convert_to_data X0 y = Ok d -> wfd d).
Proof.
  unfold convert_to_data, make_data. destruct (make_target y _ true None) as [t| |]; cbn [rbind rmap]; split; auto; try discriminate. intros d [= <-]. now repeat split.
Qed.
Definition tsk (s : sklearn) : sklearn :=
  Sk (sk_par s) (sk_nchains s) (sk_nsamples s) (sk_nburn s) (sk_thin s) (sk_store_preds s) (sk_store_accept s)
     (option_map tdt (sk_data s)) (option_map tmd (sk_model s)) (option_map (map (fun hs => (th (fst hs), snd hs))) (sk_samples s)) (sk_preds s) (sk_accept s).
Definition wfsk (s : sklearn) : Prop := (forall d, sk_data s = Some d -> wfd d) /\ (forall m, sk_model s = Some m -> wfm m) /\ (forall ss, sk_samples s = Some ss -> Forall (fun hs => wfh (fst hs)) ss).
Lemma ncols_zero : (mx_ncols X1 =? 0) = (mx_ncols X0 =? 0).
Proof.
  change (mx_ncols X0) with n. change (mx_ncols X1) with n1. destruct (Nat.eqb_spec n1 0) as [E|E], (Nat.eqb_spec n 0) as [E'|E']; auto.
  - exfalso. assert (L : iv 0 < n1) by (apply iv_in; lia). lia.
  - exfalso. destruct (iv_onto 0) as (j&L&_); lia.
Qed.
Lemma construct_tr s h y : wfh h -> construct_model (tsk s) (th h) X1 y = rmap tsk (construct_model s h X0 y) /\
  (forall s', construct_model s h X0 y = Ok s' -> (forall d, sk_data s' = Some d -> wfd d) /\ (forall m, sk_model s' = Some m -> wfm m)).
Proof.
  intros W. unfold construct_model. replace (length (mx_rows X1)) with (length (mx_rows X0)) by apply copies_rows. rewrite ncols_zero.
  destruct ((length (mx_rows X0) =? 0) || (mx_ncols X0 =? 0))%bool; try (split; auto; discriminate). destruct (convert_tr y) as [E V]. rewrite E. destruct (convert_to_data X0 y) as [d| |]; cbn [rbind rmap]; try (split; auto; discriminate).
  specialize (V _ eq_refl). change (normalizing_scale (d_y (tdt d))) with (normalizing_scale (d_y d)). destruct (normalizing_scale (d_y d)); cbn [rbind]; try (split; auto; discriminate).
  change (sk_par (tsk s)) with (sk_par s). destruct (make_model_tr h d 1 (sk_par s) W V) as [E2 V2]. rewrite E2. destruct (make_model h d 1 (sk_par s)) as [m| |]; cbn [rbind rmap]; split; auto; try discriminate.
  intros s' [= <-]. split; simpl; intros ? [= <-]; auto.
Qed.
Definition trc (q : chain * sklearn * heap) : chain * sklearn * heap := (fst (fst q), tsk (snd (fst q)), th (snd q)).
Lemma run_chain_sim s h y : wfh h ->
  { F : rng -> list nat -> list nat | (forall q, good (F q)) /\ forall r, run_chain (tsk s) (th h) X1 y (ap F r) = rmap trc (run_chain s h X0 y r) }.
Proof.
  intros W. unfold run_chain. destruct (construct_tr s h y W) as [E V]. rewrite E. destruct (construct_model s h X0 y) as [s1| |]; cbn [rbind rmap].
  2,3: exists (fun _ l => l); split; [intros; apply good_id|reflexivity].
  destruct (V _ eq_refl) as [V1 V2]. cbn [tsk sk_model sk_data sk_nsamples sk_nburn sk_thin sk_store_preds sk_store_accept].
  destruct (sk_model s1) as [m|]; cbn [option_map]; [|exists (fun _ l => l); split; [intros; apply good_id|reflexivity]].
  destruct (sk_data s1) as [d|]; cbn [option_map]; [|exists (fun _ l => l); split; [intros; apply good_id|reflexivity]].
  destruct (samples_sim m (sk_nsamples s) (sk_nburn s) (sk_thin s) (sk_store_preds s) (sk_store_accept s) (V2 _ eq_refl) (fun _ _ l => l) (fun _ _ => good_id)) as (F&G&H).
  exists F. split; auto. intros r. specialize (H r). destruct (samples m _ _ _ _ _ r) as [[[c m1] r1]| |]; rewrite H; reflexivity.
Qed.
Lemma run_chain_wf s h y r c s1 h1 : wfh h -> run_chain s h X0 y r = Ok (c, s1, h1) -> wfh h1.
Proof.
  intros W. unfold run_chain. destruct (construct_tr s h y W) as [_ V]. destruct (construct_model s h X0 y) as [s2| |]; try discriminate. cbn [rbind]. destruct (V _ eq_refl) as [_ V2].
  destruct (sk_model s2) as [m|]; try discriminate. destruct (sk_data s2) as [d|]; try discriminate. destruct (samples m _ _ _ _ _ r) as [[[c1 m1] r1]| |] eqn:E; try discriminate.
  intros [= _ _ <-]. apply samples_wf in E; auto.
Qed.
Definition tex (e : extract) : extract := (th (fst e), snd e).
Lemma run_processes_sim s h y F : wfh h -> (forall r, run_chain (tsk s) (th h) X1 y (ap F r) = rmap trc (run_chain s h X0 y r)) -> forall nc rs,
  run_processes (repeat (tsk s, th h, X1, y) nc) (map (ap F) rs) = rmap (map tex) (run_processes (repeat (s, h, X0, y) nc) rs) /\
  (forall es, run_processes (repeat (s, h, X0, y) nc) rs = Ok es -> Forall (fun e => wfh (fst e)) es).
Proof.
  intros W H. induction nc as [|nc IH]; intros rs; [split; auto; now intros es [= <-]|]. cbn [repeat run_processes]. destruct rs as [|r rs]; cbn [map]; [split; auto; discriminate|]. rewrite H.
  destruct (run_chain s h X0 y r) as [[[c s1] h1]| |] eqn:E; cbn [rbind rmap fst snd]; try (split; auto; discriminate). unfold trc. cbn [rbind fst snd]. destruct (IH rs) as [E2 V2]. rewrite E2. destruct (run_processes (repeat (s, h, X0, y) nc) rs) as [es| |]; cbn [rbind rmap]; split; auto; try discriminate.
  intros es' [= <-]. constructor; eauto using run_chain_wf.
Qed.
Lemma store_chains_tr s es : store_chains (tsk s) (map tex es) = rmap tsk (store_chains s es).
Proof.
  change (map tex es) with (map (fun e : extract => (th (fst e), snd e)) es). unfold store_chains, combine_chains. destruct es as [|e0 es0]; auto. set (es := e0 :: es0).
  replace (match map (fun e : extract => (th (fst e), snd e)) es with [] => Raise EIndexError | _ => _ end) with
    (Ok (map (fun hs : stored_sample => (th (fst hs), snd hs)) (flat_map (fun e : extract => map (fun sm => (fst e, sm)) (ch_models (snd e))) es),
         flat_map (fun e : extract => ch_preds (snd e)) es, flat_map (fun e : extract => ch_accept (snd e)) es)).
  - reflexivity.
  - transitivity (Ok (flat_map (fun e : extract => map (fun sm => (fst e, sm)) (ch_models (snd e))) (map (fun e : extract => (th (fst e), snd e)) es),
         flat_map (fun e : extract => ch_preds (snd e)) (map (fun e : extract => (th (fst e), snd e)) es), flat_map (fun e : extract => ch_accept (snd e)) (map (fun e : extract => (th (fst e), snd e)) es))); [|reflexivity].
    rewrite !flat_map_map, map_flat_map. cbn [fst snd]. do 3 f_equal. apply flat_map_ext. intros e. now rewrite map_map.
Qed.
Lemma store_chains_wf s es s' : (forall d, sk_data s = Some d -> wfd d) -> (forall m, sk_model s = Some m -> wfm m) -> Forall (fun e : extract => wfh (fst e)) es -> store_chains s es = Ok s' -> wfsk s'.
Proof.
  intros V1 V2 F. unfold store_chains, combine_chains. destruct es as [|e0 es0]; [discriminate|]. intros [= <-]. split; [|split]; simpl; auto. intros ss [= <-].
  apply Forall_forall. intros hs I. change (In hs (flat_map (fun e : extract => map (fun sm => (fst e, sm)) (ch_models (snd e))) (e0 :: es0))) in I.
  apply in_flat_map in I as (e&Ie&I). apply in_map_iff in I as (sm&<-&_). rewrite Forall_forall in F. now apply F.
Qed.
Lemma fit_sim s y : { F : rng -> list nat -> list nat | (forall q, good (F q)) /\
  forall rs, fit Processes (tsk s) h_empty X1 y (map (ap F) rs) = rmap tsk (fit Processes s h_empty X0 y rs) /\ (forall s', fit Processes s h_empty X0 y rs = Ok s' -> wfsk s') }.
Proof.
  assert (W : wfh h_empty) by (intros j a; discriminate). change h_empty with (th h_empty) at 1. unfold fit. destruct (construct_tr s h_empty y W) as [E V].
  rewrite E. destruct (construct_model s h_empty X0 y) as [s1| |]; cbn [rbind rmap].
  2,3: exists (fun _ l => l); split; [intros; apply good_id|split; [reflexivity|discriminate]].
  destruct (V _ eq_refl) as [V1 V2].
  change (sk_model (tsk s1)) with (option_map tmd (sk_model s1)). change (sk_nchains (tsk s1)) with (sk_nchains s1).
  destruct (sk_model s1) as [m|] eqn:Em; cbn [option_map]; [|exists (fun _ l => l); split; [intros; apply good_id|split; [reflexivity|discriminate]]].
  change (m_heap (tmd m)) with (th (m_heap m)). assert (Wm : wfh (m_heap m)) by (apply V2; auto). destruct (run_chain_sim s1 (m_heap m) y Wm) as (F&G&H). exists F. split; auto. intros rs.
  destruct (run_processes_sim s1 (m_heap m) y F Wm H (sk_nchains s1) rs) as [E2 V3]. rewrite E2.
  destruct (run_processes (repeat (s1, m_heap m, X0, y) (sk_nchains s1)) rs) as [es| |]; cbn [rbind rmap]; [|split; auto; discriminate..].
  split; [apply store_chains_tr|]. intros s' Es. refine (store_chains_wf _ _ _ V1 _ (V3 _ eq_refl) Es). rewrite Em. exact V2.
Qed.
Lemma predict_samples_tr X : rectangular X -> mx_ncols X = n1 -> forall ss, Forall (fun hs => wfh (fst hs)) ss ->
  predict_samples (map (fun hs : stored_sample => (th (fst hs), snd hs)) ss) X = predict_samples ss (copies po X).
Proof. intros F O. induction 1 as [|[h s] ss W Fs IH]; auto. cbn [map predict_samples fst snd] in *. now rewrite sample_predict_tr, IH. Qed.
Lemma cc_variable_tr c : cc_splitting_variable (tcc c) = option_map iv (cc_splitting_variable c).
Proof. destruct c as [vs qs]. unfold cc_splitting_variable, tcc, last_opt. cbn [cc_conds]. rewrite <- map_rev. now destruct (rev qs). Qed.
Lemma node_variables_tr h : forall ids, node_variables (th h) ids = rmap (map (option_map iv)) (node_variables h ids).
Proof.
  induction ids as [|i ids IH]; auto. cbn [node_variables]. change (h_get (th h) i) with (option_map tnd (h_get h i)). rewrite IH.
  destruct (h_get h i) as [[q [s|c] dp]|]; cbn [option_map]; auto. unfold tnd. cbn [nd_kind nd_split nd_depth tns]. rewrite cc_variable_tr. now destruct (node_variables h ids).
Qed.
Lemma tree_variables_tr h : forall ts, tree_variables (th h) ts = rmap (map (option_map iv)) (tree_variables h ts).
Proof.
  induction ts as [|t ts IH]; auto. cbn [tree_variables]. rewrite node_variables_tr, IH. destruct (node_variables h (tr_nodes t)); cbn [rbind rmap]; auto.
  destruct (tree_variables h ts); cbn [rbind rmap]; auto. now rewrite map_app.
Qed.
Lemma sample_variables_tr : forall ss, sample_variables (map (fun hs : stored_sample => (th (fst hs), snd hs)) ss) = rmap (map (option_map iv)) (sample_variables ss).
Proof.
  induction ss as [|[h s] ss IH]; auto. cbn [map sample_variables fst snd]. rewrite tree_variables_tr, IH. destruct (tree_variables h (sm_trees s)); cbn [rbind rmap]; auto.
  destruct (sample_variables ss); cbn [rbind rmap]; auto. now rewrite map_app.
Qed.
Lemma node_depths_tr h : forall ids, node_depths (th h) ids = node_depths h ids.
Proof. induction ids as [|i ids IH]; auto. cbn [node_depths]. change (h_get (th h) i) with (option_map tnd (h_get h i)). rewrite IH. now destruct (h_get h i) as [[q s dp]|]. Qed.
Lemma model_depths_tr h : forall ts, model_depths (th h) ts = model_depths h ts.
Proof. induction ts as [|t ts IH]; auto. cbn [model_depths]. now rewrite node_depths_tr, IH. Qed.
Lemma depth_summaries_tr : forall ss, depth_summaries (map (fun hs : stored_sample => (th (fst hs), snd hs)) ss) = depth_summaries ss.
Proof. induction ss as [|[h s] ss IH]; auto. cbn [map depth_summaries fst snd]. now rewrite model_depths_tr, IH. Qed.
(** every variable that a stored sample splits on is a column *)
Definition colvar (o : option nat) : Prop := match o with Some v => v < n | None => True end.
Lemma node_variables_col h : wfh h -> forall ids l, node_variables h ids = Ok l -> Forall colvar l.
Proof.
  intros W. induction ids as [|i ids IH]; intros l; cbn [node_variables]; [intros [= <-]; constructor|]. destruct (h_get h i) as [[q [s|c] dp]|] eqn:E; try discriminate.
  destruct (node_variables h ids) as [vs| |]; try discriminate. intros [= <-]. constructor; auto. apply W in E. apply wfcc_vars in E. unfold cc_splitting_variable, last_opt.
  destruct (rev (cc_conds c)) as [|s l'] eqn:Er; simpl; auto. rewrite Forall_forall in E. apply E. apply in_rev. rewrite Er. now left.
Qed.
Lemma tree_variables_col h : wfh h -> forall ts l, tree_variables h ts = Ok l -> Forall colvar l.
Proof.
  intros W. induction ts as [|t ts IH]; intros l; cbn [tree_variables]; [intros [= <-]; constructor|]. destruct (node_variables h (tr_nodes t)) as [a| |] eqn:E; try discriminate. cbn [rbind].
  destruct (tree_variables h ts) as [b| |]; try discriminate. intros [= <-]. apply Forall_app. eauto using node_variables_col.
Qed.
Lemma sample_variables_col : forall ss l, Forall (fun hs : stored_sample => wfh (fst hs)) ss -> sample_variables ss = Ok l -> Forall colvar l.
Proof.
  induction ss as [|[h s] ss IH]; intros l F; cbn [sample_variables]; [intros [= <-]; constructor|]. inversion F; subst. cbn [fst] in *. destruct (tree_variables h (sm_trees s)) as [a| |] eqn:E; try discriminate. cbn [rbind].
  destruct (sample_variables ss) as [b| |]; try discriminate. intros [= <-]. apply Forall_app. eauto using tree_variables_col.
Qed.
Definition share (l : list (option nat)) (c : nat) : R := if (counter l c =? 0)%nat then 0 else INR (counter l c) / INR (length l).
Lemma share_eq l c : share l c = (INR (counter l c) / INR (length l))%R.
Proof. unfold share. destruct (Nat.eqb_spec (counter l c) 0) as [->|N]; auto. simpl. unfold Rdiv. now rewrite Rmult_0_l. Qed.
Lemma dict_set_app {A} c (v : A) : forall d, ~ In c (map fst d) -> dict_set c v d = d ++ [(c, v)].
Proof. induction d as [|[c' v'] d IH]; cbn [dict_set map fst app]; auto. intros N. destruct (Nat.eqb_spec c c') as [->|Nc]; [destruct N; now left|]. rewrite IH; auto. intros I. apply N. now right. Qed.
Lemma proportions_nodup l : forall cs d, NoDup cs -> (forall c, In c cs -> ~ In c (map fst d)) -> proportions_of l cs d = d ++ map (fun c => (c, share l c)) cs.
Proof.
  induction cs as [|c cs IH]; intros d ND N; cbn [proportions_of map]; [now rewrite app_nil_r|]. inversion ND; subst. rewrite dict_set_app by (apply N; now left). rewrite IH; auto.
  - rewrite <- app_assoc. reflexivity.
  - intros c' I. rewrite map_app, in_app_iff. intros [I'|[<-|[]]]; auto. apply (N c'); auto. now right.
Qed.
Lemma counter_cons o l c : INR (counter (o :: l) c) = (INR (counter l c) + if oeq_dec o (Some c) then 1 else 0)%R.
Proof. unfold counter. cbn [count_occ]. destruct (oeq_dec o (Some c)); [now rewrite S_INR|lra]. Qed.
Lemma rsum_cons x l : rsum (x :: l) = (x + rsum l)%R.
Proof. reflexivity. Qed.
Lemma rsum_plus {A} (f g : A -> R) l : rsum (map (fun x => f x + g x)%R l) = (rsum (map f l) + rsum (map g l))%R.
Proof. induction l as [|x l IH]; cbn [map]; [unfold rsum; simpl; lra|]. rewrite !rsum_cons, IH. lra. Qed.
Lemma rsum_mark w : forall cs, NoDup cs -> rsum (map (fun c => if oeq_dec (Some w) (Some c) then 1 else 0)%R cs) = (if in_dec Nat.eq_dec w cs then 1 else 0)%R.
Proof.
  induction 1 as [|c cs N ND IH]; [reflexivity|]. cbn [map]. rewrite rsum_cons, IH. destruct (oeq_dec (Some w) (Some c)) as [E|E].
  - injection E as <-. destruct (in_dec Nat.eq_dec w cs); [contradiction|]. destruct (in_dec Nat.eq_dec w (w :: cs)) as [_|K]; [lra|]. destruct K. now left.
  - destruct (in_dec Nat.eq_dec w cs) as [I|I], (in_dec Nat.eq_dec w (c :: cs)) as [J|J]; try lra; exfalso; [apply J; now right|]. destruct J as [->|J]; auto.
Qed.
Lemma rsum_zero {A} (l : list A) : rsum (map (fun _ => 0%R) l) = 0%R.
Proof. induction l; auto. cbn [map]. rewrite rsum_cons, IHl. lra. Qed.
Lemma copies_in w v : w < n -> (In w (copies_of po v) <-> iv w = v).
Proof.
  intros L. unfold copies_of, iv. rewrite filter_In, in_seq, Nat.eqb_eq. fold n. rewrite (nth_indep po v (n1 + w)) by auto. intuition lia.
Qed.
Lemma copies_nodup v : NoDup (copies_of po v).
Proof. apply NoDup_filter, seq_NoDup. Qed.
Lemma counter_sum v : forall l, Forall colvar l -> INR (counter (map (option_map iv) l) v) = rsum (map (fun j => INR (counter l j)) (copies_of po v)).
Proof.
  induction 1 as [|o l C F IH]; [cbn [map]; symmetry; apply (rsum_zero (copies_of po v))|]. cbn [map]. rewrite counter_cons, IH.
  rewrite (map_ext _ _ (counter_cons o l)). rewrite rsum_plus. f_equal. destruct o as [w|]; cbn [option_map].
  - rewrite rsum_mark by apply copies_nodup. pose proof (copies_in w v C) as [A B]. destruct (oeq_dec (Some (iv w)) (Some v)) as [E|E], (in_dec Nat.eq_dec w (copies_of po v)) as [I|I]; auto; exfalso.
    + apply I, B. congruence.
    + apply E. now rewrite A.
  - destruct (oeq_dec None (Some v)) as [E|_]; [discriminate|]. rewrite (map_ext _ (fun _ => 0%R)); [now rewrite rsum_zero|]. intros c. now destruct (oeq_dec None (Some c)).
Qed.
Lemma rsum_div {A} (f : A -> R) k l : rsum (map (fun x => f x / k)%R l) = (rsum (map f l) / k)%R.
Proof. induction l as [|x l IH]; cbn [map]; [unfold rsum; simpl; unfold Rdiv; lra|]. rewrite !rsum_cons, IH. unfold Rdiv. lra. Qed.
Lemma covers_same m : covers po m -> m = n1.
Proof.
  intros H. destruct (Nat.lt_trichotomy m n1) as [L|[L|L]]; auto; exfalso.
  - assert (I : In m po) by now apply Hcov. apply H in I. lia.
  - assert (I : In n1 po) by now apply H. apply Hcov in I. lia.
Qed.
Lemma same_outcome_refl {A} (m : res A) : same_outcome eq m m.
Proof. destruct m; simpl; auto. Qed.
Lemma tsk_copies s : wfsk s -> copies_share po s (tsk s).
Proof.
  intros (_&_&Wss). split; [|split; [|split; [|split; [|split]]]].
  - unfold sk_predict. cbn [tsk sk_store_preds sk_data sk_preds]. destruct (sk_data s) as [d|]; apply same_outcome_refl.
  - intros X F O. apply covers_same in O. unfold sk_predict, out_of_sample_predict. cbn [tsk sk_data sk_samples]. destruct (sk_data s) as [d|]; cbn [option_map]; [|apply same_outcome_refl].
    destruct (sk_samples s) as [ss|]; cbn [option_map]; [|apply same_outcome_refl]. rewrite predict_samples_tr by auto. apply same_outcome_refl.
  - reflexivity.
  - cbn [tsk sk_samples]. destruct (sk_samples s); cbn [option_map]; auto. now rewrite map_map.
  - unfold plot_tree_depth. cbn [tsk sk_samples]. destruct (sk_samples s); cbn [option_map]; auto. apply depth_summaries_tr.
  - intros v. unfold feature_split_proportions. cbn [tsk sk_samples]. destruct (sk_samples s) as [ss|] eqn:Es; cbn [option_map]; [|reflexivity].
    rewrite sample_variables_tr. destruct (sample_variables ss) as [l0| |] eqn:El; cbn [rbind rmap]; [|reflexivity|exact I]. cbn [same_outcome].
    assert (C : Forall colvar l0) by exact (sample_variables_col ss l0 (Wss _ eq_refl) El).
    rewrite !proportions_nodup by (auto using copies_nodup; repeat constructor; auto). cbn [app map]. rewrite !map_map. cbn [fst snd]. split; [apply map_id|]. do 2 f_equal.
    rewrite (map_ext _ _ (share_eq l0)), rsum_div, share_eq, map_length. f_equal. now apply counter_sum.
Qed.

(** ** the oblivious sampler *)
Lemma one_splittable_ne c : wfc c -> fst (is_at_least_one_splittable_variable c) = true -> fst (splittable_variables c) <> [].
Proof. intros W. rewrite one_splittable_eq by auto using wf_split. destruct (fst (splittable_variables c)); [discriminate|intros _; discriminate]. Qed.
Lemma ob_condition_eq c idx : wfc c -> fst (is_at_least_one_splittable_variable c) = true -> ob_sample_split_condition c idx = sample_split_condition c idx.
Proof.
  intros W E. pose proof (one_splittable_ne c W E) as NE. unfold ob_sample_split_condition, sample_split_condition, random_splittable_variable, np_choice. rewrite E.
  destruct (fst (splittable_variables c)) as [|v vs]; [congruence|]. now destruct idx.
Qed.
Lemma ob_split_node_eq h i idx : wfh h -> is_splittable h i = true -> ob_split_node h i idx = sample_split_node h i idx.
Proof.
  intros W S. unfold ob_split_node, sample_split_node. rewrite S. unfold is_splittable in S. destruct (node_data h i) as [d|] eqn:E; auto. rewrite ob_condition_eq; auto. eapply node_data_wf; eauto.
Qed.
(** an unsplittable leaf *)
Definition twinned (h : heap) (i : nat) : res (nat * heap) :=
  match h_get h i with
  | Some (Nd _ s d) =>
      let (l, h1) := h_alloc h (Nd (KLeaf 0) s (d + 1)) in
      let (r, h2) := h_alloc h1 (Nd (KLeaf 0) s (d + 1)) in
      let (p, h3) := h_alloc h2 (Nd (KDec l r) s d) in
      Ok (p, h3)
  | None => Raise EAttributeError
  end.
Lemma twinned_tr h i : wfh h -> twinned (th h) i = rmap tp2 (twinned h i) /\ (forall p h', twinned h i = Ok (p, h') -> wfh h').
Proof.
  intros W. unfold twinned. rewrite th_get. destruct (h_get h i) as [[kd s d]|] eqn:Eg; cbn [option_map]; [|split; auto; discriminate].
  assert (F : forall h kd d, h_alloc (th h) (Nd kd (tns s) d) = (h_next h, th (snd (h_alloc h (Nd kd s d))))) by (intros h0 kd0 d0; exact (th_alloc h0 (Nd kd0 s d0))).
  assert (V : forall kd0 d0, wfn (Nd kd0 s d0)) by (intros; exact (W _ _ Eg)).
  unfold tnd. cbn [nd_kind nd_split nd_depth]. split.
  - rewrite F. cbn beta iota. rewrite F. cbn beta iota. rewrite F. reflexivity.
  - destruct (h_alloc h _) as [l h1] eqn:E1. destruct (h_alloc h1 _) as [r h2] eqn:E2. destruct (h_alloc h2 _) as [q h3] eqn:E3. intros a h' [= _ <-].
    apply (f_equal snd) in E1, E2, E3. cbn [snd] in E1, E2, E3. rewrite <- E3, <- E2, <- E1. repeat apply wfh_alloc; auto.
Qed.
Lemma ob_split_node_twin h i idx : is_splittable h i = false -> ob_split_node h i idx = let! q := twinned h i in Ok (q, idx).
Proof.
  intros S. unfold ob_split_node, twinned. rewrite S. now destruct (h_get h i) as [[kd s d]|].
Qed.
Lemma ob_split_node_wf h i idx a h' b : wfh h -> ob_split_node h i idx = Ok (a, h', b) -> wfh h'.
Proof.
  intros W. destruct (is_splittable h i) eqn:S; [rewrite ob_split_node_eq by auto; eauto using sample_split_node_wf|]. rewrite ob_split_node_twin by auto.
  destruct (twinned h i) as [[q h1]| |] eqn:E; try discriminate. intros [= _ <- _]. exact (proj2 (twinned_tr h i W) _ _ E).
Qed.
Lemma ob_split_node_sim h i : wfh h -> simL tp2 (ob_split_node h i) (ob_split_node (th h) i).
Proof.
  intros W. pose proof (is_splittable_tr h i W) as S'. destruct (is_splittable h i) eqn:S.
  - apply (simL_ext tp2 (sample_split_node h i) (sample_split_node (th h) i)); [intros l; now apply ob_split_node_eq| |now apply sample_split_node_sim].
    intros l. unfold ob_split_node, sample_split_node. rewrite S'. rewrite node_data_tr. unfold is_splittable in S. destruct (node_data h i) as [d|] eqn:E; cbn [option_map]; auto.
    apply node_data_wf in E; auto. cbn [tdt d_X]. replace (ob_sample_split_condition (tcm (d_X d)) l) with (sample_split_condition (tcm (d_X d)) l); auto.
    pose proof (one_splittable_tr (d_X d) E) as S2. rewrite S in S2. pose proof (proj1 (splittable_nil (d_X d) E)) as L. pose proof (one_splittable_ne (d_X d) E S) as NE.
    unfold ob_sample_split_condition, sample_split_condition, random_splittable_variable, np_choice. rewrite S2.
    destruct (fst (splittable_variables (tcm (d_X d)))) as [|v vs]; [destruct (NE (L eq_refl))|]. now destruct l.
  - eapply simL_ext; [intros l; now apply ob_split_node_twin|intros l; now apply ob_split_node_twin|]. rewrite (proj1 (twinned_tr h i W)).
    destruct (twinned h i) as [q|e|]; cbn [rbind rmap]; [apply (simL_ret tp2 q)|apply simL_raise|apply simL_none].
Qed.
Lemma ob_grows_wf : forall ids h idx a h' b, wfh h -> ob_grows h ids idx = Ok (a, h', b) -> wfh h'.
Proof.
  induction ids as [|i ids IH]; intros h idx a h' b W; cbn [ob_grows]; [now intros [= _ <- _]|].
  destruct (ob_split_node h i idx) as [[[q h1] l1]| |] eqn:E; try discriminate. cbn [rbind]. apply ob_split_node_wf in E; auto. destruct (grow_mutation h1 i q) as [m| |]; try discriminate. cbn [rbind].
  destruct (ob_grows h1 ids l1) as [[[ms h2] l2]| |] eqn:E2; try discriminate. intros [= _ <- _]. eauto.
Qed.
Lemma ob_grows_sim : forall ids h, wfh h -> simL tp2 (ob_grows h ids) (ob_grows (th h) ids).
Proof.
  induction ids as [|i ids IH]; intros h W; unfold ob_grows; fold ob_grows; [apply (simL_ret tp2 ([], h))|].
  eapply simL_ext; [| |apply (simL_bind tp2 tp2 _ _ (fun q l => let! m := grow_mutation (snd q) i (fst q) in let! (ms, h2, l2) := ob_grows (snd q) ids l in Ok (m :: ms, h2, l2))
     (fun q l => let! m := grow_mutation (snd q) i (fst q) in let! (ms, h2, l2) := ob_grows (snd q) ids l in Ok (m :: ms, h2, l2)) (fun q => wfh (snd q)) (ob_split_node_sim h i W))].
  - intros l. cbn beta. destruct (ob_split_node h i l) as [[[q h1] l1]| |]; reflexivity.
  - intros l. cbn beta. destruct (ob_split_node (th h) i l) as [[[q h1] l1]| |]; reflexivity.
  - intros l [q h1] l1 E. simpl. eauto using ob_split_node_wf.
  - intros [q h1] W1. cbn [tp2 fst snd] in *. rewrite grow_mutation_tr. destruct (grow_mutation h1 i q) as [m|e|]; cbn [rbind]; [|apply simL_raise|apply simL_none].
    eapply simL_ext; [| |apply (simL_bind tp2 tp2 _ _ (fun q l => Ok (m :: fst q, snd q, l)) (fun q l => Ok (m :: fst q, snd q, l)) (fun _ => True) (IH h1 W1))]; auto.
    + intros l. cbn beta. destruct (ob_grows h1 ids l) as [[[ms h2] l2]| |]; reflexivity.
    + intros l. cbn beta. destruct (ob_grows (th h1) ids l) as [[[ms h2] l2]| |]; reflexivity.
    + intros [ms h2] _. apply (simL_ret tp2 (m :: ms, h2)).
Qed.
Lemma quiet_twin h i : quiet (twinned h i).
Proof. unfold twinned. destruct (h_get h i) as [[kd s d]|]; [|apply quiet_raise; discriminate]. destruct (h_alloc h _) as [l h1]. destruct (h_alloc h1 _) as [r h2]. destruct (h_alloc h2 _). apply quiet_ok. Qed.
Lemma quiet_ob_split h i idx : wfh h -> quiet (ob_split_node h i idx).
Proof.
  intros W. destruct (is_splittable h i) eqn:S.
  - rewrite ob_split_node_eq by auto. unfold sample_split_node. destruct (node_data h i) as [d|] eqn:E; [|apply quiet_raise; discriminate].
    apply quiet_bind; [apply quiet_condition; eapply node_data_wf; eauto|]. intros [[c0 c1] l2] _. apply quiet_bind; [apply quiet_split_node|]. intros [q h1] _. apply quiet_ok.
  - rewrite ob_split_node_twin by auto. apply quiet_bind; [apply quiet_twin|intros; apply quiet_ok].
Qed.
Lemma quiet_ob_grows : forall ids h idx, wfh h -> quiet (ob_grows h ids idx).
Proof.
  induction ids as [|i ids IH]; intros h idx W; cbn [ob_grows]; [apply quiet_ok|]. apply quiet_bind; [now apply quiet_ob_split|]. intros [[q h1] l1] E. apply ob_split_node_wf in E; auto.
  apply quiet_bind; [unfold grow_mutation; quiet|]. intros m _. apply quiet_bind; [now apply IH|]. intros [[ms h2] l2] _. apply quiet_ok.
Qed.
Lemma ob_prunes_tr : forall ids h, wfh h -> ob_prunes (th h) ids = rmap tp2 (ob_prunes h ids) /\ (forall a h', ob_prunes h ids = Ok (a, h') -> wfh h') /\ quiet (ob_prunes h ids).
Proof.
  induction ids as [|i ids IH]; intros h W; cbn [ob_prunes]; [split; [reflexivity|split; [now intros a h' [= _ <-]|apply quiet_ok]]|].
  rewrite th_get. destruct (h_get h i) as [a|] eqn:Eg; cbn [option_map]; [|split; [reflexivity|split; [discriminate|apply quiet_raise; discriminate]]].
  pose proof (th_alloc h (Nd (KLeaf 0) (nd_split a) (nd_depth a))) as E. unfold tnd in E at 1. cbn [nd_kind nd_split nd_depth] in E. unfold tnd; cbn [nd_split nd_depth]. rewrite E.
  destruct (h_alloc h _) as [u h1] eqn:Ea. cbn [fst snd]. rewrite prune_mutation_tr. assert (W1 : wfh h1) by (apply (f_equal snd) in Ea; cbn [snd] in Ea; rewrite <- Ea; apply wfh_alloc; auto; exact (W _ _ Eg)).
  assert (u = h_next h) as <- by (now apply (f_equal fst) in Ea). assert (Q : quiet (prune_mutation h1 i u)) by (unfold prune_mutation; quiet).
  destruct (prune_mutation h1 i u) as [m|e|]; cbn [rbind]; [|split; [reflexivity|split; [discriminate|intros e' [= <-]; now apply Q]]|split; [reflexivity|split; [discriminate|apply quiet_none]]].
  destruct (IH h1 W1) as (E2&V2&Q2). rewrite E2. destruct (ob_prunes h1 ids) as [[ms h2]|e|]; cbn [rbind rmap tp2 fst snd]; (split; [reflexivity|split]); try discriminate.
  - intros a' h' [= _ <-]. eauto.
  - intros e' [= <-]. now apply Q2.
Qed.
Lemma ob_propose_wf h t : wfh h -> forall limit r a h' b, ob_propose limit h t r = Ok (a, h', b) -> wfh h'.
Proof.
  intros W. induction limit as [|lim IH]; intros r a h' b; cbn [ob_propose]; [discriminate|]. destruct (rg_method r) as [|g bs]; [discriminate|].
  destruct (if g then ob_grow_mutations h t (rg_index r) else let! (ms, h1) := ob_prune_mutations h t in Ok (ms, h1, rg_index r)) as [[[m h1] l]|e|] eqn:E.
  - intros [= _ <- _]. destruct g; [unfold ob_grow_mutations in E; eauto using ob_grows_wf|]. destruct (ob_prune_mutations h t) as [[ms h2]| |] eqn:E2; try discriminate. injection E as _ <- _.
    exact (proj1 (proj2 (ob_prunes_tr _ h W)) _ _ E2).
  - destruct e; try discriminate; apply IH.
  - discriminate.
Qed.
Lemma ob_propose_sim h t limit : wfh h -> simR tp2 (ob_propose limit h t) (ob_propose limit (th h) t).
Proof.
  intros W. destruct limit as [|lim]; [apply simR_raise|]. intros K HK.
  assert (Grow : forall K1 : list mutation * heap -> list nat -> list nat, (forall a, good (K1 a)) ->
    { F | good F /\ forall l, match ob_grow_mutations h t l with Ok (a, l1) => ob_grow_mutations (th h) t (F l) = Ok (tp2 a, K1 a l1) | Raise e => ob_grow_mutations (th h) t (F l) = Raise e | NoDraws => ob_grow_mutations (th h) t (F l) = NoDraws end })
    by (intros K1 HK1; unfold ob_grow_mutations; rewrite leaf_nodes_tr; exact (ob_grows_sim (leaf_nodes h t) h W K1 HK1)).
  assert (Prune : ob_prune_mutations (th h) t = rmap tp2 (ob_prune_mutations h t) /\ quiet (ob_prune_mutations h t))
    by (unfold ob_prune_mutations; rewrite prunable_decision_nodes_tr; destruct (ob_prunes_tr (prunable_decision_nodes h t) h W) as (A&_&B); auto).
  destruct Prune as [Prune PQ].
  set (K1 := fun (q : rng) (bs : list bool) a => K a (rng_set_method q bs)).
  assert (HK1 : forall q bs a, good (K1 q bs a)) by (intros; apply HK).
  set (F := fun (q : rng) => match rg_method q with
    | [] => fun l => l
    | true :: bs => proj1_sig (Grow (K1 q bs) (HK1 q bs))
    | false :: bs => match ob_prune_mutations h t with Ok a => K1 q bs a | _ => fun l => l end end).
  exists F. split.
  - intros q. unfold F. destruct (rg_method q) as [|[|] bs]; [apply good_id| |].
    + apply (proj2_sig (Grow _ _)).
    + destruct (ob_prune_mutations h t); [apply HK1|apply good_id..].
  - intros r. cbn [ob_propose]. change (rg_method (ap F r)) with (rg_method r). destruct (rg_method r) as [|b bs] eqn:Em; [reflexivity|].
    rewrite ap_index. destruct b.
    + replace (F (rng_set_index r [])) with (proj1_sig (Grow (K1 (rng_set_index r []) bs) (HK1 (rng_set_index r []) bs))).
      2:{ unfold F. cbn [rng_set_index rg_method]. rewrite Em. reflexivity. }
      destruct (Grow (K1 (rng_set_index r []) bs) (HK1 (rng_set_index r []) bs)) as (F1&G1&H1). cbn [proj1_sig]. specialize (H1 (rg_index r)).
      assert (Q : quiet (ob_grow_mutations h t (rg_index r))) by (unfold ob_grow_mutations; now apply quiet_ob_grows).
      destruct (ob_grow_mutations h t (rg_index r)) as [[[m h1] l1]|e|]; rewrite H1; [reflexivity| |reflexivity]. destruct (Q e eq_refl). destruct e; congruence.
    + rewrite Prune. replace (F (rng_set_index r [])) with (match ob_prune_mutations h t with Ok a => K1 (rng_set_index r []) bs a | _ => fun l => l end).
      2:{ unfold F. cbn [rng_set_index rg_method]. rewrite Em. reflexivity. }
      destruct (ob_prune_mutations h t) as [[ms h1]|e|]; cbn [rbind rmap tp2 fst snd]; [reflexivity| |reflexivity]. destruct (PQ e eq_refl). destruct e; congruence.
Qed.
Lemma ob_log_split_tr h e u : wfh h -> ob_log_split (th h) e u = ob_log_split h e u.
Proof.
  intros W. unfold ob_log_split. rewrite dec_most_recent_tr. destruct (dec_most_recent h u) as [s|]; cbn [option_map]; auto. rewrite node_data_tr.
  destruct (node_data h e) as [d|] eqn:Ed; cbn [option_map]; auto. apply node_data_wf in Ed; auto. cbn [tdt d_X tsc sc_var sc_val]. apply rbind_fst. now apply proportion_tr.
Qed.
Lemma ob_log_ratio_tr h m s p : wfh h -> ob_log_ratio (th h) m s p = ob_log_ratio h m s p.
Proof.
  intros W. unfold ob_log_ratio, ob_log_transition, ob_log_prune_transition, ob_log_grow_transition, ob_log_tree, ob_log_tree_grow, ob_log_tree_prune.
  rewrite log_likihood_ratio_tr, !grow_mutation_tr, !ob_log_split_tr, !node_depth_tr, !get_children_tr by auto.
  match goal with |- rbind ?a ?f = rbind ?a ?g => destruct a; cbn [rbind]; auto end. destruct (log_likihood_ratio h m s p); cbn [rbind]; auto. f_equal.
  destruct (mu_kind m); auto.
  - destruct (node_depth h (mu_existing m)); cbn [rbind]; auto. destruct (get_children h (mu_updated m)) as [[l r]| |]; cbn [rbind]; auto. now rewrite !node_depth_tr.
  - destruct (node_depth h (mu_updated m)); cbn [rbind]; auto. destruct (get_children h (mu_existing m)) as [[l r]| |]; cbn [rbind]; auto. now rewrite !node_depth_tr.
Qed.
Lemma ob_ratio_tr h s p : wfh h -> forall ms acc, ob_ratio_from acc (th h) ms s p = ob_ratio_from acc h ms s p.
Proof. intros W. induction ms as [|m ms IH]; intros acc; auto. cbn [ob_ratio_from]. rewrite ob_log_ratio_tr by auto. destruct (ob_log_ratio h m s p); cbn [rbind]; auto. Qed.
Lemma mutate_all_tr : forall ms h t, mutate_all (th h) t ms = rmap tp1 (mutate_all h t ms).
Proof. induction ms as [|m ms IH]; intros h t; auto. cbn [mutate_all]. rewrite mutate_tr. destruct (mutate h t m) as [[h1 t1] [e|]]; auto. Qed.
Lemma mutate_all_wf : forall ms h t h' t', wfh h -> mutate_all h t ms = Ok (h', t') -> wfh h'.
Proof.
  induction ms as [|m ms IH]; intros h t h' t' W; cbn [mutate_all]; [now intros [= <- _]|]. destruct (mutate h t m) as [[h1 t1] [e|]] eqn:E; [discriminate|]. intros E2. apply (IH h1 t1 h' t'); auto. eapply mutate_wf; eauto.
Qed.
(** the rest of a tree step, with the proposal made *)
Definition ob_decided (t : tree) (s : R) (p : params) (a : list mutation * heap) (r : rng) : res (option (list mutation) * heap * tree * rng) :=
  let! ratio := ob_ratio_from (XFin 0) (snd a) (fst a) s p in
  match rg_unif r with
  | [] => NoDraws
  | u :: us => if accepts u ratio then let! (h2, t2) := mutate_all (snd a) t (fst a) in Ok (Some (fst a), h2, t2, rng_set_unif r us)
               else Ok (None, snd a, t, rng_set_unif r us)
  end.
Lemma ob_step_eq h t s p r : ob_step h t s p r = let! (a, r1) := ob_propose (pa_limit p) h t r in ob_decided t s p a r1.
Proof.
  unfold ob_step, ob_sample, ob_ratio, ob_decided. destruct (ob_propose (pa_limit p) h t r) as [[[m h1] r1]| |]; cbn [rbind fst snd]; auto. destruct (ob_ratio_from _ h1 m s p) as [q| |]; cbn [rbind]; auto.
  destruct (rg_unif r1) as [|u us]; auto. cbn [rbind]. destruct (accepts u q); auto.
Qed.
Definition tpo (a : option (list mutation) * heap * tree) : option (list mutation) * heap * tree := (fst (fst a), th (snd (fst a)), snd a).
Lemma ob_step_sim h t s p : wfh h -> simR tpo (ob_step h t s p) (ob_step (th h) t s p).
Proof.
  intros W. eapply simR_ext; [intros r; apply ob_step_eq|intros r; apply ob_step_eq|].
  apply (simR_bind tp2 tpo _ _ (ob_decided t s p) (ob_decided t s p) (fun a => wfh (snd a)) (ob_propose_sim h t (pa_limit p) W)).
  - intros r [m h1] r1 E. simpl. eauto using ob_propose_wf.
  - intros [m h1] W1. cbn [snd] in W1. apply simR_pure; unfold ob_decided; cbn [tp2 fst snd]; intros r.
    + intros l. destruct (ob_ratio_from _ h1 m s p) as [q| |]; cbn [rbind]; auto. cbn [rng_set_index rg_unif]. destruct (rg_unif r) as [|u us]; auto.
      destruct (accepts u q); auto. destruct (mutate_all h1 t m) as [[h2 t2]| |]; auto.
    + rewrite ob_ratio_tr by auto. destruct (ob_ratio_from _ h1 m s p) as [q| |]; cbn [rbind]; auto. destruct (rg_unif r) as [|u us]; auto.
      destruct (accepts u q); auto. rewrite mutate_all_tr. destruct (mutate_all h1 t m) as [[h2 t2]| |]; auto.
Qed.
Lemma ob_step_wf h t s p r a h' b c : wfh h -> ob_step h t s p r = Ok (a, h', b, c) -> wfh h'.
Proof.
  intros W. rewrite ob_step_eq. destruct (ob_propose (pa_limit p) h t r) as [[[m h1] r1]| |] eqn:E; try discriminate. cbn [rbind]. apply ob_propose_wf in E; auto. unfold ob_decided. cbn [fst snd].
  destruct (ob_ratio_from _ h1 m s p) as [q| |]; try discriminate. cbn [rbind]. destruct (rg_unif r1) as [|u us]; try discriminate. destruct (accepts u q); [|now intros [= _ <- _ _]].
  destruct (mutate_all h1 t m) as [[h2 t2]| |] eqn:Em; try discriminate. intros [= _ <- _ _]. eauto using mutate_all_wf.
Qed.
Lemma ob_call_wf m fr thk r a m' b : wfm m -> ob_call m fr thk r = Ok (a, m', b) -> wfm m'.
Proof.
  intros W. destruct thk; try (apply call_wf; exact W). cbn [ob_call]. destruct (fr_tree fr) as [j|]; [|discriminate]. destruct (nth_error (m_trees m) j) as [t|]; [|discriminate].
  destruct (ob_step (m_heap m) t (m_sigma m) (m_par m) r) as [[[[om h1] t1] r1]| |] eqn:E; try discriminate. intros [= _ <- _]. unfold wfm. simpl. eauto using ob_step_wf.
Qed.
Lemma ob_call_sim m fr thk : wfm m -> simR tq2 (ob_call m fr thk) (ob_call (tmd m) fr thk).
Proof.
  intros W. destruct thk; [|exact (call_sim m fr ThLeaf W)|exact (call_sim m fr ThSigma W)]. unfold ob_call.
  destruct (fr_tree fr) as [j|]; [|apply simR_raise]. change (m_trees (tmd m)) with (m_trees m). destruct (nth_error (m_trees m) j) as [t|]; [|apply simR_raise].
  change (m_heap (tmd m)) with (th (m_heap m)). change (m_sigma (tmd m)) with (m_sigma m). change (m_par (tmd m)) with (m_par m).
  eapply simR_ext; [| |apply (simR_map tpo tq2 _ _ (fun a => (match fst (fst a) with Some _ => true | None => false end, DoTree j, m_set_trees m (snd (fst a)) (set_nth j (snd a) (m_trees m))))
    (fun a => (match fst (fst a) with Some _ => true | None => false end, DoTree j, m_set_trees (tmd m) (snd (fst a)) (set_nth j (snd a) (m_trees m)))) (fun a => eq_refl) (ob_step_sim (m_heap m) t (m_sigma m) (m_par m) W))].
  - intros r. cbn beta. destruct (ob_step (m_heap m) t (m_sigma m) (m_par m) r) as [[[[om h1] t1] r1]| |]; reflexivity.
  - intros r. cbn beta. destruct (ob_step (th (m_heap m)) t (m_sigma m) (m_par m) r) as [[[[om h1] t1] r1]| |]; reflexivity.
Qed.
Lemma ob_drive_wf : forall fuel m fr pc r a m' b, wfm m -> ob_drive fuel m fr pc r = Ok (a, m', b) -> wfm m'.
Proof.
  induction fuel as [|f IH]; intros m fr pc r a m' b W; cbn [ob_drive]; [discriminate|]. destruct (gen_next m fr pc) as [[[[y pc1] fr1] m1]| |] eqn:E1; try discriminate. cbn [rbind]. apply gen_next_wf in E1; auto.
  destruct y as [[ky thk]|]; [|now intros [= _ <- _]]. destruct (ob_call m1 fr1 thk r) as [[[[result ac] m2] r1]| |] eqn:E2; try discriminate. cbn [rbind]. apply ob_call_wf in E2; auto.
  destruct (ob_drive f m2 fr1 pc1 r1) as [[[[log acts] m3] r2]| |] eqn:E3; try discriminate. intros [= _ <- _]. eauto.
Qed.
Lemma ob_drive_sim : forall fuel m fr pc, wfm m -> simR tq2 (ob_drive fuel m fr pc) (ob_drive fuel (tmd m) fr pc).
Proof.
  induction fuel as [|f IH]; intros m fr pc W; unfold ob_drive; fold ob_drive; [apply simR_none|]. rewrite gen_next_tr.
  destruct (gen_next m fr pc) as [[[[y pc1] fr1] m1]|e|] eqn:E1; cbn [rbind rmap tq4 fst snd]; [|apply simR_raise|apply simR_none]. apply gen_next_wf in E1; auto.
  destruct y as [[ky thk]|]; [|apply (simR_ret tq2 ([], [], m1))].
  eapply simR_ext; [| |apply (simR_bind tq2 tq2 _ _
     (fun a r1 => let! (log, acts, m3, r2) := ob_drive f (snd a) fr1 pc1 r1 in Ok (match trace_log ky (fst (fst a)) with Some b => (ky, b) :: log | None => log end, snd (fst a) :: acts, m3, r2))
     (fun a r1 => let! (log, acts, m3, r2) := ob_drive f (snd a) fr1 pc1 r1 in Ok (match trace_log ky (fst (fst a)) with Some b => (ky, b) :: log | None => log end, snd (fst a) :: acts, m3, r2))
     (fun a => wfm (snd a)) (ob_call_sim m1 fr1 thk E1))].
  - intros r. cbn beta. destruct (ob_call m1 fr1 thk r) as [[[[result ac] m2] r1]| |]; reflexivity.
  - intros r. cbn beta. destruct (ob_call (tmd m1) fr1 thk r) as [[[[result ac] m2] r1]| |]; reflexivity.
  - intros r [[result ac] m2] r1 E. simpl. eauto using ob_call_wf.
  - intros [[result ac] m2] W2. cbn [fst snd tq2] in *.
    eapply simR_ext; [| |apply (simR_map tq2 tq2 _ _ (fun a => (match trace_log ky result with Some b => (ky, b) :: fst (fst a) | None => fst (fst a) end, ac :: snd (fst a), snd a))
       (fun a => (match trace_log ky result with Some b => (ky, b) :: fst (fst a) | None => fst (fst a) end, ac :: snd (fst a), snd a)) (fun a => eq_refl) (IH m2 fr1 pc1 W2))].
    + intros r. cbn beta. destruct (ob_drive f m2 fr1 pc1 r) as [[[[log acts] m3] r2]| |]; reflexivity.
    + intros r. cbn beta. destruct (ob_drive f (tmd m2) fr1 pc1 r) as [[[[log acts] m3] r2]| |]; reflexivity.
Qed.
Lemma ob_gibbs_step_wf m r a m' b : wfm m -> ob_gibbs_step m r = Ok (a, m', b) -> wfm m'.
Proof.
  intros W. unfold ob_gibbs_step. destruct (ob_drive (ob_drive_fuel m) m (Fr None None) GStart r) as [[[[log acts] m1] r1]| |] eqn:E; try discriminate. intros [= _ <- _]. eauto using ob_drive_wf.
Qed.
Lemma ob_gibbs_step_sim m : wfm m -> simR tq2 (ob_gibbs_step m) (ob_gibbs_step (tmd m)).
Proof.
  intros W. unfold ob_gibbs_step. change (ob_drive_fuel (tmd m)) with (ob_drive_fuel m).
  eapply simR_ext; [| |apply (simR_map tq2 tq2 _ _ (fun a => (step_dict (fst (fst a)), snd (fst a), snd a)) (fun a => (step_dict (fst (fst a)), snd (fst a), snd a)) (fun a => eq_refl) (ob_drive_sim (ob_drive_fuel m) m (Fr None None) GStart W))].
  - intros r. cbn beta. destruct (ob_drive (ob_drive_fuel m) m (Fr None None) GStart r) as [[[[log acts] m1] r1]| |]; reflexivity.
  - intros r. cbn beta. destruct (ob_drive (ob_drive_fuel m) (tmd m) (Fr None None) GStart r) as [[[[log acts] m1] r1]| |]; reflexivity.
Qed.
Lemma ob_burn_wf : forall b m r m' r', wfm m -> ob_burn b m r = Ok (m', r') -> wfm m'.
Proof.
  induction b as [|b IH]; intros m r m' r' W; cbn [ob_burn]; [now intros [= <- _]|]. destruct (ob_gibbs_step m r) as [[[[dd acts] m1] r1]| |] eqn:E; try discriminate. cbn [rbind]. apply IH. eauto using ob_gibbs_step_wf.
Qed.
Lemma ob_burn_sim : forall b m, wfm m -> simR tmd (ob_burn b m) (ob_burn b (tmd m)).
Proof.
  induction b as [|b IH]; intros m W; unfold ob_burn; fold ob_burn; [apply (simR_ret tmd m)|].
  eapply simR_ext; [| |apply (simR_bind tq2 tmd _ _ (fun a r1 => ob_burn b (snd a) r1) (fun a r1 => ob_burn b (snd a) r1) (fun a => wfm (snd a)) (ob_gibbs_step_sim m W))].
  - intros r. cbn beta. destruct (ob_gibbs_step m r) as [[[[dd acts] m1] r1]| |]; reflexivity.
  - intros r. cbn beta. destruct (ob_gibbs_step (tmd m) r) as [[[[dd acts] m1] r1]| |]; reflexivity.
  - intros r [[dd acts] m1] r1 E. simpl. eauto using ob_gibbs_step_wf.
  - intros a Wa. now apply IH.
Qed.
Lemma ob_sample_iter_eq ss num den sp sa m r : ob_sample_iter ss num den sp sa m r = let! (a, r1) := ob_gibbs_step m r in let! q := kept ss num den sp sa (fst (fst a)) (snd a) in Ok (q, r1).
Proof.
  unfold ob_sample_iter, kept. destruct (ob_gibbs_step m r) as [[[[dd acts] m1] r1]| |]; cbn [rbind fst snd]; auto. destruct (num =? 0)%Z; auto. destruct (keeps_sample ss num den); auto.
  destruct (if sp then let! (v, m2) := model_predict m1 in Ok ([v], m2) else Ok ([], m1)) as [[ps m2]| |]; cbn [rbind]; auto. destruct (deep_copy_model m2) as [[s m3]| |]; reflexivity.
Qed.
Lemma ob_sample_iter_wf ss num den sp sa m r a m' b : wfm m -> ob_sample_iter ss num den sp sa m r = Ok (a, m', b) -> wfm m'.
Proof.
  intros W. rewrite ob_sample_iter_eq. destruct (ob_gibbs_step m r) as [[[[dd acts] m1] r1]| |] eqn:E; try discriminate. cbn [rbind fst snd]. apply ob_gibbs_step_wf in E; auto.
  destruct (kept ss num den sp sa dd m1) as [[c m2]| |] eqn:E2; try discriminate. intros [= _ <- _]. exact (proj2 (kept_tr ss num den sp sa dd m1 E) _ _ E2).
Qed.
Lemma ob_sample_iter_sim ss num den sp sa m : wfm m -> simR tq2 (ob_sample_iter ss num den sp sa m) (ob_sample_iter ss num den sp sa (tmd m)).
Proof.
  intros W. eapply simR_ext; [intros r; apply ob_sample_iter_eq|intros r; apply ob_sample_iter_eq|].
  apply (simR_bind tq2 tq2 _ _ (fun a r1 => let! q := kept ss num den sp sa (fst (fst a)) (snd a) in Ok (q, r1)) (fun a r1 => let! q := kept ss num den sp sa (fst (fst a)) (snd a) in Ok (q, r1)) (fun a => wfm (snd a)) (ob_gibbs_step_sim m W)).
  - intros r [[dd acts] m1] r1 E. simpl. eauto using ob_gibbs_step_wf.
  - intros [[dd acts] m1] W1. cbn [fst snd tq2] in *. rewrite (proj1 (kept_tr ss num den sp sa dd m1 W1)). destruct (kept ss num den sp sa dd m1) as [q|e|]; cbn [rbind rmap]; [apply (simR_ret tq2 q)|apply simR_raise|apply simR_none].
Qed.
Lemma ob_sample_loop_wf num den sp sa : forall todo ss m r a m' b, wfm m -> ob_sample_loop ss todo num den sp sa m r = Ok (a, m', b) -> wfm m'.
Proof.
  induction todo as [|todo IH]; intros ss m r a m' b W; cbn [ob_sample_loop]; [now intros [= _ <- _]|].
  destruct (ob_sample_iter ss num den sp sa m r) as [[[c m1] r1]| |] eqn:E; try discriminate. cbn [rbind]. apply ob_sample_iter_wf in E; auto.
  destruct (ob_sample_loop (S ss) todo num den sp sa m1 r1) as [[[c' m2] r2]| |] eqn:E2; try discriminate. intros [= _ <- _]. eauto.
Qed.
Lemma ob_sample_loop_sim num den sp sa : forall todo ss m, wfm m -> simR tq2 (ob_sample_loop ss todo num den sp sa m) (ob_sample_loop ss todo num den sp sa (tmd m)).
Proof.
  induction todo as [|todo IH]; intros ss m W; unfold ob_sample_loop; fold ob_sample_loop; [apply (simR_ret tq2 (Ch [] [] [], m))|].
  eapply simR_ext; [| |apply (simR_bind tq2 tq2 _ _ (fun a r1 => let! (c', m2, r2) := ob_sample_loop (S ss) todo num den sp sa (snd a) r1 in Ok (ch_app (fst a) c', m2, r2))
     (fun a r1 => let! (c', m2, r2) := ob_sample_loop (S ss) todo num den sp sa (snd a) r1 in Ok (ch_app (fst a) c', m2, r2)) (fun a => wfm (snd a)) (ob_sample_iter_sim ss num den sp sa m W))].
  - intros r. cbn beta. destruct (ob_sample_iter ss num den sp sa m r) as [[[c m1] r1]| |]; reflexivity.
  - intros r. cbn beta. destruct (ob_sample_iter ss num den sp sa (tmd m) r) as [[[c m1] r1]| |]; reflexivity.
  - intros r [c m1] r1 E. simpl. eauto using ob_sample_iter_wf.
  - intros [c m1] W1. cbn [fst snd tq2] in *.
    eapply simR_ext; [| |apply (simR_map tq2 tq2 _ _ (fun a => (ch_app c (fst a), snd a)) (fun a => (ch_app c (fst a), snd a)) (fun a => eq_refl) (IH (S ss) m1 W1))].
    + intros r. cbn beta. destruct (ob_sample_loop (S ss) todo num den sp sa m1 r) as [[[c' m2] r2]| |]; reflexivity.
    + intros r. cbn beta. destruct (ob_sample_loop (S ss) todo num den sp sa (tmd m1) r) as [[[c' m2] r2]| |]; reflexivity.
Qed.
Lemma ob_samples_wf m ns nb thn sp sa r a m' b : wfm m -> ob_samples m ns nb thn sp sa r = Ok (a, m', b) -> wfm m'.
Proof.
  intros W. unfold ob_samples. destruct (ob_burn nb m r) as [[m1 r1]| |] eqn:E; try discriminate. cbn [rbind]. destruct thn as [|num den]; try discriminate. apply ob_sample_loop_wf. eauto using ob_burn_wf.
Qed.
Lemma ob_samples_sim m ns nb thn sp sa : wfm m -> simR tq2 (ob_samples m ns nb thn sp sa) (ob_samples (tmd m) ns nb thn sp sa).
Proof.
  intros W. unfold ob_samples.
  apply (simR_bind tmd tq2 _ _ (fun m1 r1 => match thn with TZero => Raise EZeroDivisionError | TInv num den => ob_sample_loop 0 ns num den sp sa m1 r1 end)
     (fun m1 r1 => match thn with TZero => Raise EZeroDivisionError | TInv num den => ob_sample_loop 0 ns num den sp sa m1 r1 end) wfm (ob_burn_sim nb m W)).
  - intros r m1 r1 E. eauto using ob_burn_wf.
  - intros m1 W1. destruct thn as [|num den]; [apply simR_raise|]. now apply ob_sample_loop_sim.
Qed.
Lemma ob_run_chain_sim s h y : wfh h ->
  { F : rng -> list nat -> list nat | (forall q, good (F q)) /\ forall r, ob_run_chain (tsk s) (th h) X1 y (ap F r) = rmap trc (ob_run_chain s h X0 y r) }.
Proof.
  intros W. unfold ob_run_chain. destruct (construct_tr s h y W) as [E V]. rewrite E. destruct (construct_model s h X0 y) as [s1| |]; cbn [rbind rmap].
  2,3: exists (fun _ l => l); split; [intros; apply good_id|reflexivity].
  destruct (V _ eq_refl) as [V1 V2]. cbn [tsk sk_model sk_data sk_nsamples sk_nburn sk_thin sk_store_preds sk_store_accept].
  destruct (sk_model s1) as [m|]; cbn [option_map]; [|exists (fun _ l => l); split; [intros; apply good_id|reflexivity]].
  destruct (sk_data s1) as [d|]; cbn [option_map]; [|exists (fun _ l => l); split; [intros; apply good_id|reflexivity]].
  destruct (ob_samples_sim m (sk_nsamples s) (sk_nburn s) (sk_thin s) (sk_store_preds s) (sk_store_accept s) (V2 _ eq_refl) (fun _ _ l => l) (fun _ _ => good_id)) as (F&G&H).
  exists F. split; auto. intros r. specialize (H r). destruct (ob_samples m _ _ _ _ _ r) as [[[c m1] r1]| |]; rewrite H; reflexivity.
Qed.
Lemma ob_run_chain_wf s h y r c s1 h1 : wfh h -> ob_run_chain s h X0 y r = Ok (c, s1, h1) -> wfh h1.
Proof.
  intros W. unfold ob_run_chain. destruct (construct_tr s h y W) as [_ V]. destruct (construct_model s h X0 y) as [s2| |]; try discriminate. cbn [rbind]. destruct (V _ eq_refl) as [_ V2].
  destruct (sk_model s2) as [m|]; try discriminate. destruct (sk_data s2) as [d|]; try discriminate. destruct (ob_samples m _ _ _ _ _ r) as [[[c1 m1] r1]| |] eqn:E; try discriminate.
  intros [= _ _ <-]. apply ob_samples_wf in E; auto.
Qed.
Lemma ob_run_processes_sim s h y F : wfh h -> (forall r, ob_run_chain (tsk s) (th h) X1 y (ap F r) = rmap trc (ob_run_chain s h X0 y r)) -> forall nc rs,
  ob_run_processes (repeat (tsk s, th h, X1, y) nc) (map (ap F) rs) = rmap (map tex) (ob_run_processes (repeat (s, h, X0, y) nc) rs) /\
  (forall es, ob_run_processes (repeat (s, h, X0, y) nc) rs = Ok es -> Forall (fun e => wfh (fst e)) es).
Proof.
  intros W H. induction nc as [|nc IH]; intros rs; [split; auto; now intros es [= <-]|]. cbn [repeat ob_run_processes]. destruct rs as [|r rs]; cbn [map]; [split; auto; discriminate|]. rewrite H.
  destruct (ob_run_chain s h X0 y r) as [[[c s1] h1]| |] eqn:E; cbn [rbind rmap fst snd]; try (split; auto; discriminate). unfold trc. cbn [rbind fst snd]. destruct (IH rs) as [E2 V2]. rewrite E2. destruct (ob_run_processes (repeat (s, h, X0, y) nc) rs) as [es| |]; cbn [rbind rmap]; split; auto; try discriminate.
  intros es' [= <-]. constructor; eauto using ob_run_chain_wf.
Qed.
Lemma ob_fit_sim s y : { F : rng -> list nat -> list nat | (forall q, good (F q)) /\
  forall rs, ob_fit Processes (tsk s) h_empty X1 y (map (ap F) rs) = rmap tsk (ob_fit Processes s h_empty X0 y rs) /\ (forall s', ob_fit Processes s h_empty X0 y rs = Ok s' -> wfsk s') }.
Proof.
  assert (W : wfh h_empty) by (intros j a; discriminate). change h_empty with (th h_empty) at 1. unfold ob_fit. destruct (construct_tr s h_empty y W) as [E V].
  rewrite E. destruct (construct_model s h_empty X0 y) as [s1| |]; cbn [rbind rmap].
  2,3: exists (fun _ l => l); split; [intros; apply good_id|split; [reflexivity|discriminate]].
  destruct (V _ eq_refl) as [V1 V2].
  change (sk_model (tsk s1)) with (option_map tmd (sk_model s1)). change (sk_nchains (tsk s1)) with (sk_nchains s1).
  destruct (sk_model s1) as [m|] eqn:Em; cbn [option_map]; [|exists (fun _ l => l); split; [intros; apply good_id|split; [reflexivity|discriminate]]].
  change (m_heap (tmd m)) with (th (m_heap m)). assert (Wm : wfh (m_heap m)) by (apply V2; auto). destruct (ob_run_chain_sim s1 (m_heap m) y Wm) as (F&G&H). exists F. split; auto. intros rs.
  destruct (ob_run_processes_sim s1 (m_heap m) y F Wm H (sk_nchains s1) rs) as [E2 V3]. rewrite E2.
  destruct (ob_run_processes (repeat (s1, m_heap m, X0, y) (sk_nchains s1)) rs) as [es| |]; cbn [rbind rmap]; [|split; auto; discriminate..].
  split; [apply store_chains_tr|]. intros s' Es. refine (store_chains_wf _ _ _ V1 _ (V3 _ eq_refl) Es). rewrite Em. exact V2.
Qed.
End Copy.
