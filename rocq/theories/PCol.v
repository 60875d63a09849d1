(** One more column that is constant from its second entry on: a change of representation that the code cannot
    see.  Every model function commutes with it. *)
From Coq Require Import Reals FunctionalExtensionality.
From Verif Require Import Base Fl Ext MData MSplit MTree MSampler MModel MSklearn MFeatures MDiag SpecInvariance SpecColumn LFl LList PHeap PRel.
Local Open Scope R_scope.

Section Col.
Local Open Scope nat_scope.
Variables (k : nat) (cs : list fl) (X0 : matrix).
Hypothesis Hfit : fits_in k cs X0.
Hypothesis Hflat : flat_from_second cs.
Let n := mx_ncols X0.
Let X1 := with_column k cs X0.

Definition iv (v : nat) : nat := if v <? k then v else S v.
Lemma iv_k v : iv v <> k.
Proof. unfold iv. destruct (Nat.ltb_spec v k); lia. Qed.
Lemma iv_inj a b : iv a = iv b -> a = b.
Proof. unfold iv. destruct (Nat.ltb_spec a k), (Nat.ltb_spec b k); lia. Qed.
Lemma iv_eqb a b : Nat.eqb (iv a) (iv b) = Nat.eqb a b.
Proof. destruct (Nat.eqb_spec a b) as [->|N]; [apply Nat.eqb_refl|]. apply Nat.eqb_neq. intros E. now apply iv_inj in E. Qed.
Lemma iv_lt v c : k <= c -> (iv v <? S c) = (v <? c).
Proof. intros L. unfold iv. destruct (Nat.ltb_spec v k), (Nat.ltb_spec v c); try (apply Nat.ltb_lt; lia); apply Nat.ltb_ge; lia. Qed.
Lemma cell_put x r v : k <= length r -> cell (put_in k x r) (iv v) = cell r v.
Proof.
  intros L. unfold cell, put_in, iv. destruct (Nat.ltb_spec v k).
  - rewrite app_nth1 by (rewrite firstn_length; lia). rewrite <- (firstn_skipn k r) at 2. rewrite app_nth1 by (rewrite firstn_length; lia). reflexivity.
  - rewrite app_nth2 by (rewrite firstn_length; lia). rewrite firstn_length, Nat.min_l by lia. replace (S v - k) with (S (v - k)) by lia. cbn [nth].
    rewrite <- (firstn_skipn k r) at 2. rewrite app_nth2 by (rewrite firstn_length; lia). now rewrite firstn_length, Nat.min_l by lia.
Qed.
Lemma cell_put_k x r : k <= length r -> cell (put_in k x r) k = x.
Proof. intros L. unfold cell, put_in. rewrite app_nth2 by (rewrite firstn_length; lia). now rewrite firstn_length, Nat.min_l, Nat.sub_diag by lia. Qed.

Definition put_vars (l : list nat) : list nat := map iv (firstn k l) ++ k :: map iv (skipn k l).
Lemma put_vars_seq c : k <= c -> put_vars (seq 0 c) = seq 0 (S c).
Proof.
  intros L. unfold put_vars. replace c with (k + (c - k)) at 1 2 by lia. rewrite seq_app. simpl (0 + k).
  rewrite firstn_app, seq_length, Nat.sub_diag, firstn_O, app_nil_r, firstn_all2 by (rewrite seq_length; lia).
  rewrite skipn_app, seq_length, Nat.sub_diag, skipn_O, skipn_all2 by (rewrite seq_length; lia). cbn [app].
  replace (S c) with (k + S (c - k)) by lia. rewrite seq_app. simpl (0 + k). cbn [seq]. f_equal; [|f_equal].
  - rewrite <- (map_id (seq 0 k)) at 2. apply map_ext_in. intros v I. apply in_seq in I. unfold iv. now destruct (Nat.ltb_spec v k); [|lia].
  - rewrite <- seq_shift. apply map_ext_in. intros v I. apply in_seq in I. unfold iv. now destruct (Nat.ltb_spec v k); [lia|].
Qed.

(** ** data *)
Definition wfc (c : covmat) : Prop :=
  cm_X c = X0 /\ cm_unique c = repeat None n /\ cm_split c = repeat None n /\ cm_max c = repeat None n.
Definition tcm (c : covmat) : covmat := CM X1 (cm_mask c) (cm_nobsv c) (repeat None (S n)) (repeat None (S n)) (repeat None (S n)).
Definition tsc (s : scond) : scond := SC (iv (sc_var s)) (sc_val s) (sc_op s) (sc_ysum s) (sc_n s).
Definition tdt (d : data) : data := Dt (tcm (d_X d)) (d_y d).
Definition wfd (d : data) : Prop := wfc (d_X d).

Lemma Hk : k <= n.
Proof. destruct Hfit as (_&H&_). exact H. Qed.
Lemma select_put i : forall mask l rows, Forall (fun r : row => k <= length r) rows -> length l = length rows ->
  map (fun r => cell r (iv i)) (select mask (map2 (put_in k) l rows)) = map (fun r => cell r i) (select mask rows) /\
  map (fun r => cell r k) (select mask (map2 (put_in k) l rows)) = select mask l.
Proof.
  induction mask as [|b mask IH]; intros [|x l] [|r rows] F L; try discriminate; simpl; auto.
  inversion F; subst. injection L as L. destruct (IH l rows) as [E1 E2]; auto. destruct b; auto. cbn [map]. now rewrite cell_put, cell_put_k, E1, E2.
Qed.
Lemma rows_len : Forall (fun r : row => k <= length r) (mx_rows X0).
Proof. destruct Hfit as (R&K&_). eapply Forall_impl; [|exact R]. simpl. intros r E. lia. Qed.
Lemma rows_cs : length cs = length (mx_rows X0).
Proof. apply Hfit. Qed.
Lemma get_column_tr c i : wfc c -> get_column (tcm c) (iv i) = get_column c i.
Proof. intros (E&_). unfold get_column. rewrite E. simpl. apply select_put; [apply rows_len|apply rows_cs]. Qed.
Lemma get_column_new c : get_column (tcm c) k = select (cm_mask c) cs.
Proof. unfold get_column. simpl. apply (select_put 0); [apply rows_len|apply rows_cs]. Qed.
Lemma select_in {A} (x : A) : forall mask l, In x (select mask l) -> In x l.
Proof. induction mask as [|b mask IH]; intros [|y l]; simpl; try easy. destruct b; simpl; intros I; auto. destruct I; auto. Qed.
Lemma select_tl_in {A} (x : A) mask l : In x (tl (select mask l)) -> In x (tl l).
Proof.
  destruct mask as [|b mask], l as [|y l]; simpl; try easy. destruct b; simpl; [|apply select_in].
  intros I. apply (select_in x mask). destruct (select mask l); simpl in *; auto.
Qed.
Lemma inc_flat c : c <> FNaN -> forall l, (forall x, In x l -> x = c) -> inc_loop (Some c) l = false.
Proof.
  intros N. induction l as [|x l IH]; intros F; auto. cbn [inc_loop]. rewrite (F x) by now left.
  rewrite (proj2 (feqb_eq c c)) by auto. simpl. apply IH. intros y I. apply F. now right.
Qed.
Lemma new_column_flat c : is_not_constant (get_column (tcm c) k) = false.
Proof.
  rewrite get_column_new. unfold is_not_constant. destruct (length _ <=? 1); auto. destruct Hflat as (v&N&F).
  assert (G : forall x, In x (tl (select (cm_mask c) cs)) -> x = v) by eauto using select_tl_in.
  destruct (tl (select (cm_mask c) cs)) as [|x l]; auto. cbn [inc_loop]. rewrite (G x) by now left. apply inc_flat; auto. intros y I. apply G. now right.
Qed.
Lemma nth_repeat_none {A} m i : nth i (repeat (@None A) m) None = None.
Proof. revert i. induction m as [|m IH]; intros [|i]; simpl; auto. Qed.
Lemma splittable_eq c : (exists m, cm_split c = repeat None m) ->
  fst (splittable_variables c) = filter (fun i => is_not_constant (get_column c i)) (seq 0 (cm_nfeat c)).
Proof.
  intros (m&E). unfold splittable_variables, true_indices, fill_splittable. cbn [fst]. rewrite map_length, seq_length. apply filter_ext_in.
  intros i I. apply in_seq in I. rewrite (nth_indep _ None ((fun i => match nth i (cm_split c) None with None => Some (is_not_constant (get_column c i)) | x => x end) 0)) by now rewrite map_length, seq_length.
  rewrite (map_nth (fun i => match nth i (cm_split c) None with None => Some (is_not_constant (get_column c i)) | x => x end)), seq_nth by lia.
  rewrite E, nth_repeat_none. simpl. now destruct (is_not_constant _).
Qed.
Lemma filter_map_iv (f f' : nat -> bool) l : (forall i, f' (iv i) = f i) -> filter f' (map iv l) = map iv (filter f l).
Proof. intros H. induction l as [|i l IH]; simpl; auto. rewrite H. destruct (f i); simpl; now rewrite IH. Qed.
Lemma nfeat_tr c : wfc c -> cm_nfeat (tcm c) = S (cm_nfeat c).
Proof. intros (E&_). unfold cm_nfeat. now rewrite E. Qed.
Lemma wf_unique c : wfc c -> exists m, cm_unique c = repeat None m.
Proof. intros (_&E&_). eauto. Qed.
Lemma wf_split c : wfc c -> exists m, cm_split c = repeat None m.
Proof. intros (_&_&E&_). eauto. Qed.
Lemma wf_max c : wfc c -> exists m, cm_max c = repeat None m.
Proof. intros (_&_&_&E). eauto. Qed.
Lemma tr_unique c : exists m, cm_unique (tcm c) = repeat None m.
Proof. now exists (S n). Qed.
Lemma tr_split c : exists m, cm_split (tcm c) = repeat None m.
Proof. now exists (S n). Qed.
Lemma tr_max c : exists m, cm_max (tcm c) = repeat None m.
Proof. now exists (S n). Qed.
Lemma splittable_tr c : wfc c -> fst (splittable_variables (tcm c)) = map iv (fst (splittable_variables c)).
Proof.
  intros W. rewrite !splittable_eq by auto using wf_split, tr_split. rewrite nfeat_tr by auto. destruct W as (E&W).
  unfold cm_nfeat. rewrite E. pose proof Hk. rewrite <- put_vars_seq by auto. unfold put_vars. rewrite filter_app. cbn [filter]. rewrite new_column_flat.
  rewrite !(filter_map_iv (fun i => is_not_constant (get_column c i))) by (intros i; rewrite get_column_tr; auto; split; auto).
  now rewrite <- map_app, <- filter_app, firstn_skipn.
Qed.
Lemma one_splittable_eq c : (exists m, cm_split c = repeat None m) ->
  fst (is_at_least_one_splittable_variable c) = (0 <? length (fst (splittable_variables c))).
Proof.
  intros (m&E). unfold is_at_least_one_splittable_variable. replace (existsb _ (cm_split c)) with false; [now destruct (splittable_variables c)|].
  rewrite E. clear E. induction m; simpl; auto.
Qed.
Lemma one_splittable_tr c : wfc c -> fst (is_at_least_one_splittable_variable (tcm c)) = fst (is_at_least_one_splittable_variable c).
Proof.
  intros W. rewrite !one_splittable_eq by auto using wf_split, tr_split. now rewrite splittable_tr, map_length.
Qed.
Lemma existsb_iv v l : existsb (Nat.eqb (iv v)) (map iv l) = existsb (Nat.eqb v) l.
Proof. induction l as [|x l IH]; simpl; auto. now rewrite iv_eqb, IH. Qed.
Lemma leb_iv v : (S n <=? iv v) = (n <=? v).
Proof. pose proof (iv_lt v n Hk) as H. rewrite !Nat.ltb_antisym in H. apply (f_equal negb) in H. now rewrite !negb_involutive in H. Qed.
Lemma value_eq c v draws : (exists m, cm_max c = repeat None m) ->
  random_splittable_value c v draws =
  (if negb (existsb (Nat.eqb v) (fst (splittable_variables c))) then Raise ENoSplittableVariable else
   if cm_nfeat c <=? v then Raise EIndexError else
   let! mx := list_max (get_column c v) in value_loop (get_column c v) mx draws).
Proof.
  intros (m&E). unfold random_splittable_value, splittable_variables. cbn [fst]. destruct (negb _); auto. unfold max_value_of_column, cm_set_split, cm_nfeat. cbn [cm_X cm_max].
  destruct (_ <=? v); auto. rewrite E, nth_repeat_none. change (get_column (CM _ _ _ _ _ _) v) with (get_column c v) at 1.
  destruct (list_max (get_column c v)) as [mx| |]; reflexivity.
Qed.
Lemma random_splittable_value_tr c v draws : wfc c -> random_splittable_value (tcm c) (iv v) draws = random_splittable_value c v draws.
Proof.
  intros W. rewrite !value_eq by auto using wf_max, tr_max. rewrite splittable_tr, existsb_iv, get_column_tr by auto.
  replace (cm_nfeat (tcm c) <=? iv v) with (cm_nfeat c <=? v); auto. rewrite nfeat_tr by auto. destruct W as (E&_). unfold cm_nfeat. rewrite E. symmetry. apply leb_iv.
Qed.
Lemma proportion_eq c i x : (exists m, cm_unique c = repeat None m) ->
  rmap fst (proportion_of_value_in_variable c i x) =
  if cm_nfeat c <=? i then Raise EIndexError else
  Ok (if (Z.of_nat (n_unique (get_column c i)) =? pz (cm_nobsv c))%Z then xdiv (XFin 1) (XFin (IZR (pz (cm_nobsv c))))
      else xdiv (XFin (INR (count_eq (get_column c i) x))) (XFin (INR (length (get_column c i))))).
Proof.
  intros (m&E). unfold proportion_of_value_in_variable, is_column_unique. destruct (_ <=? i); auto. rewrite E, nth_repeat_none. cbn [rbind]. destruct (_ =? _)%Z; reflexivity.
Qed.
Lemma proportion_tr c i x : wfc c -> rmap fst (proportion_of_value_in_variable (tcm c) (iv i) x) = rmap fst (proportion_of_value_in_variable c i x).
Proof.
  intros W. rewrite !proportion_eq by auto using wf_unique, tr_unique. rewrite get_column_tr by auto. cbn [tcm cm_nobsv].
  replace (cm_nfeat (tcm c) <=? iv i) with (cm_nfeat c <=? i); auto. rewrite nfeat_tr by auto. destruct W as (E&_). unfold cm_nfeat. rewrite E. symmetry. apply leb_iv.
Qed.
Lemma map_put_cell {A} (f : fl -> A) v : forall l rows, Forall (fun r : row => k <= length r) rows -> length l = length rows ->
  map (fun r => f (cell r (iv v))) (map2 (put_in k) l rows) = map (fun r => f (cell r v)) rows.
Proof.
  induction l as [|x l IH]; intros [|r rows] F L; try discriminate; simpl; auto. inversion F; subst. injection L as L. rewrite cell_put by auto. f_equal. auto.
Qed.
Lemma update_mask_tr c s : wfc c -> update_mask (tcm c) (tsc s) = update_mask c s.
Proof.
  intros (E&_). unfold update_mask, column_mask, cm_nfeat. rewrite E. cbn [tcm cm_X cm_mask tsc sc_op sc_var sc_val X1 with_column mx_ncols mx_rows].
  fold n. rewrite leb_iv. destruct (sc_op s); auto; destruct (n <=? sc_var s); auto.
  - now rewrite (map_put_cell (fun x => fgt x (sc_val s))) by (apply rows_len || apply rows_cs).
  - now rewrite (map_put_cell (fun x => fle x (sc_val s))) by (apply rows_len || apply rows_cs).
Qed.
Lemma map_repeat_none {A B} (f : option A -> option B) m : f None = None -> map f (repeat None m) = repeat None m.
Proof. intros E. induction m; simpl; auto. now rewrite E, IHm. Qed.
Lemma data_add_tr d s : wfd d -> data_add (tdt d) (tsc s) = rmap tdt (data_add d s) /\ (forall d', data_add d s = Ok d' -> wfd d').
Proof.
  intros W. unfold data_add. cbn [tdt d_X]. rewrite update_mask_tr by auto. destruct W as (E&U&P&M).
  destruct (update_mask (d_X d) s) as [m| |]; cbn [rbind rmap]; split; try discriminate; auto.
  - unfold tdt, tcm, make_covmat. cbn [d_X d_y cm_mask cm_nobsv cm_X cm_unique cm_split]. rewrite !map_repeat_none by auto. reflexivity.
  - intros d' [= <-]. unfold wfd, wfc, make_covmat. cbn [d_X cm_X cm_unique cm_split cm_max]. rewrite E, U, P, !map_repeat_none by auto. auto.
Qed.

(** ** conditions and splits *)
Definition ivb (vb : nat * cvc) : nat * cvc := (iv (fst vb), snd vb).
Definition tvars (l : list (nat * cvc)) : list (nat * cvc) := map ivb (firstn k l) ++ (k, CV FNInf FPInf) :: map ivb (skipn k l).
Definition tcc (c : ccond) : ccond := CC (tvars (cc_vars c)) (map tsc (cc_conds c)).
Definition tsp (s : split) : split := Sp (tdt (sp_data s)) (tcc (sp_cc s)).
Definition wfs (s : split) : Prop := wfd (sp_data s).
Lemma dict_get_map v (d : list (nat * cvc)) : dict_get (iv v) (map ivb d) = dict_get v d.
Proof. induction d as [|[v' a] d IH]; simpl; auto. now rewrite iv_eqb, IH. Qed.
Lemma dict_get_app {A} v (a b : list (nat * A)) : dict_get v (a ++ b) = match dict_get v a with Some x => Some x | None => dict_get v b end.
Proof. induction a as [|[v' x] a IH]; simpl; auto. destruct (Nat.eqb v v'); auto. Qed.
Lemma dict_get_tr v d : dict_get (iv v) (tvars d) = dict_get v d.
Proof.
  unfold tvars. rewrite <- (firstn_skipn k d) at 3. rewrite !dict_get_app, !dict_get_map. destruct (dict_get v (firstn k d)); auto. cbn [dict_get].
  destruct (Nat.eqb_spec (iv v) k) as [E|E]; [now apply iv_k in E|]. apply dict_get_map.
Qed.
Lemma dict_set_map v a (d : list (nat * cvc)) : dict_set (iv v) a (map ivb d) = map ivb (dict_set v a d).
Proof. induction d as [|[v' x] d IH]; simpl; auto. rewrite iv_eqb. destruct (Nat.eqb v v'); simpl; auto. now rewrite IH. Qed.
Lemma dict_set_app {A} v x (a b : list (nat * A)) :
  dict_set v x (a ++ b) = match dict_get v a with Some _ => dict_set v x a ++ b | None => a ++ dict_set v x b end.
Proof. induction a as [|[v' y] a IH]; simpl; auto. destruct (Nat.eqb v v'); auto. rewrite IH. now destruct (dict_get v a). Qed.
Lemma dict_set_len {A} v x (a : list (nat * A)) : dict_get v a <> None -> length (dict_set v x a) = length a.
Proof. induction a as [|[v' y] a IH]; simpl; [easy|]. destruct (Nat.eqb v v'); simpl; auto. Qed.
Lemma firstn_app_eq {A} (a b : list A) : (length a = k \/ (length a <= k /\ b = [])) -> firstn k (a ++ b) = a /\ skipn k (a ++ b) = b.
Proof.
  intros [L|[L ->]].
  - rewrite firstn_app, skipn_app, L, Nat.sub_diag, firstn_all2, skipn_all2 by lia. simpl. now rewrite app_nil_r.
  - rewrite app_nil_r, firstn_all2, skipn_all2 by lia. auto.
Qed.
Lemma split_len {A} (d : list A) : length (firstn k d) = k \/ (length (firstn k d) <= k /\ skipn k d = []).
Proof.
  destruct (Nat.le_gt_cases k (length d)); [left; rewrite firstn_length; lia|right]. split; [rewrite firstn_length; lia|apply skipn_all2; lia].
Qed.
Lemma dict_set_tr v a d : dict_get v d <> None -> dict_set (iv v) a (tvars d) = tvars (dict_set v a d).
Proof.
  intros H. unfold tvars at 1. rewrite dict_set_app, dict_get_map, !dict_set_map. cbn [dict_set]. rewrite (proj2 (Nat.eqb_neq (iv v) k)) by apply iv_k.
  rewrite dict_set_map. rewrite <- (firstn_skipn k d) in H. rewrite dict_get_app in H.
  assert (D : dict_set v a d = match dict_get v (firstn k d) with Some _ => dict_set v a (firstn k d) ++ skipn k d | None => firstn k d ++ dict_set v a (skipn k d) end)
    by now rewrite <- dict_set_app, firstn_skipn.
  rewrite D. clear D.
  pose proof (split_len d) as L. unfold tvars. destruct (dict_get v (firstn k d)) eqn:G.
  - destruct (firstn_app_eq (dict_set v a (firstn k d)) (skipn k d)) as [-> ->]; auto. rewrite dict_set_len by congruence. exact L.
  - destruct (firstn_app_eq (firstn k d) (dict_set v a (skipn k d))) as [-> ->]; auto. destruct L as [L|[L E]]; auto. now rewrite E in H.
Qed.
Lemma add_condition_tr b s : add_condition b (tsc s) = add_condition b s.
Proof. reflexivity. Qed.
Lemma fold_conditions_tr conds : forall vars, fold_conditions (tvars vars) (map tsc conds) = rmap tvars (fold_conditions vars conds).
Proof.
  induction conds as [|s l IH]; intros vars; auto. cbn [fold_conditions map]. change (sc_var (tsc s)) with (iv (sc_var s)). rewrite dict_get_tr.
  destruct (dict_get (sc_var s) vars) as [b|] eqn:E; auto. rewrite add_condition_tr, dict_set_tr by congruence. apply IH.
Qed.
Lemma make_cc_tr vars conds : make_cc (put_vars vars) (map tsc conds) = rmap tcc (make_cc vars conds).
Proof.
  unfold make_cc. replace (map (fun v => (v, CV FNInf FPInf)) (put_vars vars)) with (tvars (map (fun v => (v, CV FNInf FPInf)) vars)).
  - rewrite fold_conditions_tr, rbind_rmap, rmap_rbind. reflexivity.
  - unfold tvars, put_vars. rewrite firstn_map, skipn_map, map_app, !map_map. cbn [map]. now rewrite map_map.
Qed.
Lemma cc_add_tr c s : cc_add (tcc c) (tsc s) = rmap tcc (cc_add c s).
Proof.
  unfold cc_add. rewrite <- make_cc_tr. cbn [tcc cc_vars cc_conds]. rewrite map_app. f_equal. unfold tvars, put_vars.
  rewrite map_app, firstn_map, skipn_map, !map_map. cbn [map fst]. now rewrite map_map.
Qed.
Lemma cc_most_recent_tr c : cc_most_recent (tcc c) = option_map tsc (cc_most_recent c).
Proof. unfold cc_most_recent. cbn [tcc cc_conds]. now rewrite last_opt_map. Qed.
Lemma make_split_tr d : wfd d -> make_split (tdt d) = rmap tsp (make_split d) /\ (forall s, make_split d = Ok s -> wfs s).
Proof.
  intros W. split.
  - unfold make_split. cbn [tdt d_X]. rewrite nfeat_tr by auto. destruct W as (E&_). unfold cm_nfeat. rewrite E. pose proof Hk.
    rewrite <- put_vars_seq by auto. change (@nil scond) with (map tsc []) at 1. rewrite make_cc_tr, rbind_rmap, rmap_rbind. reflexivity.
  - intros s. unfold make_split. destruct (make_cc _ _); try discriminate. now intros [= <-].
Qed.
Lemma split_add_tr s c : wfs s -> split_add (tsp s) (tsc c) = rmap tsp (split_add s c) /\ (forall s', split_add s c = Ok s' -> wfs s').
Proof.
  intros W. destruct (data_add_tr (sp_data s) c W) as [E W']. unfold split_add. cbn [tsp sp_data sp_cc]. rewrite E.
  destruct (data_add (sp_data s) c) as [d| |]; cbn [rbind rmap]; split; try discriminate; auto; rewrite ?cc_add_tr; destruct (cc_add (sp_cc s) c); try discriminate; auto.
  intros s' [= <-]. now apply W'.
Qed.
Definition tsps (abc : split * split * split) := (tsp (fst (fst abc)), tsp (snd (fst abc)), tsp (snd abc)).
Lemma split_children_tr s c0 c1 : wfs s ->
  split_children (tsp s) (tsc c0) (tsc c1) = rmap tsps (split_children s c0 c1) /\
  (forall a b c, split_children s c0 c1 = Ok (a, b, c) -> wfs a /\ wfs b /\ wfs c).
Proof.
  intros W. destruct (split_add_tr s c0 W) as [E W']. unfold split_children. rewrite E. destruct (split_add s c0) as [sl| |]; cbn [rbind rmap]; split; try discriminate; auto.
  - change (d_y (sp_data (tsp s))) with (d_y (sp_data s)). destruct (summed_y (d_y (sp_data s))) as [[sy ty]| |]; cbn [rbind rmap fst snd]; auto.
    change (d_y (sp_data (tsp sl))) with (d_y (sp_data sl)). destruct (summed_y (d_y (sp_data sl))) as [[ly tl]| |]; cbn [rbind rmap fst snd]; auto.
    change (sp_set_y (tsp s) ty) with (tsp (sp_set_y s ty)).
    match goal with |- context [split_add (sp_set_y s ty) ?c] => destruct (split_add_tr (sp_set_y s ty) c W) as [H _] end.
    unfold tsc in H at 1. cbn [sc_var sc_val sc_op sc_ysum sc_n] in H. cbn [tsc sc_var sc_val sc_op].
    change (cm_nobsv (d_X (sp_data (tsp s)))) with (cm_nobsv (d_X (sp_data s))).
    change (cm_nobsv (d_X (sp_data (tsp sl)))) with (cm_nobsv (d_X (sp_data sl))).
    rewrite H. destruct (split_add (sp_set_y s ty) _); reflexivity.
  - intros a b c. destruct (summed_y (d_y (sp_data s))) as [[sy ty]| |]; try discriminate. cbn [rbind]. destruct (summed_y (d_y (sp_data sl))) as [[ly tl]| |]; try discriminate. cbn [rbind].
    match goal with |- context [split_add (sp_set_y s ty) ?c] => destruct (split_add_tr (sp_set_y s ty) c W) as [_ H] end.
    destruct (split_add (sp_set_y s ty) _) as [sr| |]; try discriminate. intros [= <- <- <-]. repeat split; try apply W; try apply (W' sl eq_refl); try apply (H sr eq_refl).
Qed.

(** ** new rows *)
Lemma row_selected_tr c x r : k <= length r -> ordinary x -> row_selected (tcc c) (put_in k x r) = row_selected c r.
Proof.
  intros L [O1 O2]. unfold row_selected. cbn [tcc cc_vars]. unfold tvars. rewrite <- (firstn_skipn k (cc_vars c)) at 3. rewrite !forallb_app. cbn [forallb fst snd cv_min cv_max].
  rewrite cell_put_k by auto. replace (fgt x FNInf && fle x FPInf)%bool with true by (destruct x; simpl; auto; contradiction). cbn [andb].
  assert (E : forall l, forallb (fun vb : nat * cvc => (fgt (cell (put_in k x r) (fst vb)) (cv_min (snd vb)) && fle (cell (put_in k x r) (fst vb)) (cv_max (snd vb)))%bool) (map ivb l) =
                        forallb (fun vb : nat * cvc => (fgt (cell r (fst vb)) (cv_min (snd vb)) && fle (cell r (fst vb)) (cv_max (snd vb)))%bool) l).
  { induction l as [|[v b] l IH]; simpl; auto. now rewrite cell_put, IH. }
  now rewrite !E.
Qed.
Lemma cc_condition_tr c xs X : fits_in k xs X -> Forall ordinary xs -> cc_condition (tcc c) (with_column k xs X) = cc_condition c X.
Proof.
  intros (R&K&L) O. unfold cc_condition. cbn [with_column mx_ncols mx_rows].
  replace (forallb (fun vb : nat * cvc => fst vb <? S (mx_ncols X)) (cc_vars (tcc c))) with (forallb (fun vb : nat * cvc => fst vb <? mx_ncols X) (cc_vars c)).
  - destruct (forallb _ _); auto. f_equal. revert xs O L. unfold rectangular in R. revert K. generalize (mx_ncols X) R. clear R.
    induction (mx_rows X) as [|r rows IH]; intros nn R K [|x xs] O L; try discriminate; simpl; auto. inversion R; inversion O; subst. injection L as L.
    rewrite row_selected_tr by (auto; lia). f_equal. eapply IH; eauto.
  - cbn [tcc cc_vars]. unfold tvars. rewrite <- (firstn_skipn k (cc_vars c)) at 1. rewrite !forallb_app. cbn [forallb fst].
    assert (E : forall l, forallb (fun vb : nat * cvc => fst vb <? S (mx_ncols X)) (map ivb l) = forallb (fun vb : nat * cvc => fst vb <? mx_ncols X) l).
    { induction l as [|[v b] l IH]; auto. cbn [forallb map ivb fst]. now rewrite iv_lt, IH. }
    rewrite !E. replace (k <? S (mx_ncols X)) with true; auto. symmetry. apply Nat.ltb_lt. lia.
Qed.

(** ** trees *)
Definition tns (s : nsplit) : nsplit := match s with SFull s => SFull (tsp s) | SCond c => SCond (tcc c) end.
Definition tnd (a : tnode) : tnode := Nd (nd_kind a) (tns (nd_split a)) (nd_depth a).
Definition th (h : heap) : heap := Hp (h_next h) (fun j => option_map tnd (h_get h j)).
Definition wfn (a : tnode) : Prop := match nd_split a with SFull s => wfs s | SCond _ => True end.
Definition wfh (h : heap) : Prop := forall j a, h_get h j = Some a -> wfn a.
Arguments tsp _ : simpl never.
Arguments tcc _ : simpl never.
Arguments tnd _ : simpl never.
Lemma wfh_set h i a : wfh h -> wfn a -> wfh (h_set h i a).
Proof. intros W V j b. simpl. destruct (Nat.eqb j i); [now intros [= <-]|apply W]. Qed.
Lemma wfh_alloc h a : wfh h -> wfn a -> wfh (snd (h_alloc h a)).
Proof. intros W V j b. simpl. destruct (Nat.eqb j (h_next h)); [now intros [= <-]|apply W]. Qed.
Lemma th_get h i : h_get (th h) i = option_map tnd (h_get h i).
Proof. reflexivity. Qed.
Lemma th_set h i a : h_set (th h) i (tnd a) = th (h_set h i a).
Proof. unfold h_set, th. simpl. f_equal. extensionality j. now destruct (Nat.eqb j i). Qed.
Lemma th_alloc h a : h_alloc (th h) (tnd a) = (h_next h, th (snd (h_alloc h a))).
Proof. unfold h_alloc, th. simpl. do 2 f_equal. extensionality j. now destruct (Nat.eqb j (h_next h)). Qed.
Arguments th _ : simpl never.
Ltac getn := rewrite th_get; match goal with |- context [h_get ?h ?i] => destruct (h_get h i) as [[[?|? ?] [?|?] ?]|] end; simpl; auto.
Lemma is_leaf_tr h i : is_leaf (th h) i = is_leaf h i.
Proof. unfold is_leaf. getn. Qed.
Lemma is_dec_tr h i : is_dec (th h) i = is_dec h i.
Proof. unfold is_dec. getn. Qed.
Lemma left_child_tr h i : left_child (th h) i = left_child h i.
Proof. unfold left_child. getn. Qed.
Lemma right_child_tr h i : right_child (th h) i = right_child h i.
Proof. unfold right_child. getn. Qed.
Lemma node_split_tr h i : node_split (th h) i = option_map tsp (node_split h i).
Proof. unfold node_split. getn. Qed.
Lemma node_data_tr h i : node_data (th h) i = option_map tdt (node_data h i).
Proof. unfold node_data. rewrite node_split_tr. now destruct (node_split h i). Qed.
Lemma node_data_wf h i d : wfh h -> node_data h i = Some d -> wfd d.
Proof.
  intros W. unfold node_data, node_split. destruct (h_get h i) as [[? [s|c] ?]|] eqn:E; try discriminate. intros [= <-]. exact (W _ _ E).
Qed.
Lemma set_value_tr h i v : set_value (th h) i v = th (set_value h i v).
Proof. unfold set_value. rewrite th_get. destruct (h_get h i) as [[[w|l r] s d]|] eqn:E; simpl; auto. now rewrite <- th_set. Qed.
Lemma set_value_wf h i v : wfh h -> wfh (set_value h i v).
Proof. intros W. unfold set_value. destruct (h_get h i) as [[[w|l r] s d]|] eqn:E; auto. apply wfh_set; auto. exact (W _ _ E). Qed.
Lemma is_splittable_tr h i : wfh h -> is_splittable (th h) i = is_splittable h i.
Proof. intros W. unfold is_splittable. rewrite node_data_tr. destruct (node_data h i) as [d|] eqn:E; simpl; auto. apply one_splittable_tr. eapply node_data_wf; eauto. Qed.
Lemma is_prunable_tr h i : is_prunable (th h) i = is_prunable h i.
Proof. unfold is_prunable. rewrite left_child_tr, right_child_tr. destruct (left_child h i), (right_child h i); auto. now rewrite !is_leaf_tr. Qed.
Lemma nsplit_cc_tr s : nsplit_cc (tns s) = tcc (nsplit_cc s).
Proof. now destruct s. Qed.
Lemma dec_most_recent_tr h i : dec_most_recent (th h) i = option_map tsc (dec_most_recent h i).
Proof.
  unfold dec_most_recent. rewrite left_child_tr. destruct (left_child h i) as [l|]; auto. rewrite th_get.
  destruct (h_get h l) as [a|]; cbn [option_map]; auto. change (nd_split (tnd a)) with (tns (nd_split a)). rewrite nsplit_cc_tr. apply cc_most_recent_tr.
Qed.
Definition tp2 {A} (p : A * heap) : A * heap := (fst p, th (snd p)).
Lemma split_node_tr h i c0 c1 : wfh h -> split_node (th h) i (tsc c0) (tsc c1) = rmap tp2 (split_node h i c0 c1) /\
  (forall p h', split_node h i c0 c1 = Ok (p, h') -> wfh h').
Proof.
  intros W. unfold split_node. rewrite th_get. destruct (h_get h i) as [[kd [s|c] d]|] eqn:Eg; unfold tnd; cbn [option_map tns nd_kind nd_split nd_depth]; try (split; auto; discriminate).
  assert (Ws : wfs s) by exact (W _ _ Eg). destruct (split_children_tr s c0 c1 Ws) as [E W']. rewrite E. destruct (split_children s c0 c1) as [[[s' sl] sr]| |]; cbn [rbind rmap]; try (split; auto; discriminate).
  destruct (W' _ _ _ eq_refl) as (W1&W2&W3). unfold tsps. cbn [fst snd].
  assert (F : forall h kd s n, h_alloc (th h) (Nd kd (SFull (tsp s)) n) = (h_next h, th (snd (h_alloc h (Nd kd (SFull s) n))))) by (intros h0 kd0 s0 n0; exact (th_alloc h0 (Nd kd0 (SFull s0) n0))).
  split.
  - cbn beta iota. rewrite F. cbn beta iota. rewrite F. cbn beta iota. rewrite F. reflexivity.
  - destruct (h_alloc h _) as [l h1] eqn:E1. destruct (h_alloc h1 _) as [r h2] eqn:E2. destruct (h_alloc h2 _) as [q h3] eqn:E3. intros p h' [= <- <-].
    apply (f_equal snd) in E1, E2, E3. cbn [snd] in E1, E2, E3. rewrite <- E3, <- E2, <- E1. repeat apply wfh_alloc; auto.
Qed.
Lemma deep_copy_node_tr h i : wfh h -> deep_copy_node (th h) i = rmap tp2 (deep_copy_node h i) /\ (forall p h', deep_copy_node h i = Ok (p, h') -> wfh h').
Proof.
  intros W. unfold deep_copy_node. rewrite th_get. destruct (h_get h i) as [[kd [s|c] d]|]; unfold tnd; cbn [option_map tns nd_kind nd_split nd_depth]; try (split; auto; discriminate).
  split.
  - cbn [rmap]. f_equal. apply (th_alloc h (Nd kd (SCond (sp_cc s)) d)).
  - intros p h' E. injection E as _ <-. apply (wfh_alloc h (Nd kd (SCond (sp_cc s)) d)); auto. exact I.
Qed.
Lemma prune_mutation_tr h e u : prune_mutation (th h) e u = prune_mutation h e u.
Proof. unfold prune_mutation. now rewrite is_dec_tr, is_prunable_tr. Qed.
Lemma grow_mutation_tr h e u : grow_mutation (th h) e u = grow_mutation h e u.
Proof. unfold grow_mutation. now rewrite is_leaf_tr. Qed.
Lemma leaf_nodes_tr h t : leaf_nodes (th h) t = leaf_nodes h t.
Proof. apply filter_ext. apply is_leaf_tr. Qed.
Lemma splittable_leaf_nodes_tr h t : wfh h -> splittable_leaf_nodes (th h) t = splittable_leaf_nodes h t.
Proof. intros W. unfold splittable_leaf_nodes. rewrite leaf_nodes_tr. apply filter_ext. intros i. now apply is_splittable_tr. Qed.
Lemma decision_nodes_tr h t : decision_nodes (th h) t = decision_nodes h t.
Proof. apply filter_ext. apply is_dec_tr. Qed.
Lemma prunable_decision_nodes_tr h t : prunable_decision_nodes (th h) t = prunable_decision_nodes h t.
Proof. unfold prunable_decision_nodes. rewrite decision_nodes_tr. apply filter_ext. apply is_prunable_tr. Qed.
Lemma set_node_y_tr a y : set_node_y (tnd a) y = option_map tnd (set_node_y a y).
Proof. unfold set_node_y. destruct a as [kd [s|c] d]; reflexivity. Qed.
Lemma set_node_y_wf a y a' : wfn a -> set_node_y a y = Some a' -> wfn a'.
Proof. unfold set_node_y, wfn. destruct a as [kd [s|c] d]; cbn [nd_split nd_kind nd_depth]; try discriminate. now intros W [= <-]. Qed.
Lemma node_update_y_tr : forall fuel h i y, node_update_y fuel (th h) i y = rmap th (node_update_y fuel h i y).
Proof.
  induction fuel as [|f IH]; intros h i y; auto. cbn [node_update_y]. rewrite th_get. destruct (h_get h i) as [a|]; cbn [option_map]; auto.
  rewrite set_node_y_tr. destruct (set_node_y a y) as [a'|]; cbn [option_map]; auto. rewrite th_set. change (nd_kind (tnd a)) with (nd_kind a).
  destruct (nd_kind a) as [v|l r]; auto. rewrite IH. destruct (node_update_y f (h_set h i a') l y) as [h2| |]; cbn [rbind rmap]; auto.
Qed.
Lemma node_update_y_wf : forall fuel h i y h', wfh h -> node_update_y fuel h i y = Ok h' -> wfh h'.
Proof.
  induction fuel as [|f IH]; intros h i y h' W; cbn [node_update_y]; [discriminate|]. destruct (h_get h i) as [a|] eqn:E; [|discriminate].
  destruct (set_node_y a y) as [a'|] eqn:E1; [|discriminate]. assert (V : wfh (h_set h i a')) by (apply wfh_set; auto; eapply set_node_y_wf; eauto; exact (W _ _ E)).
  destruct (nd_kind a) as [v|l r]; [now intros [= <-]|]. inv_ok. intros E2. eauto.
Qed.
Lemma nodes_update_y_tr f y : forall ids h, nodes_update_y f (th h) ids y = rmap th (nodes_update_y f h ids y).
Proof.
  induction ids as [|i ids IH]; intros h; auto. cbn [nodes_update_y]. rewrite node_update_y_tr. destruct (node_update_y f h i y) as [h1| |]; cbn [rbind rmap]; auto.
Qed.
Lemma nodes_update_y_wf f y : forall ids h h', wfh h -> nodes_update_y f h ids y = Ok h' -> wfh h'.
Proof. induction ids as [|i ids IH]; intros h h' W; cbn [nodes_update_y]; [now intros [= <-]|]. inv_ok. intros E2. eauto using node_update_y_wf. Qed.
Definition tp1 {A} (p : heap * A) : heap * A := (th (fst p), snd p).
Lemma tree_update_y_tr h t y : tree_update_y (th h) t y = rmap tp1 (tree_update_y h t y).
Proof. unfold tree_update_y. rewrite nodes_update_y_tr. destruct (nodes_update_y _ h _ y); reflexivity. Qed.
Lemma tree_update_y_wf h t y h' t' : wfh h -> tree_update_y h t y = Ok (h', t') -> wfh h'.
Proof. intros W. unfold tree_update_y. inv_ok. intros [= <- _]. eauto using nodes_update_y_wf. Qed.
Lemma predict_loop_tr h nn : forall leaves buf, predict_loop (th h) nn leaves buf = predict_loop h nn leaves buf.
Proof.
  induction leaves as [|i l IH]; intros buf; auto. cbn [predict_loop].
  replace (match nn with Some i0 => match node_data (th h) i0 with None => Raise EAttributeError | Some d => if (pz (cm_nobsv (d_X d)) <? 0)%Z then Raise EValueError else Ok (repeat 0%R (Z.to_nat (pz (cm_nobsv (d_X d))))) end | None => Raise EIndexError end)
    with (match nn with Some i0 => match node_data h i0 with None => Raise EAttributeError | Some d => if (pz (cm_nobsv (d_X d)) <? 0)%Z then Raise EValueError else Ok (repeat 0%R (Z.to_nat (pz (cm_nobsv (d_X d))))) end | None => Raise EIndexError end)
    by (destruct nn as [i0|]; auto; rewrite node_data_tr; destruct (node_data h i0); auto).
  destruct (match buf with Some b => _ | None => _ end) as [b| |]; cbn [rbind]; auto. rewrite th_get.
  destruct (h_get h i) as [[[v|? ?] [s|c] d]|]; auto. cbn [option_map tnd tns nd_kind nd_split nd_depth]. unfold tnd. cbn [nd_kind nd_split nd_depth tns].
  change (split_condition_in (tsp s)) with (split_condition_in s). destruct (negb _); auto.
Qed.
Lemma tree_predict_tr h t : tree_predict (th h) t = tree_predict h t.
Proof. unfold tree_predict. now rewrite leaf_nodes_tr, predict_loop_tr. Qed.
Lemma out_loop_tr h xs X : fits_in k xs X -> Forall ordinary xs -> forall leaves buf, out_loop (th h) (with_column k xs X) leaves buf = out_loop h X leaves buf.
Proof.
  intros F O. induction leaves as [|i l IH]; intros buf; auto. cbn [out_loop]. rewrite th_get.
  destruct (h_get h i) as [[[v|? ?] s d]|]; auto. unfold tnd. cbn [option_map nd_kind nd_split].
  rewrite nsplit_cc_tr, cc_condition_tr by auto. destruct (cc_condition (nsplit_cc s) X) as [c| |]; cbn [rbind]; auto.
Qed.
Lemma with_column_rows xs X : fits_in k xs X -> length (mx_rows (with_column k xs X)) = length (mx_rows X).
Proof. intros (_&_&L). simpl. revert L. generalize (mx_rows X). induction xs as [|x xs IH]; intros [|r rows] L; try discriminate; simpl; auto. Qed.
Lemma tree_predict_out_tr h t xs X : fits_in k xs X -> Forall ordinary xs -> tree_predict_out (th h) t (with_column k xs X) = tree_predict_out h t X.
Proof. intros F O. unfold tree_predict_out. now rewrite leaf_nodes_tr, out_loop_tr, with_column_rows by auto. Qed.
Lemma relink_tr e u : forall ids h, relink (th h) ids e u = th (relink h ids e u).
Proof.
  induction ids as [|i ids IH]; intros h; auto. cbn [relink]. rewrite th_get. destruct (h_get h i) as [a|]; cbn [option_map]; auto.
  replace (relink_node e u (tnd a)) with (tnd (relink_node e u a)) by now destruct a as [[v|l r] s d]. rewrite th_set. apply IH.
Qed.
Lemma relink_wf e u : forall ids h, wfh h -> wfh (relink h ids e u).
Proof.
  induction ids as [|i ids IH]; intros h W; auto. cbn [relink]. destruct (h_get h i) as [a|] eqn:E; auto. apply IH. apply wfh_set; auto.
  pose proof (W _ _ E) as V. now destruct a as [[v|l r] s d].
Qed.
Lemma mutate_tr h t m : mutate (th h) t m = (let '(h', t', e) := mutate h t m in (th h', t', e)).
Proof.
  unfold mutate. rewrite !left_child_tr, !right_child_tr. destruct (mu_kind m).
  - destruct (remove_first _ _) as [l1|]; auto. destruct (left_child h (mu_updated m)), (right_child h (mu_updated m)); auto. now rewrite relink_tr.
  - destruct (remove_first _ _) as [l1|]; auto. destruct (remove_id _ _) as [l2|]; auto. destruct (remove_id _ _) as [l3|]; auto. now rewrite relink_tr.
  - now rewrite relink_tr.
Qed.
Lemma mutate_wf h t m h' t' e : wfh h -> mutate h t m = (h', t', e) -> wfh h'.
Proof.
  intros W. unfold mutate. destruct (mu_kind m).
  - destruct (remove_first _ _); [|now intros [= <- _ _]]. destruct (left_child h (mu_updated m)), (right_child h (mu_updated m)); intros [= <- _ _]; auto using relink_wf.
  - destruct (remove_first _ _); [|now intros [= <- _ _]]. destruct (remove_id _ _); [|now intros [= <- _ _]].
    destruct (remove_id _ _); [|now intros [= <- _ _]]. intros [= <- _ _]. now apply relink_wf.
  - intros [= <- _ _]. now apply relink_wf.
Qed.
Lemma deep_copy_nodes_tr : forall ids h, wfh h -> deep_copy_nodes (th h) ids = rmap tp2 (deep_copy_nodes h ids) /\ (forall p h', deep_copy_nodes h ids = Ok (p, h') -> wfh h').
Proof.
  induction ids as [|i ids IH]; intros h W; cbn [deep_copy_nodes]; [split; auto; now intros p h' [= _ <-]|].
  destruct (deep_copy_node_tr h i W) as [E W1]. rewrite E. destruct (deep_copy_node h i) as [[j h1]| |]; cbn [rbind rmap tp2 fst snd]; try (split; auto; discriminate).
  destruct (IH h1 (W1 _ _ eq_refl)) as [E2 W2]. rewrite E2. destruct (deep_copy_nodes h1 ids) as [[js h2]| |]; cbn [rbind rmap tp2 fst snd]; try (split; auto; discriminate).
  split; auto. intros p h' [= _ <-]. eauto.
Qed.
Lemma deep_copy_tree_tr h t : wfh h -> deep_copy_tree (th h) t = rmap tp2 (deep_copy_tree h t) /\ (forall p h', deep_copy_tree h t = Ok (p, h') -> wfh h').
Proof.
  intros W. destruct (deep_copy_nodes_tr (tr_nodes t) h W) as [E W1]. unfold deep_copy_tree. rewrite E. destruct (deep_copy_nodes h (tr_nodes t)) as [[js h1]| |]; cbn [rbind rmap]; split; auto; try discriminate.
  intros p h' [= _ <-]. eauto.
Qed.

(** ** the samplers *)
Lemma sample_split_condition_tr c idx : wfc c ->
  sample_split_condition (tcm c) idx = rmap (fun ccd => (tsc (fst (fst ccd)), tsc (snd (fst ccd)), snd ccd)) (sample_split_condition c idx).
Proof.
  intros W. unfold sample_split_condition. rewrite splittable_tr by auto.
  assert (E : np_choice 0 (map iv (fst (splittable_variables c))) idx = rmap (fun xd => (iv (fst xd), snd xd)) (np_choice 0 (fst (splittable_variables c)) idx)).
  { unfold np_choice. destruct (fst (splittable_variables c)) as [|i l]; auto. destruct idx as [|d ds]; auto. cbn [map rmap fst snd]. do 2 f_equal.
    change (iv i :: map iv l) with (map iv (i :: l)). unfold choose. rewrite map_length.
    assert (d mod length (i :: l) < length (i :: l)) by (apply Nat.mod_upper_bound; discriminate).
    rewrite (nth_indep _ 0 (iv 0)) by now rewrite map_length. apply map_nth. }
  rewrite E. destruct (np_choice 0 (fst (splittable_variables c)) idx) as [[v idx1]| |]; cbn [rbind rmap fst snd]; auto.
  rewrite random_splittable_value_tr by auto. destruct (random_splittable_value c v idx1) as [[x idx2]| |]; reflexivity.
Qed.
Definition tp3 {A B} (p : A * heap * B) : A * heap * B := (fst (fst p), th (snd (fst p)), snd p).
Lemma sample_split_node_tr h i idx : wfh h -> sample_split_node (th h) i idx = rmap tp3 (sample_split_node h i idx) /\
  (forall a h' b, sample_split_node h i idx = Ok (a, h', b) -> wfh h').
Proof.
  intros W. unfold sample_split_node. rewrite node_data_tr. destruct (node_data h i) as [d|] eqn:Ed; cbn [option_map]; try (split; auto; discriminate).
  cbn [tdt d_X]. rewrite sample_split_condition_tr by (eapply node_data_wf; eauto). destruct (sample_split_condition (d_X d) idx) as [[[c0 c1] idx1]| |]; cbn [rbind rmap fst snd]; try (split; auto; discriminate).
  destruct (split_node_tr h i c0 c1 W) as [E W1]. rewrite E. destruct (split_node h i c0 c1) as [[p h1]| |]; cbn [rbind rmap]; split; auto; try discriminate. intros a h' b [= _ <- _]. eauto.
Qed.
Lemma sample_grow_mutation_tr h t idx : wfh h -> sample_grow_mutation (th h) t idx = rmap tp3 (sample_grow_mutation h t idx) /\
  (forall a h' b, sample_grow_mutation h t idx = Ok (a, h', b) -> wfh h').
Proof.
  intros W. unfold sample_grow_mutation, random_splittable_leaf_node. rewrite splittable_leaf_nodes_tr by auto.
  destruct (match splittable_leaf_nodes h t with [] => _ | _ => _ end) as [[i idx1]| |]; cbn [rbind rmap]; try (split; auto; discriminate).
  destruct (sample_split_node_tr h i idx1 W) as [E W1]. rewrite E. destruct (sample_split_node h i idx1) as [[[p h1] idx2]| |]; cbn [rbind rmap tp3 fst snd]; try (split; auto; discriminate).
  rewrite grow_mutation_tr. destruct (grow_mutation h1 i p); cbn [rbind rmap]; split; auto; try discriminate. intros a0 h' b [= _ <- _]. eauto.
Qed.
Lemma sample_prune_mutation_tr h t idx : wfh h -> sample_prune_mutation (th h) t idx = rmap tp3 (sample_prune_mutation h t idx) /\
  (forall a h' b, sample_prune_mutation h t idx = Ok (a, h', b) -> wfh h').
Proof.
  intros W. unfold sample_prune_mutation, random_prunable_decision_node. rewrite prunable_decision_nodes_tr.
  destruct (match prunable_decision_nodes h t with [] => _ | _ => _ end) as [[i idx1]| |]; cbn [rbind rmap]; try (split; auto; discriminate).
  rewrite th_get. destruct (h_get h i) as [a|] eqn:Eg; cbn [option_map]; try (split; auto; discriminate).
  pose proof (th_alloc h (Nd (KLeaf 0) (nd_split a) (nd_depth a))) as E. unfold tnd in E at 1. cbn [nd_kind nd_split nd_depth] in E. unfold tnd; cbn [nd_split nd_depth]. rewrite E.
  destruct (h_alloc h _) as [u h1] eqn:Ea. cbn [fst snd]. rewrite prune_mutation_tr. assert (W1 : wfh h1) by (apply (f_equal snd) in Ea; cbn [snd] in Ea; rewrite <- Ea; apply wfh_alloc; auto; exact (W _ _ Eg)).
  assert (u = h_next h) as <- by (now apply (f_equal fst) in Ea). destruct (prune_mutation h1 i u); cbn [rbind rmap]; split; auto; try discriminate. now intros a' h' b [= _ <- _].
Qed.
Lemma propose_tr h t : wfh h -> forall limit r, propose limit (th h) t r = rmap tp3 (propose limit h t r) /\
  (forall a h' b, propose limit h t r = Ok (a, h', b) -> wfh h').
Proof.
  intros W. induction limit as [|lim IH]; intros r; cbn [propose]; try (split; auto; discriminate). destruct (rg_method r) as [|b bs]; try (split; auto; discriminate).
  assert (E : (if b then sample_grow_mutation (th h) t (rg_index r) else sample_prune_mutation (th h) t (rg_index r)) =
              rmap tp3 (if b then sample_grow_mutation h t (rg_index r) else sample_prune_mutation h t (rg_index r)))
    by (destruct b; [now apply sample_grow_mutation_tr|now apply sample_prune_mutation_tr]).
  assert (V : forall a h' c, (if b then sample_grow_mutation h t (rg_index r) else sample_prune_mutation h t (rg_index r)) = Ok (a, h', c) -> wfh h')
    by (destruct b; [now apply sample_grow_mutation_tr|now apply sample_prune_mutation_tr]).
  rewrite E. clear E. destruct (if b then sample_grow_mutation h t _ else _) as [[[m h1] idx]|e|]; cbn [rmap tp3 fst snd].
  - split; auto. intros a h' c [= _ <- _]. eauto.
  - destruct e; try (split; auto; discriminate); apply IH.
  - split; auto; discriminate.
Qed.
Lemma node_n_tr h i : node_n (th h) i = node_n h i.
Proof. unfold node_n. rewrite node_data_tr. now destruct (node_data h i). Qed.
Lemma node_sum_tr h i : node_sum (th h) i = node_sum h i.
Proof. unfold node_sum. rewrite node_data_tr. now destruct (node_data h i). Qed.
Lemma log_grow_ratio_nodes_tr h c l r s p : log_grow_ratio_nodes (th h) c l r s p = log_grow_ratio_nodes h c l r s p.
Proof. unfold log_grow_ratio_nodes. now rewrite !node_n_tr, !node_sum_tr. Qed.
Lemma get_children_tr h i : get_children (th h) i = get_children h i.
Proof. unfold get_children. now rewrite left_child_tr, right_child_tr. Qed.
Lemma log_likihood_ratio_tr h m s p : log_likihood_ratio (th h) m s p = log_likihood_ratio h m s p.
Proof.
  unfold log_likihood_ratio. rewrite !get_children_tr. destruct (mu_kind m); auto; destruct (get_children h _) as [[l r]| |]; cbn [rbind]; auto; now rewrite log_grow_ratio_nodes_tr.
Qed.
Lemma n_prunable_tr h t : n_prunable_decision_nodes (th h) t = n_prunable_decision_nodes h t.
Proof. unfold n_prunable_decision_nodes. now rewrite prunable_decision_nodes_tr. Qed.
Lemma n_splittable_tr h t : wfh h -> n_splittable_leaf_nodes (th h) t = n_splittable_leaf_nodes h t.
Proof. intros W. unfold n_splittable_leaf_nodes. now rewrite splittable_leaf_nodes_tr. Qed.
Lemma rbind_fst {A B C} (m m' : res (A * B)) (f : A -> res C) : rmap fst m' = rmap fst m -> (let! (q, _) := m' in f q) = (let! (q, _) := m in f q).
Proof. destruct m as [[a b]| |], m' as [[a' b']| |]; simpl; intros [=]; subst; auto. Qed.
Lemma within_node_tr h e u : wfh h -> log_probability_split_within_node (th h) e u = log_probability_split_within_node h e u.
Proof.
  intros W. unfold log_probability_split_within_node. rewrite node_data_tr. destruct (node_data h e) as [d|] eqn:Ed; cbn [option_map]; auto. apply node_data_wf in Ed; auto.
  cbn [tdt d_X]. rewrite dec_most_recent_tr.
  replace (fst (n_splittable_variables (tcm (d_X d)))) with (fst (n_splittable_variables (d_X d))).
  - destruct (dec_most_recent h u) as [s|]; cbn [option_map]; auto. cbn [tsc sc_var sc_val]. apply rbind_fst. now apply proportion_tr.
  - unfold n_splittable_variables. pose proof (splittable_tr (d_X d) Ed) as E. destruct (splittable_variables (d_X d)), (splittable_variables (tcm (d_X d))). cbn [fst] in *. now rewrite E, map_length.
Qed.
Lemma within_tree_tr h t e u : wfh h -> log_probability_split_within_tree (th h) t e u = log_probability_split_within_tree h t e u.
Proof. intros W. unfold log_probability_split_within_tree. now rewrite within_node_tr, n_splittable_tr. Qed.
Lemma node_depth_tr h i : node_depth (th h) i = node_depth h i.
Proof. unfold node_depth. rewrite th_get. now destruct (h_get h i). Qed.
Lemma log_probability_ratio_tr h t m s p : wfh h -> log_probability_ratio (th h) t m s p = log_probability_ratio h t m s p.
Proof.
  intros W. unfold log_probability_ratio, log_transition_ratio, log_prune_transition_ratio, log_grow_transition_ratio, log_tree_ratio, log_tree_ratio_grow, log_tree_ratio_prune.
  rewrite log_likihood_ratio_tr, n_prunable_tr, n_splittable_tr, !grow_mutation_tr, !within_tree_tr, !within_node_tr, !node_depth_tr, !get_children_tr by auto.
  match goal with |- rbind ?a ?f = rbind ?a ?g => destruct a; cbn [rbind]; auto end. destruct (log_likihood_ratio h m s p); cbn [rbind]; auto. f_equal.
  destruct (mu_kind m); auto.
  - destruct (node_depth h (mu_existing m)); cbn [rbind]; auto. destruct (get_children h (mu_updated m)) as [[l r]| |]; cbn [rbind]; auto. now rewrite !node_depth_tr.
  - destruct (node_depth h (mu_updated m)); cbn [rbind]; auto. destruct (get_children h (mu_existing m)) as [[l r]| |]; cbn [rbind]; auto. now rewrite !node_depth_tr.
Qed.
Definition tp4 {A B C} (p : A * heap * B * C) : A * heap * B * C := (fst (fst (fst p)), th (snd (fst (fst p))), snd (fst p), snd p).
Lemma tree_step_tr h t s p r : wfh h -> tree_step (th h) t s p r = rmap tp4 (tree_step h t s p r) /\ (forall a h' b c, tree_step h t s p r = Ok (a, h', b, c) -> wfh h').
Proof.
  intros W. unfold tree_step, tree_sample. destruct (propose_tr h t W (pa_limit p) r) as [E W1]. rewrite E. destruct (propose (pa_limit p) h t r) as [[[m h1] r1]| |]; cbn [rbind rmap tp3 fst snd]; try (split; auto; discriminate).
  specialize (W1 _ _ _ eq_refl). rewrite log_probability_ratio_tr by auto. destruct (log_probability_ratio h1 t m s p) as [q| |]; cbn [rbind]; try (split; auto; discriminate).
  destruct (rg_unif r1) as [|u us]; cbn [rbind]; try (split; auto; discriminate). destruct (accepts u q); [|split; auto; now intros a h' b c [= _ <- _ _]].
  rewrite mutate_tr. destruct (mutate h1 t m) as [[h2 t2] [e|]] eqn:Em; split; auto; try discriminate. intros a h' b c [= _ <- _ _]. eauto using mutate_wf.
Qed.
Lemma leaf_step_tr h i s p r : leaf_step (th h) i s p r = rmap tp1 (leaf_step h i s p r).
Proof.
  unfold leaf_step. rewrite node_n_tr, node_sum_tr. destruct (node_n h i) as [m| |]; cbn [rbind]; auto. destruct (node_sum h i) as [y| |]; cbn [rbind]; auto.
  destruct (rg_norm r); auto. destruct (leaf_sample _ _ _ _ _); auto. now rewrite set_value_tr.
Qed.
Lemma leaf_step_wf h i s p r h' r' : wfh h -> leaf_step h i s p r = Ok (h', r') -> wfh h'.
Proof. intros W. unfold leaf_step. inv_ok. inv_ok. destruct (rg_norm r); try discriminate. destruct (leaf_sample _ _ _ _ _); try discriminate. intros [= <- _]. now apply set_value_wf. Qed.

(** ** models *)
Definition tmd (m : model) : model := Md (th (m_heap m)) (m_trees m) (tdt (m_data m)) (m_pred m) (m_sigma m) (m_par m).
Definition wfm (m : model) : Prop := wfh (m_heap m).
Arguments tmd _ : simpl never.
Lemma new_trees_tr d : wfd d -> forall m h, wfh h -> new_trees m (th h) (tdt d) = rmap tp1 (new_trees m h d) /\ (forall h' ts, new_trees m h d = Ok (h', ts) -> wfh h').
Proof.
  intros Wd. induction m as [|m IH]; intros h W; cbn [new_trees]; [split; auto; now intros h' ts [= <- _]|].
  destruct (make_split_tr d Wd) as [E V]. rewrite E. destruct (make_split d) as [s| |]; cbn [rbind rmap]; try (split; auto; discriminate).
  specialize (V _ eq_refl). pose proof (th_alloc h (Nd (KLeaf 0) (SFull s) 0)) as F. unfold tnd in F at 1. cbn [nd_kind nd_split nd_depth tns] in F. rewrite F.
  destruct (h_alloc h _) as [i h1] eqn:Ea. cbn [fst snd]. assert (W1 : wfh h1) by (apply (f_equal snd) in Ea; cbn [snd] in Ea; rewrite <- Ea; now apply wfh_alloc).
  assert (i = h_next h) as -> by (now apply (f_equal fst) in Ea). destruct (IH h1 W1) as [E2 V2]. rewrite E2.
  destruct (new_trees m h1 d) as [[h2 ts]| |]; cbn [rbind rmap]; split; auto; try discriminate. intros h' ts' [= <- _]. eauto.
Qed.
Lemma init_targets_tr y : forall ts h, init_targets (th h) ts y = rmap tp1 (init_targets h ts y).
Proof.
  induction ts as [|t ts IH]; intros h; auto. cbn [init_targets]. rewrite tree_update_y_tr. destruct (tree_update_y h t (Some y)) as [[h1 t1]| |]; cbn [rbind rmap tp1 fst snd]; auto.
  rewrite tree_update_y_tr. destruct (tree_update_y h1 t1 None) as [[h2 t2]| |]; cbn [rbind rmap tp1 fst snd]; auto. rewrite IH. destruct (init_targets h2 ts y) as [[h3 ts3]| |]; reflexivity.
Qed.
Lemma init_targets_wf y : forall ts h h' ts', wfh h -> init_targets h ts y = Ok (h', ts') -> wfh h'.
Proof. induction ts as [|t ts IH]; intros h h' ts' W; cbn [init_targets]; [now intros [= <- _]|]. inv_ok. inv_ok. inv_ok. intros [= <- _]. eauto using tree_update_y_wf. Qed.
Lemma initialize_trees_tr h d m : wfh h -> wfd d -> initialize_trees (th h) (tdt d) m = rmap tp1 (initialize_trees h d m) /\ (forall h' ts, initialize_trees h d m = Ok (h', ts) -> wfh h').
Proof.
  intros W Wd. unfold initialize_trees. destruct (new_trees_tr d Wd m h W) as [E V]. rewrite E. destruct (new_trees m h d) as [[h1 ts]| |]; cbn [rbind rmap tp1 fst snd]; try (split; auto; discriminate).
  specialize (V _ _ eq_refl). destruct ts as [|t ts]; [split; auto; now intros h' ts [= <- _]|]. change (data_values (tdt d)) with (data_values d).
  destruct (data_values d) as [y| |]; cbn [rbind]; try (split; auto; discriminate). split; [apply init_targets_tr|]. intros h' ts'. now apply init_targets_wf.
Qed.
Lemma make_model_tr h d s p : wfh h -> wfd d -> make_model (th h) (tdt d) s p = rmap tmd (make_model h d s p) /\ (forall m, make_model h d s p = Ok m -> wfm m).
Proof.
  intros W Wd. unfold make_model. destruct (initialize_trees_tr h d (pa_ntrees p) W Wd) as [E V]. rewrite E. destruct (initialize_trees h d (pa_ntrees p)) as [[h1 ts]| |]; cbn [rbind rmap]; split; auto; try discriminate.
  intros m [= <-]. unfold wfm. simpl. eauto.
Qed.
Lemma predict_all_tr h : forall ts, predict_all (th h) ts = predict_all h ts.
Proof. induction ts as [|t ts IH]; auto. cbn [predict_all]. now rewrite tree_predict_tr, IH. Qed.
Definition tq2 {A} (p : A * model) : A * model := (fst p, tmd (snd p)).
Lemma model_predict_tr m : model_predict (tmd m) = rmap tq2 (model_predict m).
Proof.
  unfold model_predict. change (m_heap (tmd m)) with (th (m_heap m)). change (m_trees (tmd m)) with (m_trees m). rewrite predict_all_tr.
  destruct (predict_all (m_heap m) (m_trees m)) as [[vs ts]| |]; cbn [rbind rmap]; auto. change (d_mask (m_data (tmd m))) with (d_mask (m_data m)). destruct (vsum _ vs); reflexivity.
Qed.
Lemma model_predict_wf m v m' : wfm m -> model_predict m = Ok (v, m') -> wfm m'.
Proof. intros W. unfold model_predict. inv_ok. inv_ok. now intros [= _ <-]. Qed.
Lemma residuals_tr m : residuals (tmd m) = rmap tq2 (residuals m).
Proof.
  unfold residuals. change (data_values (m_data (tmd m))) with (data_values (m_data m)). destruct (data_values (m_data m)) as [y| |]; cbn [rbind rmap]; auto. rewrite model_predict_tr.
  destruct (model_predict m) as [[v m1]| |]; cbn [rbind rmap tq2 fst snd]; auto. destruct (vop Rminus y v); reflexivity.
Qed.
Lemma residuals_wf m v m' : wfm m -> residuals m = Ok (v, m') -> wfm m'.
Proof. intros W. unfold residuals. inv_ok. inv_ok. inv_ok. intros [= _ <-]. eauto using model_predict_wf. Qed.
Lemma rt_start_tr m : rt_start (tmd m) = rmap tmd (rt_start m).
Proof.
  unfold rt_start. change (m_pred (tmd m)) with (m_pred m). destruct (m_pred m); auto. rewrite model_predict_tr. destruct (model_predict m) as [[v m1]| |]; reflexivity.
Qed.
Lemma rt_start_wf m m' : wfm m -> rt_start m = Ok m' -> wfm m'.
Proof. intros W. unfold rt_start. destruct (m_pred m); [now intros [= <-]|]. inv_ok. intros [= <-]. apply (model_predict_wf m l m0 W E). Qed.
Lemma rt_open_tr m j : rt_open (tmd m) j = rmap tmd (rt_open m j).
Proof.
  unfold rt_open. change (m_trees (tmd m)) with (m_trees m). change (m_pred (tmd m)) with (m_pred m). change (m_heap (tmd m)) with (th (m_heap m)).
  destruct (nth_error (m_trees m) j) as [t|]; auto. destruct (m_pred m) as [pr|]; auto. rewrite tree_predict_tr. destruct (tree_predict (m_heap m) t) as [[v t1]| |]; cbn [rbind]; auto.
  destruct (vop Rminus pr v) as [pr1| |]; cbn [rbind]; auto. change (data_values (m_data (tmd m))) with (data_values (m_data m)). destruct (data_values (m_data m)) as [y| |]; cbn [rbind]; auto.
  destruct (vop Rminus y pr1) as [tg| |]; cbn [rbind]; auto. rewrite tree_update_y_tr. destruct (tree_update_y (m_heap m) t1 (Some tg)) as [[h1 t2]| |]; reflexivity.
Qed.
Lemma rt_open_wf m j m' : wfm m -> rt_open m j = Ok m' -> wfm m'.
Proof.
  intros W. unfold rt_open. destruct (nth_error (m_trees m) j); [|discriminate]. destruct (m_pred m); [|discriminate]. inv_ok. inv_ok. inv_ok. inv_ok. inv_ok. intros [= <-].
  unfold wfm. simpl. eauto using tree_update_y_wf.
Qed.
Lemma rt_close_tr m j : rt_close (tmd m) j = rmap tmd (rt_close m j).
Proof.
  unfold rt_close. change (m_trees (tmd m)) with (m_trees m). change (m_pred (tmd m)) with (m_pred m). change (m_heap (tmd m)) with (th (m_heap m)).
  destruct (nth_error (m_trees m) j) as [t|]; auto. destruct (m_pred m) as [pr|]; auto. rewrite tree_predict_tr. destruct (tree_predict (m_heap m) t) as [[v t1]| |]; cbn [rbind]; auto.
  destruct (vop Rplus pr v) as [pr1| |]; reflexivity.
Qed.
Lemma rt_close_wf m j m' : wfm m -> rt_close m j = Ok m' -> wfm m'.
Proof. intros W. unfold rt_close. destruct (nth_error (m_trees m) j); [|discriminate]. destruct (m_pred m); [|discriminate]. inv_ok. inv_ok. now intros [= <-]. Qed.
Lemma sigma_step_tr m r : sigma_step (tmd m) r = rmap (fun p => (tmd (fst p), snd p)) (sigma_step m r).
Proof.
  unfold sigma_step. rewrite residuals_tr. destruct (residuals m) as [[e m1]| |]; cbn [rbind rmap tq2 fst snd]; auto.
  change (m_par (tmd m)) with (m_par m). change (cm_nobsv (d_X (m_data (tmd m)))) with (cm_nobsv (d_X (m_data m))).
  destruct (Req_EM_T _ _); auto. destruct (Rlt_dec _ _); auto. destruct (Rlt_dec _ _); auto. destruct (rg_gamma r); auto. destruct (sigma_value _); auto.
Qed.
Lemma sigma_step_wf m r m' r' : wfm m -> sigma_step m r = Ok (m', r') -> wfm m'.
Proof.
  intros W. unfold sigma_step. inv_ok. destruct (Req_EM_T _ _); try discriminate. destruct (Rlt_dec _ _); try discriminate. destruct (Rlt_dec _ _); try discriminate.
  destruct (rg_gamma r); try discriminate. destruct (sigma_value _); try discriminate. intros [= <- _]. unfold wfm. simpl. exact (residuals_wf m l m0 W E).
Qed.
Definition tq4 {A B C} (p : A * B * C * model) : A * B * C * model := (fst p, tmd (snd p)).
Lemma gen_tree_tr m fr j : gen_tree (tmd m) fr j = rmap tq4 (gen_tree m fr j).
Proof. unfold gen_tree. change (m_trees (tmd m)) with (m_trees m). destruct (_ <? _); auto. rewrite rt_open_tr. destruct (rt_open m j); reflexivity. Qed.
Lemma gen_tree_wf m fr j y pc fr' m' : wfm m -> gen_tree m fr j = Ok (y, pc, fr', m') -> wfm m'.
Proof. intros W. unfold gen_tree. destruct (_ <? _); [|now intros [= _ _ _ <-]]. inv_ok. intros [= _ _ _ <-]. eauto using rt_open_wf. Qed.
Lemma gen_leaves_tr m fr j rest : gen_leaves (tmd m) fr j rest = rmap tq4 (gen_leaves m fr j rest).
Proof. unfold gen_leaves. destruct rest; auto. rewrite rt_close_tr. destruct (rt_close m j); cbn [rbind rmap]; auto. apply gen_tree_tr. Qed.
Lemma gen_leaves_wf m fr j rest y pc fr' m' : wfm m -> gen_leaves m fr j rest = Ok (y, pc, fr', m') -> wfm m'.
Proof. intros W. unfold gen_leaves. destruct rest; [|now intros [= _ _ _ <-]]. inv_ok. intros E2. eauto using rt_close_wf, gen_tree_wf. Qed.
Lemma gen_next_tr m fr pc : gen_next (tmd m) fr pc = rmap tq4 (gen_next m fr pc).
Proof.
  destruct pc; cbn [gen_next]; auto using gen_leaves_tr.
  - rewrite rt_start_tr. destruct (rt_start m); cbn [rbind rmap]; auto using gen_tree_tr.
  - change (m_trees (tmd m)) with (m_trees m). destruct (nth_error (m_trees m) j); auto. change (m_heap (tmd m)) with (th (m_heap m)). rewrite leaf_nodes_tr. apply gen_leaves_tr.
Qed.
Lemma gen_next_wf m fr pc y pc' fr' m' : wfm m -> gen_next m fr pc = Ok (y, pc', fr', m') -> wfm m'.
Proof.
  intros W. destruct pc; cbn [gen_next].
  - inv_ok. intros E2. eauto using rt_start_wf, gen_tree_wf.
  - destruct (nth_error (m_trees m) j); [|discriminate]. now apply gen_leaves_wf.
  - now apply gen_leaves_wf.
  - now intros [= _ _ _ <-].
Qed.
Definition tq3 {A B} (p : A * model * B) : A * model * B := (fst (fst p), tmd (snd (fst p)), snd p).
Lemma call_tr m fr thk r : wfm m -> call (tmd m) fr thk r = rmap tq3 (call m fr thk r) /\ (forall a m' b, call m fr thk r = Ok (a, m', b) -> wfm m').
Proof.
  intros W. destruct thk; cbn [call].
  - destruct (fr_tree fr) as [j|]; try (split; auto; discriminate). change (m_trees (tmd m)) with (m_trees m). destruct (nth_error (m_trees m) j) as [t|]; try (split; auto; discriminate).
    change (m_heap (tmd m)) with (th (m_heap m)). change (m_sigma (tmd m)) with (m_sigma m). change (m_par (tmd m)) with (m_par m).
    destruct (tree_step_tr (m_heap m) t (m_sigma m) (m_par m) r W) as [E V]. rewrite E. destruct (tree_step (m_heap m) t (m_sigma m) (m_par m) r) as [[[[om h1] t1] r1]| |]; cbn [rbind rmap tp4 fst snd]; split; auto; try discriminate.
    intros a m' b [= _ <- _]. unfold wfm. simpl. eauto.
  - destruct (fr_leaf fr) as [i|]; try (split; auto; discriminate). change (m_heap (tmd m)) with (th (m_heap m)). change (m_sigma (tmd m)) with (m_sigma m). change (m_par (tmd m)) with (m_par m).
    rewrite leaf_step_tr. destruct (leaf_step (m_heap m) i (m_sigma m) (m_par m) r) as [[h1 r1]| |] eqn:E; cbn [rbind rmap tp1 fst snd]; split; auto; try discriminate.
    intros a m' b [= _ <- _]. unfold wfm. simpl. eauto using leaf_step_wf.
  - rewrite sigma_step_tr. destruct (sigma_step m r) as [[m1 r1]| |] eqn:E; cbn [rbind rmap fst snd]; split; auto; try discriminate. intros a m' b [= _ <- _]. eauto using sigma_step_wf.
Qed.
Lemma drive_tr : forall fuel m fr pc r, wfm m -> drive fuel (tmd m) fr pc r = rmap tq3 (drive fuel m fr pc r) /\ (forall a m' b, drive fuel m fr pc r = Ok (a, m', b) -> wfm m').
Proof.
  induction fuel as [|f IH]; intros m fr pc r W; cbn [drive]; try (split; auto; discriminate). rewrite gen_next_tr.
  destruct (gen_next m fr pc) as [[[[y pc1] fr1] m1]| |] eqn:E1; cbn [rbind rmap tq4 fst snd]; try (split; auto; discriminate). apply gen_next_wf in E1; auto.
  destruct y as [[ky thk]|]; [|split; auto; now intros a m' b [= _ <- _]].
  destruct (call_tr m1 fr1 thk r E1) as [E2 V2]. rewrite E2. destruct (call m1 fr1 thk r) as [[[[result ac] m2] r1]| |]; cbn [rbind rmap tq3 fst snd]; try (split; auto; discriminate).
  destruct (IH m2 fr1 pc1 r1 (V2 _ _ _ eq_refl)) as [E3 V3]. rewrite E3. destruct (drive f m2 fr1 pc1 r1) as [[[[log acts] m3] r2]| |]; cbn [rbind rmap tq3 fst snd]; split; auto; try discriminate.
  intros a m' b [= _ <- _]. eauto.
Qed.
Lemma gibbs_step_tr m r : wfm m -> gibbs_step (tmd m) r = rmap tq3 (gibbs_step m r) /\ (forall a m' b, gibbs_step m r = Ok (a, m', b) -> wfm m').
Proof.
  intros W. unfold gibbs_step. change (drive_fuel (tmd m)) with (drive_fuel m). destruct (drive_tr (drive_fuel m) m (Fr None None) GStart r W) as [E V]. rewrite E.
  destruct (drive (drive_fuel m) m (Fr None None) GStart r) as [[[[log acts] m1] r1]| |]; cbn [rbind rmap tq3 fst snd]; split; auto; try discriminate. intros a m' b [= _ <- _]. eauto.
Qed.
Lemma copy_trees_tr : forall ts h, wfh h -> copy_trees (th h) ts = rmap tp2 (copy_trees h ts) /\ (forall p h', copy_trees h ts = Ok (p, h') -> wfh h').
Proof.
  induction ts as [|t ts IH]; intros h W; cbn [copy_trees]; [split; auto; now intros p h' [= _ <-]|].
  destruct (deep_copy_tree_tr h t W) as [E V]. rewrite E. destruct (deep_copy_tree h t) as [[t1 h1]| |]; cbn [rbind rmap tp2 fst snd]; try (split; auto; discriminate).
  destruct (IH h1 (V _ _ eq_refl)) as [E2 V2]. rewrite E2. destruct (copy_trees h1 ts) as [[ts1 h2]| |]; cbn [rbind rmap tp2 fst snd]; split; auto; try discriminate. intros p h' [= _ <-]. eauto.
Qed.
Lemma deep_copy_model_tr m : wfm m -> deep_copy_model (tmd m) = rmap tq2 (deep_copy_model m) /\ (forall a m', deep_copy_model m = Ok (a, m') -> wfm m').
Proof.
  intros W. unfold deep_copy_model. change (m_heap (tmd m)) with (th (m_heap m)). change (m_trees (tmd m)) with (m_trees m). destruct (copy_trees_tr (m_trees m) (m_heap m) W) as [E V]. rewrite E.
  destruct (copy_trees (m_heap m) (m_trees m)) as [[ts h]| |]; cbn [rbind rmap tp2 fst snd]; split; auto; try discriminate. intros a m' [= _ <-]. unfold wfm. simpl. eauto.
Qed.
Definition tq1 {B} (p : model * B) : model * B := (tmd (fst p), snd p).
Lemma burn_tr : forall b m r, wfm m -> burn b (tmd m) r = rmap tq1 (burn b m r) /\ (forall m' r', burn b m r = Ok (m', r') -> wfm m').
Proof.
  induction b as [|b IH]; intros m r W; cbn [burn]; [split; auto; now intros m' r' [= <- _]|]. destruct (gibbs_step_tr m r W) as [E V]. rewrite E.
  destruct (gibbs_step m r) as [[[[dd acts] m1] r1]| |]; cbn [rbind rmap tq3 fst snd]; try (split; auto; discriminate). apply IH. eauto.
Qed.
Lemma sample_iter_tr ss num den sp sa m r : wfm m -> sample_iter ss num den sp sa (tmd m) r = rmap tq3 (sample_iter ss num den sp sa m r) /\
  (forall a m' b, sample_iter ss num den sp sa m r = Ok (a, m', b) -> wfm m').
Proof.
  intros W. unfold sample_iter. destruct (gibbs_step_tr m r W) as [E V]. rewrite E. destruct (gibbs_step m r) as [[[[dd acts] m1] r1]| |]; cbn [rbind rmap tq3 fst snd]; try (split; auto; discriminate).
  specialize (V _ _ _ eq_refl). destruct (num =? 0)%Z; try (split; auto; discriminate). destruct (keeps_sample ss num den); [|split; auto; now intros a m' b [= _ <- _]].
  assert (F : (if sp then let! (v, m2) := model_predict (tmd m1) in Ok ([v], m2) else Ok ([], tmd m1)) = rmap tq2 (if sp then let! (v, m2) := model_predict m1 in Ok ([v], m2) else Ok ([], m1)))
    by (destruct sp; auto; rewrite model_predict_tr; destruct (model_predict m1) as [[v m2]| |]; reflexivity).
  rewrite F. clear F. destruct (if sp then let! (v, m2) := model_predict m1 in Ok ([v], m2) else Ok ([], m1)) as [[ps m2]| |] eqn:Ep; cbn [rbind rmap tq2 fst snd]; try (split; auto; discriminate).
  assert (W2 : wfm m2).
  { destruct sp; [|now injection Ep as _ <-]. destruct (model_predict m1) as [[v m2']| |] eqn:E3; try discriminate. injection Ep as _ <-. eauto using model_predict_wf. }
  destruct (deep_copy_model_tr m2 W2) as [E4 V4]. rewrite E4. destruct (deep_copy_model m2) as [[s m3]| |]; cbn [rbind rmap tq2 fst snd]; split; auto; try discriminate. intros a m' b [= _ <- _]. eauto.
Qed.
Lemma sample_loop_tr num den sp sa : forall todo ss m r, wfm m -> sample_loop ss todo num den sp sa (tmd m) r = rmap tq3 (sample_loop ss todo num den sp sa m r) /\
  (forall a m' b, sample_loop ss todo num den sp sa m r = Ok (a, m', b) -> wfm m').
Proof.
  induction todo as [|todo IH]; intros ss m r W; cbn [sample_loop]; [split; auto; now intros a m' b [= _ <- _]|].
  destruct (sample_iter_tr ss num den sp sa m r W) as [E V]. rewrite E. destruct (sample_iter ss num den sp sa m r) as [[[c m1] r1]| |]; cbn [rbind rmap tq3 fst snd]; try (split; auto; discriminate).
  destruct (IH (S ss) m1 r1 (V _ _ _ eq_refl)) as [E2 V2]. rewrite E2. destruct (sample_loop (S ss) todo num den sp sa m1 r1) as [[[c' m2] r2]| |]; cbn [rbind rmap tq3 fst snd]; split; auto; try discriminate.
  intros a m' b [= _ <- _]. eauto.
Qed.
Lemma samples_tr m ns nb thn sp sa r : wfm m -> samples (tmd m) ns nb thn sp sa r = rmap tq3 (samples m ns nb thn sp sa r) /\
  (forall a m' b, samples m ns nb thn sp sa r = Ok (a, m', b) -> wfm m').
Proof.
  intros W. unfold samples. destruct (burn_tr nb m r W) as [E V]. rewrite E. destruct (burn nb m r) as [[m1 r1]| |]; cbn [rbind rmap tq1 fst snd]; try (split; auto; discriminate).
  destruct thn as [|num den]; try (split; auto; discriminate). apply sample_loop_tr. eauto.
Qed.
Lemma predict_out_all_tr h xs X : fits_in k xs X -> Forall ordinary xs -> forall ts, predict_out_all (th h) ts (with_column k xs X) = predict_out_all h ts X.
Proof. intros F O. induction ts as [|t ts IH]; auto. cbn [predict_out_all]. now rewrite tree_predict_out_tr, IH. Qed.
Lemma sample_predict_tr h s xs X : fits_in k xs X -> Forall ordinary xs -> sample_predict (th h) s (with_column k xs X) = sample_predict h s X.
Proof. intros F O. unfold sample_predict, trees_predict_out. now rewrite predict_out_all_tr, with_column_rows by auto. Qed.

(** ** the estimator *)
Lemma convert_tr y : convert_to_data X1 y = rmap tdt (convert_to_data X0 y) /\ (forall d, convert_to_data X0 y = Ok d -> wfd d).
Proof.
  unfold convert_to_data, make_data. destruct (make_target y _ true None) as [t| |]; cbn [rbind rmap]; split; auto; try discriminate. intros d [= <-]. now repeat split.
Qed.
Definition tsk (s : sklearn) : sklearn :=
  Sk (sk_par s) (sk_nchains s) (sk_nsamples s) (sk_nburn s) (sk_thin s) (sk_store_preds s) (sk_store_accept s)
     (option_map tdt (sk_data s)) (option_map tmd (sk_model s)) (option_map (map (fun hs => (th (fst hs), snd hs))) (sk_samples s)) (sk_preds s) (sk_accept s).
Definition wfsk (s : sklearn) : Prop := (forall d, sk_data s = Some d -> wfd d) /\ (forall m, sk_model s = Some m -> wfm m).
Hypothesis Hcols : n <> 0.
Lemma construct_tr s h y : wfh h -> construct_model (tsk s) (th h) X1 y = rmap tsk (construct_model s h X0 y) /\
  (forall s', construct_model s h X0 y = Ok s' -> wfsk s' /\ sk_nchains s' = sk_nchains s).
Proof.
  intros W. unfold construct_model. unfold X1 at 1. rewrite with_column_rows by exact Hfit. change (mx_ncols X1 =? 0) with false. fold n. rewrite (proj2 (Nat.eqb_neq n 0) Hcols). rewrite !orb_false_r.
  destruct (length (mx_rows X0) =? 0); try (split; auto; discriminate). destruct (convert_tr y) as [E V]. rewrite E. destruct (convert_to_data X0 y) as [d| |]; cbn [rbind rmap]; try (split; auto; discriminate).
  specialize (V _ eq_refl). change (normalizing_scale (d_y (tdt d))) with (normalizing_scale (d_y d)). destruct (normalizing_scale (d_y d)); cbn [rbind]; try (split; auto; discriminate).
  change (sk_par (tsk s)) with (sk_par s). destruct (make_model_tr h d 1 (sk_par s) W V) as [E2 V2]. rewrite E2. destruct (make_model h d 1 (sk_par s)) as [m| |]; cbn [rbind rmap]; split; auto; try discriminate.
  intros s' [= <-]. split; auto. split; simpl; intros ? [= <-]; auto.
Qed.
Lemma run_chain_tr s h y r : wfh h -> run_chain (tsk s) (th h) X1 y r = rmap (fun p => (fst (fst p), tsk (snd (fst p)), th (snd p))) (run_chain s h X0 y r).
Proof.
  intros W. unfold run_chain. destruct (construct_tr s h y W) as [E V]. rewrite E. destruct (construct_model s h X0 y) as [s1| |]; cbn [rbind rmap]; auto. destruct (V _ eq_refl) as [[V1 V2] _].
  cbn [tsk sk_model sk_data sk_nsamples sk_nburn sk_thin sk_store_preds sk_store_accept]. destruct (sk_model s1) as [m|]; cbn [option_map]; auto. destruct (sk_data s1) as [d|]; cbn [option_map]; auto.
  destruct (samples_tr m (sk_nsamples s) (sk_nburn s) (sk_thin s) (sk_store_preds s) (sk_store_accept s) r (V2 _ eq_refl)) as [E3 _]. rewrite E3.
  destruct (samples m _ _ _ _ _ r) as [[[c m1] r1]| |]; reflexivity.
Qed.
Lemma run_processes_tr s h y : wfh h -> forall nc rs, run_processes (repeat (tsk s, th h, X1, y) nc) rs = rmap (map (fun e => (th (fst e), snd e))) (run_processes (repeat (s, h, X0, y) nc) rs).
Proof.
  intros W. induction nc as [|nc IH]; intros rs; auto. cbn [repeat run_processes]. destruct rs as [|r rs]; auto. rewrite run_chain_tr by auto.
  destruct (run_chain s h X0 y r) as [[[c s1] h1]| |]; cbn [rbind rmap fst snd]; auto. rewrite IH. destruct (run_processes (repeat (s, h, X0, y) nc) rs); reflexivity.
Qed.
Lemma flat_map_map {A B C} (f : A -> B) (g : B -> list C) l : flat_map g (map f l) = flat_map (fun x => g (f x)) l.
Proof. induction l; simpl; auto. now rewrite IHl. Qed.
Lemma map_flat_map {A B C} (f : B -> C) (g : A -> list B) l : map f (flat_map g l) = flat_map (fun x => map f (g x)) l.
Proof. induction l; simpl; auto. now rewrite map_app, IHl. Qed.
Lemma store_chains_tr s es : store_chains (tsk s) (map (fun e : extract => (th (fst e), snd e)) es) = rmap tsk (store_chains s es).
Proof.
  unfold store_chains, combine_chains. destruct es as [|e0 es0]; auto. set (es := e0 :: es0).
  replace (match map (fun e : extract => (th (fst e), snd e)) es with [] => Raise EIndexError | _ => _ end) with
    (Ok (map (fun hs : stored_sample => (th (fst hs), snd hs)) (flat_map (fun e : extract => map (fun sm => (fst e, sm)) (ch_models (snd e))) es),
         flat_map (fun e : extract => ch_preds (snd e)) es, flat_map (fun e : extract => ch_accept (snd e)) es)).
  - reflexivity.
  - transitivity (Ok (flat_map (fun e : extract => map (fun sm => (fst e, sm)) (ch_models (snd e))) (map (fun e : extract => (th (fst e), snd e)) es),
         flat_map (fun e : extract => ch_preds (snd e)) (map (fun e : extract => (th (fst e), snd e)) es), flat_map (fun e : extract => ch_accept (snd e)) (map (fun e : extract => (th (fst e), snd e)) es))); [|reflexivity].
    rewrite !flat_map_map, map_flat_map. cbn [fst snd]. do 3 f_equal. apply flat_map_ext. intros e. now rewrite map_map.
Qed.
Lemma fit_tr s y rs : fit Processes (tsk s) h_empty X1 y rs = rmap tsk (fit Processes s h_empty X0 y rs).
Proof.
  assert (W : wfh h_empty) by (intros j a; discriminate). change h_empty with (th h_empty) at 1. unfold fit. destruct (construct_tr s h_empty y W) as [E V].
  rewrite E. destruct (construct_model s h_empty X0 y) as [s1| |]; cbn [rbind rmap]; auto. destruct (V _ eq_refl) as [[V1 V2] _].
  change (sk_model (tsk s1)) with (option_map tmd (sk_model s1)). change (sk_nchains (tsk s1)) with (sk_nchains s1). destruct (sk_model s1) as [m|] eqn:Em; cbn [option_map]; auto.
  change (m_heap (tmd m)) with (th (m_heap m)). rewrite run_processes_tr by (apply V2; auto).
  destruct (run_processes (repeat (s1, m_heap m, X0, y) (sk_nchains s1)) rs) as [es| |]; cbn [rbind rmap]; auto. apply store_chains_tr.
Qed.
Lemma predict_samples_tr xs X : fits_in k xs X -> Forall ordinary xs -> forall ss,
  predict_samples (map (fun hs : stored_sample => (th (fst hs), snd hs)) ss) (with_column k xs X) = predict_samples ss X.
Proof. intros F O. induction ss as [|[h s] ss IH]; auto. cbn [map predict_samples fst snd]. now rewrite sample_predict_tr, IH. Qed.
Lemma cc_variable_tr c : cc_splitting_variable (tcc c) = option_map iv (cc_splitting_variable c).
Proof. destruct c as [vs qs]. unfold cc_splitting_variable, tcc, last_opt. cbn [cc_conds]. rewrite <- map_rev. now destruct (rev qs). Qed.
Lemma node_variables_tr h : forall ids, node_variables (th h) ids = rmap (map (option_map iv)) (node_variables h ids).
Proof.
  induction ids as [|i ids IH]; auto. cbn [node_variables]. change (h_get (th h) i) with (option_map tnd (h_get h i)). rewrite IH.
  destruct (h_get h i) as [[q [s|c] dp]|]; cbn [option_map]; auto. unfold tnd. cbn [nd_kind nd_split nd_depth tns]. rewrite cc_variable_tr. now destruct (node_variables h ids).
Qed.
Lemma tree_variables_tr h : forall ts, tree_variables (th h) ts = rmap (map (option_map iv)) (tree_variables h ts).
Proof.
  induction ts as [|t ts IH]; auto. cbn [tree_variables]. rewrite node_variables_tr, IH. destruct (node_variables h (tr_nodes t)); cbn [rbind rmap]; auto.
  destruct (tree_variables h ts); cbn [rbind rmap]; auto. now rewrite map_app.
Qed.
Lemma sample_variables_tr : forall ss, sample_variables (map (fun hs : stored_sample => (th (fst hs), snd hs)) ss) = rmap (map (option_map iv)) (sample_variables ss).
Proof.
  induction ss as [|[h s] ss IH]; auto. cbn [map sample_variables fst snd]. rewrite tree_variables_tr, IH. destruct (tree_variables h (sm_trees s)); cbn [rbind rmap]; auto.
  destruct (sample_variables ss); cbn [rbind rmap]; auto. now rewrite map_app.
Qed.
Lemma node_depths_tr h : forall ids, node_depths (th h) ids = node_depths h ids.
Proof. induction ids as [|i ids IH]; auto. cbn [node_depths]. change (h_get (th h) i) with (option_map tnd (h_get h i)). rewrite IH. now destruct (h_get h i) as [[q s dp]|]. Qed.
Lemma model_depths_tr h : forall ts, model_depths (th h) ts = model_depths h ts.
Proof. induction ts as [|t ts IH]; auto. cbn [model_depths]. now rewrite node_depths_tr, IH. Qed.
Lemma depth_summaries_tr : forall ss, depth_summaries (map (fun hs : stored_sample => (th (fst hs), snd hs)) ss) = depth_summaries ss.
Proof. induction ss as [|[h s] ss IH]; auto. cbn [map depth_summaries fst snd]. now rewrite model_depths_tr, IH. Qed.
Lemma counter_tr l v : counter (map (option_map iv) l) (iv v) = counter l v.
Proof.
  unfold counter. induction l as [|o l IH]; auto. cbn [map count_occ]. rewrite IH. destruct (oeq_dec (option_map iv o) (Some (iv v))) as [E|E], (oeq_dec o (Some v)) as [F|F]; auto.
  - destruct o as [w|]; [|discriminate]. injection E as E. apply iv_inj in E. congruence.
  - subst o. now destruct E.
Qed.
Lemma counter_new l : counter (map (option_map iv) l) k = 0.
Proof.
  unfold counter. induction l as [|o l IH]; auto. cbn [map count_occ]. rewrite IH. destruct (oeq_dec (option_map iv o) (Some k)) as [E|E]; auto.
  destruct o as [w|]; [|discriminate]. injection E as E. now apply iv_k in E.
Qed.
Lemma ninsert_tr x : forall l, ninsert (iv x) (map iv l) = map iv (ninsert x l).
Proof.
  induction l as [|y l IH]; auto. cbn [map ninsert]. replace (iv x <=? iv y) with (x <=? y).
  - destruct (x <=? y); cbn [map]; auto. now rewrite IH.
  - unfold iv. destruct (Nat.leb_spec x y), (Nat.ltb_spec x k), (Nat.ltb_spec y k); symmetry; try (apply Nat.leb_le; lia); apply Nat.leb_gt; lia.
Qed.
Lemma nsort_tr l : nsort (map iv l) = map iv (nsort l).
Proof. unfold nsort. induction l as [|x l IH]; auto. cbn [map fold_right]. now rewrite IH, ninsert_tr. Qed.
Lemma nodup_tr l : nodup Nat.eq_dec (map iv l) = map iv (nodup Nat.eq_dec l).
Proof.
  induction l as [|x l IH]; auto. cbn [map nodup]. rewrite IH. destruct (in_dec Nat.eq_dec (iv x) (map iv l)) as [I1|I1], (in_dec Nat.eq_dec x l) as [I2|I2]; auto.
  - apply in_map_iff in I1 as (z&Ez&Iz). apply iv_inj in Ez. subst. contradiction.
  - destruct I1. now apply in_map.
Qed.
Lemma counted_tr l : counted (map (option_map iv) l) = map iv (counted l).
Proof.
  unfold counted. rewrite <- nsort_tr, <- nodup_tr. do 2 f_equal. induction l as [|[v|] l IH]; auto. cbn [map option_map flat_map app]. now rewrite IH.
Qed.
Definition ivp (q : nat * R) : nat * R := (iv (fst q), snd q).
Lemma dict_set_ivp c v : forall d, dict_set (iv c) v (map ivp d) = map ivp (dict_set c v d).
Proof.
  induction d as [|[c' v'] d IH]; auto. cbn [map ivp fst snd dict_set]. rewrite iv_eqb. destruct (Nat.eqb c c'); cbn [map]; auto. rewrite <- IH. reflexivity.
Qed.
Lemma proportions_tr l : forall columns d, proportions_of (map (option_map iv) l) (map iv columns) (map ivp d) = map ivp (proportions_of l columns d).
Proof. induction columns as [|c columns IH]; intros d; auto. cbn [map proportions_of]. rewrite counter_tr, map_length, dict_set_ivp. apply IH. Qed.
Lemma same_outcome_refl {A} (m : res A) : same_outcome eq m m.
Proof. destruct m; simpl; auto. Qed.
Lemma tsk_ignores s : ignores_column k s (tsk s).
Proof.
  split; [|split; [|split; [|split; [|split; [|split]]]]].
  - unfold sk_predict. cbn [tsk sk_store_preds sk_data sk_preds]. destruct (sk_data s) as [d|]; apply same_outcome_refl.
  - intros xs X F O. unfold sk_predict, out_of_sample_predict. cbn [tsk sk_data sk_samples]. destruct (sk_data s) as [d|]; cbn [option_map]; [|apply same_outcome_refl].
    destruct (sk_samples s) as [ss|]; cbn [option_map]; [|apply same_outcome_refl]. rewrite predict_samples_tr by auto. apply same_outcome_refl.
  - reflexivity.
  - cbn [tsk sk_samples]. destruct (sk_samples s); cbn [option_map]; auto. now rewrite map_map.
  - unfold plot_tree_depth. cbn [tsk sk_samples]. destruct (sk_samples s); cbn [option_map]; auto. apply depth_summaries_tr.
  - intros columns. unfold feature_split_proportions. cbn [tsk sk_samples]. destruct (sk_samples s); cbn [option_map]; [|reflexivity].
    rewrite sample_variables_tr. destruct (sample_variables l) as [l0| |]; cbn [rbind rmap]; [|reflexivity|exact I]. cbn [same_outcome].
    change (fun q : nat * R => (moved k (fst q), snd q)) with ivp. change (moved k) with iv.
    destruct columns as [c|]; cbn [option_map]; [|rewrite counted_tr]; apply (proportions_tr l0 _ []).
  - unfold feature_split_proportions. cbn [tsk sk_samples]. destruct (sk_samples s); cbn [option_map]; [|reflexivity].
    rewrite sample_variables_tr. destruct (sample_variables l) as [l0| |]; cbn [rbind rmap]; [|reflexivity|exact I]. cbn [same_outcome proportions_of].
    now rewrite counter_new.
Qed.
End Col.
