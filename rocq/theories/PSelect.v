(** Estimators whose data differ by a change of representation (PRel.v), also when they come from run_models. *)
From Coq Require Import Reals Lra Lia QArith Qcanon FunctionalExtensionality.
From Verif Require Import Base Fl Ext MData MSplit MTree MSampler MModel MModelHist MSklearn MFeatures MDiag SpecModel SpecInvariance LFl LList PHeap PRel PRel2 PRel3 PInvar PModel7 PSklearn Properties_Features4.
Local Open Scope R_scope.

Lemma so_bind {A B C D} (P : A -> B -> Prop) (Q : C -> D -> Prop) m m' k k' : same_outcome P m m' ->
  (forall a b, P a b -> same_outcome Q (k a) (k' b)) -> same_outcome Q (rbind m k) (rbind m' k').
Proof. destruct m, m'; simpl; intros H K; try contradiction; auto. Qed.
Lemma so_impl {A B} (P Q : A -> B -> Prop) m m' : (forall a b, P a b -> Q a b) -> same_outcome P m m' -> same_outcome Q m m'.
Proof. destruct m, m'; simpl; auto. Qed.
Lemma so_eq {A} (m m' : res A) : same_outcome eq m m' <-> m = m'.
Proof. destruct m, m'; simpl; split; intros H; try contradiction; try discriminate; congruence || auto. Qed.

Section Rel.
Variable phi : nat -> fl -> fl.
Hypothesis phi_nan : forall v, phi v FNaN = FNaN.
Hypothesis phi_ninf : forall v, phi v FNInf = FNInf.
Hypothesis phi_pinf : forall v, phi v FPInf = FPInf.
Hypothesis phi_lt : forall v a b, flt (phi v a) (phi v b) = flt a b.
Hypothesis phi_eq : forall v a b, feqb (phi v a) (phi v b) = feqb a b.
Variable rho : option (R * R) -> option (R * R).
Hypothesis rho_none : rho None = None.
Variable sg : R.
Hypothesis sg_sq : sg * sg = 1.
(** how the targets are changed *)
Variable ch : list R -> list R.
Hypothesis Hdata : forall X y, convert_to_data (tX phi X) (ch y) = rmap (tdt phi rho sg) (convert_to_data X y).

Definition ext_rel : extract -> extract -> Prop := chain_rel (sv sg) (tX phi).
Definition fitted_rel (s s' : sklearn) : Prop := exists es es', Forall2 ext_rel es es' /\
  sk_samples s = Some (all_of es) /\ sk_samples s' = Some (all_of es') /\
  sk_preds s = Some (flat_map (fun e : extract => ch_preds (snd e)) es) /\ sk_preds s' = Some (flat_map (fun e : extract => ch_preds (snd e)) es') /\
  sk_accept s = Some (flat_map (fun e : extract => ch_accept (snd e)) es) /\ sk_accept s' = Some (flat_map (fun e : extract => ch_accept (snd e)) es').
Definition est_rel (s s' : sklearn) : Prop :=
  settings s' = settings s /\ sk_data s' = option_map (tdt phi rho sg) (sk_data s) /\
  (fitted_rel s s' \/ sk_samples s = None /\ sk_samples s' = None /\ sk_preds s = None /\ sk_preds s' = None /\ sk_accept s' = sk_accept s).

Lemma canon_both e e1 e2 : chain_rel (sv 1) (tX idc) e e1 -> chain_rel (sv sg) (tX phi) e e2 -> ext_rel e1 e2.
Proof.
  rewrite sv_1. intros R1 R2. eapply chain_rel_both; eauto. destruct R1 as (Q1&Q2). split; auto. intros X0. rewrite <- (Q1 X0). now rewrite tX_id.
Qed.
Lemma settings_same s s' : settings s' = settings s -> same_settings s s'.
Proof. intros E. apply settings_fields in E. unfold same_settings. tauto. Qed.
Lemma same_settings_eq s s' : same_settings s s' -> settings s' = settings s.
Proof. intros (E1&E2&E3&E4&E5&E6&E7). unfold settings. congruence. Qed.
Lemma fit_est b b' s s' h h' X y rs : heap_ok h -> heap_ok h' -> settings s' = settings s ->
  same_outcome est_rel (fit b s h X y rs) (fit b' s' h' (tX phi X) (ch y) (map (trg sg) rs)).
Proof.
  intros W W' Hs.
  pose proof (fit_canon idc ltac:(auto) ltac:(auto) ltac:(auto) ltac:(auto) ltac:(auto) idr eq_refl 1 ltac:(ring) X y y (convert_id X y) b s h rs W) as L.
  pose proof (fit_canon phi phi_nan phi_ninf phi_pinf phi_lt phi_eq rho rho_none sg sg_sq X y (ch y) (Hdata X y) b' s' h' rs W') as Rt.
  rewrite (canon_settings _ _ (settings_same _ _ Hs)) in Rt. rewrite trgs_1, tX_id in L.
  destruct (canon_fit_s s X y rs) as [[d l]|e|] eqn:Ec; cbn [same_outcome] in L, Rt.
  - destruct (fit b s h X y rs) as [s1| |]; try contradiction. destruct (fit b' s' h' _ _ _) as [s1'| |]; try contradiction. cbn [same_outcome].
    destruct L as (S1&D1&es1&F1&M1&P1&A1), Rt as (S2&D2&es2&F2&M2&P2&A2). cbn [fst snd] in *. rewrite tdt_id in D1.
    split; [congruence|]. split; [now rewrite D1, D2|]. left. exists es1, es2. split; [|auto 10].
    eapply forall2_common; [|exact F1|exact F2]. intros e e1 e2. apply canon_both.
  - destruct (fit b s h X y rs) as [s1| |]; try contradiction. destruct (fit b' s' h' _ _ _) as [s1'| |]; try contradiction. cbn [same_outcome]. congruence.
  - destruct (fit b s h X y rs) as [s1| |]; try contradiction. destruct (fit b' s' h' _ _ _) as [s1'| |]; try contradiction. exact I.
Qed.

(** ** run_models *)
Lemma run_chain_rel s s' h h' X y r : heap_ok h -> heap_ok h' -> settings s' = settings s ->
  same_outcome (fun q q' => ext_rel (snd q, fst (fst q)) (snd q', fst (fst q'))) (run_chain s h X y r) (run_chain s' h' (tX phi X) (ch y) (trg sg r)).
Proof.
  intros W W' Hs. apply settings_fields in Hs. destruct Hs as (E1&_&E3&E4&E5&E6&E7).
  pose proof (run_chain_canon idc ltac:(auto) ltac:(auto) ltac:(auto) ltac:(auto) ltac:(auto) idr eq_refl 1 ltac:(ring) X y y (convert_id X y) s h r W) as L.
  rewrite trg_1, tX_id in L. rewrite L. rewrite (run_chain_canon phi phi_nan phi_ninf phi_pinf phi_lt phi_eq rho rho_none sg sg_sq X y (ch y) (Hdata X y) s' h' r W').
  rewrite E1, E3, E4, E5, E6, E7. destruct (chain_run _ _ _ _ _ _ _ _ _ _) as [q| |]; cbn [rmap same_outcome]; auto.
  cbn [fst snd]. eapply canon_both; [apply (tcdm_rel idc ltac:(auto) ltac:(auto) ltac:(auto) idr 1 h q)|apply (tcdm_rel phi phi_nan phi_lt phi_eq rho sg h' q)].
Qed.
Definition task_rel (t t' : sklearn * heap * matrix * list R) : Prop :=
  let '(s, h, X, y) := t in let '(s', h', X', y') := t' in
  heap_ok h /\ heap_ok h' /\ settings s' = settings s /\ X' = tX phi X /\ y' = ch y.
Lemma run_processes_rel ts ts' : Forall2 task_rel ts ts' -> forall rs,
  same_outcome (Forall2 ext_rel) (run_processes ts rs) (run_processes ts' (map (trg sg) rs)).
Proof.
  induction 1 as [|[[[s h] X] y] [[[s' h'] X'] y'] ts ts' (W&W'&Hs&->&->) _ IH]; intros rs; cbn [run_processes]; [simpl; auto|].
  destruct rs as [|r rs]; [exact I|]. cbn [map]. eapply so_bind; [apply (run_chain_rel s s' h h' X y r); auto|]. intros [[c s1] h1] [[c' s1'] h1'] E. cbn [fst snd] in E.
  eapply so_bind; [apply IH|]. intros es es' F. simpl. constructor; auto.
Qed.
Lemma all_tasks_rel s s' h h' : heap_ok h -> heap_ok h' -> settings s' = settings s -> forall Xs ys,
  Forall2 task_rel (all_tasks s h Xs ys) (all_tasks s' h' (map (tX phi) Xs) (map ch ys)).
Proof.
  intros W W' Hs. assert (N : sk_nchains s' = sk_nchains s) by (apply settings_fields in Hs; tauto).
  induction Xs as [|X Xs IH]; intros ys; cbn [map all_tasks]; auto. destruct ys as [|y ys]; cbn [map]; auto. apply Forall2_app; [|apply IH].
  rewrite N. generalize (sk_nchains s). intros n. induction n as [|n IHn]; cbn [repeat]; constructor; auto. repeat split; auto.
Qed.
Lemma app_last_rel {A B} (P : A -> B -> Prop) gs gs' x x' : Forall2 (Forall2 P) gs gs' -> P x x' ->
  same_outcome (Forall2 (Forall2 P)) (app_last gs x) (app_last gs' x').
Proof.
  intros F H. induction F as [|a b l l' K Fl IH]; [reflexivity|]. cbn [app_last]. inversion Fl as [|a2 b2 m m' K2 F2]; subst.
  - simpl. constructor; auto. apply Forall2_app; auto.
  - eapply so_bind; [exact IH|]. intros g g' Hg. simpl. auto.
Qed.
Lemma group_rel {A B} (P : A -> B -> Prop) n : forall es es', Forall2 P es es' -> forall i gs gs', Forall2 (Forall2 P) gs gs' ->
  same_outcome (Forall2 (Forall2 P)) (group_loop n i es gs) (group_loop n i es' gs').
Proof.
  induction 1 as [|e e' es es' He _ IH]; intros i gs gs' G; cbn [group_loop]; [exact G|]. destruct (n =? 0)%nat; [reflexivity|].
  eapply so_bind; [apply app_last_rel; [|exact He]; destruct (i mod n =? 0)%nat; auto; apply Forall2_app; auto|]. intros g g' Hg. apply IH. auto.
Qed.
Lemma store_rel s s' es es' : est_rel s s' -> Forall2 ext_rel es es' -> same_outcome est_rel (store_chains s es) (store_chains s' es').
Proof.
  intros (S&D&_) F. unfold store_chains. destruct F as [|e e' es es' He F]; cbn [combine_chains rbind]; [reflexivity|]. cbn [same_outcome].
  split; [exact S|]. split; [exact D|]. left. exists (e :: es), (e' :: es'). repeat split. auto.
Qed.
Lemma convert_rel : forall gs gs', Forall2 (Forall2 ext_rel) gs gs' -> forall s s' Xs ys, est_rel s s' ->
  same_outcome (fun q q' => Forall2 est_rel (fst q) (fst q') /\ est_rel (snd q) (snd q'))
    (convert_loop s gs Xs ys) (convert_loop s' gs' (map (tX phi) Xs) (map ch ys)).
Proof.
  induction 1 as [|g g' gs gs' G _ IH]; intros s s' Xs ys Hs; cbn [convert_loop]; [simpl; auto|].
  destruct Xs as [|X Xs]; cbn [map]; [simpl; auto|]. destruct ys as [|y ys]; cbn [map]; [simpl; auto|]. unfold from_extract.
  pose proof (store_rel s s' g g' Hs G) as S. destruct (store_chains s g) as [s1| |], (store_chains s' g') as [s1'| |]; cbn [same_outcome rbind] in *; try contradiction; auto.
  rewrite Hdata. destruct (convert_to_data X y) as [d| |]; cbn [rmap rbind same_outcome]; auto.
  specialize (IH s1 s1' Xs ys S). destruct (convert_loop s1 gs Xs ys) as [[ms s2]| |], (convert_loop s1' gs' _ _) as [[ms' s2']| |]; cbn [same_outcome rbind fst snd] in *; try contradiction; auto.
  destruct IH as (I1&I2). split; auto. constructor; auto. destruct Hs as (A&B&C). split; [exact A|]. split; [reflexivity|]. destruct C as [C|C]; [left; exact C|right; exact C].
Qed.
Lemma run_models_rel s s' h h' Xs ys rs : heap_ok h -> heap_ok h' -> est_rel s s' ->
  same_outcome (fun q q' => Forall2 est_rel (fst q) (fst q') /\ est_rel (snd q) (snd q'))
    (run_models s h Xs ys rs) (run_models s' h' (map (tX phi) Xs) (map ch ys) (map (trg sg) rs)).
Proof.
  intros W W' Hs. unfold run_models, convert_chains_models. eapply so_bind; [apply run_processes_rel, all_tasks_rel; auto; apply Hs|]. intros es es' F.
  assert (N : sk_nchains s' = sk_nchains s) by (destruct Hs as (Hs&_); apply settings_fields in Hs; tauto). rewrite N.
  eapply so_bind; [apply (group_rel ext_rel); eauto|]. intros gs gs' G. apply convert_rel; auto.
Qed.

(** ** what the feature selectors look at *)
Lemma proportions_rel s s' columns : est_rel s s' -> feature_split_proportions s' columns = feature_split_proportions s columns.
Proof.
  intros (_&_&[(es&es'&F&M1&M2&_)|(M1&M2&_)]); unfold feature_split_proportions; rewrite M1, M2; auto. now rewrite (sample_variables_rel _ _ _ _ F).
Qed.
Lemma collect_rel n : forall ms ms', Forall2 est_rel ms ms' -> forall d, collect ms' n d = collect ms n d.
Proof.
  induction 1 as [|m m' ms ms' H _ IH]; intros d; auto. cbn [collect]. rewrite (proportions_rel _ _ _ H). destruct (feature_split_proportions m _); cbn [rbind]; auto.
  destruct (append_all _ d); cbn [rbind]; auto.
Qed.
Lemma null_rel s s' h h' X y perms rs : (forall p, In p perms -> permuted p (ch y) = ch (permuted p y)) -> heap_ok h -> heap_ok h' -> est_rel s s' ->
  same_outcome (fun q q' => fst q' = fst q /\ est_rel (snd q) (snd q')) (null_distribution s h X y perms rs) (null_distribution s' h' (tX phi X) (ch y) perms (map (trg sg) rs)).
Proof.
  intros Hp W W' Hs. unfold null_distribution. replace (map (fun p => permuted p (ch y)) perms) with (map ch (map (fun p => permuted p y) perms)).
  2:{ rewrite map_map. apply map_ext_in. intros p Hin. symmetry. auto. }
  set (ys := map (fun p => permuted p y) perms). pose proof (run_models_rel s s' h h' (map (fun _ => X) ys) ys rs W W' Hs) as M.
  replace (map (tX phi) (map (fun _ => X) ys)) with (map (fun _ : list R => tX phi X) (map ch ys)) in M by now rewrite !map_map.
  eapply so_bind; [exact M|]. intros [ms s1] [ms' s1'] [F E]. cbn [fst snd] in F, E.
  change (mx_ncols (tX phi X)) with (mx_ncols X). rewrite (collect_rel _ _ _ F). destruct (collect ms _ _); simpl; auto.
Qed.
Lemma select_split_rel b b' t t' h h' X y rs : heap_ok h -> heap_ok h' -> settings (ss_model t') = settings (ss_model t) -> ss_percentile t' = ss_percentile t ->
  same_outcome (fun u u' => select_split_mask u' = select_split_mask u /\ ss_proportions u' = ss_proportions u)
    (select_split_fit b t h X y rs) (select_split_fit b' t' h' (tX phi X) (ch y) (map (trg sg) rs)).
Proof.
  intros W W' Hs Hq. unfold select_split_fit. eapply so_bind; [apply (fit_est b b' (ss_model t) (ss_model t')); eauto|]. intros m m' E. rewrite (proportions_rel _ _ _ E).
  destruct (feature_split_proportions m None); simpl; auto. split; auto. unfold select_split_mask. simpl. now rewrite Hq.
Qed.
Lemma select_null_rel b b' t t' h h' X y rs perms rs' : (forall p, In p perms -> permuted p (ch y) = ch (permuted p y)) -> 
  heap_ok h -> heap_ok h' -> settings (sn_model t') = settings (sn_model t) -> sn_percentile t' = sn_percentile t -> sn_method t' = sn_method t ->
  same_outcome (fun u u' => select_null_mask u' = select_null_mask u /\ sn_null u' = sn_null u /\ sn_thresholds u' = sn_thresholds u /\ sn_proportions u' = sn_proportions u)
    (select_null_fit b t h X y rs perms rs') (select_null_fit b' t' h' (tX phi X) (ch y) (map (trg sg) rs) perms (map (trg sg) rs')).
Proof.
  intros Hp W W' Hs Hq Hm. unfold select_null_fit. pose proof (fit_est b b' (sn_model t) (sn_model t') h h' X y rs W W' Hs) as F.
  destruct (fit b (sn_model t) h X y rs) as [m| |] eqn:E1, (fit b' (sn_model t') h' (tX phi X) (ch y) _) as [m'| |] eqn:E2; cbn [same_outcome rbind] in *; try contradiction; auto.
  apply (fit_heap _ _ _ _ _ _ _ h) in E1; auto. apply (fit_heap _ _ _ _ _ _ _ h') in E2; auto.
  eapply so_bind; [apply (null_rel m m' (sk_heap m h) (sk_heap m' h') X y perms rs'); auto|]. intros [null m2] [null' m2'] [En Er]. cbn [fst snd] in En, Er. subst null'. rewrite Hm, Hq.
  destruct (sn_method t null (sn_percentile t)) as [th| |]; cbn [rbind same_outcome]; auto. rewrite (proportions_rel _ _ _ Er).
  destruct (feature_split_proportions m2 None) as [fp| |]; cbn [rbind same_outcome]; auto.
Qed.

(** ** feature importance, for a target in other units *)
Variables a b : R.
Hypothesis ch_eq : forall y, ch y = affine a b y.
Hypothesis Hunits : forall t v, unnormalize_y (ttg rho sg t) (map (sv sg) v) = rmap (map (fun x => a + b * x)) (unnormalize_y t v).
Definition tm (e : R) : R := Rabs b * e.
Lemma predict_rel s s' X : est_rel s s' -> same_outcome (fun v v' => v' = map (fun x => a + b * x) v) (sk_predict s (Some X)) (sk_predict s' (Some (tX phi X))).
Proof.
  intros (_&D&F). unfold sk_predict, out_of_sample_predict. rewrite D. destruct (sk_data s) as [d|]; cbn [option_map]; [|reflexivity].
  destruct F as [(es&es'&F&M1&M2&_)|(M1&M2&_)]; rewrite M1, M2; [|reflexivity]. rewrite (predict_samples_rel _ _ _ _ X F).
  destruct (predict_samples (all_of es) X) as [vs| |]; cbn [rmap rbind]; try exact I; try reflexivity. rewrite vmean_tr.
  destruct (vmean vs) as [v| |]; cbn [rmap rbind]; try exact I; try reflexivity. change (d_y (tdt phi rho sg d)) with (ttg rho sg (d_y d)). rewrite Hunits. apply same_outcome_rmap.
Qed.
Lemma vop_units : forall y v, vop Rminus (affine a b y) (map (fun x => a + b * x) v) = rmap (map (Rmult b)) (vop Rminus y v).
Proof.
  intros y v. unfold vop, affine. rewrite !map_length. destruct (_ =? _)%nat; cbn [rmap]; auto. f_equal. revert v.
  induction y as [|x y IH]; intros [|z v]; auto. cbn [map map2]. rewrite IH. f_equal. ring.
Qed.
Lemma rsum_units e : rsum (map (fun x => x * x) (map (Rmult b) e)) = b * b * rsum (map (fun x => x * x) e).
Proof. induction e as [|x e IH]; simpl; [ring|]. simpl in IH. rewrite IH. ring. Qed.
Lemma rsum_squares e : 0 <= rsum (map (fun x => x * x) e).
Proof. induction e as [|x e IH]; simpl; [lra|]. nra. Qed.
Lemma rmse_rel s s' X y : est_rel s s' -> sk_rmse s' (tX phi X) (ch y) = rmap tm (sk_rmse s X y).
Proof.
  intros H. apply (predict_rel _ _ X) in H. unfold sk_rmse, rmse_with, l2_with, residuals_with.
  destruct (sk_predict s (Some X)) as [v| |], (sk_predict s' (Some (tX phi X))) as [v'| |]; cbn [same_outcome] in H; try contradiction; cbn [rbind rmap]; try congruence.
  subst v'. rewrite ch_eq, vop_units. destruct (vop Rminus y v) as [e| |]; cbn [rbind rmap]; auto. f_equal. rewrite rsum_units, sqrt_mult by (try apply rsum_squares; nra).
  unfold tm. now rewrite <- sqrt_Rsqr_abs.
Qed.
Lemma take_rows_tr X ix : take_rows (tX phi X) ix = rmap (tX phi) (take_rows X ix).
Proof.
  unfold take_rows. cbn [tX mx_rows mx_ncols]. rewrite map_length. destruct (forallb _ ix) eqn:E; cbn [rmap]; auto. f_equal. unfold tX. cbn [mx_rows mx_ncols]. f_equal. rewrite map_map.
  apply map_ext. intros i. change (@nil fl) with (trow phi []) at 1. apply map_nth.
Qed.
Lemma take_values_tr y ix : take_values (ch y) ix = rmap ch (take_values y ix).
Proof.
  rewrite ch_eq. unfold take_values, affine. rewrite map_length. destruct (forallb _ ix) eqn:E; cbn [rmap]; auto. f_equal. rewrite ch_eq. unfold affine. rewrite map_map. apply map_ext_in. intros i Hi.
  rewrite forallb_forall in E. apply E, Nat.ltb_lt in Hi. rewrite (nth_indep _ 0 (a + b * 0)) by now rewrite map_length. apply (map_nth (fun v => a + b * v)).
Qed.
Lemma original_rel bk bk' X y : forall folds s s' h h', heap_ok h -> heap_ok h' -> settings s' = settings s ->
  original_rmses bk' s' h' (tX phi X) (ch y) (map (fun f => (fst f, map (trg sg) (snd f))) folds) = rmap (map tm) (original_rmses bk s h X y folds).
Proof.
  induction folds as [|[[train test] rs] folds IH]; intros s s' h h' W W' Hs; cbn [map original_rmses fst snd]; auto.
  rewrite take_rows_tr. destruct (take_rows X train) as [X1| |]; cbn [rbind rmap]; auto. rewrite take_values_tr. destruct (take_values y train) as [y1| |]; cbn [rbind rmap]; auto.
  pose proof (fit_est bk bk' s s' h h' X1 y1 rs W W' Hs) as F. destruct (fit bk s h X1 y1 rs) as [m|e|] eqn:E1, (fit bk' s' h' (tX phi X1) (ch y1) _) as [m'|e'|] eqn:E2; cbn [same_outcome rbind rmap] in *; try contradiction; try congruence.
  rewrite take_rows_tr. destruct (take_rows X test) as [X2| |]; cbn [rbind rmap]; auto. rewrite take_values_tr. destruct (take_values y test) as [y2| |]; cbn [rbind rmap]; auto.
  rewrite (rmse_rel _ _ _ _ F). destruct (sk_rmse m X2 y2) as [e| |]; cbn [rbind rmap]; auto.
  apply (fit_heap _ _ _ _ _ _ _ h) in E1; auto. apply (fit_heap _ _ _ _ _ _ _ h') in E2; auto. rewrite (IH m m' _ _ E1 E2) by apply F.
  now destruct (original_rmses bk m _ X y folds).
Qed.
Lemma permute_tr X v p : permute_column (tX phi X) v p = rmap (tX phi) (permute_column X v p).
Proof.
  unfold permute_column. cbn [tX mx_ncols]. destruct (v <? mx_ncols X)%nat; cbn [rmap]; auto. f_equal. unfold tX. cbn [mx_rows mx_ncols]. f_equal. rewrite map_map2.
  assert (E : forall i, cell (nth i (map (trow phi) (mx_rows X)) []) v = phi v (cell (nth i (mx_rows X) []) v)).
  { intros i. rewrite <- (cell_trow phi phi_nan). f_equal. change (@nil fl) with (trow phi []) at 1. apply map_nth. }
  generalize (mx_rows X) at 2 4 as rows. intros rows. revert p. induction rows as [|r rows IH]; intros [|i p]; auto. cbn [map map2]. f_equal; [|apply IH].
  rewrite E. symmetry. apply imap_set_nth.
Qed.
Definition tnt (t : null_task) : null_task := Nt (tX phi (nt_train_X t)) (tX phi (nt_test_X t)) (ch (nt_train_y t)) (ch (nt_test_y t)).
Lemma fold_tasks_tr X y v train test : forall perms, fold_tasks (tX phi X) (ch y) v train test perms = rmap (map tnt) (fold_tasks X y v train test perms).
Proof.
  induction perms as [|p perms IH]; auto. cbn [fold_tasks]. rewrite permute_tr. destruct (permute_column X v p) as [PX| |]; cbn [rbind rmap]; auto.
  rewrite !take_rows_tr. destruct (take_rows PX train) as [X1| |]; cbn [rbind rmap]; auto. rewrite !take_values_tr. destruct (take_values y train) as [y1| |]; cbn [rbind rmap]; auto.
  destruct (take_values y test) as [y2| |]; cbn [rbind rmap]; auto. rewrite IH. now destruct (fold_tasks X y v train test perms).
Qed.
Lemma null_tasks_tr X y v : forall folds, null_tasks (tX phi X) (ch y) v folds = rmap (map tnt) (null_tasks X y v folds).
Proof.
  induction folds as [|[[train test] perms] folds IH]; auto. cbn [null_tasks]. rewrite fold_tasks_tr, IH. destruct (fold_tasks X y v train test perms) as [ts| |]; cbn [rbind rmap]; auto.
  destruct (null_tasks X y v folds); cbn [rbind rmap]; auto. now rewrite map_app.
Qed.
Lemma score_rel : forall ms ms', Forall2 est_rel ms ms' -> forall ts, score ms' (map tnt ts) = rmap (map tm) (score ms ts).
Proof.
  induction 1 as [|m m' ms ms' H _ IH]; intros [|t ts]; auto. cbn [map score tnt nt_test_X nt_test_y]. rewrite (rmse_rel _ _ _ _ H), IH. destruct (sk_rmse m _ _); cbn [rbind rmap]; auto.
  now destruct (score ms ts).
Qed.
Lemma importance_rel bk bk' s s' h h' X y v folds folds' rs : heap_ok h -> heap_ok h' -> est_rel s s' ->
  same_outcome (fun q q' => fst q' = (map tm (fst (fst q)), map tm (snd (fst q))) /\ est_rel (snd q) (snd q'))
    (feature_importance bk s h X y v folds folds' rs)
    (feature_importance bk' s' h' (tX phi X) (ch y) v (map (fun f => (fst f, map (trg sg) (snd f))) folds) folds' (map (trg sg) rs)).
Proof.
  intros W W' Hs. unfold feature_importance, null_rmse_distribution. rewrite (original_rel bk bk' X y folds s s' h h') by (auto; apply Hs).
  destruct (original_rmses bk s h X y folds) as [es| |]; cbn [rbind rmap]; try exact I; [|reflexivity].
  rewrite null_tasks_tr. destruct (null_tasks X y v folds') as [ts| |]; cbn [rbind rmap]; try exact I; [|reflexivity].
  pose proof (run_models_rel s s' h h' (map nt_train_X ts) (map nt_train_y ts) rs W W' Hs) as M.
  replace (map (tX phi) (map nt_train_X ts)) with (map nt_train_X (map tnt ts)) in M by now rewrite !map_map.
  replace (map ch (map nt_train_y ts)) with (map nt_train_y (map tnt ts)) in M by now rewrite !map_map.
  destruct (run_models s h _ _ rs) as [[ms s1]| |], (run_models s' h' _ _ _) as [[ms' s1']| |]; cbn [same_outcome rbind] in *; try contradiction; auto.
  destruct M as [F E]. cbn [fst snd] in F, E. rewrite (score_rel _ _ F). destruct (score ms ts); simpl; auto.
Qed.
End Rel.
