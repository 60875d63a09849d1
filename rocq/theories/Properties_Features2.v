(** Properties C64, C70, C71: see /verif/properties.jsonl. *)
From Coq Require Import Reals Lra Lia ZArith Permutation Sorted.
From Verif Require Import Base Fl Ext MData MSplit MTree MSampler MHist MTreeHist MModel MModelHist MSklearn MFeatures Spec SpecTree SpecSampler SpecModel SpecSklearn SpecFeatures.
From Verif Require Import LFl LList PData PSplit PDataProps PCond PTree PPred PTreeHist PModel PModel2 PModel7 PModel8 PModel12 PSklearn PSklearn2 PSklearn3 PFeatures
  Properties_Model Properties_Model2 Properties_Sklearn Properties_Sklearn2 Properties_Features.
Local Open Scope R_scope.

(** ** C64 *)
(** the runs asked for, fold by fold: training rows, test rows, permutation *)
Definition null_runs (folds : list (list nat * list nat * list (list nat))) : list (list nat * list nat * list nat) :=
  flat_map (fun f => map (fun p => (fst (fst f), snd (fst f), p)) (snd f)) folds.
(** [t] is the data set of a run: the training rows of [X], with the values of column [v] (and of no other) taken
    from the rows that [p] says; both the covariates to train on and those to score on are these rows *)
Definition is_task (X : matrix) (y : list R) (v : nat) (run : list nat * list nat * list nat) (t : null_task) : Prop :=
  let '(train, test, p) := run in
  mx_ncols (nt_train_X t) = mx_ncols X /\ length (mx_rows (nt_train_X t)) = length train /\
  (forall k c, (k < length train)%nat -> (c < mx_ncols X)%nat ->
     value_in (nt_train_X t) k c = if Nat.eq_dec c v then value_in X (nth (nth k train 0%nat) p 0%nat) v else value_in X (nth k train 0%nat) c) /\
  nt_test_X t = nt_train_X t /\
  nt_train_y t = map (fun i => nth i y 0) train /\ nt_test_y t = map (fun i => nth i y 0) test.
Definition rectangular (X : matrix) : Prop := Forall (fun r => length r = mx_ncols X) (mx_rows X).
Lemma cell_set_nth v x r c : (v < length r)%nat -> cell (set_nth v x r) c = if Nat.eq_dec c v then x else cell r c.
Proof.
  unfold cell. revert v c. induction r as [|a r IH]; intros v c Hv; [simpl in Hv; lia|]. destruct v as [|v], c as [|c]; simpl; auto.
  rewrite IH by (simpl in Hv; lia). destruct (Nat.eq_dec c v), (Nat.eq_dec (S c) (S v)); auto; lia.
Qed.
Lemma forallb_lt ix n : forallb (fun i => i <? n)%nat ix = true -> forall i, In i ix -> (i < n)%nat.
Proof. rewrite forallb_forall. intros H i Hi. apply Nat.ltb_lt. auto. Qed.
Lemma fold_tasks_spec X y v train test : rectangular X -> forall perms ts, (forall p, In p perms -> length p = length (mx_rows X)) ->
  fold_tasks X y v train test perms = Ok ts -> Forall2 (fun p t => is_task X y v (train, test, p) t) perms ts.
Proof.
  intros Hr. induction perms as [|p perms IH]; intros ts Hp; cbn [fold_tasks]; [intros [= <-]; constructor|].
  unfold permute_column. destruct (Nat.ltb_spec v (mx_ncols X)) as [Hv|]; [|discriminate]. cbn [rbind].
  set (PX := Mx _ _). destruct (take_rows PX train) as [X1| |] eqn:E1; try discriminate. cbn [rbind].
  destruct (take_values y train) as [y1| |] eqn:E2; try discriminate. cbn [rbind]. destruct (take_values y test) as [y2| |] eqn:E3; try discriminate. cbn [rbind].
  destruct (fold_tasks X y v train test perms) as [ts'| |] eqn:E4; try discriminate. cbn [rbind]. intros [= <-].
  constructor; [|apply IH; auto; intros; apply Hp; simpl; auto].
  unfold take_rows in E1. destruct (forallb _ train) eqn:Ef in E1; [|discriminate]. injection E1 as <-.
  unfold take_values in E2, E3. destruct (forallb _ train) in E2; [|discriminate]. destruct (forallb _ test) in E3; [|discriminate]. injection E2 as <-. injection E3 as <-.
  cbn [is_task nt_train_X nt_test_X nt_train_y nt_test_y mx_ncols mx_rows]. split; auto. split; [apply map_length|]. split; [|auto].
  intros k c Hk Hc. unfold value_in. cbn [mx_rows]. rewrite nth_map_in with (d := 0%nat) by auto.
  assert (Hi := forallb_lt _ _ Ef (nth k train 0%nat) (nth_In _ _ Hk)). set (i := nth k train 0%nat) in *. unfold PX in *. cbn [mx_rows] in *.
  rewrite map2_length in Hi by (apply Hp; simpl; auto). assert (Hlp : length p = length (mx_rows X)) by (apply Hp; simpl; auto).
  rewrite (nth_map2 _ [] 0%nat []) by lia. rewrite cell_set_nth; auto. unfold rectangular in Hr. rewrite Forall_forall in Hr.
  rewrite Hr by (apply nth_In; lia). auto.
Qed.
Theorem C64_tasks : forall X y v folds ts, rectangular X -> (forall tr te ps p, In (tr, te, ps) folds -> In p ps -> length p = length (mx_rows X)) ->
  null_tasks X y v folds = Ok ts -> Forall2 (is_task X y v) (null_runs folds) ts.
Proof.
  intros X y v folds ts Hr. revert ts. induction folds as [|[[train test] perms] folds IH]; intros ts Hp; simpl; [intros [= <-]; constructor|].
  destruct (fold_tasks X y v train test perms) as [t1| |] eqn:E1; try discriminate. cbn [rbind].
  destruct (null_tasks X y v folds) as [t2| |] eqn:E2; try discriminate. cbn [rbind]. intros [= <-]. apply Forall2_app.
  - assert (HF := fold_tasks_spec X y v train test Hr perms t1 (fun p Hin => Hp train test perms p (or_introl eq_refl) Hin) E1). clear - HF.
    induction HF; simpl; constructor; auto.
  - apply IH; auto. intros tr te ps p H1 H2. apply (Hp tr te ps p); simpl; auto.
Qed.
Print Assumptions C64_tasks.
(** Every reported error compares the test targets of run [k] with predictions for its training rows, made from the
    samples of the run before it (of the caller's own samples for the first). *)
Lemma score_spec : forall ms ts es, score ms ts = Ok es -> length es = Nat.min (length ms) (length ts) /\
  forall k m t e, nth_error ms k = Some m -> nth_error ts k = Some t -> nth_error es k = Some e -> sk_rmse m (nt_test_X t) (nt_test_y t) = Ok e.
Proof.
  induction ms as [|m ms IH]; intros [|t ts] es; simpl; try (intros [= <-]; split; auto; intros [|k] ? ? ? ? ?; discriminate).
  destruct (sk_rmse m (nt_test_X t) (nt_test_y t)) as [e| |] eqn:E; try discriminate. cbn [rbind]. destruct (score ms ts) as [es'| |] eqn:E2; try discriminate. cbn [rbind].
  intros [= <-]. destruct (IH _ _ E2) as [L H]. split; [simpl; lia|]. intros [|k] m' t' e'; simpl; [congruence|]. intros. eapply H; eauto.
Qed.
Theorem C64_scores : forall s h X y v folds rs es s', (0 < sk_nchains s)%nat ->
  null_rmse_distribution s h X y v folds rs = Ok (es, s') ->
  exists ts runs, null_tasks X y v folds = Ok ts /\ length runs = length ts /\ length es = length ts /\
    (forall k t, nth_error ts k = Some t -> Forall2 (ran s h (nt_train_X t) (nt_train_y t)) (nth k runs []) (block (sk_nchains s) k rs)) /\
    forall k t e, nth_error ts k = Some t -> nth_error es k = Some e ->
      exists m, sk_samples m = (match k with O => sk_samples s | S j => Some (all_samples (nth j runs [])) end) /\
        convert_to_data (nt_train_X t) (nt_train_y t) = match sk_data m with Some d => Ok d | None => Raise EAttributeError end /\
        sk_rmse m (nt_test_X t) (nt_test_y t) = Ok e.
Proof.
  intros s h X y v folds rs es s' Hn. unfold null_rmse_distribution. destruct (null_tasks X y v folds) as [ts| |]; try discriminate. cbn [rbind].
  destruct (run_models s h _ _ rs) as [[ms s1]| |] eqn:Er; try discriminate. cbn [rbind]. destruct (score ms ts) as [es'| |] eqn:Es; try discriminate. cbn [rbind].
  intros [= <- <-]. destruct (C55_run_models s h _ _ rs ms s1 (length ts) Hn (map_length _ _) (map_length _ _) Er) as (runs&Lr&Hran&Lm&Hi&_).
  destruct (score_spec _ _ _ Es) as [Le Hs]. exists ts, runs. split; auto. split; auto. split; [lia|]. split.
  - intros k t Ht. apply Hran; rewrite nth_error_map, Ht; reflexivity.
  - intros k t e Ht He. destruct (nth_error ms k) as [m|] eqn:Em.
    + exists m. destruct (Hi k m Em) as (A&d&X0&y0&B&C&D&E). rewrite nth_error_map, Ht in B, C. injection B as <-. injection C as <-. rewrite E. eauto.
    + apply nth_error_None in Em. assert (k < length ts)%nat by (apply nth_error_Some; congruence). lia.
Qed.
Print Assumptions C64_scores.
(** With a model that has not been trained the call cannot return, though the documentation of feature_importance
    says it need not be. *)
Theorem C64_untrained : forall s h X y v folds rs es s', (0 < sk_nchains s)%nat -> sk_samples s = None -> null_runs folds <> [] ->
  null_rmse_distribution s h X y v folds rs <> Ok (es, s').
Proof.
  intros s h X y v folds rs es s' Hn Hs Hne E. destruct (C64_scores _ _ _ _ _ _ _ _ _ Hn E) as (ts&runs&Et&_&Le&_&H).
  assert (Hl : length ts = length (null_runs folds)).
  { clear - Et. revert ts Et. induction folds as [|[[tr te] ps] folds IH]; intros ts; simpl; [intros [= <-]; auto|].
    destruct (fold_tasks X y v tr te ps) as [t1| |] eqn:E1; try discriminate. cbn [rbind]. destruct (null_tasks X y v folds) as [t2| |]; try discriminate. cbn [rbind].
    intros [= <-]. rewrite !app_length, map_length, (IH _ eq_refl). f_equal. revert t1 E1. induction ps as [|p ps IHp]; intros t1; simpl; [intros [= <-]; auto|].
    destruct (permute_column X v p) as [PX| |]; try discriminate. cbn [rbind]. destruct (take_rows PX tr) as [X1| |]; try discriminate. cbn [rbind].
    destruct (take_values y tr) as [y1| |]; try discriminate. cbn [rbind]. destruct (take_values y te) as [y2| |]; try discriminate. cbn [rbind].
    destruct (fold_tasks X y v tr te ps) as [t3| |]; try discriminate. cbn [rbind]. intros [= <-]. simpl. f_equal. auto. }
  destruct ts as [|t ts]; [destruct (null_runs folds); [congruence|discriminate]|]. destruct es as [|e es]; [discriminate|].
  destruct (H 0%nat t e eq_refl eq_refl) as (m&Hm&Hd&Hr). rewrite Hs in Hm. revert Hr. unfold sk_rmse, rmse_with, l2_with, residuals_with, sk_predict, out_of_sample_predict.
  rewrite Hm. destruct (sk_data m); discriminate.
Qed.
Print Assumptions C64_untrained.
(** and with training and test parts of different sizes it cannot return either (unless one has a single row, when
    numpy would broadcast) *)
Lemma vsum_length n : forall vs s, vsum n vs = Ok s -> length s = n.
Proof.
  induction vs as [|v vs IH]; intros s; simpl; [intros [= <-]; apply repeat_length|]. destruct (vsum n vs) as [s1| |] eqn:E; try discriminate. cbn [rbind].
  intros Hv. destruct (vop_length _ _ _ _ Hv) as [A B]. rewrite (IH _ eq_refl) in *. congruence.
Qed.
Lemma out_length h s X v : sample_predict h s X = Ok v -> length v = length (mx_rows X).
Proof. unfold sample_predict, trees_predict_out. destruct (predict_out_all h (sm_trees s) X); try discriminate. cbn [rbind]. apply vsum_length. Qed.
Lemma sk_predict_length m X v : sk_predict m (Some X) = Ok v -> length v = length (mx_rows X).
Proof.
  simpl. unfold out_of_sample_predict. destruct (sk_data m) as [d|]; try discriminate. destruct (sk_samples m) as [ss|]; try discriminate.
  destruct (predict_samples ss X) as [vs| |] eqn:E; try discriminate. cbn [rbind]. destruct (vmean vs) as [u| |] eqn:Eu; try discriminate. cbn [rbind].
  assert (Hl : length u = length (mx_rows X)).
  { destruct ss as [|[h s] ss]; simpl in E; [injection E as <-; discriminate|]. destruct (sample_predict h s X) as [v1| |] eqn:E1; try discriminate. cbn [rbind] in E.
    destruct (predict_samples ss X) as [vs1| |]; try discriminate. cbn [rbind] in E. injection E as <-. unfold vmean in Eu. rewrite (out_length _ _ _ _ E1) in Eu.
    destruct (vsum _ _) as [q| |] eqn:Eq; try discriminate. cbn [rbind] in Eu. injection Eu as <-. rewrite map_length. eapply vsum_length; eauto. }
  unfold unnormalize_y. destruct (t_range (d_y d)) as [[lo hi]|]; try discriminate. intros [= <-]. unfold unnormalize_with. now rewrite map_length.
Qed.
Theorem C64_uneven_folds : forall s h X y v folds rs es s' k tr te p, (0 < sk_nchains s)%nat -> rectangular X ->
  (forall tr te ps p, In (tr, te, ps) folds -> In p ps -> length p = length (mx_rows X)) ->
  nth_error (null_runs folds) k = Some (tr, te, p) -> length tr <> length te -> length tr <> 1%nat -> length te <> 1%nat ->
  null_rmse_distribution s h X y v folds rs <> Ok (es, s').
Proof.
  intros s h X y v folds rs es s' k tr te p Hn Hr Hp Hk Hne _ _ E. destruct (C64_scores _ _ _ _ _ _ _ _ _ Hn E) as (ts&runs&Et&_&Le&_&H).
  pose proof (C64_tasks _ _ _ _ _ Hr Hp Et) as HF.
  assert (Ht : exists t, nth_error ts k = Some t /\ is_task X y v (tr, te, p) t).
  { clear - HF Hk. revert k Hk. induction HF as [|a b la lb Hab _ IH]; intros [|k]; simpl; try discriminate; [intros [= ->]; eauto|apply IH]. }
  destruct Ht as (t&Hkt&_&Hlen&_&Ex&_&Ey). assert (He : exists e, nth_error es k = Some e).
  { destruct (nth_error es k) eqn:Ee; eauto. apply nth_error_None in Ee. assert (k < length ts)%nat by (apply nth_error_Some; congruence). lia. }
  destruct He as (e&He). destruct (H k t e Hkt He) as (m&_&_&Hrm). revert Hrm. unfold sk_rmse, rmse_with, l2_with, residuals_with.
  destruct (sk_predict m (Some (nt_test_X t))) as [u| |] eqn:Eu; try discriminate. cbn [rbind]. apply sk_predict_length in Eu. rewrite Ex, Hlen in Eu.
  unfold vop. rewrite Ey, map_length, Eu. destruct (Nat.eqb_spec (length te) (length tr)); [congruence|discriminate].
Qed.
Print Assumptions C64_uneven_folds.
