(** Property C90: feature_importance as a whole. *)
From Coq Require Import Reals Lra Lia ZArith Permutation.
From Verif Require Import Base Fl Ext MData MSplit MTree MSampler MHist MTreeHist MModel MModelHist MSklearn MFeatures Spec SpecTree SpecSampler SpecModel SpecSklearn SpecFeatures SpecInvariance SpecImportance.
From Verif Require Import LFl LList PData PSplit PDataProps PCond PTree PPred PTreeHist PModel PModel2 PModel7 PModel8 PModel12 PSklearn PSklearn2 PSklearn3 PFeatures
  Properties_Model Properties_Model2 Properties_Sklearn Properties_Sklearn2 Properties_Features Properties_Features2 Properties_Features3 Properties_Invariance Properties_Features4.
Local Open Scope R_scope.

(** ** Folds *)
Lemma kfold_sum {A} (f : A -> list nat) l n : Permutation (flat_map f l) (seq 0 n) -> list_sum (map (fun a => length (f a)) l) = n.
Proof. intros H. apply Permutation_length in H. rewrite seq_length in H. rewrite <- H. clear. induction l; simpl; auto. rewrite app_length. now f_equal. Qed.
Lemma existsb_eq j te : existsb (Nat.eqb j) te = true <-> In j te.
Proof. rewrite existsb_exists. split; [intros (x&Hx&E); apply Nat.eqb_eq in E; now subst|intros H; exists j; split; auto; apply Nat.eqb_refl]. Qed.
Lemma fold_sizes n te : NoDup te -> (forall j, In j te -> (j < n)%nat) -> 
  (length (filter (fun j => negb (existsb (Nat.eqb j) te)) (seq 0 n)) + length te = n)%nat.
Proof.
  intros Hd Hi. set (g := fun j => existsb (Nat.eqb j) te).
  assert (E : (length (filter (fun j => negb (g j)) (seq 0 n)) + length (filter g (seq 0 n)) = length (seq 0 n))%nat).
  { generalize (seq 0 n). clear. induction l as [|a l IH]; simpl; auto. destruct (g a); simpl; lia. }
  rewrite seq_length in E. rewrite <- E at 2. f_equal. symmetry. apply Permutation_length, NoDup_Permutation; auto; [apply NoDup_filter, seq_NoDup|].
  intros j. rewrite filter_In, in_seq. unfold g. rewrite existsb_eq. split; [tauto|]. intros Hj. split; auto. specialize (Hi j Hj). lia.
Qed.
Lemma nodup_part {A} (f : A -> list nat) l a : NoDup (flat_map f l) -> In a l -> NoDup (f a).
Proof.
  induction l as [|b l IH]; simpl; [tauto|]. intros H [->|Ha].
  - clear - H. induction (f a) as [|x xs IHx]; constructor; simpl in H; inversion H; subst; auto. intros Hx. apply H2. apply in_app_iff; auto.
  - apply IH; auto. clear - H. induction (f b); simpl in H; auto. inversion H; auto.
Qed.
Lemma kfold_part n k parts i tr te : kfold n k parts -> nth_error parts i = Some (tr, te) ->
  (length tr + length te = n)%nat /\ (forall j, In j tr -> (j < n)%nat) /\ (forall j, In j te -> (j < n)%nat) /\ NoDup tr /\ length te = (n / k + (if i <? n mod k then 1 else 0))%nat.
Proof.
  intros (_&_&P&H) E. destruct (H _ _ _ E) as [L ->]. pose proof (nth_error_In _ _ E) as Hin.
  assert (Hi : forall j, In j te -> (j < n)%nat).
  { intros j Hj. assert (A : In j (seq 0 n)) by (eapply Permutation_in; [exact P|]; apply in_flat_map; exists (filter (fun j => negb (existsb (Nat.eqb j) te)) (seq 0 n), te); auto). apply in_seq in A. lia. }
  split; [apply fold_sizes; auto; eapply (nodup_part snd parts) in Hin; auto; eapply Permutation_NoDup; [symmetry; exact P|apply seq_NoDup]|].
  split; [intros j Hj; apply filter_In in Hj as [Hj _]; apply in_seq in Hj; lia|]. split; auto. split; auto. apply NoDup_filter, seq_NoDup.
Qed.
(** if training and test parts have the same size there are two of them *)
Lemma kfold_even n k parts : kfold n k parts -> (forall i tr te, nth_error parts i = Some (tr, te) -> length tr = length te) -> k = 2%nat /\ Nat.Even n.
Proof.
  intros H He. pose proof H as (Hk&L&P&_).
  assert (G : forall a, In a parts -> (2 * length (snd a) = n)%nat).
  { intros [tr te] Hin. apply In_nth_error in Hin as (i&E). destruct (kfold_part _ _ _ _ _ _ H E) as (A&_). specialize (He _ _ _ E). simpl. lia. }
  pose proof (kfold_sum snd parts n P) as S.
  assert (E2 : (2 * list_sum (map (fun a => length (snd a)) parts) = length parts * n)%nat).
  { clear - G. induction parts as [|a l IH]; [reflexivity|]. cbn [map length list_sum fold_right Nat.mul]. specialize (IH ltac:(intros; apply G; simpl; auto)). pose proof (G a (or_introl eq_refl)). unfold list_sum in *. lia. }
  rewrite S, L in E2. assert (k = 2)%nat by nia. split; auto. destruct parts as [|a l]; [simpl in L; lia|]. exists (length (snd a)). symmetry. apply G. simpl; auto.
Qed.

(** ** What is returned *)
Lemma null_runs_length n k np folds : null_folds n k np folds -> length (null_runs folds) = (k * np)%nat.
Proof.
  intros ((_&L&_)&H). rewrite map_length in L. rewrite <- L. unfold null_runs. clear L k. induction folds as [|[[tr te] ps] folds IH]; [reflexivity|].
  cbn [flat_map length]. rewrite app_length, map_length, IH by (intros f Hf; apply H; simpl; auto). destruct (H (tr, te, ps) (or_introl eq_refl)) as [E _]. cbn [snd] in *. rewrite E. lia.
Qed.
Lemma null_folds_perms n k np folds : null_folds n k np folds -> forall tr te ps p, In (tr, te, ps) folds -> In p ps -> length p = n.
Proof. intros (_&H) tr te ps p Hin Hp. destruct (H _ Hin) as [_ G]. rewrite (Permutation_length (G p Hp)). apply seq_length. Qed.
(** The first list holds one error per fold: that of an estimator with the caller's settings, fitted to the fold's training rows,
    on the fold's test rows.  The second list holds one number per fold and permutation.  For the run number [j] on the training
    part [tr], the test part [te] and the permutation [p]: it compares the test targets with predictions for the TRAINING rows
    (column [v], and no other, permuted by [p]), and the samples that predict are those of run [j - 1], for the first run those
    the caller's model held before. *)
Theorem C90_result : forall b s h X y v k np folds folds' rs es ns s', (0 < sk_nchains s)%nat -> heap_ok h -> no_nan X -> rectangular X ->
  original_folds (length (mx_rows X)) k folds -> null_folds (length (mx_rows X)) k np folds' ->
  feature_importance b s h X y v folds folds' rs = Ok (es, ns, s') ->
  length es = k /\ length ns = (k * np)%nat /\
  Forall2 (fun f e => let '(train, test, rs) := f in
    exists m, fit b s h (rows_of X train) (targets_of y train) rs = Ok m /\ sk_rmse m (rows_of X test) (targets_of y test) = Ok e) folds es /\
  exists runs, forall j train test p e, nth_error (null_runs folds') j = Some (train, test, p) -> nth_error ns j = Some e ->
    exists PX m,
      mx_ncols PX = mx_ncols X /\ length (mx_rows PX) = length train /\
      (forall i c, (i < length train)%nat -> (c < mx_ncols X)%nat -> value_in PX i c =
         if Nat.eq_dec c v then value_in X (nth (nth i train 0%nat) p 0%nat) v else value_in X (nth i train 0%nat) c) /\
      Forall2 (ran s h PX (targets_of y train)) (nth j runs []) (block (sk_nchains s) j rs) /\
      sk_samples m = (match j with O => sk_samples s | S j' => Some (all_samples (nth j' runs [])) end) /\
      sk_rmse m PX (targets_of y test) = Ok e.
Proof.
  intros b s h X y v k np folds folds' rs es ns s' Hk W Hn Hr Hf Hf'. unfold feature_importance.
  destruct (original_rmses b s h X y folds) as [es0| |] eqn:Eo; try discriminate. cbn [rbind].
  destruct (null_rmse_distribution s h X y v folds' rs) as [[ns0 s0]| |] eqn:En; try discriminate. cbn [rbind]. intros [= <- <- <-].
  pose proof (C64_original_errors _ _ _ _ _ _ _ W Hn Eo) as HF. destruct (C64_scores _ _ _ _ _ _ _ _ _ Hk En) as (ts&runs&Et&Lr&Le&Hran&Hsc).
  pose proof (C64_tasks _ _ _ _ _ Hr (null_folds_perms _ _ _ _ Hf') Et) as HT. pose proof (PModel7.Forall2_length _ _ _ HT) as LT.
  split; [rewrite <- (PModel7.Forall2_length _ _ _ HF); destruct Hf as (_&L&_); now rewrite map_length in L|].
  split; [rewrite Le, <- LT; eapply null_runs_length; eauto|]. split; auto. exists runs. intros j train test p e Ej Ee.
  assert (Ht : exists t, nth_error ts j = Some t /\ is_task X y v (train, test, p) t).
  { clear - HT Ej. revert j Ej. induction HT as [|a c la lc Hac _ IH]; intros [|j]; simpl; try discriminate; [intros [= ->]; eauto|apply IH]. }
  destruct Ht as (t&Hkt&A&B&C&D&E&F). destruct (Hsc j t e Hkt Ee) as (m&Hm&_&Hrm). exists (nt_train_X t), m.
  split; auto. split; auto. split; auto. split; [unfold targets_of; rewrite <- E; now apply Hran|]. split; auto. unfold targets_of. now rewrite <- F, <- D.
Qed.
Print Assumptions C90_result.

(** ** When it returns *)
(** Whatever the data and the draws, an untrained model is not enough, though the documentation says it is. *)
Theorem C90_untrained : forall b s h X y v k np folds folds' rs es ns s', (0 < sk_nchains s)%nat -> sk_samples s = None -> (0 < np)%nat ->
  null_folds (length (mx_rows X)) k np folds' -> feature_importance b s h X y v folds folds' rs <> Ok (es, ns, s').
Proof.
  intros b s h X y v k np folds folds' rs es ns s' Hk Hs Hnp Hf. unfold feature_importance.
  destruct (original_rmses b s h X y folds) as [es0| |]; try discriminate. cbn [rbind].
  destruct (null_rmse_distribution s h X y v folds' rs) as [[ns0 s0]| |] eqn:En; try discriminate. intros _.
  apply (C64_untrained _ _ _ _ _ _ _ _ _ Hk Hs) in En; auto. intros E. pose proof (null_runs_length _ _ _ _ Hf) as L. rewrite E in L. destruct Hf as ((Hk2&_)&_). simpl in L. nia.
Qed.
Print Assumptions C90_untrained.
(** And it returns only for two folds of an even number of rows (if every test part has at least two rows, so that numpy does not broadcast). *)
Theorem C90_two_even_folds : forall b s h X y v k np folds folds' rs es ns s', (0 < sk_nchains s)%nat -> rectangular X -> (0 < np)%nat ->
  (2 * k <= length (mx_rows X))%nat -> null_folds (length (mx_rows X)) k np folds' ->
  feature_importance b s h X y v folds folds' rs = Ok (es, ns, s') -> k = 2%nat /\ Nat.Even (length (mx_rows X)).
Proof.
  intros b s h X y v k np folds folds' rs es ns s' Hk Hr Hnp Hbig Hf. unfold feature_importance.
  destruct (original_rmses b s h X y folds) as [es0| |]; try discriminate. cbn [rbind].
  destruct (null_rmse_distribution s h X y v folds' rs) as [[ns0 s0]| |] eqn:En; try discriminate. intros _.
  pose proof Hf as [Hkf Hps]. apply (kfold_even _ _ _ Hkf). intros i tr te Ei. destruct (Nat.eq_dec (length tr) (length te)) as [|Hne]; auto. exfalso.
  destruct (kfold_part _ _ _ _ _ _ Hkf Ei) as (A&_&_&_&B). assert (Hk2 : (2 <= k)%nat) by apply Hkf.
  set (n := length (mx_rows X)) in *.
  assert (Hd1 : (2 <= n / k)%nat) by (apply Nat.div_le_lower_bound; lia).
  assert (Hd2 : (n / k <= n / 2)%nat) by (apply Nat.div_le_compat_l; lia).
  assert (Hd3 : (2 * (n / 2) <= n)%nat) by (pose proof (Nat.div_mod n 2); lia).
  rewrite nth_error_map in Ei. destruct (nth_error folds' i) as [[[tr' te'] ps]|] eqn:Ef; [|discriminate]. cbn [option_map fst] in Ei. injection Ei as -> ->.
  pose proof (nth_error_In _ _ Ef) as Hin. destruct (Hps _ Hin) as [Lp _]. cbn [snd] in Lp. destruct ps as [|p ps]; [simpl in Lp; lia|].
  assert (Hrun : In (tr, te, p) (null_runs folds')) by (unfold null_runs; apply in_flat_map; exists (tr, te, p :: ps); split; auto; simpl; auto).
  apply In_nth_error in Hrun as (j&Ej).
  assert (Ht1 : length te <> 1%nat) by (destruct (i <? n mod k)%nat; lia).
  assert (Htr1 : length tr <> 1%nat).
  { destruct (i <? n mod k)%nat eqn:Ei; [|lia]. intros E1. assert (n = 4)%nat by lia. apply Nat.ltb_lt in Ei. replace n with 4%nat in *. assert (k = 2)%nat as -> by lia. simpl in Ei. lia. }
  exact (C64_uneven_folds _ _ _ _ _ _ _ _ _ j tr te p Hk Hr (null_folds_perms _ _ _ _ Hf) Ej Hne Htr1 Ht1 En).
Qed.
Print Assumptions C90_two_even_folds.

(** In that case it does return, for some draws, if the model is trained and the training parts can be fitted. *)
Lemma rmse_ok m n ss d X' y' : sk_samples m = Some ss -> ss <> [] -> (exists tss, Forall2 (consists_of n) ss tss) -> sk_data m = Some d ->
  (exists r, t_range (d_y d) = Some r) -> (n <= mx_ncols X')%nat -> length y' = length (mx_rows X') -> exists e, sk_rmse m X' y' = Ok e.
Proof.
  intros Hs Hne (tss&HF) Hd ([lo hi]&Hr) Hc Hl.
  assert (G : exists ps, samples_say ss X' ps /\ forall p, In p ps -> length p = length (mx_rows X')).
  { clear - HF Hc. induction HF as [|st ts ss tss (_&_&_&H) _ (ps&A&B)]; [exists []; split; [constructor|intros ? []]|].
    destruct (H X' Hc) as (p&E&L&_). exists (p :: ps). split; [constructor; auto|]. intros q [<-|Hq]; auto. }
  destruct G as (ps&Hsay&Hlen). assert (Hpne : ps <> []) by (intros E0; rewrite E0 in Hsay; destruct ss as [|q ss1]; [apply Hne; reflexivity|inversion Hsay]).
  destruct (vmean_spec ps _ Hpne Hlen) as (u&Eu&Lu&_). apply predict_samples_spec in Hsay.
  unfold sk_rmse, rmse_with, l2_with, residuals_with. cbn [sk_predict]. unfold sk_predict, out_of_sample_predict. rewrite Hd, Hs, Hsay. cbn [rbind]. rewrite Eu. cbn [rbind]. unfold unnormalize_y. rewrite Hr.
  cbn [rbind]. unfold vop. unfold unnormalize_with. rewrite map_length, Lu, Hl, Nat.eqb_refl. cbn [rbind]. eauto.
Qed.
Lemma chain_nonempty s X y e r : (0 < sk_nsamples s)%nat -> (exists num den, sk_thin s = TInv num den /\ num <> 0%Z) -> chain_ran s X y e r -> ch_models (snd e) <> [].
Proof.
  intros Hns (num&den&Ht&Hz) (hs&m&m'&r'&kept&_&_&_&(_&F&_)&Hc&_). destruct (keeps_some num den Hz) as (q&Hq&Hk). specialize (Hc num den q Ht Hz Hq Hk).
  intros E. rewrite E in F. inversion F; subst. cbn [length] in Hc. assert (1 <= (sk_nsamples s + q - 1) / q)%nat by (apply Nat.div_le_lower_bound; lia). lia.
Qed.
Lemma runs_nonempty s X y es rs : (0 < sk_nsamples s)%nat -> (exists num den, sk_thin s = TInv num den /\ num <> 0%Z) -> Forall2 (chain_ran s X y) es rs -> es <> [] -> all_samples es <> [].
Proof.
  intros H1 H2 HF Hne. destruct HF as [|e r es rs He _]; [congruence|]. unfold all_samples. cbn [flat_map]. pose proof (chain_nonempty _ _ _ _ _ H1 H2 He).
  destruct (ch_models (snd e)); [congruence|discriminate].
Qed.
Lemma range_some X y d : convert_to_data X y = Ok d -> exists r, t_range (d_y d) = Some r.
Proof. intros H. apply convert_spec in H. destruct (target_spec _ _ _ H) as (lo&hi&ny&_&_&_&_&E&_). eauto. Qed.
Lemma fit_rmse_ok b s h X y rs m X' y' : no_nan X -> length y = length (mx_rows X) -> fit b s h X y rs = Ok m -> (0 < sk_nsamples s)%nat ->
  (exists num den, sk_thin s = TInv num den /\ num <> 0%Z) -> (mx_ncols X <= mx_ncols X')%nat -> length y' = length (mx_rows X') -> exists e, sk_rmse m X' y' = Ok e.
Proof.
  intros Hn Hl Hf Hns Ht Hc Hl'. destruct (fit_spec _ _ _ _ _ _ _ Hn Hl Hf) as (d&mm&es&Hd&Hsd&_&_&_&_&Hne&_&HF&Hss&_).
  destruct (runs_consist _ _ _ _ _ HF) as (tss&A&_). eapply (rmse_ok m (mx_ncols X) (all_samples es) d); eauto.
  - eapply runs_nonempty; eauto.
  - eapply range_some; eauto.
Qed.
Definition fold_fits (s : sklearn) (X : matrix) (y : list R) (train : list nat) : Prop := can_fit s (rows_of X train) (targets_of y train).
Lemma take_rows_ok X ix : (forall i, In i ix -> (i < length (mx_rows X))%nat) -> take_rows X ix = Ok (rows_of X ix).
Proof. intros H. unfold take_rows, rows_of. rewrite (proj2 (forallb_forall _ ix)); auto. intros i Hi. apply Nat.ltb_lt. auto. Qed.
Lemma take_values_ok y ix : (forall i, In i ix -> (i < length y)%nat) -> take_values y ix = Ok (targets_of y ix).
Proof. intros H. unfold take_values, targets_of. rewrite (proj2 (forallb_forall _ ix)); auto. intros i Hi. apply Nat.ltb_lt. auto. Qed.
Lemma original_ok b X y : length y = length (mx_rows X) -> forall parts s h, (0 < sk_nchains s)%nat -> (0 < sk_nsamples s)%nat ->
  (forall tr te, In (tr, te) parts -> fold_fits s X y tr /\ forall i, In i tr \/ In i te -> (i < length (mx_rows X))%nat) ->
  exists folds es, map fst folds = parts /\ original_rmses b s h X y folds = Ok es.
Proof.
  intros Hl. induction parts as [|[tr te] parts IH]; intros s h Hk Hns H; [exists [], []; auto|].
  destruct (H tr te (or_introl eq_refl)) as [Hf Hi]. destruct (fit_ok b s h _ _ Hf ltac:(lia)) as (rs&s1&_&Ef). pose proof Hf as (Hn&Hl1&_&_&_&_&Ht).
  destruct (fit_spec _ _ _ _ _ _ _ Hn Hl1 Ef) as (d&mm&es0&_&_&_&_&Hset&_). destruct (settings_fields _ _ Hset) as (_&E1&E2&_).
  destruct (fit_rmse_ok b s h _ _ rs s1 (rows_of X te) (targets_of y te) Hn Hl1 Ef Hns Ht (le_n _)) as (e&Ee); [unfold targets_of, rows_of; simpl; now rewrite !map_length|].
  destruct (IH s1 (sk_heap s1 h)) as (folds&es&Em&Eo).
  - congruence.
  - congruence.
  - intros tr' te' Hin. destruct (H tr' te' (or_intror Hin)) as [A B]. split; auto. eapply can_fit_settings; eauto.
  - exists ((tr, te, rs) :: folds), (e :: es). split; [simpl; now rewrite Em|]. cbn [original_rmses].
    rewrite take_rows_ok by auto. cbn [rbind]. rewrite take_values_ok by (rewrite Hl; auto). cbn [rbind]. rewrite Ef. cbn [rbind].
    rewrite take_rows_ok by auto. cbn [rbind]. rewrite take_values_ok by (rewrite Hl; auto). cbn [rbind]. rewrite Ee. cbn [rbind]. rewrite Eo. reflexivity.
Qed.
(** the identity permutation leaves the matrix alone *)
Lemma set_same v : forall r : row, (v < length r)%nat -> set_nth v (cell r v) r = r.
Proof. unfold cell. induction v as [|v IH]; intros [|a r] H; simpl in *; try lia; auto. f_equal. apply IH. lia. Qed.
Lemma permute_id X v : rectangular X -> (v < mx_ncols X)%nat -> permute_column X v (seq 0 (length (mx_rows X))) = Ok X.
Proof.
  intros Hr Hv. unfold permute_column. rewrite (proj2 (Nat.ltb_lt _ _) Hv). f_equal. destruct X as [n rows]. cbn [mx_ncols mx_rows] in *. f_equal.
  apply nth_ext with (d := []) (d' := []); [rewrite map2_length; auto; apply seq_length|]. rewrite map2_length by apply seq_length. intros i Hi.
  rewrite (nth_map2 _ [] 0%nat []) by (rewrite ?seq_length; lia). rewrite seq_nth by auto. cbn [Nat.add]. apply set_same. unfold rectangular in Hr. cbn [mx_rows mx_ncols] in Hr.
  rewrite Forall_forall in Hr. rewrite Hr; auto. now apply nth_In.
Qed.
Lemma fold_tasks_id X y v tr te np : rectangular X -> (v < mx_ncols X)%nat -> length y = length (mx_rows X) -> (forall i, In i tr \/ In i te -> (i < length (mx_rows X))%nat) ->
  fold_tasks X y v tr te (repeat (seq 0 (length (mx_rows X))) np) = Ok (repeat (Nt (rows_of X tr) (rows_of X tr) (targets_of y tr) (targets_of y te)) np).
Proof.
  intros Hr Hv Hl Hi. induction np as [|np IH]; [reflexivity|]. cbn [repeat fold_tasks]. rewrite permute_id by auto. cbn [rbind]. rewrite take_rows_ok by auto. cbn [rbind].
  rewrite !take_values_ok by (rewrite Hl; auto). cbn [rbind]. rewrite IH. reflexivity.
Qed.
Lemma null_tasks_id X y v np : rectangular X -> (v < mx_ncols X)%nat -> length y = length (mx_rows X) -> forall parts,
  (forall tr te, In (tr, te) parts -> forall i, In i tr \/ In i te -> (i < length (mx_rows X))%nat) ->
  null_tasks X y v (map (fun p => (p, repeat (seq 0 (length (mx_rows X))) np)) parts) =
  Ok (flat_map (fun p => repeat (Nt (rows_of X (fst p)) (rows_of X (fst p)) (targets_of y (fst p)) (targets_of y (snd p))) np) parts).
Proof.
  intros Hr Hv Hl. induction parts as [|[tr te] parts IH]; intros Hi; [reflexivity|]. cbn [map null_tasks flat_map fst snd].
  rewrite fold_tasks_id by (auto; apply Hi; simpl; auto). cbn [rbind]. rewrite IH by (intros; eapply Hi; simpl; eauto). reflexivity.
Qed.
Lemma score_ok : forall ms ts, (forall k m t, nth_error ms k = Some m -> nth_error ts k = Some t -> exists e, sk_rmse m (nt_test_X t) (nt_test_y t) = Ok e) -> exists es, score ms ts = Ok es.
Proof.
  induction ms as [|m ms IH]; intros [|t ts] H; try (exists []; reflexivity). cbn [score]. destruct (H 0%nat m t eq_refl eq_refl) as (e&->). cbn [rbind].
  destruct (IH ts) as (es&->); [intros k m' t' A B; apply (H (S k) m' t' A B)|]. eexists. reflexivity.
Qed.
Lemma possible_core : forall b s0 s h0 h X0 y0 rs0 X y v np parts parts',
  no_nan X0 -> length y0 = length (mx_rows X0) -> fit b s0 h0 X0 y0 rs0 = Ok s -> (mx_ncols X0 <= mx_ncols X)%nat ->
  rectangular X -> length y = length (mx_rows X) -> (v < mx_ncols X)%nat -> (0 < sk_nchains s)%nat -> (0 < sk_nsamples s)%nat ->
  kfold (length (mx_rows X)) 2 parts -> kfold (length (mx_rows X)) 2 parts' -> Nat.Even (length (mx_rows X)) ->
  (forall tr te, In (tr, te) (parts ++ parts') -> can_fit s (rows_of X tr) (targets_of y tr)) ->
  exists folds folds' rs es ns s', map fst folds = parts /\ map fst folds' = parts' /\ null_folds (length (mx_rows X)) 2 np folds' /\
    feature_importance b s h X y v folds folds' rs = Ok (es, ns, s').
Proof.
  intros b s0 s h0 h X0 y0 rs0 X y v np parts parts' Hn0 Hl0 Hf0 Hc0 Hr Hl Hv Hk Hns Hp Hp' Hev Hfit.
  assert (Hin : forall ps tr te, kfold (length (mx_rows X)) 2 ps -> In (tr, te) ps -> (length tr = length te)%nat /\ forall i, In i tr \/ In i te -> (i < length (mx_rows X))%nat).
  { intros ps tr te Hkf Hin. apply In_nth_error in Hin as (i&Ei). destruct (kfold_part _ _ _ _ _ _ Hkf Ei) as (A&B&C&_&D). split; [|intros j [Hj|Hj]; auto].
    destruct Hev as (q&Eq). rewrite Eq in A, D. rewrite Nat.mul_comm, Nat.div_mul, Nat.mod_mul in D by lia. rewrite (proj2 (Nat.ltb_ge i 0)) in D by lia. lia. }
  destruct (original_ok b X y Hl parts s h Hk Hns) as (folds&es&Em&Eo).
  { intros tr te H. split; [apply (Hfit tr te); apply in_app_iff; auto|]. apply (Hin parts tr te Hp H). }
  set (folds' := map (fun p => (p, repeat (seq 0 (length (mx_rows X))) np)) parts').
  set (ts := flat_map (fun p => repeat (Nt (rows_of X (fst p)) (rows_of X (fst p)) (targets_of y (fst p)) (targets_of y (snd p))) np) parts').
  assert (Hts : null_tasks X y v folds' = Ok ts) by (apply null_tasks_id; auto; intros tr te H; apply (Hin parts' tr te Hp' H)).
  assert (Hof : forall t, In t ts -> exists tr te, In (tr, te) parts' /\ t = Nt (rows_of X tr) (rows_of X tr) (targets_of y tr) (targets_of y te)).
  { intros t Ht. unfold ts in Ht. apply in_flat_map in Ht as ([tr te]&A&B). apply repeat_spec in B. eauto. }
  destruct (run_models_ok s h Hk (map nt_train_X ts) (map nt_train_y ts)) as (rs&ms&s1&Er); [now rewrite !map_length| |].
  { intros X' y' H. rewrite combine_map in H. apply in_map_iff in H as (t&[= <- <-]&Ht). destruct (Hof t Ht) as (tr&te&A&->). apply (Hfit tr te). apply in_app_iff; auto. }
  destruct (C55_run_models s h _ _ rs ms s1 (length ts) Hk (map_length _ _) (map_length _ _) Er) as (runs&Lr&Hran&Lm&Hi&_).
  assert (Hthin : ts <> [] -> exists num den, sk_thin s = TInv num den /\ num <> 0%Z).
  { intros H. destruct ts as [|t ts0] eqn:E; [congruence|]. destruct (Hof t (or_introl eq_refl)) as (tr&te&A&_). apply (Hfit tr te). apply in_app_iff; auto. }
  assert (Hold : forall t, In t ts -> exists ss, sk_samples s = Some ss /\ ss <> [] /\ exists tss, Forall2 (consists_of (mx_ncols X0)) ss tss).
  { intros t Ht. assert (Hthin' := Hthin ltac:(intros E; rewrite E in Ht; destruct Ht)). destruct (fit_spec _ _ _ _ _ _ _ Hn0 Hl0 Hf0) as (d&mm&es0&_&_&_&_&Hset&_&Hne&_&HF&Hss&_).
    exists (all_samples es0). split; [exact Hss|]. destruct (settings_fields _ _ Hset) as (_&_&E2&_&E4&_). split.
    - eapply (runs_nonempty s0 X0 y0 es0); [congruence|rewrite <- E4; auto|exact HF|exact Hne].
    - destruct (runs_consist _ _ _ _ _ HF) as (tss&A&_). eauto. }
  assert (Hsc : exists ns, score ms ts = Ok ns).
  { apply score_ok. intros j m t Em' Et. pose proof (nth_error_In _ _ Et) as Hint. destruct (Hof t Hint) as (tr&te&A&Ett).
    destruct (Hi j m Em') as (B&d&X1&y1&C1&C2&D&E). destruct (range_some _ _ _ D) as (rg&Hrg).
    assert (Hlen : length (nt_test_y t) = length (mx_rows (nt_test_X t))).
    { rewrite Ett. cbn [nt_test_y nt_test_X]. unfold targets_of, rows_of. cbn [mx_rows]. rewrite !map_length. symmetry. apply (Hin parts' tr te Hp' A). }
    assert (Hnc : mx_ncols (nt_test_X t) = mx_ncols X) by (rewrite Ett; reflexivity).
    destruct j as [|j].
    - destruct (Hold t Hint) as (ss&Hss&Hne&Hcon). eapply (rmse_ok m (mx_ncols X0) ss d); eauto; [congruence|lia].
    - assert (Hlt : (j < length ts)%nat) by (assert (S j < length ts)%nat by (apply nth_error_Some; congruence); lia).
      destruct (nth_error ts j) as [t'|] eqn:Et'; [|apply nth_error_None in Et'; lia]. destruct (Hof t' (nth_error_In _ _ Et')) as (tr'&te'&A'&Ett').
      destruct (Hran j (rows_of X tr') (targets_of y tr')) as [Lj HF]; [rewrite nth_error_map, Et', Ett'; reflexivity|rewrite nth_error_map, Et', Ett'; reflexivity|].
      pose proof (Hfit tr' te' ltac:(apply in_app_iff; auto)) as (Hn'&Hl'&_).
      assert (HF' : Forall2 (chain_ran s (rows_of X tr') (targets_of y tr')) (nth j runs []) (block (sk_nchains s) j rs)) by (eapply Forall2_impl_in; [|exact HF]; intros e r _ _; now apply ran_chain).
      eapply (rmse_ok m (mx_ncols X) (all_samples (nth j runs [])) d); eauto; [| |lia].
      + eapply runs_nonempty; eauto; [apply Hthin; intros E0; rewrite E0 in Hint; destruct Hint|]. destruct (nth j runs []); [simpl in Lj; lia|discriminate].
      + destruct (runs_consist _ _ _ _ _ HF') as (tss&G&_). exists tss. exact G. }
  destruct Hsc as (ns&Ens). exists folds, folds', rs, es, ns, s1. split; auto.
  assert (Efst : map fst folds' = parts') by (unfold folds'; rewrite map_map; apply map_id). split; auto. split.
  - split; [now rewrite Efst|]. intros f Hf. unfold folds' in Hf. apply in_map_iff in Hf as (p&<-&_). cbn [snd]. split; [apply repeat_length|]. intros q Hq. apply repeat_spec in Hq as ->. reflexivity.
  - unfold feature_importance. rewrite Eo. cbn [rbind]. unfold null_rmse_distribution. rewrite Hts. cbn [rbind]. rewrite Er. cbn [rbind]. rewrite Ens. reflexivity.
Qed.
(** [s] has been trained on any data with no more columns *)
Theorem C90_possible : forall b s0 s h0 h X0 y0 rs0 X y v np parts parts' num den,
  no_nan X0 -> length y0 = length (mx_rows X0) -> fit b s0 h0 X0 y0 rs0 = Ok s -> (mx_ncols X0 <= mx_ncols X)%nat ->
  no_nan X -> rectangular X -> length y = length (mx_rows X) -> (v < mx_ncols X)%nat -> Nat.Even (length (mx_rows X)) ->
  sane_params (sk_par s) -> (0 < pa_limit (sk_par s))%nat -> sk_thin s = TInv num den -> num <> 0%Z -> (0 < sk_nchains s)%nat -> (0 < sk_nsamples s)%nat ->
  kfold (length (mx_rows X)) 2 parts -> kfold (length (mx_rows X)) 2 parts' ->
  (forall tr te, In (tr, te) (parts ++ parts') -> varies (rows_of X tr) /\ exists a c, In a (targets_of y tr) /\ In c (targets_of y tr) /\ a <> c) ->
  exists folds folds' rs es ns s', map fst folds = parts /\ map fst folds' = parts' /\ null_folds (length (mx_rows X)) 2 np folds' /\
    feature_importance b s h X y v folds folds' rs = Ok (es, ns, s').
Proof.
  intros b s0 s h0 h X0 y0 rs0 X y v np parts parts' num den Hn0 Hl0 Hf0 Hc0 Hn Hr Hl Hv Hev Hp1 Hp2 Ht Hz Hk Hns Hp Hp' Hd.
  eapply (possible_core b s0 s h0 h X0 y0 rs0 X y v np parts parts'); eauto. intros tr te Hin. destruct (Hd tr te Hin) as [A B].
  assert (Hi : forall i, In i tr -> (i < length (mx_rows X))%nat).
  { apply in_app_iff in Hin as [Hin|Hin]; apply In_nth_error in Hin as (i&Ei); [destruct (kfold_part _ _ _ _ _ _ Hp Ei) as (_&H&_)|destruct (kfold_part _ _ _ _ _ _ Hp' Ei) as (_&H&_)]; exact H. }
  split; [apply rows_of_no_nan; auto|]. split; [unfold targets_of, rows_of; simpl; now rewrite !map_length|]. split; auto. split; auto. split; auto. split; auto. eauto.
Qed.
Print Assumptions C90_possible.
(** six rows: the even ones against the odd ones *)
Definition imp_X : matrix := Mx 2 [[fz 1; fz 5]; [fz 2; fz 5]; [fz 3; fz 5]; [fz 4; fz 5]; [fz 5; fz 5]; [fz 6; fz 5]].
Definition imp_y : list R := [1; 2; 3; 4; 5; 6].
Definition imp_parts : list (list nat * list nat) := [([0; 2; 4], [1; 3; 5]); ([1; 3; 5], [4; 0; 2])]%nat.
Lemma imp_kfold : kfold 6 2 imp_parts.
Proof.
  split; [lia|]. split; [reflexivity|]. split.
  - apply NoDup_Permutation; [repeat constructor; simpl; lia|apply seq_NoDup|]. intros j. rewrite in_seq. simpl. lia.
  - intros [|[|i]] tr te H; simpl in H; try (destruct i; discriminate); injection H as <- <-; split; reflexivity.
Qed.
Example C90_case : forall b, exists rs0 s folds folds' rs es ns s', fit b ex_sk ex_empty mx_X mx_y rs0 = Ok s /\
  original_folds 6 2 folds /\ null_folds 6 2 10 folds' /\ feature_importance b s ex_empty imp_X imp_y 0 folds folds' rs = Ok (es, ns, s') /\ length es = 2%nat /\ length ns = 20%nat.
Proof.
  intros b. destruct (ex_fit b) as (rs0&s&_&Hf). destruct (fit_settings b ex_sk ex_empty mx_X mx_y rs0 s mx_no_nan eq_refl Hf) as (S0&S1&S2&_&S3&_).
  assert (Hn : no_nan imp_X) by (intros r v Hr Hv; simpl in Hr, Hv; destruct v as [|[|v]]; try lia; repeat (destruct Hr as [<-|Hr]; [discriminate|]); destruct Hr).
  assert (Hr : rectangular imp_X) by (repeat constructor).
  destruct (C90_possible b ex_sk s ex_empty ex_empty mx_X mx_y rs0 imp_X imp_y 0 10 imp_parts imp_parts 2 1) as (folds&folds'&rs&es&ns&s'&E1&E2&Hnf&E);
    try reflexivity; try exact mx_no_nan; try exact Hn; try exact Hr; try exact imp_kfold; try discriminate; try (simpl; lia); auto.
  - exists 3%nat. reflexivity.
  - rewrite S0. exact mx_sane.
  - rewrite S0. simpl. lia.
  - rewrite S1. simpl. lia.
  - rewrite S2. simpl. lia.
  - intros tr te Hin. simpl in Hin. destruct Hin as [E|[E|[E|[E|[]]]]]; injection E as <- <-;
    (split; [exists 0%nat, 1%nat, 2%nat; simpl; repeat split; try lia; discriminate|]).
    all: (exists 1, 3; simpl; repeat split; auto; lra) || (exists 2, 4; simpl; repeat split; auto; lra).
  - exists rs0, s, folds, folds', rs, es, ns, s'. split; auto. assert (Ho : original_folds 6 2 folds) by (unfold original_folds; rewrite E1; exact imp_kfold).
    split; auto. split; auto. split; auto.
    destruct (C90_result b s ex_empty imp_X imp_y 0 2 10 folds folds' rs es ns s') as (L1&L2&_); auto; [rewrite S1; simpl; lia|exact ex_heap_ok].
Qed.
(** five rows, the default of two folds: no draws make the call return *)
Definition five_parts : list (list nat * list nat) := [([0; 2], [1; 3; 4]); ([1; 3; 4], [2; 0])]%nat.
Example C90_odd_case : forall b s h v folds rs es ns s' rows y, (0 < sk_nchains s)%nat -> length rows = 5%nat -> Forall (fun r => length r = 2%nat) rows ->
  feature_importance b s h (Mx 2 rows) y v folds (map (fun p => (p, [[0; 1; 2; 3; 4]; [4; 3; 2; 1; 0]]%nat)) five_parts) rs <> Ok (es, ns, s').
Proof.
  intros b s h v folds rs es ns s' rows y Hk L Hr E.
  destruct (C90_two_even_folds b s h (Mx 2 rows) y v 2 2 folds (map (fun p => (p, [[0; 1; 2; 3; 4]; [4; 3; 2; 1; 0]]%nat)) five_parts) rs es ns s' Hk Hr) as [_ (q&Hq)]; auto.
  - cbn [mx_rows]. lia.
  - cbn [mx_rows]. rewrite L. split.
    + split; [lia|]. split; [reflexivity|]. split.
      * apply NoDup_Permutation; [repeat constructor; simpl; lia|apply seq_NoDup|]. intros j. rewrite in_seq. simpl. lia.
      * intros [|[|i]] tr te H; simpl in H; try (destruct i; discriminate); injection H as <- <-; split; reflexivity.
    + intros f Hf. simpl in Hf. destruct Hf as [<-|[<-|[]]]; (split; [reflexivity|]); intros p [<-|[<-|[]]]; apply NoDup_Permutation; try apply seq_NoDup; try (repeat constructor; simpl; lia);
      intros j; rewrite in_seq; simpl; lia.
  - cbn [mx_rows] in Hq. lia.
Qed.
