(** Properties C70, C71: see /verif/properties.jsonl. *)
From Coq Require Import Reals Lra Lia ZArith Permutation Sorted.
From Verif Require Import Base Fl Ext MData MSplit MTree MSampler MHist MTreeHist MModel MModelHist MSklearn MFeatures Spec SpecTree SpecSampler SpecModel SpecSklearn SpecFeatures.
From Verif Require Import LFl LList PData PSplit PDataProps PCond PTree PPred PTreeHist PModel PModel2 PModel7 PModel8 PModel12 PSklearn PSklearn2 PSklearn3 PFeatures
  Properties_Model Properties_Model2 Properties_Sklearn Properties_Sklearn2 Properties_Features.
Local Open Scope R_scope.

(** ** C70 *)
Lemma get_mapped {A} (f : nat -> A) cols c : In c cols -> dict_get c (map (fun c => (c, f c)) cols) = Some (f c).
Proof.
  induction cols as [|a cols IH]; intros Hc; [destruct Hc|]. simpl. destruct (Nat.eqb_spec c a) as [->|Hne]; auto. apply IH. destruct Hc; [congruence|auto].
Qed.
Lemma set_mapped {A} (f : nat -> A) x : forall cols c, NoDup cols -> In c cols ->
  dict_set c x (map (fun c => (c, f c)) cols) = map (fun k => (k, if Nat.eq_dec k c then x else f k)) cols.
Proof.
  induction cols as [|a cols IH]; intros c Hn Hc; [destruct Hc|]. inversion Hn; subst. simpl. destruct (Nat.eqb_spec c a) as [->|Hne].
  - destruct (Nat.eq_dec a a); [|congruence]. f_equal. apply map_ext_in. intros k Hk. destruct (Nat.eq_dec k a); [subst; tauto|auto].
  - destruct (Nat.eq_dec a c); [congruence|]. f_equal. apply IH; auto. destruct Hc; [congruence|auto].
Qed.
Lemma append_all_spec (g : nat -> R) cols : NoDup cols -> forall todo (f : nat -> list R), NoDup todo -> incl todo cols ->
  append_all (map (fun c => (c, g c)) todo) (map (fun c => (c, f c)) cols) =
  Ok (map (fun c => (c, if in_dec Nat.eq_dec c todo then f c ++ [g c] else f c)) cols).
Proof.
  intros Hn. induction todo as [|a todo IH]; intros f Ht Hi; cbn [map append_all].
  - reflexivity.
  - inversion Ht; subst. rewrite get_mapped by (apply Hi; simpl; auto). rewrite set_mapped by (auto; apply Hi; simpl; auto).
    rewrite IH; auto; [|intros c Hc; apply Hi; simpl; auto]. f_equal. apply map_ext. intros c. f_equal.
    destruct (in_dec Nat.eq_dec c (a :: todo)) as [Hc|Hc], (in_dec Nat.eq_dec c todo) as [Hc'|Hc'], (Nat.eq_dec c a) as [->|Hne]; auto; simpl in *; try tauto.
    destruct Hc; [congruence|tauto].
Qed.
Lemma mapped_of {A} (f : nat -> A) (d : list (nat * A)) cols : map fst d = cols -> (forall c x, In (c, x) d -> x = f c) -> d = map (fun c => (c, f c)) cols.
Proof.
  intros <- H. rewrite map_map. rewrite <- (map_id d) at 1. apply map_ext_in. intros [c x] Hc. simpl. f_equal. auto.
Qed.
Lemma collect_spec n : forall ms tss (f : nat -> list R) d, Forall2 (holds_trees n) ms tss ->
  d = map (fun c => (c, f c ++ map (fun ts => reported (concat ts) c) tss)) (seq 0 n) ->
  collect ms n (map (fun c => (c, f c)) (seq 0 n)) = Ok d.
Proof.
  induction ms as [|m ms IH]; intros tss f d H; inversion H as [|? ts ? tss' Hm Hms]; subst; cbn [collect].
  - intros ->. f_equal. apply map_ext. intros c. simpl. now rewrite app_nil_r.
  - destruct (C59_given_columns _ _ _ (seq 0 n) Hm) as (fp&E&_&_&K&V). rewrite E. cbn [rbind].
    rewrite (mapped_of (reported (concat ts)) fp (seq 0 n) (K (seq_NoDup _ _)) (fun c q Hin => proj1 (V c q Hin))).
    rewrite append_all_spec by (try apply seq_NoDup; apply incl_refl). cbn [rbind].
    set (f' := fun c => if in_dec Nat.eq_dec c (seq 0 n) then f c ++ [reported (concat ts) c] else f c). fold f'.
    intros ->. change (collect ms n (map (fun c => (c, f' c)) (seq 0 n)) = Ok (map (fun c => (c, f c ++ map (fun ts0 => reported (concat ts0) c) (ts :: tss'))) (seq 0 n))).
    apply (IH _ _ _ Hms). apply map_ext_in. intros c Hin. unfold f'. destruct (in_dec Nat.eq_dec c (seq 0 n)); [|tauto]. cbn [map]. now rewrite <- app_assoc.
Qed.
Lemma nth_firstn_lt {A} (d : A) : forall n l i, (i < n)%nat -> nth i (firstn n l) d = nth i l d.
Proof. induction n as [|n IH]; intros [|a l] [|i] H; simpl; auto; try lia. apply IH. lia. Qed.
(** the chains that were run for run number i; the trees in the samples they stored *)
Definition permuted_runs (s : sklearn) (h : heap) (X : matrix) (y : list R) (perms : list (list nat)) (rs : list rng)
  (runs : list (list extract)) (trees : list (list (list stree))) : Prop :=
  length runs = length perms /\ length trees = length perms /\
  forall i p, nth_error perms i = Some p ->
    Forall2 (ran s h X (permuted p y)) (nth i runs []) (block (sk_nchains s) i rs) /\ length (nth i runs []) = sk_nchains s /\
    Forall2 (consists_of (mx_ncols X)) (all_samples (nth i runs [])) (nth i trees []).
Lemma ran_chain s h X y e r : no_nan X -> length y = length (mx_rows X) -> ran s h X y e r -> chain_ran s X y e r.
Proof. intros Hn Hl (s1&E). destruct e as [h' c]. simpl in E. apply (run_chain_spec _ _ _ _ _ _ _ _ Hn Hl E). Qed.
Lemma choose_list {A} (P : nat -> A -> Prop) (d : A) : forall n, (forall i, (i < n)%nat -> exists a, P i a) -> exists l, length l = n /\ forall i, (i < n)%nat -> P i (nth i l d).
Proof.
  induction n as [|n IH]; intros H; [exists []; split; auto; intros; lia|]. destruct IH as (l&L&HP); [intros; apply H; lia|]. destruct (H n) as (a&Ha); [lia|].
  exists (l ++ [a]). split; [rewrite app_length; simpl; lia|]. intros i Hi. destruct (Nat.eq_dec i n) as [->|].
  - rewrite app_nth2, L, Nat.sub_diag by lia. exact Ha.
  - rewrite app_nth1 by lia. apply HP. lia.
Qed.
Lemma last_nth {A} (d : A) : forall l, last l d = nth (length l - 1) l d.
Proof. induction l as [|a [|b l] IH]; auto. change (last (a :: b :: l) d) with (last (b :: l) d). rewrite IH. simpl. now rewrite Nat.sub_0_r. Qed.
(** For a fitted estimator whose samples consist of the trees [tss0]: the distribution computed for a column is that
    of the samples the estimator held before, followed by those of all permuted runs but the last; and afterwards the
    estimator holds the samples of the last permuted run. *)
Theorem C70_null_distribution : forall s h X y perms rs null s' tss0, no_nan X -> (forall p, In p perms -> length p = length (mx_rows X)) ->
  (0 < sk_nchains s)%nat -> holds_trees (mx_ncols X) s tss0 -> null_distribution s h X y perms rs = Ok (null, s') ->
  exists runs trees, permuted_runs s h X y perms rs runs trees /\
    null = map (fun c => (c, map (fun tss => reported (concat tss) c) (firstn (length perms) (tss0 :: trees)))) (seq 0 (mx_ncols X)) /\
    holds_trees (mx_ncols X) s' (last trees tss0).
Proof.
  intros s h X y perms rs null s' tss0 Hn Hp Hk H0. unfold null_distribution. set (ys := map (fun p => permuted p y) perms). set (Xs := map (fun _ => X) ys).
  destruct (run_models s h Xs ys rs) as [[ms s1]| |] eqn:Er; try discriminate. cbn [rbind].
  destruct (collect ms (mx_ncols X) _) as [d| |] eqn:Ec; try discriminate. cbn [rbind]. intros [= <- <-].
  assert (Ly : length ys = length perms) by (unfold ys; apply map_length). assert (Lx : length Xs = length perms) by (unfold Xs; now rewrite map_length).
  destruct (C55_run_models s h Xs ys rs ms s1 (length perms) Hk Lx Ly Er) as (runs&Lr&Hran&Lm&Hi&Hs1).
  assert (Hat : forall i p, nth_error perms i = Some p -> nth_error Xs i = Some X /\ nth_error ys i = Some (permuted p y)).
  { intros i p Hip. unfold Xs, ys. rewrite !nth_error_map, Hip. auto. }
  destruct (choose_list (fun i tss => Forall2 (consists_of (mx_ncols X)) (all_samples (nth i runs [])) tss) [] (length perms)) as (trees&Lt&Ht).
  { intros i Hlt. destruct (nth_error perms i) as [p|] eqn:Ep; [|apply nth_error_None in Ep; lia]. destruct (Hat i p Ep) as [HX HY].
    destruct (Hran i X (permuted p y) HX HY) as [_ HF]. destruct (runs_consist s X (permuted p y) (nth i runs []) (block (sk_nchains s) i rs)) as (tss&A&_); eauto.
    eapply Forall2_impl_in; [|exact HF]. intros e r _ _. apply ran_chain; auto. unfold permuted. rewrite map_length. apply Hp. eapply nth_error_In; eauto. }
  assert (Hsam : forall j, (j < length perms)%nat -> forall m, sk_samples m = Some (all_samples (nth j runs [])) -> holds_trees (mx_ncols X) m (nth j trees [])).
  { intros j Hj m Em. eexists. split; [exact Em|]. apply Ht; auto. }
  assert (HF : Forall2 (holds_trees (mx_ncols X)) ms (firstn (length perms) (tss0 :: trees))).
  { assert (Hl : length ms = length (firstn (length perms) (tss0 :: trees))) by (rewrite firstn_length; simpl; lia).
    assert (Hn1 : forall i m, nth_error ms i = Some m -> holds_trees (mx_ncols X) m (nth i (firstn (length perms) (tss0 :: trees)) [])).
    { intros i m Em. assert (Hlt : (i < length perms)%nat) by (rewrite <- Lm; apply nth_error_Some; congruence). destruct (Hi i m Em) as (A&_).
      rewrite nth_firstn_lt by auto. destruct i as [|j]; simpl.
      - destruct H0 as (ss&E0&F0). exists ss. split; auto. congruence.
      - apply Hsam; auto. lia. }
    revert Hl Hn1. generalize (firstn (length perms) (tss0 :: trees)). clear. induction ms as [|m ms IH]; intros [|t ts] Hl H; try discriminate; constructor.
    - apply (H 0%nat m eq_refl).
    - apply IH; [simpl in Hl; lia|]. intros i m' Em. apply (H (S i) m' Em). }
  exists runs, trees. split; [|split].
  - split; auto. split; auto. intros i p Ep. destruct (Hat i p Ep) as [HX HY]. destruct (Hran i X (permuted p y) HX HY) as [A B]. split; auto. split; auto.
    apply Ht. apply nth_error_Some. congruence.
  - pose proof (collect_spec _ _ _ (fun _ => []) _ HF eq_refl) as Hc. cbn beta in Hc. rewrite Ec in Hc. injection Hc as ->. reflexivity.
  - destruct (length perms) as [|j] eqn:Ep.
    + destruct trees; [|discriminate]. simpl. destruct H0 as (ss&E0&F0). exists ss. split; auto. congruence.
    + replace (last trees tss0) with (nth j trees []); [apply Hsam; [lia|auto]|]. destruct trees as [|t trees]; [discriminate|].
      rewrite last_nth. replace (length (t :: trees) - 1)%nat with j by lia. apply nth_indep. lia.
Qed.
Print Assumptions C70_null_distribution.
Lemma forall2_in_r {A B} (P : A -> B -> Prop) l l' : Forall2 P l l' -> forall b, In b l' -> exists a, In a l /\ P a b.
Proof. induction 1 as [|x y l l' Hxy H IH]; intros z Hz; [destruct Hz|]. destruct Hz as [<-|Hz]; [exists x; simpl; auto|]. destruct (IH z Hz) as (b&Hb&Hp). exists b. simpl; auto. Qed.
(** what the selection then compares: the columns used by the LAST permuted run, with that run's proportions, against
    cutoffs computed from the real fit and the other permuted runs *)
Theorem C70_selection : forall b m q n s h X y rs perms rs' s', no_nan X -> length y = length (mx_rows X) ->
  (forall p, In p perms -> length p = length (mx_rows X)) ->
  make_select_null m q MethodLocal n = Ok s -> select_null_fit b s h X y rs perms rs' = Ok s' ->
  exists m1 tss0 runs trees th fp,
    fit b (sn_model s) h X y rs = Ok m1 /\ holds_trees (mx_ncols X) m1 tss0 /\
    permuted_runs m1 (sk_heap m1 h) X y perms rs' runs trees /\
    sn_thresholds s' = Some th /\ map fst th = seq 0 (mx_ncols X) /\
    (forall c t, In (c, t) th -> percentile (map (fun tss => reported (concat tss) c) (firstn (length perms) (tss0 :: trees))) q = Ok t) /\
    sn_proportions s' = Some fp /\ StronglySorted lt (map fst fp) /\
    (forall v, In v (map fst fp) <-> In v (flat_map split_vars (concat (last trees tss0)))) /\
    forall v p, In (v, p) fp -> p = reported (concat (last trees tss0)) v.
Proof.
  intros b m q n s h X y rs perms rs' s' Hn Hl Hp Hm. assert (Hs : sn_method s = local_thresholds /\ sn_percentile s = q).
  { unfold make_select_null in Hm. injection Hm as <-. auto. }
  destruct Hs as [Hme Hq]. unfold select_null_fit. destruct (fit b (sn_model s) h X y rs) as [m1| |] eqn:Ef; try discriminate. cbn [rbind].
  destruct (null_distribution m1 (sk_heap m1 h) X y perms rs') as [[null m2]| |] eqn:En; try discriminate. cbn [rbind].
  rewrite Hme, Hq. destruct (local_thresholds null q) as [th| |] eqn:Et; try discriminate. cbn [rbind].
  destruct (feature_split_proportions m2 None) as [fp| |] eqn:Efp; try discriminate. cbn [rbind]. intros [= <-].
  destruct (fit_consists _ _ _ _ _ _ _ Hn Hl Ef) as (tss0&H0&_).
  destruct (fit_spec _ _ _ _ _ _ _ Hn Hl Ef) as (d&mm&es&_&_&_&_&Hset&Hes&Hne&_).
  assert (Hk : (0 < sk_nchains m1)%nat).
  { destruct (settings_fields _ _ Hset) as (_&->&_). rewrite <- Hes. destruct es; [congruence|simpl; lia]. }
  destruct (C70_null_distribution m1 _ X y perms rs' null m2 tss0 Hn Hp Hk H0 En) as (runs&trees&Hr&Enull&H2).
  destruct (C59_used_columns _ _ _ H2) as (fp'&E'&A&B&C). rewrite Efp in E'. injection E' as <-.
  exists m1, tss0, runs, trees, th, fp. split; auto. split; auto. split; auto. cbn [sn_thresholds sn_proportions]. split; auto.
  pose proof (C61_local_thresholds _ _ _ Et) as HF. rewrite Enull in HF. split; [|split; auto].
  - revert HF. generalize (seq 0 (mx_ncols X)). clear. intros l. revert th. induction l as [|c l IH]; intros th HF; inversion HF as [|? [c' t] ? th' [Hc _] HF']; subst; auto.
    simpl in *. f_equal; auto.
  - intros c t Hin. destruct (forall2_in_r _ _ _ HF (c, t) Hin) as ([c' xs]&Hin'&Hc&Hp'). simpl in *. subst c'. apply in_map_iff in Hin' as (c'&[= -> <-]&_). exact Hp'.
Qed.
Print Assumptions C70_selection.
(** With a single permutation: every cutoff is the column's proportion in the real fit, and what is compared with
    it is the proportion in the permuted run. *)
Lemma percentile_one x q : 0 <= q <= 100 -> percentile [x] q = Ok x.
Proof.
  intros Hq. unfold percentile. destruct (Rlt_dec q 0); [lra|]. destruct (Rlt_dec 100 q); [lra|]. simpl. rewrite Rmult_0_r.
  replace (Int_part 0) with 0%Z. 2: { apply eq_IZR. pose proof (base_Int_part 0) as [A B]. unfold Int_part. rewrite <- (tech_up 0 1); [reflexivity|simpl; lra|simpl; lra]. }
  simpl. f_equal. lra.
Qed.
Theorem C70_roles_swapped : forall b m q n s h X y rs p rs' s', no_nan X -> length y = length (mx_rows X) -> length p = length (mx_rows X) -> 0 <= q <= 100 ->
  make_select_null m q MethodLocal n = Ok s -> select_null_fit b s h X y rs [p] rs' = Ok s' ->
  exists m1 real run permuted_trees th fp,
    fit b (sn_model s) h X y rs = Ok m1 /\ holds_trees (mx_ncols X) m1 real /\
    Forall2 (ran m1 (sk_heap m1 h) X (permuted p y)) run (firstn (sk_nchains m1) rs') /\
    Forall2 (consists_of (mx_ncols X)) (all_samples run) permuted_trees /\
    sn_thresholds s' = Some th /\ (forall c t, In (c, t) th -> t = reported (concat real) c) /\
    sn_proportions s' = Some fp /\ (forall v r, In (v, r) fp -> r = reported (concat permuted_trees) v).
Proof.
  intros b m q n s h X y rs p rs' s' Hn Hl Hp Hq Hm Hf.
  destruct (C70_selection b m q n s h X y rs [p] rs' s' Hn Hl ltac:(intros p' [<-|[]]; auto) Hm Hf) as (m1&t0&runs&trees&th&fp&Ef&H0&(Lr&Lt&Hr)&Et&_&Hth&Efp&_&_&Hfp).
  destruct runs as [|run [|]]; try discriminate. destruct trees as [|tr [|]]; try discriminate. destruct (Hr 0%nat p eq_refl) as (A&_&B). simpl in A, B.
  exists m1, t0, run, tr, th, fp. split; auto. split; auto. split; [exact A|]. split; [exact B|]. split; auto. split; [|split; auto].
  intros c t Hin. specialize (Hth c t Hin). simpl in Hth. rewrite percentile_one in Hth by auto. congruence.
Qed.
Print Assumptions C70_roles_swapped.
(** Without fitting first there is no distribution; the 'global' method never returns; another name fails while
    reporting the wrong name. *)
Theorem C70_unfitted : forall s h X y perms rs null s', (0 < sk_nchains s)%nat -> sk_samples s = None -> perms <> [] ->
  null_distribution s h X y perms rs <> Ok (null, s').
Proof.
  intros s h X y perms rs null s' Hk Hs Hp. unfold null_distribution. set (ys := map (fun p => permuted p y) perms). set (Xs := map (fun _ => X) ys).
  destruct (run_models s h Xs ys rs) as [[ms s1]| |] eqn:Er; try discriminate. cbn [rbind].
  assert (Ly : length ys = length perms) by (unfold ys; apply map_length). assert (Lx : length Xs = length perms) by (unfold Xs; now rewrite map_length).
  destruct (C55_run_models s h Xs ys rs ms s1 (length perms) Hk Lx Ly Er) as (runs&_&_&Lm&Hi&_).
  destruct ms as [|m0 ms]; [destruct perms; [congruence|discriminate]|]. destruct (Hi 0%nat m0 eq_refl) as [A _]. cbn [collect].
  rewrite (C59_unfitted m0) by congruence. discriminate.
Qed.
Print Assumptions C70_unfitted.
Theorem C70_other_methods : forall m q n b h X y rs perms rs' s s',
  make_select_null m q MethodOther n = Raise EAttributeError /\
  (make_select_null m q MethodGlobal n = Ok s -> select_null_fit b s h X y rs perms rs' <> Ok s').
Proof.
  intros m q n b h X y rs perms rs' s s'. split; [reflexivity|]. unfold make_select_null. intros [= <-]. unfold select_null_fit. cbn [sn_model sn_method sn_percentile].
  destruct (fit _ _ _ _ _ _) as [m1| |]; try discriminate. cbn [rbind]. destruct (null_distribution _ _ _ _ _ _) as [[null m2]| |]; try discriminate. cbn [rbind].
  destruct (C61_global_fails null q) as [-> | ->]; discriminate.
Qed.
Print Assumptions C70_other_methods.
Lemma combine_map {A B C} (f : A -> B) (g : A -> C) l : combine (map f l) (map g l) = map (fun a => (f a, g a)) l.
Proof. induction l; simpl; congruence. Qed.
(** Such a selection can return. *)
Theorem C70_possible : forall b m q n s h X y perms, can_fit (sn_model s) X y -> sk_nchains (sn_model s) <> 0%nat ->
  (forall p, In p perms -> can_fit (sn_model s) X (permuted p y)) -> perms <> [] -> 0 <= q <= 100 ->
  make_select_null m q MethodLocal n = Ok s -> exists rs rs' s', select_null_fit b s h X y rs perms rs' = Ok s'.
Proof.
  intros b m q n s h X y perms Hc Hk Hp Hne Hq Hm.
  assert (Hs : sn_method s = local_thresholds /\ sn_percentile s = q) by (unfold make_select_null in Hm; injection Hm as <-; auto). destruct Hs as [Hme Eq].
  destruct (fit_ok b (sn_model s) h X y Hc Hk) as (rs&m1&_&Ef). pose proof Hc as (Hn&Hl&_).
  destruct (fit_consists _ _ _ _ _ _ _ Hn Hl Ef) as (tss0&H0&_). destruct (fit_spec _ _ _ _ _ _ _ Hn Hl Ef) as (d&mm&es&_&_&_&_&Hset&_).
  assert (Hk1 : (0 < sk_nchains m1)%nat) by (destruct (settings_fields _ _ Hset) as (_&->&_); lia).
  set (ys := map (fun p => permuted p y) perms).
  destruct (run_models_ok m1 (sk_heap m1 h) Hk1 (map (fun _ => X) ys) ys (map_length _ _)) as (rs'&ms&s1&Er).
  { intros X' y' Hin. unfold ys in Hin. rewrite map_map in Hin. rewrite combine_map in Hin. apply in_map_iff in Hin as (p&[= <- <-]&Hin).
    apply (can_fit_settings (sn_model s) m1 X _ Hset). apply Hp; auto. }
  assert (Lx : length (map (fun _ : list R => X) ys) = length perms) by (unfold ys; now rewrite !map_length).
  assert (Ly : length ys = length perms) by (unfold ys; apply map_length).
  destruct (C55_run_models _ _ _ _ _ _ _ _ Hk1 Lx Ly Er) as (runs&Lr&Hran&Lm&Hi&Hs1).
  assert (HH : forall i p, nth_error perms i = Some p -> exists tss, Forall2 (consists_of (mx_ncols X)) (all_samples (nth i runs [])) tss).
  { intros i p Ep. destruct (Hran i X (permuted p y)) as [_ HF]; [unfold ys; now rewrite !nth_error_map, Ep|unfold ys; now rewrite nth_error_map, Ep|].
    destruct (runs_consist m1 X (permuted p y) (nth i runs []) (block (sk_nchains m1) i rs')) as (tss&A&_); eauto.
    eapply Forall2_impl_in; [|exact HF]. intros e r _ _. apply ran_chain; auto. unfold permuted. destruct (Hp p (nth_error_In _ _ Ep)) as (_&L&_). exact L. }
  assert (HF : exists tss, Forall2 (holds_trees (mx_ncols X)) ms tss).
  { assert (G : forall m', In m' ms -> exists t, holds_trees (mx_ncols X) m' t).
    { intros m' Hin. apply In_nth_error in Hin as (i&Em). destruct (Hi i m' Em) as (A&_). assert (Hlt : (i < length perms)%nat) by (rewrite <- Lm; apply nth_error_Some; congruence).
      destruct i as [|j].
      - exists tss0. destruct H0 as (ss&E0&F0). exists ss. split; auto. congruence.
      - destruct (nth_error perms j) as [p|] eqn:Ep; [|apply nth_error_None in Ep; lia]. destruct (HH j p Ep) as (tss&F). exists tss. eexists. split; [exact A|exact F]. }
    clear - G. induction ms as [|m ms IH]; [exists []; constructor|]. destruct (G m (or_introl eq_refl)) as (t&Ht). destruct IH as (ts&Hts); [intros; apply G; simpl; auto|].
    exists (t :: ts). constructor; auto. }
  destruct HF as (tss&HF). pose proof (collect_spec _ _ _ (fun _ => []) _ HF eq_refl) as Hcol. cbn beta in Hcol.
  assert (Htss : tss <> []) by (intros ->; inversion HF; subst; destruct perms; [congruence|discriminate]).
  set (null := map (fun c => (c, [] ++ map (fun ts => reported (concat ts) c) tss)) (seq 0 (mx_ncols X))) in *.
  assert (Hth : exists th, local_thresholds null q = Ok th).
  { unfold null. generalize (seq 0 (mx_ncols X)). intros l. induction l as [|c l IH]; [eexists; reflexivity|]. cbn [map local_thresholds].
    assert (Hpc : forall xs, xs <> [] -> exists t, percentile xs q = Ok t).
    { intros xs Hxs. unfold percentile. destruct (Rlt_dec q 0); [lra|]. destruct (Rlt_dec 100 q); [lra|]. destruct xs; [congruence|]. eexists. reflexivity. }
    destruct (Hpc ([] ++ map (fun ts => reported (concat ts) c) tss)) as (t&->); [destruct tss; [congruence|discriminate]|]. cbn [rbind].
    destruct IH as (th&->). cbn [rbind]. eexists. reflexivity. }
  destruct Hth as (th&Eth).
  assert (Hf2 : exists tss2, holds_trees (mx_ncols X) s1 tss2).
  { destruct perms as [|p0 perms0] eqn:Epe; [congruence|]. rewrite <- Epe in *. destruct (length perms) as [|j] eqn:El; [subst perms; discriminate|].
    destruct (nth_error perms j) as [p|] eqn:Ep; [|apply nth_error_None in Ep; lia]. destruct (HH j p Ep) as (t2&F). exists t2. eexists. split; [exact Hs1|exact F]. }
  destruct Hf2 as (tss2&H2). destruct (C59_used_columns _ _ _ H2) as (fp&Efp&_).
  exists rs, rs'. unfold select_null_fit. rewrite Ef. cbn [rbind]. unfold null_distribution. fold ys. rewrite Er. cbn [rbind]. rewrite Hcol. cbn [rbind]. rewrite Hme, Eq, Eth. cbn [rbind].
  rewrite Efp. cbn [rbind]. eexists. reflexivity.
Qed.
Print Assumptions C70_possible.
Example C70_case : forall b, exists s rs rs' s', make_select_null ex_sk (95 / 100) MethodLocal None = Ok s /\
  select_null_fit b s ex_empty mx_X mx_y rs [[0; 1; 2]; [2; 0; 1]]%nat rs' = Ok s'.
Proof.
  intros b. eexists. assert (G : forall y, length y = 3%nat -> (exists a b, In a y /\ In b y /\ a <> b) -> can_fit ex_sk mx_X y).
  { intros y Ly Hy. split; [exact mx_no_nan|]. split; [exact Ly|]. split; [exact mx_varies|]. split; [exact Hy|].
    split; [exact mx_sane|]. split; [simpl; lia|]. exists 2%Z, 1%positive. split; [reflexivity|discriminate]. }
  destruct (C70_possible b ex_sk (95 / 100) None (Sn local_thresholds ex_sk (95 / 100) None None None) ex_empty mx_X mx_y [[0; 1; 2]; [2; 0; 1]]%nat) as (rs&rs'&s'&E).
  - apply G; [reflexivity|exists 1, 2; simpl; repeat split; auto; lra].
  - simpl. lia.
  - intros p [<-|[<-|[]]]; apply G; try reflexivity; exists 1, 2; simpl; repeat split; auto; lra.
  - discriminate.
  - lra.
  - reflexivity.
  - exists rs, rs', s'. split; [reflexivity|exact E].
Qed.

(** ** C71 *)
Definition above (f : nat -> R) (t : nat -> R) (v : nat) : bool := if Rlt_dec (t v) (f v) then true else false.
Lemma sorted_perm_eq : forall l l', StronglySorted lt l -> StronglySorted lt l' -> Permutation l l' -> l = l'.
Proof.
  induction l as [|a l IH]; intros l' H H' P; [apply Permutation_nil in P; auto|]. destruct l' as [|b l']; [apply Permutation_sym, Permutation_nil in P; discriminate|].
  inversion H as [|? ? H1 H2 Ea]. inversion H' as [|? ? H3 H4 Eb]. subst. rewrite Forall_forall in H2, H4.
  assert (a = b) as <-.
  { assert (Ha : In a (b :: l')) by (apply (Permutation_in _ P); simpl; auto). assert (Hb : In b (a :: l)) by (apply (Permutation_in _ (Permutation_sym P)); simpl; auto).
    destruct Ha as [->|Ha]; auto. destruct Hb as [->|Hb]; auto. specialize (H2 b Hb). specialize (H4 a Ha). lia. }
  f_equal. apply IH; auto. eapply Permutation_cons_inv; eauto.
Qed.
(** The mask of SelectSplitProportionThreshold has one entry per column used by some split, in increasing order. *)
Theorem C71_split_mask : forall b s h X y rs s', no_nan X -> length y = length (mx_rows X) -> select_split_fit b s h X y rs = Ok s' ->
  exists m1 tss used, fit b (ss_model s) h X y rs = Ok m1 /\ holds_trees (mx_ncols X) m1 tss /\ StronglySorted lt used /\
    (forall v, In v used <-> In v (flat_map split_vars (concat tss))) /\ (forall v, In v used -> (v < mx_ncols X)%nat) /\
    select_split_mask s' = Ok (map (above (reported (concat tss)) (fun _ => ss_percentile s)) used).
Proof.
  intros b s h X y rs s' Hn Hl. unfold select_split_fit. destruct (fit b (ss_model s) h X y rs) as [m1| |] eqn:Ef; try discriminate. cbn [rbind].
  destruct (feature_split_proportions m1 None) as [fp| |] eqn:E; try discriminate. cbn [rbind]. intros [= <-].
  destruct (fit_consists _ _ _ _ _ _ _ Hn Hl Ef) as (tss&H0&_). destruct (C59_used_columns _ _ _ H0) as (fp'&E'&A&B&C). rewrite E in E'. injection E' as <-.
  exists m1, tss, (map fst fp). split; auto. split; auto. split; auto. split; auto. split.
  - intros v Hv. apply B in Hv. apply in_flat_map in Hv as (st&Hst&Hv). apply in_concat in Hst as (ts&Hts&Hst). destruct H0 as (ss&_&HF).
    destruct (forall2_in_r _ _ _ HF ts Hts) as (e&_&_&_&Hc&_). eauto.
  - unfold select_split_mask. cbn [ss_proportions ss_percentile]. f_equal. rewrite map_map. apply map_ext_in. intros [v q] Hin. simpl. unfold above. rewrite (C v q Hin). reflexivity.
Qed.
Print Assumptions C71_split_mask.
(** So is that of SelectNullDistributionThreshold, for the columns used by the last permuted run. *)
Theorem C71_null_mask : forall b m q n s h X y rs perms rs' s', no_nan X -> length y = length (mx_rows X) ->
  (forall p, In p perms -> length p = length (mx_rows X)) ->
  make_select_null m q MethodLocal n = Ok s -> select_null_fit b s h X y rs perms rs' = Ok s' ->
  exists m1 tss0 runs trees cutoff used, fit b (sn_model s) h X y rs = Ok m1 /\ holds_trees (mx_ncols X) m1 tss0 /\
    permuted_runs m1 (sk_heap m1 h) X y perms rs' runs trees /\
    (forall c, (c < mx_ncols X)%nat -> percentile (map (fun tss => reported (concat tss) c) (firstn (length perms) (tss0 :: trees))) q = Ok (cutoff c)) /\
    StronglySorted lt used /\ (forall v, In v used <-> In v (flat_map split_vars (concat (last trees tss0)))) /\ (forall v, In v used -> (v < mx_ncols X)%nat) /\
    select_null_mask s' = Ok (map (above (reported (concat (last trees tss0))) cutoff) used).
Proof.
  intros b m q n s h X y rs perms rs' s' Hn Hl Hp Hm Hf.
  destruct (C70_selection b m q n s h X y rs perms rs' s' Hn Hl Hp Hm Hf) as (m1&tss0&runs&trees&th&fp&Ef&H0&Hr&Et&Ek&Hth&Efp&Hs&Hu&Hv).
  exists m1, tss0, runs, trees, (fun c => match dict_get c th with Some t => t | None => 0 end), (map fst fp). split; auto. split; auto. split; auto.
  assert (Nth : NoDup (map fst th)) by (rewrite Ek; apply seq_NoDup).
  assert (Hget : forall c, (c < mx_ncols X)%nat -> exists t, In (c, t) th /\ dict_get c th = Some t).
  { intros c Hc. assert (Hin : In c (map fst th)) by (rewrite Ek; apply in_seq; lia). apply in_map_iff in Hin as ((c'&t)&<-&Hin). exists t. split; auto. apply dict_get_in; auto. }
  split; [intros c Hc; destruct (Hget c Hc) as (t&Hin&->); auto|]. split; auto. split; auto.
  assert (Hlt : forall v, In v (map fst fp) -> (v < mx_ncols X)%nat).
  { intros v Hin. apply Hu in Hin. apply in_flat_map in Hin as (st&Hst&Hin). apply in_concat in Hst as (ts&Hts&Hst).
    assert (HF : exists m2, holds_trees (mx_ncols X) m2 (last trees tss0)).
    { destruct Hr as (Lr&Lt&Hr). destruct (length perms) as [|j] eqn:El; [destruct trees; [simpl; eauto|discriminate]|].
      destruct (nth_error perms j) as [p|] eqn:Ep; [|apply nth_error_None in Ep; lia]. destruct (Hr j p Ep) as (_&_&HF).
      replace (last trees tss0) with (nth j trees []). 2: { destruct trees as [|t tr]; [discriminate|]. rewrite last_nth. replace (length (t :: tr) - 1)%nat with j by lia. apply nth_indep. lia. }
      exists (sk_set_chains (sn_model s) (all_samples (nth j runs [])) [] []). eexists. split; [reflexivity|exact HF]. }
    destruct HF as (m2&ss&_&HF). destruct (forall2_in_r _ _ _ HF ts Hts) as (e&_&_&_&Hc&_). eauto. }
  split; auto.
  assert (Nf : NoDup (map fst fp)).
  { clear - Hs. induction Hs as [|x l Hs IH Hx]; constructor; auto. intros Hin. rewrite Forall_forall in Hx. specialize (Hx x Hin). lia. }
  destruct (C60_is_kept fp th Nf Nth) as (fs&bs&P&S&E&HF).
  { intros v Hin. rewrite Ek. apply in_seq. specialize (Hlt v Hin). lia. }
  unfold select_null_mask. rewrite Efp, Et, E. f_equal.
  assert (fs = map fst fp) as ->. { apply sorted_perm_eq; auto. }
  clear E. assert (Hsub : incl (map fst fp) (map fst fp)) by apply incl_refl. revert Hsub HF. generalize (map fst fp) at 1 3 4. intros l. revert bs. induction l as [|v l IH]; intros bs Hsub HF; inversion HF as [|? b' ? bs' Hb HF']; subst; auto.
  simpl. f_equal; [|apply IH; auto; intros x Hx; apply Hsub; simpl; auto].
  assert (Hin : In v (map fst fp)) by (apply Hsub; simpl; auto). destruct (Hget v (Hlt v Hin)) as (t&Ht&Eg). apply in_map_iff in Hin as ((v'&p)&Ev&Hin). simpl in Ev. subst v'.
  unfold above. rewrite Eg, <- (Hv v p Hin). destruct (Rlt_dec t p) as [Hlt'|Hnlt].
  - apply Hb. exists p, t. auto.
  - destruct b'; auto. exfalso. apply Hnlt. destruct (proj1 Hb eq_refl) as (p'&t'&H1&H2&H3).
    assert (p' = p) as -> by (rewrite (Hv v p Hin), (Hv v p' H1); auto). assert (t' = t) as -> by (apply dict_get_in in H2; auto; congruence). exact H3.
Qed.
Print Assumptions C71_null_mask.
(** Transforming with such a mask: when every column is used, exactly the columns above their cutoff are kept;
    when some column is not used, ValueError, or nothing is kept at all. *)
Lemma select_filter {A} (f : nat -> bool) (d : A) : forall n k (r : list A), length r = n ->
  select (map negb (map f (seq k n))) r = map (fun c => nth (c - k) r d) (filter f (seq k n)).
Proof.
  induction n as [|n IH]; intros k [|x r] Hl; try discriminate; auto. cbn [seq map select filter]. rewrite (IH (S k) r) by (simpl in Hl; lia).
  assert (E : map (fun c => nth (c - S k) r d) (filter f (seq (S k) n)) = map (fun c => nth (c - k) (x :: r) d) (filter f (seq (S k) n))).
  { apply map_ext_in. intros c Hc. apply filter_In in Hc as [Hc _]. apply in_seq in Hc. replace (c - k)%nat with (S (c - S k)) by lia. reflexivity. }
  rewrite E. destruct (f k); cbn [negb map]; auto. now rewrite Nat.sub_diag.
Qed.
Lemma count_false_negb (l : list bool) : count_false (map negb l) = length (filter (fun b => b) l).
Proof. induction l as [|[] l IH]; simpl; auto. Qed.
Theorem C71_transform : forall X f cutoff used, Forall (fun r => length r = mx_ncols X) (mx_rows X) -> StronglySorted lt used -> (forall v, In v used -> (v < mx_ncols X)%nat) ->
  let mask := map (above f cutoff) used in
  let kept := filter (above f cutoff) (seq 0 (mx_ncols X)) in
  ((forall v, In v used -> f v <= cutoff v) -> selector_transform mask X = Ok (Mx 0 (map (fun _ => []) (mx_rows X)))) /\
  (forall v, In v used -> cutoff v < f v -> (exists c, (c < mx_ncols X)%nat /\ ~ In c used) -> selector_transform mask X = Raise EValueError) /\
  (forall v, In v used -> cutoff v < f v -> (forall c, (c < mx_ncols X)%nat -> In c used) ->
     selector_transform mask X = Ok (Mx (length kept) (map (fun r => map (cell r) kept) (mx_rows X)))).
Proof.
  intros X f cutoff used Hr Hs Hlt mask kept. unfold selector_transform.
  assert (Hn : forall l, StronglySorted lt l -> NoDup l).
  { intros l H. induction H as [|x l Hs' IH Hx]; constructor; auto. intros Hin. rewrite Forall_forall in Hx. specialize (Hx x Hin). lia. }
  assert (Hex : forall v, In v used -> cutoff v < f v -> existsb (fun b => b) mask = true).
  { intros v Hv Hc. apply existsb_exists. exists true. split; auto. apply in_map_iff. exists v. split; auto. unfold above. destruct (Rlt_dec (cutoff v) (f v)); auto; lra. }
  split; [|split].
  - intros H. destruct (existsb (fun b => b) mask) eqn:E; auto. apply existsb_exists in E as (b&Hb&->). apply in_map_iff in Hb as (v&Hv&Hin). specialize (H v Hin).
    unfold above in Hv. destruct (Rlt_dec (cutoff v) (f v)); [lra|discriminate].
  - intros v Hv Hc (c&Hcl&Hnc). rewrite (Hex v Hv Hc). destruct (Nat.eqb_spec (length mask) (mx_ncols X)) as [E|]; auto. exfalso.
    assert (HP : incl (seq 0 (mx_ncols X)) used).
    { apply NoDup_length_incl; [apply Hn; auto| |intros x Hx; apply in_seq; specialize (Hlt x Hx); lia]. unfold mask in E. rewrite map_length in E. rewrite seq_length. lia. }
    apply Hnc. apply HP. apply in_seq. lia.
  - intros v Hv Hc Hall. rewrite (Hex v Hv Hc). assert (Eu : used = seq 0 (mx_ncols X)).
    { apply sorted_perm_eq; [auto| |].
      - clear. generalize 0%nat. induction (mx_ncols X) as [|n IH]; intros k; simpl; constructor; auto. apply Forall_forall. intros c Hc. apply in_seq in Hc. lia.
      - apply NoDup_Permutation; [apply Hn; auto|apply seq_NoDup|]. intros c. rewrite in_seq. split; [intros Hc'; specialize (Hlt c Hc'); lia|intros [_ Hc']; apply Hall; lia]. }
    unfold mask. rewrite Eu, map_length, seq_length, Nat.eqb_refl. f_equal. unfold keep_columns. f_equal.
    + rewrite count_false_negb. unfold kept. clear. generalize (seq 0 (mx_ncols X)). induction l as [|c l IH]; simpl; auto. destruct (above f cutoff c); simpl; auto.
    + apply map_ext_in. intros r Hin. rewrite Forall_forall in Hr. rewrite (select_filter _ FNaN) by auto. unfold kept. apply map_ext_in. intros c _. unfold cell. now rewrite Nat.sub_0_r.
Qed.
Print Assumptions C71_transform.
(** the documented reading, that the transformed data has the columns above the cutoff, fails *)
Theorem C71_selects_columns_refuted : exists X f cutoff used, Forall (fun r => length r = mx_ncols X) (mx_rows X) /\ StronglySorted lt used /\
  (forall v, In v used -> (v < mx_ncols X)%nat) /\ (exists v, In v used /\ cutoff v < f v) /\
  selector_transform (map (above f cutoff) used) X = Raise EValueError.
Proof.
  exists (Mx 2 [[fz 1; fz 5]; [fz 2; fz 6]]), (fun _ => 1), (fun _ => 0), [1%nat].
  assert (Hr : Forall (fun r : row => length r = 2%nat) [[fz 1; fz 5]; [fz 2; fz 6]]) by (repeat constructor).
  assert (Hs : StronglySorted lt [1%nat]) by (repeat constructor). assert (Hl : forall v, In v [1%nat] -> (v < 2)%nat) by (intros v [<-|[]]; lia).
  split; auto. split; auto. split; auto. split; [exists 1%nat; split; [simpl; auto|lra]|].
  apply (proj1 (proj2 (C71_transform (Mx 2 [[fz 1; fz 5]; [fz 2; fz 6]]) (fun _ => 1) (fun _ => 0) [1%nat] Hr Hs Hl)) 1%nat); [simpl; auto|lra|].
  exists 0%nat. split; [simpl; lia|]. intros [|[]]; discriminate.
Qed.
Print Assumptions C71_selects_columns_refuted.
Example C71_case : forall b, exists s rs rs' s' mask, make_select_null ex_sk (95 / 100) MethodLocal None = Ok s /\
  select_null_fit b s ex_empty mx_X mx_y rs [[0; 1; 2]; [2; 0; 1]]%nat rs' = Ok s' /\ select_null_mask s' = Ok mask /\ (length mask <= 1)%nat.
Proof.
  intros b. destruct (C70_case b) as (s&rs&rs'&s'&Es&E).
  destruct (C71_null_mask b ex_sk (95 / 100) None s ex_empty mx_X mx_y rs [[0; 1; 2]; [2; 0; 1]]%nat rs' s' mx_no_nan eq_refl) as (m1&t0&runs&trees&cut&used&_&_&_&_&Hs&_&Hlt&Em); auto.
  { intros p [<-|[<-|[]]]; reflexivity. }
  exists s, rs, rs', s', (map (above (reported (concat (last trees t0))) cut) used). split; auto. split; auto. split; auto. rewrite map_length.
  destruct used as [|a [|c used]]; simpl; try lia. exfalso. inversion Hs as [|? ? _ Ha]; subst. inversion Ha as [|? ? Hac _]; subst.
  pose proof (Hlt c ltac:(simpl; auto)) as H2. simpl in H2. lia.
Qed.
