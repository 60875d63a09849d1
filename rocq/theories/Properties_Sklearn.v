(** Properties C19 (estimators), C49, C50, C52-C54 and C65: see /verif/properties.jsonl. *)
From Coq Require Import Reals Lra Lia ZArith.
From Verif Require Import Base Fl Ext MData MSplit MTree MSampler MHist MTreeHist MModel MModelHist MSklearn Spec SpecTree SpecSampler SpecModel SpecSklearn.
From Verif Require Import LFl LList PData PSplit PDataProps PCond PTree PPred PTreeHist PModel PModel2 PModel7 PModel8 PModel12 PSklearn PSklearn2 PSklearn3
  Properties_Model Properties_Model2.
Local Open Scope R_scope.

(** ** C66 for whole fits, and the example used below *)
(** If some covariate varies among the rows other than the first, the target is not constant, the settings
    are valid and at least one chain is asked for, then some draws complete the fit. *)
Theorem C66_fit_possible : forall b s h X y num den,
  no_nan X -> length y = length (mx_rows X) -> varies X -> (exists a b, In a y /\ In b y /\ a <> b) ->
  sane_params (sk_par s) -> (0 < pa_limit (sk_par s))%nat -> sk_thin s = TInv num den -> num <> 0%Z -> (0 < sk_nchains s)%nat ->
  exists rs s', length rs = sk_nchains s /\ fit b s h X y rs = Ok s'.
Proof.
  intros b s h X y num den Hn Hl Hv Hy Hp Hlim Ht Hz Hc. apply fit_ok; [|lia].
  split; auto. split; auto. split; auto. split; auto. split; auto. split; auto. eauto.
Qed.
Print Assumptions C66_fit_possible.
(** 3 rows of one covariate, two trees, two chains of 5 samples after 2 burn-in steps, thin = 1/2 *)
Definition ex_sk : sklearn := new_sklearn mx_p 2 5 2 (TInv 2 1) true true.
Definition ex_empty : heap := Hp 0 (fun _ => None).
Lemma ex_clean : clean mx_X.
Proof. intros r v Hr Hv. simpl in Hr, Hv. assert (v = 0)%nat as -> by lia. destruct Hr as [<-|[<-|[<-|[]]]]; split; discriminate. Qed.
Lemma ex_fit b : exists rs s', length rs = 2%nat /\ fit b ex_sk ex_empty mx_X mx_y rs = Ok s'.
Proof.
  apply (C66_fit_possible b ex_sk ex_empty mx_X mx_y 2 1); try reflexivity; try exact mx_no_nan; try exact mx_varies; try exact mx_sane; try discriminate; try (simpl; lia).
  exists 1, 2. simpl. repeat split; auto. lra.
Qed.

(** ** C49 *)
Theorem C49_predict_is_predict_train : forall b s h X y rs s',
  clean X -> length y = length (mx_rows X) -> fit b s h X y rs = Ok s' -> sk_store_preds s = true ->
  sk_predict s' None = sk_predict s' (Some X).
Proof.
  intros b s h X y rs s' Hc Hl Hf Hsp. destruct (fit_in_sample _ _ _ _ _ _ _ Hc Hl Hf Hsp) as (ss&ps&Hss&Hps&Hsay).
  assert (Hn : no_nan X) by (intros r v Hr Hv; apply (Hc r v Hr Hv)).
  destruct (fit_data _ _ _ _ _ _ _ Hn Hl Hf) as (d&m&lo&hi&ny&Hd&Hm&_&Hset&_).
  destruct (settings_fields _ _ Hset) as (_&_&_&_&_&E&_). unfold sk_predict, out_of_sample_predict. rewrite E, Hsp, Hd, Hss, Hps.
  apply predict_samples_spec in Hsay. now rewrite Hsay.
Qed.
Print Assumptions C49_predict_is_predict_train.
(** without -inf being excluded the two differ: see C65; fit_predict uses the stored predictions if there are any *)
Theorem C49_fit_predict : forall b s h X y rs v s',
  clean X -> length y = length (mx_rows X) -> fit_predict b s h X y rs = Ok (v, s') ->
  fit b s h X y rs = Ok s' /\ sk_predict s' (Some X) = Ok v.
Proof.
  intros b s h X y rs v s' Hc Hl. unfold fit_predict. destruct (fit b s h X y rs) as [s1| |] eqn:Ef; try discriminate. cbn [rbind].
  assert (Hn : no_nan X) by (intros r w Hr Hw; apply (Hc r w Hr Hw)).
  destruct (fit_data _ _ _ _ _ _ _ Hn Hl Ef) as (d&m&lo&hi&ny&_&_&_&Hset&_). destruct (settings_fields _ _ Hset) as (_&_&_&_&_&E&_).
  destruct (sk_store_preds s1) eqn:E1.
  - rewrite (C49_predict_is_predict_train _ _ _ _ _ _ _ Hc Hl Ef) by congruence.
    destruct (sk_predict s1 (Some X)) as [v1| |] eqn:Ep; try discriminate. cbn [rbind]. intros [= <- <-]. auto.
  - destruct (sk_predict s1 (Some X)) as [v1| |] eqn:Ep; try discriminate. cbn [rbind]. intros [= <- <-]. auto.
Qed.
Print Assumptions C49_fit_predict.

(** ** C50 *)
Theorem C50_mean_of_samples : forall b s h X y rs s' X',
  no_nan X -> length y = length (mx_rows X) -> fit b s h X y rs = Ok s' -> (mx_ncols X <= mx_ncols X')%nat ->
  exists lo hi ss ps, range_of y lo hi /\ sk_samples s' = Some ss /\ samples_say ss X' ps /\
    (forall p, In p ps -> length p = length (mx_rows X')) /\
    (ss = [] -> sk_predict s' (Some X') = Raise XNonFinite) /\
    (ss <> [] -> exists v, sk_predict s' (Some X') = Ok v /\ length v = length (mx_rows X') /\
       forall i, (i < length (mx_rows X'))%nat ->
         nth i v 0 = mean (map (fun p => in_units lo hi (nth i p 0)) ps) /\
         (exists p, In p ps /\ in_units lo hi (nth i p 0) <= nth i v 0) /\ (exists p, In p ps /\ nth i v 0 <= in_units lo hi (nth i p 0))).
Proof.
  intros b s h X y rs s' X' Hn Hl Hf Hc. destruct (fit_out _ _ _ _ _ _ _ X' Hn Hl Hf Hc) as (ss&ps&Hss&Hsay&Hps).
  destruct (fit_data _ _ _ _ _ _ _ Hn Hl Hf) as (d&m&lo&hi&ny&Hd&Hm&_&Hset&Hr&_&Hrng&_). exists lo, hi, ss, ps.
  split; auto. split; auto. split; auto. split; [intros p Hp; now apply Hps|]. pose proof (proj2 (predict_samples_spec _ _ _) Hsay) as Hpp.
  unfold sk_predict, out_of_sample_predict. rewrite Hd, Hss, Hpp. cbn [rbind]. assert (Hlen : length ss = length ps) by (eapply PModel7.Forall2_length; exact Hsay). split.
  - intros ->. inversion Hsay; subst. reflexivity.
  - intros Hne. assert (Hpne : ps <> []) by (destruct ps; [destruct ss; [congruence|discriminate]|congruence]).
    destruct (vmean_spec ps (length (mx_rows X')) Hpne ltac:(intros p Hp; now apply Hps)) as (u&->&Hul&Hu). cbn [rbind]. unfold unnormalize_y. rewrite Hrng.
    eexists. split; [reflexivity|]. rewrite unnormalize_units, map_length. split; auto. intros i Hi.
    assert (E : nth i (map (in_units lo hi) u) 0 = mean (map (fun p => in_units lo hi (nth i p 0)) ps)).
    { rewrite nth_map_in with (d := 0) by lia. rewrite Hu by auto. rewrite mean_units by (destruct ps; [congruence|discriminate]). now rewrite map_map. }
    rewrite E. split; auto. clear - Hpne.
    set (f := fun p : list R => in_units lo hi (nth i p 0)). assert (Hne : map f ps <> []) by (destruct ps; [congruence|discriminate]).
    assert (G : forall l : list R, l <> [] -> (exists x, In x l /\ x <= mean l) /\ (exists x, In x l /\ mean l <= x)).
    { clear. intros l Hl. assert (Hv : exists a b, In a l /\ In b l /\ forall x, In x l -> a <= x <= b).
      { clear - Hl. induction l as [|x l IH]; [congruence|]. destruct l as [|x' l']; [exists x, x; simpl; split; auto; split; auto; intros z [<-|[]]; lra|].
        destruct IH as (a&b&Ha&Hb&H); [discriminate|].
        exists (Rmin x a), (Rmax x b). split; [|split].
        - unfold Rmin. destruct (Rle_dec x a); [left; auto|right; auto].
        - unfold Rmax. destruct (Rle_dec x b); [right; auto|left; auto].
        - pose proof (Rmin_l x a). pose proof (Rmin_r x a). pose proof (Rmax_l x b). pose proof (Rmax_r x b).
          intros z [<-|Hz]; [lra|]. specialize (H z Hz). lra. }
      destruct Hv as (a&b&Ha&Hb&H). pose proof (mean_bounds l Hl a b H) as Hm. split; [exists a|exists b]; split; auto; lra. }
    destruct (G _ Hne) as ((x1&H1&H2)&(x2&H3&H4)). apply in_map_iff in H1 as (p1&<-&H1). apply in_map_iff in H3 as (p2&<-&H3).
    split; [exists p1|exists p2]; auto.
Qed.
Print Assumptions C50_mean_of_samples.
(** the samples of the chains one after the other; chain [i] is a run of the sampler on the draws [i] *)
Theorem C50_chain_order : forall b s h X y rs s',
  no_nan X -> length y = length (mx_rows X) -> fit b s h X y rs = Ok s' ->
  exists es, sk_samples s' = Some (all_samples es) /\ length es = sk_nchains s /\ (sk_nchains s <= length rs)%nat /\
    sk_preds s' = Some (flat_map (fun e : extract => ch_preds (snd e)) es) /\ sk_accept s' = Some (flat_map (fun e : extract => ch_accept (snd e)) es) /\
    Forall2 (chain_result s X y) es (firstn (sk_nchains s) rs).
Proof.
  intros b s h X y rs s' Hn Hl Hf. destruct (fit_spec _ _ _ _ _ _ _ Hn Hl Hf) as (d&m&es&_&_&_&_&_&Hle&_&Hlr&HF&Hss&Hps&Hac).
  exists es. split; [exact Hss|]. split; auto. split; auto. split; auto. split; auto. eapply Forall2_impl_in; [|exact HF].
  intros e r _ _ (hs&m0&m'&r'&kept&H1&H2&H3&_). exists hs, m0, m', r'. auto.
Qed.
Print Assumptions C50_chain_order.
(** the number of stored samples, for thin = den/num = den'/q in lowest terms *)
Theorem C50_count : forall b s h X y rs s' num den q den',
  no_nan X -> length y = length (mx_rows X) -> fit b s h X y rs = Ok s' -> sk_thin s = TInv num den ->
  (0 < q)%nat -> (0 < den')%nat -> Nat.gcd q den' = 1%nat -> (num * Z.of_nat den' = Z.of_nat q * Zpos den)%Z ->
  exists ss, sk_samples s' = Some ss /\ length ss = (sk_nchains s * ((sk_nsamples s + q - 1) / q))%nat.
Proof.
  intros b s h X y rs s' num den q den' Hn Hl Hf Ht Hq Hd' Hg Hqd.
  destruct (C50_chain_order _ _ _ _ _ _ _ Hn Hl Hf) as (es&Hss&Hle&Hlr&_&_&HF). eexists. split; [exact Hss|].
  assert (G : forall e, In e es -> length (ch_models (snd e)) = ((sk_nsamples s + q - 1) / q)%nat).
  { intros e He. destruct (forall2_right _ _ _ HF e He) as (r&h0&m&m'&r'&Hm&Hs&_). rewrite Ht in Hs.
    eapply (C43_count X y true h0 1 (sk_par s) []); eauto. split; auto. split; [constructor|]. exists m. auto. }
  rewrite <- Hle. clear - G. unfold all_samples. induction es as [|e es IH]; [reflexivity|]. simpl. rewrite app_length, map_length, G by (simpl; auto).
  etransitivity; [apply f_equal2; [reflexivity|apply IH; intros; apply G; simpl; auto]|]. lia.
Qed.
Print Assumptions C50_count.
Theorem C50_one_in_k : forall b s h X y rs s' k,
  no_nan X -> length y = length (mx_rows X) -> fit b s h X y rs = Ok s' -> sk_thin s = TInv (Z.of_nat k) 1 -> (0 < k)%nat ->
  exists ss, sk_samples s' = Some ss /\ length ss = (sk_nchains s * ((sk_nsamples s + k - 1) / k))%nat.
Proof.
  intros b s h X y rs s' k Hn Hl Hf Ht Hk. eapply (C50_count b s h X y rs s' _ _ k 1); eauto. apply Nat.gcd_1_r.
Qed.
Print Assumptions C50_one_in_k.
(** two chains of ceil(5/2) = 3 samples, on both backends *)
Example C49_C50_case : forall b, exists rs s' v, fit b ex_sk ex_empty mx_X mx_y rs = Ok s' /\ sk_predict s' None = Ok v /\ sk_predict s' (Some mx_X) = Ok v /\
  length v = 3%nat /\ exists ss, sk_samples s' = Some ss /\ length ss = 6%nat.
Proof.
  intros b. destruct (ex_fit b) as (rs&s'&_&Hf). destruct (C50_one_in_k b ex_sk _ mx_X mx_y rs s' 2 mx_no_nan eq_refl Hf eq_refl ltac:(lia)) as (ss&Hss&Hlen).
  destruct (C50_mean_of_samples b ex_sk _ mx_X mx_y rs s' mx_X mx_no_nan eq_refl Hf (le_n _)) as (lo&hi&ss'&ps&_&Hss'&_&_&_&H). rewrite Hss in Hss'. injection Hss' as <-.
  change (length ss = 6%nat) in Hlen. destruct H as (v&Hv&Hl&_); [intros ->; discriminate|].
  exists rs, s', v. split; auto. split; [rewrite (C49_predict_is_predict_train b ex_sk _ mx_X mx_y rs s' ex_clean eq_refl Hf eq_refl); auto|]. split; auto. split; auto.
  exists ss. auto.
Qed.

(** ** C52 *)
Theorem C52_fitted : forall b s h X y rs s',
  no_nan X -> length y = length (mx_rows X) -> fit b s h X y rs = Ok s' ->
  (sk_predict s' None = Raise EValueError <-> sk_store_preds s = false).
Proof.
  intros b s h X y rs s' Hn Hl Hf. destruct (fit_data _ _ _ _ _ _ _ Hn Hl Hf) as (d&m&lo&hi&ny&Hd&Hm&_&Hset&_&_&Hrng&_).
  destruct (settings_fields _ _ Hset) as (_&_&_&_&_&E&_). unfold sk_predict. rewrite E, Hd. destruct (sk_store_preds s) eqn:Hsp; [|tauto].
  split; [|discriminate]. intros Hex. exfalso. 
  destruct (fit_spec _ _ _ _ _ _ _ Hn Hl Hf) as (d'&m'&es&_&_&_&_&_&_&_&_&HF&_&Hps&_). rewrite Hps in Hex.
  assert (G : forall p, In p (flat_map (fun e : extract => ch_preds (snd e)) es) -> length p = length (mx_rows X)).
  { intros p Hp. apply in_flat_map in Hp as (e&He&Hp). destruct (forall2_right _ _ _ HF e He) as (r&hs&m0&m1&r'&kept&_&_&_&(_&_&_&F4)&_).
    rewrite Hsp in F4. destruct (forall2_in_l _ _ _ F4 p Hp) as (st&_&Hst). apply Hst. }
  set (ps := flat_map (fun e : extract => ch_preds (snd e)) es) in *. destruct ps as [|p0 ps0] eqn:Eps; [discriminate|]. rewrite <- Eps in *.
  destruct (vmean_spec ps (length (mx_rows X)) ltac:(rewrite Eps; discriminate) G) as (u&Hu&_). rewrite Hu in Hex. cbn [rbind] in Hex. unfold unnormalize_y in Hex.
  rewrite Hrng in Hex. discriminate.
Qed.
Print Assumptions C52_fitted.
(** before any fit the flag decides which exception is raised *)
Theorem C52_never_fitted : forall p nc ns nb th sp sa,
  sk_predict (new_sklearn p nc ns nb th sp sa) None = Raise (if sp then EAttributeError else EValueError) /\
  forall X, sk_predict (new_sklearn p nc ns nb th sp sa) (Some X) = Raise EAttributeError.
Proof. intros p nc ns nb th [|] sa; split; reflexivity. Qed.
Print Assumptions C52_never_fitted.
Example C52_case : forall b, exists rs s', fit b (new_sklearn mx_p 2 5 2 (TInv 2 1) false true) ex_empty mx_X mx_y rs = Ok s' /\ sk_predict s' None = Raise EValueError.
Proof.
  intros b. set (s := new_sklearn mx_p 2 5 2 (TInv 2 1) false true).
  assert (H : exists rs s', length rs = sk_nchains s /\ fit b s ex_empty mx_X mx_y rs = Ok s').
  { apply (C66_fit_possible b s ex_empty mx_X mx_y 2 1); try reflexivity; try exact mx_no_nan; try exact mx_varies; try exact mx_sane; try discriminate; try (simpl; lia).
    exists 1, 2. simpl. repeat split; auto. lra. }
  destruct H as (rs&s'&_&Hf). exists rs, s'. split; auto. now apply (C52_fitted b s ex_empty mx_X mx_y rs s' mx_no_nan eq_refl Hf).
Qed.

(** ** C53 *)
Theorem C53_residuals : forall s X y e, sk_residuals s X (Some y) = Ok e ->
  exists v, sk_predict s X = Ok v /\ length v = length y /\ length e = length y /\
    forall i, (i < length y)%nat -> nth i e 0 + nth i v 0 = nth i y 0.
Proof.
  intros s X y e. unfold sk_residuals, residuals_with. destruct (sk_predict s X) as [v| |]; try discriminate. cbn [rbind]. intros H.
  destruct (vop_length _ _ _ _ H) as [A B]. exists v. split; auto. split; auto. split; auto. intros i Hi.
  unfold vop in H. rewrite A, Nat.eqb_refl in H. injection H as <-. rewrite (nth_map2 _ 0 0 0) by lia. lra.
Qed.
Print Assumptions C53_residuals.
(** they are defined as soon as the prediction is and the lengths agree (broadcasting aside) *)
Theorem C53_defined : forall s X y v, sk_predict s X = Ok v -> 
  if (length y =? length v)%nat then exists e, sk_residuals s X (Some y) = Ok e else sk_residuals s X (Some y) = Raise EValueError.
Proof.
  intros s X y v H. unfold sk_residuals, residuals_with. rewrite H. cbn [rbind]. unfold vop. destruct (length y =? length v)%nat; eauto.
Qed.
Print Assumptions C53_defined.
Theorem C53_squares : forall s X y e, sk_l2_error s X (Some y) = Ok e <-> 
  exists d, sk_residuals s X (Some y) = Ok d /\ e = map (fun x => x ^ 2) d.
Proof.
  intros s X y e. unfold sk_l2_error, l2_with, sk_residuals. destruct (residuals_with _ _ _ _) as [d| |]; cbn [rbind]; split; try discriminate; try (intros (d'&H&_); discriminate).
  - intros [= <-]. exists d. split; auto. apply map_ext. intros; ring.
  - intros (d'&[= <-]&->). f_equal. apply map_ext. intros; ring.
Qed.
Print Assumptions C53_squares.
Lemma rsum_squares_pos l : 0 <= rsum (map (fun x => x ^ 2) l).
Proof. induction l as [|x l IH]; unfold rsum in *; simpl in *; [lra|]. pose proof (Rle_0_sqr x). unfold Rsqr in *. lra. Qed.
Theorem C53_rmse_is_sum : forall s X y r, sk_rmse s X y = Ok r ->
  exists d, sk_residuals s (Some X) (Some y) = Ok d /\ 0 <= r /\ r ^ 2 = rsum (map (fun x => x ^ 2) d) /\
    (y <> [] -> r = sqrt (INR (length y)) * sqrt (mean (map (fun x => x ^ 2) d))).
Proof.
  intros s X y r. unfold sk_rmse, rmse_with. destruct (l2_with _ _ _ _) as [e| |] eqn:E; try discriminate. cbn [rbind]. intros [= <-].
  apply C53_squares in E as (d&Hd&->). exists d. split; auto. split; [apply sqrt_pos|]. pose proof (rsum_squares_pos d) as Hp. split.
  - simpl. rewrite Rmult_1_r. now apply sqrt_sqrt.
  - intros Hy. destruct (C53_residuals _ _ _ _ Hd) as (v&_&_&Hl&_). assert (Hn : 0 < INR (length y)) by (apply lt_0_INR; destruct y; simpl; [congruence|lia]).
    rewrite <- sqrt_mult; [|lra|].
    + f_equal. unfold mean. rewrite map_length, Hl. field. lra.
    + unfold mean. rewrite map_length, Hl. apply Rmult_le_pos; auto. left. now apply Rinv_0_lt_compat.
Qed.
Print Assumptions C53_rmse_is_sum.
(** residuals(X) without y uses the training target in its original units *)
Theorem C53_training_residuals : forall b s h X y rs s' X', no_nan X -> length y = length (mx_rows X) -> fit b s h X y rs = Ok s' ->
  sk_residuals s' X' None = sk_residuals s' X' (Some y).
Proof.
  intros b s h X y rs s' X' Hn Hl Hf. destruct (fit_data _ _ _ _ _ _ _ Hn Hl Hf) as (d&m&lo&hi&ny&Hd&Hm&Hmd&_&_&_&Hrng&Hny&Hu).
  unfold sk_residuals, residuals_with. rewrite Hm, Hmd. unfold unnormalized_y, unnormalize_y. rewrite Hny, Hrng, Hu. reflexivity.
Qed.
Print Assumptions C53_training_residuals.
(** "rmse is the root mean squared error" is refuted: three errors of size 1 give sqrt 3 *)
Theorem C53_root_mean_square_refuted : exists b s h rs s' y r d, fit b s h mx_X mx_y rs = Ok s' /\ sk_rmse s' mx_X y = Ok r /\
  sk_residuals s' (Some mx_X) (Some y) = Ok d /\ sqrt (mean (map (fun x => x ^ 2) d)) = 1 /\ r = sqrt 3 /\ r <> 1.
Proof.
  destruct (C49_C50_case Processes) as (rs&s'&v&Hf&_&Hv&Hlv&_). exists Processes, ex_sk, ex_empty, rs, s', (map (fun x => x + 1) v), (sqrt 3), [1; 1; 1].
  destruct v as [|a [|b [|c [|]]]]; try discriminate. assert (E : sk_residuals s' (Some mx_X) (Some (map (fun x => x + 1) [a; b; c])) = Ok [1; 1; 1]).
  { unfold sk_residuals, residuals_with. rewrite Hv. cbn [rbind]. unfold vop. cbn [map length Nat.eqb map2]. repeat f_equal; lra. }
  split; auto. split; [|split; [auto|split; [|split; auto]]].
  - unfold sk_rmse, rmse_with, l2_with. unfold sk_residuals in E. rewrite E. cbn [rbind]. do 2 f_equal. cbn [map]. unfold rsum. simpl. lra.
  - replace (mean _) with 1; [apply sqrt_1|]. unfold mean. cbn [map length]. unfold rsum. simpl. field.
  - intros H. assert (H3 : sqrt 3 * sqrt 3 = 3) by (apply sqrt_sqrt; lra). rewrite H in H3. lra.
Qed.
Print Assumptions C53_root_mean_square_refuted.

(** ** C54 *)
Theorem C54_unnormalized_residuals : forall X y h0 sigma p os m,
  no_nan X -> model_reached X y true h0 sigma p os m ->
  exists lo hi e0 e m', range_of y lo hi /\ residuals m = Ok (e0, m') /\ unnormalized_residuals m = Ok (e, m') /\ length e = length y /\
    forall i, (i < length y)%nat -> nth i e 0 = (hi - lo) * nth i e0 0 /\
      forall vs, trees_say m X vs -> nth i e 0 = nth i y 0 - in_units lo hi (total vs i).
Proof.
  intros X y h0 sigma p os m Hn Hr. destruct (model_reached_spec _ _ _ _ _ _ _ _ Hn Hr) as (As&e&H&_).
  destruct Hr as (Hl&Hs&m0&Hm0&Hrun). 
  assert (Hdat : exists d, convert_to_data X y = Ok d /\ m_data m0 = d).
  { unfold start_model in Hm0. unfold convert_to_data. destruct (make_data X y None true None None None None) as [d| |]; try discriminate. exists d. split; auto.
    cbn [rbind] in Hm0. unfold make_model in Hm0. destruct (initialize_trees h0 d _) as [[h1 ts]| |]; try discriminate. now injection Hm0 as <-. }
  destruct Hdat as (d&Hd&Hmd). destruct (start_model_spec _ _ _ _ _ _ _ Hl Hm0) as (H0&Ht&_).
  assert (Hlen : length (m_trees m0) = pa_ntrees p) by (rewrite Ht, map_length, seq_length; auto). rewrite <- Hlen in Hs.
  destruct (model_run_spec _ _ Hn _ _ _ _ _ H0 Hs Hrun) as (As1&e1&_&Hsm&_). destruct Hsm as (_&Hdat&_). rewrite Hmd in Hdat.
  apply convert_spec in Hd. destruct (target_spec _ _ _ Hd) as (lo&hi&ny&H1&H2&_&_&H3&H4&H5&H6).
  destruct (model_predict_spec _ _ _ _ _ Hn H) as (v&m'&Ev&Lv&Nv&_).
  exists lo, hi. unfold residuals, unnormalized_residuals, data_values, unnormalized_y, unnormalize_y. rewrite Hdat, H4, H3, Ev. cbn [rbind].
  rewrite H5. unfold vop. rewrite unnormalize_units, map_length, H6, Lv, Hl, Nat.eqb_refl. cbn [rbind].
  eexists; eexists; exists m'. split; auto. split; [reflexivity|]. split; [reflexivity|]. split; [rewrite map2_length; rewrite ?map_length; congruence|].
  intros i Hi. rewrite !(nth_map2 _ 0 0 0) by (rewrite ?map_length; congruence). rewrite nth_map_in with (d := 0) by congruence.
  rewrite <- H5, unnormalize_units, nth_map_in with (d := 0) by congruence. split; [unfold in_units; lra|].
  intros vs Hvs. rewrite (trees_say_unique _ _ _ _ _ _ _ H Hvs), total_col, Nv by congruence. reflexivity.
Qed.
Print Assumptions C54_unnormalized_residuals.
(** a model on a target that was not normalised has no unnormalised residuals *)
Theorem C54_without_normalisation : forall X y h0 sigma p os m,
  no_nan X -> model_reached X y false h0 sigma p os m -> unnormalized_residuals m = Raise EAttributeError.
Proof.
  intros X y h0 sigma p os m Hn (Hl&Hs&m0&Hm0&Hrun).
  assert (Hdat : t_range (d_y (m_data m0)) = None /\ t_y (d_y (m_data m0)) = Some y).
  { unfold start_model in Hm0. destruct (make_data X y None false None None None None) as [d| |] eqn:Ed; try discriminate.
    assert (Hm : m_data m0 = d).
    { cbn [rbind] in Hm0. unfold make_model in Hm0. destruct (initialize_trees h0 d _) as [[h1 ts]| |]; try discriminate. now injection Hm0 as <-. }
    rewrite Hm. unfold make_data in Ed. destruct (make_target _ _ _ _) as [t| |] eqn:Et; try discriminate. cbn [rbind] in Ed. injection Ed as <-. simpl.
    unfold make_target in Et. now injection Et as <-. }
  destruct (start_model_spec _ _ _ _ _ _ _ Hl Hm0) as (H0&Ht&_).
  assert (Hlen : length (m_trees m0) = pa_ntrees p) by (rewrite Ht, map_length, seq_length; auto). rewrite <- Hlen in Hs.
  destruct (model_run_spec _ _ Hn _ _ _ _ _ H0 Hs Hrun) as (As1&e1&_&Hsm&_). destruct Hsm as (_&Hd&_).
  unfold unnormalized_residuals, unnormalized_y, unnormalize_y. rewrite Hd. destruct Hdat as [-> ->]. reflexivity.
Qed.
Print Assumptions C54_without_normalisation.
Example C54_case : exists m, model_reached mx_X mx_y true ex_empty 1 mx_p [] m.
Proof.
  destruct (start_model_ok mx_X mx_y ex_empty mx_p 1 2 eq_refl ltac:(simpl; auto) ltac:(simpl; auto) ltac:(lra)) as (d&m&_&_&_&_&Hm).
  exists m. split; [reflexivity|]. split; [constructor|]. exists m. auto.
Qed.

(** ** C65 *)
Theorem C65_models : forall X y nrm h0 sigma p os m X' v k,
  no_nan X -> model_reached X y nrm h0 sigma p os m -> (mx_ncols X <= mx_ncols X')%nat ->
  trees_predict_out (m_heap m) (m_trees m) X' = Ok v -> (k < length (mx_rows X'))%nat ->
  (exists c, (c < mx_ncols X)%nat /\ (cell (nth k (mx_rows X') []) c = FNaN \/ cell (nth k (mx_rows X') []) c = FNInf)) ->
  nth k v 1 = 0.
Proof.
  intros X y nrm h0 sigma p os m X' v k Hn Hr Hc E Hk (c&Hcc&Hcell). destruct (model_reached_spec _ _ _ _ _ _ _ _ Hn Hr) as (As&e&H&_&Hlen&Hp).
  eapply (ok_state_unclean X (start_target y nrm) p); eauto; [exists As, e; auto|]. destruct (row_clean (mx_ncols X) (nth k (mx_rows X') [])) eqn:Er; auto.
  exfalso. destruct (proj1 (row_clean_iff _ _) Er c Hcc). tauto.
Qed.
Print Assumptions C65_models.
(** for a fitted estimator: such a row gets the middle of the range of the target, whatever else it holds *)
Theorem C65_estimators : forall b s h X y rs s' X' v k,
  no_nan X -> length y = length (mx_rows X) -> fit b s h X y rs = Ok s' -> (mx_ncols X <= mx_ncols X')%nat ->
  sk_predict s' (Some X') = Ok v -> (k < length (mx_rows X'))%nat ->
  (exists c, (c < mx_ncols X)%nat /\ (cell (nth k (mx_rows X') []) c = FNaN \/ cell (nth k (mx_rows X') []) c = FNInf)) ->
  exists lo hi, range_of y lo hi /\ nth k v 0 = (lo + hi) / 2.
Proof.
  intros b s h X y rs s' X' v k Hn Hl Hf Hc E Hk (c&Hcc&Hcell).
  destruct (fit_out _ _ _ _ _ _ _ X' Hn Hl Hf Hc) as (ss&ps&Hss&Hsay&Hps).
  destruct (C50_mean_of_samples _ _ _ _ _ _ _ X' Hn Hl Hf Hc) as (lo&hi&ss'&ps'&Hr&Hss'&Hsay'&_&He&H). rewrite Hss in Hss'. injection Hss' as <-.
  assert (ps' = ps) as ->.
  { apply predict_samples_spec in Hsay, Hsay'. congruence. }
  exists lo, hi. split; auto. destruct ss as [|s0 ss0]; [rewrite He in E by auto; discriminate|].
  destruct H as (v'&Hv'&_&Hm); [discriminate|]. rewrite E in Hv'. injection Hv' as <-. destruct (Hm k Hk) as [-> _].
  assert (G : map (fun p => in_units lo hi (nth k p 0)) ps = map (fun _ => (lo + hi) / 2) ps).
  { apply map_ext_in. intros p Hp. destruct (Hps p Hp) as (Hlp&st&Hok&Ho). rewrite (nth_indep p 0 1) by lia.
    rewrite (ok_state_unclean _ _ _ _ _ _ k Hok Hc Ho Hk); [unfold in_units; lra|].
    destruct (row_clean (mx_ncols X) (nth k (mx_rows X') [])) eqn:Er; auto. exfalso. destruct (proj1 (row_clean_iff _ _) Er c Hcc). tauto. }
  rewrite G. assert (Hne : ps <> []) by (inversion Hsay; discriminate). unfold mean. rewrite map_length.
  assert (Hn0 : INR (length ps) <> 0) by (apply not_0_INR; destruct ps; [congruence|discriminate]).
  replace (rsum (map (fun _ => (lo + hi) / 2) ps)) with (INR (length ps) * ((lo + hi) / 2)); [field; auto|].
  clear. induction ps as [|p ps IH]; [simpl; unfold rsum; simpl; lra|]. cbn [length map]. rewrite S_INR. unfold rsum in *. simpl. rewrite <- IH. lra.
Qed.
Print Assumptions C65_estimators.
(** +inf instead is an ordinary large value: only the comparisons of a leaf's conditions count *)
Example C65_case : forall b, exists rs s' v, fit b ex_sk ex_empty mx_X mx_y rs = Ok s' /\ sk_predict s' (Some (Mx 1 [[FNaN]; [fz 2]; [FNInf]])) = Ok v /\
  nth 0 v 0 = 7 / 2 /\ nth 2 v 0 = 7 / 2.
Proof.
  intros b. destruct (C49_C50_case b) as (rs&s'&_&Hf&_&_&_&ss&Hss&Hlen). set (X' := Mx 1 [[FNaN]; [fz 2]; [FNInf]]).
  destruct (C50_mean_of_samples b ex_sk _ mx_X mx_y rs s' X' mx_no_nan eq_refl Hf (le_n _)) as (lo&hi&ss'&ps&Hr&Hss'&_&_&_&H).
  rewrite Hss in Hss'. injection Hss' as <-. destruct H as (v&Hv&_); [intros ->; discriminate|]. exists rs, s', v. split; auto. split; auto.
  assert (Hmid : forall lo hi, range_of mx_y lo hi -> (lo + hi) / 2 = 7 / 2).
  { intros a c (Ha&Hb&Hab). simpl in Ha, Hb. pose proof (Hab 1 ltac:(simpl; auto)). pose proof (Hab 2 ltac:(simpl; auto)). pose proof (Hab 6 ltac:(simpl; auto)).
    destruct Ha as [<-|[<-|[<-|[]]]]; destruct Hb as [<-|[<-|[<-|[]]]]; lra. }
  split.
  - destruct (C65_estimators b ex_sk _ mx_X mx_y rs s' X' v 0 mx_no_nan eq_refl Hf (le_n _) Hv) as (a&c&Hac&->); [simpl; lia|exists 0%nat; simpl; auto|]. now apply Hmid.
  - destruct (C65_estimators b ex_sk _ mx_X mx_y rs s' X' v 2 mx_no_nan eq_refl Hf (le_n _) Hv) as (a&c&Hac&->); [simpl; lia|exists 0%nat; simpl; auto|]. now apply Hmid.
Qed.

(** ** C19 for estimators: any object, fitted or not *)
Theorem C19_estimator_rowwise : forall s n,
  (exists f, forall rows, sk_predict s (Some (Mx n rows)) = Ok (map f rows)) \/
  (exists e, forall rows, sk_predict s (Some (Mx n rows)) = Raise e).
Proof.
  intros s n. unfold sk_predict, out_of_sample_predict. destruct (sk_data s) as [d|]; [|right; eauto]. destruct (sk_samples s) as [ss|]; [|right; eauto].
  assert (G : (exists fs, length fs = length ss /\ forall rows, predict_samples ss (Mx n rows) = Ok (map (fun f => map f rows) fs)) \/
    (exists e, forall rows, predict_samples ss (Mx n rows) = Raise e)).
  { induction ss as [|[h s0] ss IH]; [left; exists []; auto|]. cbn [predict_samples]. unfold sample_predict.
    destruct (C19_ensemble_rowwise h (sm_trees s0) n) as [(f&Hf)|(e&He)]; [|right; exists e; intros rows; now rewrite He].
    destruct IH as [(fs&Hl&H)|(e&He)].
    - left. exists (f :: fs). split; [simpl; congruence|]. intros rows. rewrite Hf. cbn [rbind]. rewrite H. reflexivity.
    - right. exists e. intros rows. rewrite Hf. cbn [rbind]. now rewrite He. }
  destruct G as [(fs&Hl&H)|(e&He)]; [|right; exists e; intros rows; now rewrite He]. destruct fs as [|f fs].
  { right. exists XNonFinite. intros rows. now rewrite H. }
  assert (V : forall rows, vmean (map (fun g : list fl -> R => map g rows) (f :: fs)) = Ok (map (fun r => mean (map (fun g : list fl -> R => g r) (f :: fs))) rows)).
  { intros rows. destruct (vmean_spec (map (fun g : list fl -> R => map g rows) (f :: fs)) (length rows)) as (u&->&Hu&Hn); [discriminate| |].
    - intros v Hv. apply in_map_iff in Hv as (g&<-&_). apply map_length.
    - f_equal. apply nth_ext with 0 0; [now rewrite map_length|]. intros i Hi. rewrite Hu in Hi. rewrite Hn by auto. rewrite nth_map_in with (d := []) by auto.
      rewrite map_map. f_equal. apply map_ext. intros g. now rewrite nth_map_in with (d := []). }
  unfold unnormalize_y. destruct (t_range (d_y d)) as [[lo hi]|].
  - left. eexists. intros rows. rewrite H. cbn [rbind]. rewrite V. cbn [rbind]. rewrite unnormalize_units, map_map. reflexivity.
  - right. eexists. intros rows. rewrite H. cbn [rbind]. rewrite V. reflexivity.
Qed.
Print Assumptions C19_estimator_rowwise.
Theorem C19_estimator_concatenation : forall s n rows1 rows2 v1 v2,
  sk_predict s (Some (Mx n rows1)) = Ok v1 -> sk_predict s (Some (Mx n rows2)) = Ok v2 -> sk_predict s (Some (Mx n (rows1 ++ rows2))) = Ok (v1 ++ v2).
Proof.
  intros s n rows1 rows2 v1 v2 H1 H2. destruct (C19_estimator_rowwise s n) as [(f&Hf)|(e&He)]; [|rewrite He in H1; discriminate].
  rewrite Hf in *. injection H1 as <-. injection H2 as <-. now rewrite map_app.
Qed.
Theorem C19_estimator_pick : forall s n rows v is, Forall (fun i => (i < length rows)%nat) is ->
  sk_predict s (Some (Mx n rows)) = Ok v ->
  sk_predict s (Some (Mx n (map (fun i => nth i rows []) is))) = Ok (map (fun i => nth i v 0) is).
Proof.
  intros s n rows v is Hi H. destruct (C19_estimator_rowwise s n) as [(f&Hf)|(e&He)]; [|rewrite He in H; discriminate].
  rewrite Hf in *. injection H as <-. f_equal. rewrite map_map. apply map_ext_in. intros i Hin.
  rewrite Forall_forall in Hi. specialize (Hi i Hin). now rewrite nth_map_in with (d := []).
Qed.
Print Assumptions C19_estimator_pick.
