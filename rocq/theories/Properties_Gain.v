(** Property C35 for every prior width: what the likelihood ratio is, beside what it should be. *)
From Coq Require Import Reals Lra Lia.
From Verif Require Import Base Fl Ext MData MSplit MTree MSampler MHist MTreeHist Spec SpecTree SpecSampler SpecGain LFl LList
  PData PSplit PDataProps PCond PTree PPred PTreeHist PTreeProps PTreeProps2 PSampler PSampler2 PSampler3 PModel10 PAlpha
  Properties_Tree Properties_Sampler Properties_Propose PNoise Properties_Noise.
Local Open Scope R_scope.

Lemma grow_val_gain yl yr sigma t : 0 < sigma -> 0 < t ->
  grow_val (INR (length yl) + INR (length yr)) (INR (length yl)) (INR (length yr)) (rsum yl + rsum yr) (rsum yl) (rsum yr) sigma t
  = split_gain t t sigma yl yr.
Proof.
  intros Hs Ht. unfold grow_val, split_gain. pose proof (pos_INR (length yl)). pose proof (pos_INR (length yr)).
  assert (0 < sigma * sigma) by nra. assert (0 < t * t) by nra.
  rewrite ln_sqrt by (apply Rdiv_lt_0_compat; apply Rmult_lt_0_compat; nra).
  repeat rewrite <- Rsqr_pow2. reflexivity.
Qed.
Lemma true_val_gain yl yr sigma t :
  true_val (INR (length yl) + INR (length yr)) (INR (length yl)) (INR (length yr)) (rsum yl + rsum yr) (rsum yl) (rsum yr) sigma t
  = split_gain (t ^ 2) t sigma yl yr.
Proof. unfold true_val, split_gain. repeat rewrite <- Rsqr_pow2. reflexivity. Qed.

(** What it should be: the log integrated likelihoods of the two sides, minus that of all the rows, are the closed form with
    a = tau^2. *)
Theorem C35_should_be : forall yl yr sigma tau Ll Lr L, 0 < sigma -> 0 < tau ->
  log_marginal_is yl sigma tau Ll -> log_marginal_is yr sigma tau Lr -> log_marginal_is (yl ++ yr) sigma tau L ->
  Ll + Lr - L = split_gain (tau ^ 2) tau sigma yl yr.
Proof.
  intros yl yr sigma tau Ll Lr L Hs Ht (ml&vl&Hl) (mr&vr&Hr) (m&v&H).
  destruct (factor_unique _ _ _ _ _ _ _ _ _ Hl (factor _ _ _ Hs Ht)) as [-> _].
  destruct (factor_unique _ _ _ _ _ _ _ _ _ Hr (factor _ _ _ Hs Ht)) as [-> _].
  destruct (factor_unique _ _ _ _ _ _ _ _ _ H (factor _ _ _ Hs Ht)) as [-> _].
  rewrite lm_diff; auto using pos_INR.
  - rewrite <- true_val_gain. now rewrite app_length, plus_INR, rsum_app.
  - now rewrite app_length, plus_INR.
  - now rewrite map_app, rsum_app.
Qed.
(** What it is: the closed form with a = tau, on every pair of lists of targets *)
Theorem C35_exact : forall yl yr sigma tau, 0 < sigma -> 0 < tau ->
  log_grow_ratio (Z.of_nat (length (yl ++ yr))) (Z.of_nat (length yl)) (Z.of_nat (length yr))
    (rsum (yl ++ yr)) (rsum yl) (rsum yr) sigma (XFin tau) = XFin (split_gain tau tau sigma yl yr).
Proof.
  intros yl yr sigma tau Hs Ht. rewrite log_grow_ratio_fin by auto. rewrite <- grow_val_gain by auto.
  now rewrite app_length, plus_INR, rsum_app.
Qed.
(** ... for every grow proposal of every tree *)
Theorem C35_exact_grow : forall X y normalize h0 os h t idx m h1 idx1 p sigma,
  no_nan X -> tree_reached X y normalize h0 os h t -> sample_grow_mutation h t idx = Ok (m, h1, idx1) ->
  usual p -> 0 < sigma ->
  let Y := last_tree_target (start_target y normalize) os in
  let tau := tau_of (pa_k p) (pa_ntrees p) in
  exists sl sr, sides h1 (mu_updated m) sl sr /\
    log_likihood_ratio h1 m sigma p = Ok (XFin (split_gain tau tau sigma (node_targets sl Y) (node_targets sr Y))).
Proof.
  intros X y nrm h0 os h t idx m h1 idx1 p sigma Hn Hr Hsg Hp Hs Y tau.
  destruct (tree_reached_inv _ _ _ _ _ _ _ Hn Hr) as (a&H&_). fold Y in H.
  destruct (grow_view_filled _ _ _ _ _ _ _ _ _ Hn H Hsg) as (i&u&l&r&cs&d&v&x&->&Hf&Hch&_).
  destruct (family_value _ _ _ _ _ _ _ _ _ _ _ p Hn Hf Hch Hp) as (sl&sr&Hsd&Ll&Lr&HL).
  exists sl, sr. split; [exact Hsd|]. unfold log_likihood_ratio. simpl mu_kind. cbv iota. simpl mu_existing. simpl mu_updated.
  rewrite (family_children _ _ _ _ _ _ _ _ _ _ _ Hf). cbn [rbind]. rewrite (family_lik _ _ _ _ _ _ _ _ _ _ _ sigma p Hf).
  rewrite HL by auto. rewrite grow_val_gain; auto. destruct Hp as [(_&_&Hk&_) Hnt]. now apply tau_pos.
Qed.
(** ... and for every prune proposal, with the opposite sign *)
Theorem C35_exact_prune : forall X y normalize h0 os h t idx m h1 idx1 p sigma,
  no_nan X -> mx_rows X <> [] -> tree_reached X y normalize h0 os h t -> Forall proposed_op os ->
  sample_prune_mutation h t idx = Ok (m, h1, idx1) -> usual p -> 0 < sigma ->
  let Y := last_tree_target (start_target y normalize) os in
  let tau := tau_of (pa_k p) (pa_ntrees p) in
  exists sl sr, sides h1 (mu_existing m) sl sr /\
    log_likihood_ratio h1 m sigma p = Ok (XFin (- split_gain tau tau sigma (node_targets sl Y) (node_targets sr Y))).
Proof.
  intros X y nrm h0 os h t idx m h1 idx1 p sigma Hn Hne Hr Hpo Hsg Hp Hs Y tau.
  destruct (tree_reached_inv _ _ _ _ _ _ _ Hn Hr) as (a&H&Hfil&_). fold Y in H. specialize (Hfil Hpo Hne).
  destruct (prune_view _ _ _ _ _ _ _ _ _ H Hsg) as (i&l&r&cs&d&v&x&->&Hf&Haf&Hch&Hin&Hfr&Hgm). specialize (Hch Hfil).
  destruct (family_value _ _ _ _ _ _ _ _ _ _ _ p Hn Hf Hch Hp) as (sl&sr&Hsd&Ll&Lr&HL).
  exists sl, sr. split; [exact Hsd|]. unfold log_likihood_ratio. simpl mu_kind. cbv iota. simpl mu_existing. simpl mu_updated.
  rewrite (family_children _ _ _ _ _ _ _ _ _ _ _ Hf). cbn [rbind]. rewrite (family_lik _ _ _ _ _ _ _ _ _ _ _ sigma p Hf).
  rewrite HL by auto. cbn [rbind]. rewrite grow_val_gain; [reflexivity|auto|]. destruct Hp as [(_&_&Hk&_) Hnt]. now apply tau_pos.
Qed.
(** A prior width below 1 (every default ensemble) lowers the bar: at zero targets the ratio is above the right one. *)
Theorem C35_bias : forall nl nr sigma tau, 0 < sigma -> 0 < tau -> (1 <= nl + nr)%nat ->
  let z := split_gain tau tau sigma (repeat 0 nl) (repeat 0 nr) in
  let z' := split_gain (tau ^ 2) tau sigma (repeat 0 nl) (repeat 0 nr) in
  (tau < 1 -> z' < z) /\ (1 < tau -> z < z').
Proof.
  intros nl nr sigma tau Hs Ht Hn. assert (Hz : forall k, rsum (repeat 0 k) = 0) by (unfold rsum; induction k; simpl; lra).
  cbv zeta. unfold split_gain. rewrite !Hz, !repeat_length. rewrite <- plus_INR.
  assert (Hn' : 0 < INR (nl + nr)) by (apply lt_0_INR; lia). pose proof (pos_INR nl). pose proof (pos_INR nr).
  set (n := INR (nl + nr)) in *. set (a := INR nl) in *. set (b := INR nr) in *.
  assert (Hv : 0 < sigma ^ 2) by nra. assert (Hw : 0 < tau ^ 2) by nra. set (v := sigma ^ 2) in *.
  assert (HA : 0 < v + a * tau ^ 2) by nra. assert (HB : 0 < v + b * tau ^ 2) by nra.
  assert (HD : 0 < (v + a * tau ^ 2) * (v + b * tau ^ 2)) by (now apply Rmult_lt_0_compat). set (D := (v + a * tau ^ 2) * (v + b * tau ^ 2)) in *.
  assert (Hnt : 0 < n * tau) by (now apply Rmult_lt_0_compat). assert (Hnw : 0 < n * tau ^ 2) by (now apply Rmult_lt_0_compat).
  replace (0 + 0) with 0 by ring. replace (0 ^ 2) with 0 by ring. unfold Rdiv at 3 4 5 10 11 12. rewrite ?Rmult_0_l.
  assert (K : forall c d, 0 < c -> c < d -> ln (v * (v + c) / D) < ln (v * (v + d) / D)).
  { intros c d Hc Hcd. apply ln_increasing; [apply Rdiv_lt_0_compat; auto; apply Rmult_lt_0_compat; lra|].
    apply Rmult_lt_compat_r; [now apply Rinv_0_lt_compat|]. apply Rmult_lt_compat_l; lra. }
  split; intros H1.
  - assert (n * tau ^ 2 < n * tau) by (apply Rmult_lt_compat_l; nra). specialize (K _ _ Hnw H2). lra.
  - assert (n * tau < n * tau ^ 2) by (apply Rmult_lt_compat_l; nra). specialize (K _ _ Hnt H2). lra.
Qed.
(** default k = 2 and 200 trees: the width is below 1 *)
Example C35_default_width : 0 < tau_of 2 200 < 1.
Proof.
  assert (0 < tau_of 2 200) by (apply tau_pos; [lra|lia]). split; auto. unfold tau_of.
  assert (1 < sqrt (INR 200)) by (rewrite <- sqrt_1 at 1; apply sqrt_lt_1; rewrite ?INR_IZR_INZ; simpl; lra).
  apply Rmult_lt_reg_r with (2 * sqrt (INR 200)); [lra|]. unfold Rdiv. rewrite Rmult_assoc, Rinv_l; lra.
Qed.
(** three zeros to the left, three ones to the right, noise 1 *)
Example C35_exact_case : exists m h1 idx1, sample_grow_mutation (fst ox_start) (snd ox_start) [0; 0; 2]%nat = Ok (m, h1, idx1) /\
  log_likihood_ratio h1 m 1 zx_p = Ok (XFin (split_gain (tau_of (pa_k zx_p) (pa_ntrees zx_p)) (tau_of (pa_k zx_p) (pa_ntrees zx_p)) 1 [0; 0; 0] [1; 1; 1])).
Proof.
  destruct (C35_exact_grow _ _ _ _ _ _ _ _ _ _ _ zx_p 1 zx_no_nan ox_reached ox_grow_ok zx_usual ltac:(lra)) as (sl&sr&Hsd&E).
  assert (E' : node_targets sl ox_y = [0; 0; 0] /\ node_targets sr ox_y = [1; 1; 1]) by (eapply sides_targets; [exact Hsd|vm_compute; reflexivity]).
  do 3 eexists. split; [exact ox_grow_ok|]. cbn [last_tree_target] in E. change (start_target ox_y false) with ox_y in E.
  destruct E' as [E1 E2]. rewrite E1, E2 in E. exact E.
Qed.

Print Assumptions C35_should_be.
Print Assumptions C35_exact.
Print Assumptions C35_exact_grow.
Print Assumptions C35_exact_prune.
Print Assumptions C35_bias.
