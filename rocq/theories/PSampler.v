(** Arithmetic of the sampler: extended reals, leaf posterior, likelihood ratio. *)
From Coq Require Import Reals Lra Lia.
From Verif Require Import Base Fl Ext MData MSplit MTree MSampler Spec SpecSampler.
Local Open Scope R_scope.

Lemma rsign_pos r : 0 < r -> rsign r = Gt.
Proof. intros H. unfold rsign. destruct (Rlt_dec r 0); [lra|]. destruct (Rlt_dec 0 r); [auto|lra]. Qed.
Lemma rsign_neg r : r < 0 -> rsign r = Lt.
Proof. intros H. unfold rsign. destruct (Rlt_dec r 0); [auto|lra]. Qed.
Lemma rsign_zero : rsign 0 = Eq.
Proof. unfold rsign. destruct (Rlt_dec 0 0); [lra|auto]. Qed.
Lemma xdiv_fin a b : b <> 0 -> xdiv (XFin a) (XFin b) = XFin (a / b).
Proof. intros H. simpl. destruct (Req_EM_T b 0); [contradiction|auto]. Qed.
Lemma xlog_fin a : 0 < a -> xlog (XFin a) = XFin (ln a).
Proof. intros H. simpl. now rewrite rsign_pos. Qed.
Lemma xsqrt_fin a : 0 <= a -> xsqrt (XFin a) = XFin (sqrt a).
Proof.
  intros H. simpl. destruct (Req_dec a 0) as [->|Hn]; [now rewrite rsign_zero|]. rewrite rsign_pos; auto. lra.
Qed.
Lemma xmul_fin a b : xmul (XFin a) (XFin b) = XFin (a * b).
Proof. reflexivity. Qed.
Lemma xadd_fin a b : xadd (XFin a) (XFin b) = XFin (a + b).
Proof. reflexivity. Qed.
Lemma xsub_fin a b : xsub (XFin a) (XFin b) = XFin (a - b).
Proof. reflexivity. Qed.
Lemma xneg_fin a : xneg (XFin a) = XFin (- a).
Proof. reflexivity. Qed.

Lemma tau_pos k nt : 0 < k -> (1 <= nt)%nat -> 0 < tau_of k nt.
Proof.
  intros Hk Hn. unfold tau_of. assert (0 < sqrt (INR nt)) by (apply sqrt_lt_R0; apply lt_0_INR; lia).
  apply Rdiv_lt_0_compat; [lra|]. now apply Rmult_lt_0_compat.
Qed.
Lemma sigma_m_fin p : 0 < pa_k p -> (1 <= pa_ntrees p)%nat -> sigma_m p = XFin (tau_of (pa_k p) (pa_ntrees p)).
Proof.
  intros Hk Hn. unfold sigma_m, tau_of. assert (0 < INR (pa_ntrees p)) by (apply lt_0_INR; lia).
  rewrite xsqrt_fin by lra. rewrite xmul_fin, xdiv_fin; auto.
  assert (0 < sqrt (INR (pa_ntrees p))) by (apply sqrt_lt_R0; auto).
  assert (0 < pa_k p * sqrt (INR (pa_ntrees p))) by (now apply Rmult_lt_0_compat). lra.
Qed.

(** ** posterior of a leaf *)
Definition pv (n sigma tau : R) : R := / (/ (tau * tau) + n / (sigma * sigma)).
Definition pm (n S sigma tau : R) : R := pv n sigma tau * (S / (sigma * sigma)).
Definition lm (n S Q sigma tau : R) : R :=
  - n * (ln (2 * Rtrigo1.PI * (sigma * sigma)) / 2) - Q / (2 * (sigma * sigma)) - ln (2 * Rtrigo1.PI * (tau * tau)) / 2 
  + ln (2 * Rtrigo1.PI * pv n sigma tau) / 2 + pm n S sigma tau * pm n S sigma tau / (2 * pv n sigma tau).
Lemma pv_pos n sigma tau : 0 <= n -> 0 < sigma -> 0 < tau -> 0 < pv n sigma tau.
Proof.
  intros Hn Hs Ht. unfold pv. apply Rinv_0_lt_compat.
  assert (0 < tau * tau) by nra. assert (0 < sigma * sigma) by nra.
  assert (0 < / (tau * tau)) by (now apply Rinv_0_lt_compat).
  assert (0 <= n / (sigma * sigma)) by (apply Rmult_le_pos; [auto|left; now apply Rinv_0_lt_compat]). lra.
Qed.
Lemma sum_sq y mu sigma : 0 < sigma ->
  rsum (map (fun yi => normal_log yi mu (sigma * sigma)) y) =
  - INR (length y) * (ln (2 * Rtrigo1.PI * (sigma * sigma)) / 2)
  - (rsum (map (fun yi => yi * yi) y) - 2 * mu * rsum y + INR (length y) * (mu * mu)) / (2 * (sigma * sigma)).
Proof.
  intros Hs. assert (sigma * sigma <> 0) by nra.
  induction y as [|a y IH].
  - unfold rsum. simpl. field. nra.
  - change (length (a :: y)) with (S (length y)). rewrite S_INR. simpl map. unfold rsum in *. simpl fold_right. rewrite IH.
    unfold normal_log. field. nra.
Qed.
Lemma factor y sigma tau : 0 < sigma -> 0 < tau ->
  let n := INR (length y) in
  factorises y sigma tau (lm n (rsum y) (rsum (map (fun yi => yi * yi) y)) sigma tau) (pm n (rsum y) sigma tau) (pv n sigma tau).
Proof.
  intros Hs Ht n. assert (Hn : 0 <= n) by apply pos_INR. pose proof (pv_pos n sigma tau Hn Hs Ht) as Hv.
  split; auto. intros mu. unfold log_joint. rewrite sum_sq by auto. fold n.
  set (Q := rsum (map (fun yi => yi * yi) y)). set (S := rsum y). unfold lm, normal_log.
  set (v := pv n sigma tau) in *. set (m := pm n S sigma tau).
  assert (Hm : m / v = S / (sigma * sigma)). { unfold m, pm. fold v. field. split; nra. }
  assert (Hiv : / v = / (tau * tau) + n / (sigma * sigma)). { unfold v, pv. now rewrite Rinv_inv. }
  replace ((mu - m) * (mu - m) / (2 * v)) with (mu * mu * (/ v) / 2 - mu * (m / v) + m * m / (2 * v)) by (field; lra).
  rewrite Hm, Hiv. field. split; nra.
Qed.
(** the normal density determines its parameters, so marginal and posterior are unique *)
Lemma factor_unique y sigma tau c m v c' m' v' :
  factorises y sigma tau c m v -> factorises y sigma tau c' m' v' -> c = c' /\ m = m' /\ v = v'.
Proof.
  intros [Hv H] [Hv' H'].
  assert (E : forall mu, c + normal_log mu m v = c' + normal_log mu m' v') by (intros mu; rewrite <- H; auto).
  unfold normal_log in E. 
  assert (Ei : forall mu, - (mu * mu) * (/ v) / 2 + mu * (m / v) + (c - ln (2 * Rtrigo1.PI * v) / 2 - m * m * / v / 2) =
     - (mu * mu) * (/ v') / 2 + mu * (m' / v') + (c' - ln (2 * Rtrigo1.PI * v') / 2 - m' * m' * / v' / 2)).
  { intros mu. specialize (E mu).
    replace ((mu - m) * (mu - m) / (2 * v)) with (mu * mu * / v / 2 - mu * (m / v) + m * m * / v / 2) in E by (field; lra).
    replace ((mu - m') * (mu - m') / (2 * v')) with (mu * mu * / v' / 2 - mu * (m' / v') + m' * m' * / v' / 2) in E by (field; lra).
    lra. }
  pose proof (Ei 0) as E0. pose proof (Ei 1) as E1. pose proof (Ei (-1)) as E2.
  assert (Hiv : / v = / v') by lra. assert (Hev : v = v') by (rewrite <- (Rinv_inv v), Hiv, Rinv_inv; auto).
  subst v'. assert (Hm : m / v = m' / v) by lra.
  assert (Hem : m = m'). { replace m with (m / v * v) by (field; lra). rewrite Hm. field. lra. }
  subst m'. repeat split; auto. lra.
Qed.

Lemma leaf_sample_fin n S sigma p z : 0 < sigma -> 0 < pa_k p -> (1 <= pa_ntrees p)%nat -> (1 <= n)%nat ->
  let tau := tau_of (pa_k p) (pa_ntrees p) in
  leaf_sample (Z.of_nat n) S sigma p z =
  XFin (pm (INR n) S sigma tau + z * sqrt (pv (INR n) sigma tau / INR (pa_ntrees p))).
Proof.
  intros Hs Hk Hnt Hn tau. unfold leaf_sample. rewrite sigma_m_fin by auto. fold tau.
  pose proof (tau_pos _ _ Hk Hnt) as Ht. fold tau in Ht.
  assert (Hnr : 0 < INR n) by (apply lt_0_INR; lia). rewrite <- INR_IZR_INZ.
  assert (0 < INR (pa_ntrees p)) by (apply lt_0_INR; lia).
  assert (0 < sigma * sigma) by nra. assert (0 < tau * tau) by nra.
  assert (0 < sigma * sigma / INR n) by (apply Rdiv_lt_0_compat; lra).
  assert (0 < / (tau * tau)) by (apply Rinv_0_lt_compat; lra).
  assert (0 < / (sigma * sigma / INR n)) by (apply Rinv_0_lt_compat; lra).
  rewrite !xmul_fin, !(xdiv_fin _ (INR n)) by lra. rewrite xdiv_fin by lra. rewrite xdiv_fin by lra.
  rewrite !xadd_fin, !xdiv_fin, !xmul_fin by lra.
  assert (Hpv : 1 / (1 / (tau * tau) + 1 / (sigma * sigma / INR n)) = pv (INR n) sigma tau).
  { unfold pv. field. repeat split; try nra. }
  rewrite Hpv. pose proof (pv_pos (INR n) sigma tau ltac:(lra) Hs Ht).
  assert (0 < pv (INR n) sigma tau / INR (pa_ntrees p)) by (apply Rdiv_lt_0_compat; auto).
  rewrite xsqrt_fin by lra. rewrite xmul_fin, xadd_fin. f_equal. f_equal.
  unfold pm, pv. field. repeat split; nra.
Qed.

(** ** likelihood ratio *)
Definition grow_val (n nl nr ys yl yr sigma t : R) : R :=
  let v := sigma * sigma in
  ln (sqrt (v * (v + n * t) / ((v + nl * (t * t)) * (v + nr * (t * t)))))
  + t * t / (2 * v) * (yl * yl / (v + nl * t) + yr * yr / (v + nr * t) - ys * ys / (v + n * t)).
Lemma log_grow_ratio_fin n nl nr ys yl yr sigma t : 0 < sigma -> 0 < t ->
  log_grow_ratio (Z.of_nat n) (Z.of_nat nl) (Z.of_nat nr) ys yl yr sigma (XFin t) =
  XFin (grow_val (INR n) (INR nl) (INR nr) ys yl yr sigma t).
Proof.
  intros Hs Ht. unfold log_grow_ratio, grow_val. rewrite <- !INR_IZR_INZ.
  pose proof (pos_INR n). pose proof (pos_INR nl). pose proof (pos_INR nr).
  assert (Hv : 0 < sigma * sigma) by nra. set (v := sigma * sigma) in *.
  assert (Htt : 0 < t * t) by nra.
  assert (Hpos : forall a b, 0 <= a -> 0 < b -> 0 < v + a * b) by (intros; nra).
  pose proof (Hpos (INR n) t ltac:(auto) Ht). pose proof (Hpos (INR nl) t ltac:(auto) Ht).
  pose proof (Hpos (INR nr) t ltac:(auto) Ht). pose proof (Hpos (INR nl) (t * t) ltac:(auto) Htt).
  pose proof (Hpos (INR nr) (t * t) ltac:(auto) Htt).
  assert (Hd : 0 < (v + INR nl * (t * t)) * (v + INR nr * (t * t))) by (now apply Rmult_lt_0_compat).
  assert (Hf : 0 < v * (v + INR n * t) / ((v + INR nl * (t * t)) * (v + INR nr * (t * t)))).
  { apply Rdiv_lt_0_compat; auto. now apply Rmult_lt_0_compat. }
  rewrite !xmul_fin, !xadd_fin, !xmul_fin. rewrite !xdiv_fin by lra. rewrite !xadd_fin, !xsub_fin, !xmul_fin.
  rewrite xsqrt_fin by lra. rewrite xlog_fin by (now apply sqrt_lt_R0). now rewrite xadd_fin.
Qed.
Lemma ln_sqrt a : 0 < a -> ln (sqrt a) = ln a / 2.
Proof.
  intros H. assert (0 < sqrt a) by (now apply sqrt_lt_R0).
  rewrite <- (sqrt_sqrt a) at 2 by lra. rewrite ln_mult by auto. lra.
Qed.
Lemma ln_div a b : 0 < a -> 0 < b -> ln (a / b) = ln a - ln b.
Proof. intros. unfold Rdiv. rewrite ln_mult, ln_Rinv by (auto using Rinv_0_lt_compat). lra. Qed.
(** the true integrated-likelihood ratio *)
Definition true_val (n nl nr ys yl yr sigma t : R) : R :=
  let v := sigma * sigma in let w := t * t in
  ln (v * (v + n * w) / ((v + nl * w) * (v + nr * w))) / 2
  + w / (2 * v) * (yl * yl / (v + nl * w) + yr * yr / (v + nr * w) - ys * ys / (v + n * w)).
Lemma pv_form n sigma t : 0 < sigma -> 0 < t -> 0 <= n ->
  pv n sigma t = sigma * sigma * (t * t) / (sigma * sigma + n * (t * t)).
Proof. intros. unfold pv. field. repeat split; nra. Qed.
Lemma lm_diff n nl nr S Sl Sr Q Ql Qr sigma t : 0 < sigma -> 0 < t -> 0 <= nl -> 0 <= nr -> n = nl + nr -> Q = Ql + Qr ->
  lm nl Sl Ql sigma t + lm nr Sr Qr sigma t - lm n S Q sigma t = true_val n nl nr S Sl Sr sigma t.
Proof.
  intros Hs Ht Hl Hr -> ->. unfold lm, true_val. unfold pm.
  pose proof Rtrigo1.PI_RGT_0 as HPI.
  assert (Hv : 0 < sigma * sigma) by nra. assert (Hw : 0 < t * t) by nra.
  rewrite !pv_form by lra. set (v := sigma * sigma) in *. set (w := t * t) in *.
  assert (HA : 0 < v + nl * w) by nra. assert (HB : 0 < v + nr * w) by nra. assert (HC : 0 < v + (nl + nr) * w) by nra.
  assert (Hvw : 0 < v * w) by nra.
  set (A := v + nl * w) in *. set (B := v + nr * w) in *. set (C := v + (nl + nr) * w) in *. clearbody A B C v w.
  assert (Hln : forall D, 0 < D -> ln (2 * Rtrigo1.PI * (v * w / D)) = ln (2 * Rtrigo1.PI) + (ln v + ln w - ln D)).
  { intros D HD. rewrite ln_mult; [|lra|apply Rdiv_lt_0_compat; auto]. rewrite ln_div by auto. rewrite (ln_mult v w) by auto. lra. }
  rewrite !Hln by auto. rewrite (ln_mult _ w) by lra. rewrite (ln_mult _ v) by lra.
  rewrite ln_div; [|now apply Rmult_lt_0_compat|now apply Rmult_lt_0_compat].
  rewrite (ln_mult v C), (ln_mult A B) by auto. field. repeat split; lra.
Qed.
Lemma grow_val_one n nl nr ys yl yr sigma : 0 < sigma -> 0 <= n -> 0 <= nl -> 0 <= nr ->
  grow_val n nl nr ys yl yr sigma 1 = true_val n nl nr ys yl yr sigma 1.
Proof.
  intros Hs Hn Hl Hr. unfold grow_val, true_val. rewrite !Rmult_1_r. assert (0 < sigma * sigma) by nra.
  rewrite ln_sqrt; auto. apply Rdiv_lt_0_compat; apply Rmult_lt_0_compat; lra.
Qed.
Lemma grow_val_zero n nl nr sigma t : 0 < sigma -> 0 < t -> t <> 1 -> 0 < n -> 0 <= nl -> 0 <= nr ->
  grow_val n nl nr 0 0 0 sigma t <> true_val n nl nr 0 0 0 sigma t.
Proof.
  intros Hs Ht H1 Hn Hl Hr. unfold grow_val, true_val. assert (Hv : 0 < sigma * sigma) by nra.
  assert (Hw : 0 < t * t) by nra. set (v := sigma * sigma) in *. set (w := t * t) in *.
  assert (HA : 0 < v + nl * w) by nra. assert (HB : 0 < v + nr * w) by nra.
  assert (HC : 0 < v + n * t) by nra. assert (HD : 0 < v + n * w) by nra.
  assert (HE : 0 < v + nl * t) by nra. assert (HF : 0 < v + nr * t) by nra.
  assert (HAB : 0 < (v + nl * w) * (v + nr * w)) by (now apply Rmult_lt_0_compat).
  rewrite ln_sqrt by (apply Rdiv_lt_0_compat; [now apply Rmult_lt_0_compat|auto]).
  rewrite !ln_div; auto; try (now apply Rmult_lt_0_compat). rewrite !(ln_mult v) by auto.
  replace (w / (2 * v) * (0 * 0 / (v + nl * t) + 0 * 0 / (v + nr * t) - 0 * 0 / (v + n * t))) with 0 by (field; lra).
  replace (w / (2 * v) * (0 * 0 / (v + nl * w) + 0 * 0 / (v + nr * w) - 0 * 0 / (v + n * w))) with 0 by (field; lra).
  intros E. assert (El : ln (v + n * t) = ln (v + n * w)) by lra. apply ln_inv in El; auto.
  assert (n * (t * (t - 1)) = 0) by (unfold w in El; lra).
  apply Rmult_integral in H as [?|H]; [lra|]. apply Rmult_integral in H as [?|H]; lra.
Qed.
Lemma rsum_app a b : rsum (a ++ b) = rsum a + rsum b.
Proof. unfold rsum. induction a; simpl; [lra|]. rewrite IHa. lra. Qed.

(** ** prior *)
Lemma split_prior_spec p d : split_prior p d = split_probability (pa_alpha p) (pa_beta p) d.
Proof. unfold split_prior, split_probability. rewrite plus_INR. reflexivity. Qed.
Lemma split_probability_range a b d : 0 < a -> a < 1 -> 0 <= b -> 0 < split_probability a b d < 1.
Proof.
  intros H0 H1 Hb. unfold split_probability, Rpower. pose proof (pos_INR d).
  pose proof (exp_pos (- b * ln (1 + INR d))).
  assert (Hle : exp (- b * ln (1 + INR d)) <= 1).
  { apply Rle_trans with (exp 0); [|rewrite exp_0; lra]. destruct (Req_dec (- b * ln (1 + INR d)) 0) as [->|Hn]; [lra|]. left. apply exp_increasing.
    assert (0 <= ln (1 + INR d)).
    { destruct (Req_dec (INR d) 0) as [->|]; [rewrite Rplus_0_r, ln_1; lra|]. apply Rle_trans with (ln 1); [rewrite ln_1; lra|]. left. apply ln_increasing; lra. }
    assert (0 <= b * ln (1 + INR d)) by (now apply Rmult_le_pos). lra. }
  split; [now apply Rmult_lt_0_compat|]. nra.
Qed.
