(** The likelihood ratio of a split for very small and very large noise. *)
From Coq Require Import Reals Lra Lia Ranalysis.
From Verif Require Import Base Fl Ext MSampler SpecSampler PSampler.
Local Open Scope R_scope.

(** the response term for variance [s] *)
Definition resp (nl nr a b t s : R) : R := a * a / (s + nl * t) + b * b / (s + nr * t) - (a + b) * (a + b) / (s + (nl + nr) * t).

Lemma resp_zero nl nr a b t : 0 < nl -> 0 < nr -> 0 < t ->
  resp nl nr a b t 0 = (a * nr - b * nl) * (a * nr - b * nl) / (nl * nr * (nl + nr) * t).
Proof. intros. unfold resp. rewrite !Rplus_0_l. field. repeat split; lra. Qed.
Lemma resp_continuous nl nr a b t : 0 < nl -> 0 < nr -> 0 < t -> continuity_pt (resp nl nr a b t) 0.
Proof.
  intros Hl Hr Ht. unfold resp.
  assert (0 < nl * t) by nra. assert (0 < nr * t) by nra.
  reg; rewrite ?Rplus_0_l; nra.
Qed.
Lemma near_zero f e : continuity_pt f 0 -> 0 < e -> exists d, 0 < d /\ forall s, 0 < s < d -> Rabs (f s - f 0) < e.
Proof.
  intros Hf He. destruct (Hf e He) as (d&Hd&H). exists d. split; auto. intros s [H0 H1].
  specialize (H s). simpl in H. unfold R_dist in H. apply H. split; [split; [exact I|lra]|].
  rewrite Rminus_0_r, Rabs_right; lra.
Qed.
Lemma ln_below x : 0 < x -> ln x < x.
Proof. intros H. pose proof (exp_ineq1 (ln x)) as E. destruct (Req_dec (ln x) 0) as [->|Hn]; auto. specialize (E Hn). rewrite exp_ln in E by auto. lra. Qed.
Lemma ln_above x : 0 < x -> - / x < ln x.
Proof. intros H. pose proof (ln_below (/ x) (Rinv_0_lt_compat _ H)) as E. rewrite ln_Rinv in E by auto. lra. Qed.
Lemma ln_mono x y : 0 < x -> x <= y -> ln x <= ln y.
Proof. intros H [L| ->]; [apply Rlt_le, ln_increasing; auto|lra]. Qed.

(** the first term between two multiples of the variance *)
Lemma first_term_bounds n nl nr t v : 1 <= nl -> 1 <= nr -> n = nl + nr -> 0 < t -> 0 < v <= 1 ->
  let r := v * (v + n * t) / ((v + nl * (t * t)) * (v + nr * (t * t))) in
  v * (n * t / ((1 + nl * (t * t)) * (1 + nr * (t * t)))) <= r <= v * ((1 + n * t) / (nl * (t * t) * (nr * (t * t)))).
Proof.
  intros Hl Hr Hn Ht [H0 H1]. assert (Htt : 0 < t * t) by nra. set (w := t * t) in *.
  assert (0 < nl * w) by nra. assert (0 < nr * w) by nra. assert (0 < n * t) by nra. simpl. split.
  - unfold Rdiv. rewrite (Rmult_assoc v). apply Rmult_le_compat_l; [lra|].
    apply Rmult_le_compat; try nra.
    + apply Rlt_le, Rinv_0_lt_compat. nra.
    + apply Rinv_le_contravar; [nra|]. apply Rmult_le_compat; nra.
  - unfold Rdiv. rewrite (Rmult_assoc v). apply Rmult_le_compat_l; [lra|].
    apply Rmult_le_compat; try nra.
    + apply Rlt_le, Rinv_0_lt_compat. nra.
    + apply Rinv_le_contravar; [nra|]. apply Rmult_le_compat; nra.
Qed.
Lemma ln_sqrt_ln x : 0 < x -> ln (sqrt x) = ln x / 2.
Proof. intros. rewrite <- Rpower_sqrt by auto. unfold Rpower. rewrite ln_exp. lra. Qed.

(** different means: the ratio is larger than any bound once the noise is small enough *)
Lemma grow_val_small n nl nr a b t M : 1 <= nl -> 1 <= nr -> n = nl + nr -> 0 < t -> a * nr <> b * nl ->
  exists s0, 0 < s0 /\ forall sigma, 0 < sigma < s0 -> M < grow_val n nl nr (a + b) a b sigma t.
Proof.
  intros Hl Hr Hn Ht Hab.
  set (D := resp nl nr a b t 0).
  assert (HD : 0 < D).
  { unfold D. rewrite resp_zero by lra. apply Rdiv_lt_0_compat; [|repeat apply Rmult_lt_0_compat; lra].
    assert (a * nr - b * nl <> 0) by lra. nra. }
  destruct (near_zero _ (D / 2) (resp_continuous nl nr a b t ltac:(lra) ltac:(lra) Ht) ltac:(lra)) as (d&Hd&Hnear). fold D in Hnear.
  set (K := n * t / ((1 + nl * (t * t)) * (1 + nr * (t * t)))).
  assert (Htt : 0 < t * t) by nra.
  assert (HK : 0 < K) by (apply Rdiv_lt_0_compat; [nra|apply Rmult_lt_0_compat; nra]).
  set (c := t * t * D / 4). assert (Hc : 0 < c) by (unfold c; nra).
  set (B := 1 + Rabs M + Rabs (ln K)). assert (HB : 1 <= B) by (unfold B; pose proof (Rabs_pos M); pose proof (Rabs_pos (ln K)); lra).
  set (W := (1 + B) / c). assert (HW : 0 < W) by (apply Rdiv_lt_0_compat; lra).
  exists (Rmin 1 (Rmin d (/ W))). split.
  { repeat apply Rmin_glb_lt; try lra. apply Rinv_0_lt_compat; auto. }
  intros sigma [Hs Hs']. assert (Hs1 : sigma < 1) by (eapply Rlt_le_trans; [exact Hs'|apply Rmin_l]).
  assert (Hsd : sigma < d) by (eapply Rlt_le_trans; [exact Hs'|]; eapply Rle_trans; [apply Rmin_r|apply Rmin_l]).
  assert (HsW : sigma < / W) by (eapply Rlt_le_trans; [exact Hs'|]; eapply Rle_trans; [apply Rmin_r|apply Rmin_r]).
  unfold grow_val. set (v := sigma * sigma). assert (Hv : 0 < v) by (unfold v; nra). assert (Hv1 : v <= 1) by (unfold v; nra).
  assert (Hvd : v < d) by (unfold v; nra).
  destruct (first_term_bounds n nl nr t v Hl Hr Hn Ht (conj Hv Hv1)) as [Hlo _]. fold K in Hlo.
  cbv zeta. set (r := v * (v + n * t) / ((v + nl * (t * t)) * (v + nr * (t * t)))) in *.
  assert (HvK : 0 < v * K) by nra. rewrite ln_sqrt_ln by lra.
  pose proof (ln_mono _ _ HvK Hlo) as Hln. rewrite (ln_mult v K Hv HK) in Hln.
  assert (Elnv : ln v = ln sigma + ln sigma) by (unfold v; now apply ln_mult). rewrite Elnv in Hln.
  pose proof (ln_above sigma Hs) as Habove.
  specialize (Hnear v (conj Hv Hvd)).
  assert (Hresp : D / 2 < resp nl nr a b t v) by (apply Rabs_def2 in Hnear; lra).
  unfold resp in Hresp. rewrite <- Hn in Hresp.
  set (Q := a * a / (v + nl * t) + b * b / (v + nr * t) - (a + b) * (a + b) / (v + n * t)) in *.
  assert (Hterm : c / v <= t * t / (2 * v) * Q).
  { replace (c / v) with (t * t / (2 * v) * (D / 2)) by (unfold c; field; lra).
    apply Rmult_le_compat_l; [|lra]. apply Rlt_le, Rdiv_lt_0_compat; lra. }
  set (w := / sigma) in *. assert (Hw : 1 < w).
  { unfold w. rewrite <- Rinv_1. apply Rinv_lt_contravar; lra. }
  assert (HwW : W < w).
  { unfold w. rewrite <- (Rinv_inv W). apply Rinv_lt_contravar; [|exact HsW]. apply Rmult_lt_0_compat; auto. apply Rinv_0_lt_compat; auto. }
  assert (Ecv : c / v = c * w * w) by (unfold w, v; field; lra). rewrite Ecv in Hterm.
  assert (Hcw : 1 + B < c * w).
  { unfold W in HwW. apply (Rmult_lt_compat_l c) in HwW; auto. replace (c * ((1 + B) / c)) with (1 + B) in HwW by (field; lra). exact HwW. }
  assert (Hbig : B < c * w * w - w) by nra.
  assert (M <= Rabs M) by apply Rle_abs. pose proof (Rle_abs (- ln K)) as Hk. rewrite Rabs_Ropp in Hk.
  assert (0 <= Rabs (ln K)) by apply Rabs_pos. unfold B in Hbig. lra.
Qed.

(** equal means: the ratio is smaller than any bound once the noise is small enough *)
Lemma grow_val_small_equal n nl nr a b t M : 1 <= nl -> 1 <= nr -> n = nl + nr -> 0 < t -> a * nr = b * nl ->
  exists s0, 0 < s0 /\ forall sigma, 0 < sigma < s0 -> grow_val n nl nr (a + b) a b sigma t < M.
Proof.
  intros Hl Hr Hn Ht Hab. assert (Htt : 0 < t * t) by nra.
  set (K := (1 + n * t) / (nl * (t * t) * (nr * (t * t)))).
  assert (HK : 0 < K) by (apply Rdiv_lt_0_compat; [nra|repeat apply Rmult_lt_0_compat; lra]).
  (* a = nl mu, b = nr mu *)
  set (mu := a / nl). assert (Ea : a = nl * mu) by (unfold mu; field; lra).
  assert (Eb : b = nr * mu). { apply Rmult_eq_reg_r with nl; [|lra]. rewrite <- Hab, Ea. ring. }
  set (C := mu * mu * (n * n) / (2 * (nl * nr * n * t))).
  assert (HC : 0 <= C). { unfold C. apply Rmult_le_pos; [nra|]. apply Rlt_le, Rinv_0_lt_compat. repeat apply Rmult_lt_0_compat; lra. }
  exists (Rmin 1 (exp (M - ln K / 2 - C))). split.
  { apply Rmin_glb_lt; [lra|apply exp_pos]. }
  intros sigma [Hs Hs']. assert (Hs1 : sigma < 1) by (eapply Rlt_le_trans; [exact Hs'|apply Rmin_l]).
  assert (Hse : sigma < exp (M - ln K / 2 - C)) by (eapply Rlt_le_trans; [exact Hs'|apply Rmin_r]).
  unfold grow_val. set (v := sigma * sigma). assert (Hv : 0 < v) by (unfold v; nra). assert (Hv1 : v <= 1) by (unfold v; nra).
  destruct (first_term_bounds n nl nr t v Hl Hr Hn Ht (conj Hv Hv1)) as [Hlo Hhi]. fold K in Hhi.
  cbv zeta. set (r := v * (v + n * t) / ((v + nl * (t * t)) * (v + nr * (t * t)))) in *.
  assert (Hr0 : 0 < r).
  { assert (0 < nl * (t * t)) by nra. assert (0 < nr * (t * t)) by nra. assert (0 < n * t) by nra.
    unfold r. apply Rdiv_lt_0_compat; [nra|]. apply Rmult_lt_0_compat; lra. }
  rewrite ln_sqrt_ln by lra.
  pose proof (ln_mono _ _ Hr0 Hhi) as Hln. rewrite (ln_mult v K Hv HK) in Hln.
  assert (Elnv : ln v = ln sigma + ln sigma) by (unfold v; now apply ln_mult). rewrite Elnv in Hln.
  assert (Hlns : ln sigma < M - ln K / 2 - C) by (rewrite <- (ln_exp (M - ln K / 2 - C)); now apply ln_increasing).
  set (Q := a * a / (v + nl * t) + b * b / (v + nr * t) - (a + b) * (a + b) / (v + n * t)).
  assert (HQ : t * t / (2 * v) * Q <= C); [|lra].
  assert (HQ' : Q <= mu * mu * (v * v) * (n * n) / (nl * nr * n * (t * t * t))).
  { set (A := v + nl * t). set (E := v + nr * t).
    assert (Hlt : 0 < nl * t) by nra. assert (Hrt : 0 < nr * t) by nra. assert (Hnt : n * t = nl * t + nr * t) by (rewrite Hn; ring).
    assert (HA : 0 < A) by (unfold A; lra). assert (HE : 0 < E) by (unfold E; lra). assert (HAE : 0 < A + E - v) by (unfold A, E; lra).
    assert (EQ : Q = (a * E - b * A) * (a * E - b * A) / (A * E * (A + E)) - (a + b) * (a + b) * v / ((A + E) * (A + E - v))).
    { unfold Q. replace (v + n * t) with (A + E - v) by (unfold A, E; rewrite Hn; ring). fold A E.
      field. repeat split; lra. }
    assert (Ediff : a * E - b * A = mu * v * (nl - nr)) by (rewrite Ea, Eb; unfold A, E; ring).
    assert (Hneg : 0 <= (a + b) * (a + b) * v / ((A + E) * (A + E - v))).
    { apply Rmult_le_pos; [apply Rmult_le_pos; [apply Rle_0_sqr|lra]|]. apply Rlt_le, Rinv_0_lt_compat. apply Rmult_lt_0_compat; lra. }
    rewrite EQ, Ediff.
    assert (Hmain : mu * v * (nl - nr) * (mu * v * (nl - nr)) / (A * E * (A + E)) <= mu * mu * (v * v) * (n * n) / (nl * nr * n * (t * t * t))); [|lra].
    unfold Rdiv. apply Rmult_le_compat.
    - apply Rle_0_sqr.
    - apply Rlt_le, Rinv_0_lt_compat. repeat apply Rmult_lt_0_compat; lra.
    - replace (mu * v * (nl - nr) * (mu * v * (nl - nr))) with (mu * mu * (v * v) * ((nl - nr) * (nl - nr))) by ring.
      apply Rmult_le_compat_l; [apply Rmult_le_pos; apply Rle_0_sqr|]. assert (0 <= nl * nr) by (apply Rmult_le_pos; lra). rewrite Hn. lra.
    - replace (nl * nr * n * (t * t * t)) with ((nl * t) * (nr * t) * (n * t)) by ring.
      apply Rinv_le_contravar; [repeat apply Rmult_lt_0_compat; lra|].
      apply Rmult_le_compat; [apply Rmult_le_pos; lra|lra| |unfold A, E; lra].
      apply Rmult_le_compat; unfold A, E; lra. }
  apply (Rmult_le_compat_l (t * t / (2 * v))) in HQ'; [|apply Rlt_le, Rdiv_lt_0_compat; lra].
  eapply Rle_trans; [exact HQ'|].
  replace (t * t / (2 * v) * (mu * mu * (v * v) * (n * n) / (nl * nr * n * (t * t * t)))) with (v * C).
  - nra.
  - unfold C. field. repeat split; lra.
Qed.

(** large noise: the data do not matter *)
Definition far (nl nr a b t u : R) : R :=
  ln ((1 + (nl + nr) * t * u) / ((1 + nl * (t * t) * u) * (1 + nr * (t * t) * u))) / 2
  + t * t * u / 2 * (a * a * u / (1 + nl * t * u) + b * b * u / (1 + nr * t * u) - (a + b) * (a + b) * u / (1 + (nl + nr) * t * u)).
Lemma far_continuous nl nr a b t : continuity_pt (far nl nr a b t) 0.
Proof.
  unfold far. apply continuity_pt_plus.
  - apply continuity_pt_mult; [|reg].
    apply (continuity_pt_comp (fun u => (1 + (nl + nr) * t * u) / ((1 + nl * (t * t) * u) * (1 + nr * (t * t) * u))) ln).
    + reg; rewrite !Rmult_0_r, !Rplus_0_r; lra.
    + rewrite !Rmult_0_r, !Rplus_0_r. replace (1 / (1 * 1)) with 1 by field. apply derivable_continuous_pt. exists (/ 1). apply derivable_pt_lim_ln. lra.
  - reg; rewrite !Rmult_0_r, !Rplus_0_r; lra.
Qed.
Lemma far_zero nl nr a b t : far nl nr a b t 0 = 0.
Proof.
  unfold far. rewrite !Rmult_0_r, !Rplus_0_r. replace (1 / (1 * 1)) with 1 by field. rewrite ln_1. lra.
Qed.
Lemma grow_val_far n nl nr a b sigma t : 0 <= nl -> 0 <= nr -> n = nl + nr -> 0 < t -> 0 < sigma ->
  grow_val n nl nr (a + b) a b sigma t = far nl nr a b t (/ (sigma * sigma)).
Proof.
  intros Hl Hr Hn Ht Hs. unfold grow_val, far. set (v := sigma * sigma). assert (Hv : 0 < v) by (unfold v; nra). cbv zeta.
  assert (Htt : 0 < t * t) by nra. assert (Hu : 0 < / v) by now apply Rinv_0_lt_compat.
  assert (0 <= nl * (t * t)) by nra. assert (0 <= nr * (t * t)) by nra. assert (0 <= nl * t) by nra. assert (0 <= nr * t) by nra.
  assert (Hp : 0 < v * (v + n * t) / ((v + nl * (t * t)) * (v + nr * (t * t)))).
  { apply Rdiv_lt_0_compat; [rewrite Hn; nra|]. apply Rmult_lt_0_compat; lra. }
  rewrite ln_sqrt_ln by auto. f_equal.
  - f_equal. f_equal. rewrite Hn. field. repeat split; try lra; nra.
  - rewrite Hn. field. repeat split; try lra; nra.
Qed.
Lemma grow_val_large n nl nr a b t e : 0 <= nl -> 0 <= nr -> n = nl + nr -> 0 < t -> 0 < e ->
  exists s0, 0 < s0 /\ forall sigma, s0 < sigma -> Rabs (grow_val n nl nr (a + b) a b sigma t) < e.
Proof.
  intros Hl Hr Hn Ht He. destruct (near_zero _ e (far_continuous nl nr a b t) He) as (d&Hd&H).
  exists (Rmax 1 (/ d)). assert (Hid : 0 < / d) by now apply Rinv_0_lt_compat. split; [pose proof (Rmax_l 1 (/ d)); lra|].
  intros sigma Hs. pose proof (Rmax_l 1 (/ d)). pose proof (Rmax_r 1 (/ d)).
  rewrite (grow_val_far n) by (auto; lra). rewrite far_zero in H. replace (far nl nr a b t (/ (sigma * sigma))) with (far nl nr a b t (/ (sigma * sigma)) - 0) by ring.
  apply H. assert (Hss : 0 < sigma * sigma) by nra. split; [now apply Rinv_0_lt_compat|].
  rewrite <- (Rinv_inv d). apply Rinv_lt_contravar; [nra|]. nra.
Qed.
