(** The likelihood ratio of a cut whose two sides need not be disjoint, for very small and very large noise, and sums of such ratios. *)
From Coq Require Import Reals Lra Lia Ranalysis.
From Verif Require Import Base Fl Ext MData MSampler Spec SpecSampler PSampler PNoise.
Local Open Scope R_scope.

(** [f] is at least about [D] divided by the variance *)
Definition low (f : R -> R) (D : R) : Prop :=
  forall e, 0 < e -> exists s0, 0 < s0 /\ forall s, 0 < s < s0 -> D - e < s * s * f s.
(** [f] falls below every bound *)
Definition sinks (f : R -> R) : Prop := forall M, exists s0, 0 < s0 /\ forall s, 0 < s < s0 -> f s < M.
(** [f] vanishes for much noise *)
Definition fades (f : R -> R) : Prop := forall e, 0 < e -> exists s0, 0 < s0 /\ forall s, s0 < s -> Rabs (f s) < e.

Lemma low_plus f g D E : low f D -> low g E -> low (fun s => f s + g s) (D + E).
Proof.
  intros Hf Hg e He. destruct (Hf (e / 2) ltac:(lra)) as (a&Ha&Ka). destruct (Hg (e / 2) ltac:(lra)) as (b&Hb&Kb).
  exists (Rmin a b). split; [now apply Rmin_glb_lt|]. intros s [G0 G1].
  assert (s < a) by (eapply Rlt_le_trans; [exact G1|apply Rmin_l]). assert (s < b) by (eapply Rlt_le_trans; [exact G1|apply Rmin_r]).
  specialize (Ka s ltac:(lra)). specialize (Kb s ltac:(lra)). lra.
Qed.
Lemma low_const c : low (fun _ => c) 0.
Proof.
  intros e He. exists (Rmin 1 (e / (1 + Rabs c))). pose proof (Rabs_pos c). assert (0 < e / (1 + Rabs c)) by (apply Rdiv_lt_0_compat; lra).
  split; [apply Rmin_glb_lt; lra|]. intros s [G0 G1].
  assert (s < 1) by (eapply Rlt_le_trans; [exact G1|apply Rmin_l]). assert (H3 : s < e / (1 + Rabs c)) by (eapply Rlt_le_trans; [exact G1|apply Rmin_r]).
  assert (H4 : s * (1 + Rabs c) < e).
  { apply (Rmult_lt_compat_r (1 + Rabs c)) in H3; [|lra]. replace (e / (1 + Rabs c) * (1 + Rabs c)) with e in H3 by (field; lra). exact H3. }
  pose proof (Rle_abs (- c)) as H5. rewrite Rabs_Ropp in H5.
  assert (s * s * - c <= s * s * Rabs c) by (apply Rmult_le_compat_l; nra).
  assert (s * s * Rabs c <= s * Rabs c) by (apply Rmult_le_compat_r; nra). nra.
Qed.
Lemma low_sum A (F : A -> R -> R) (D : A -> R) L : (forall a, In a L -> low (F a) (D a)) -> low (fun s => rsum (map (fun a => F a s) L)) (rsum (map D L)).
Proof.
  induction L as [|a L IH]; intros H; [apply (low_const 0)|].
  change (low (fun s => F a s + rsum (map (fun a => F a s) L)) (D a + rsum (map D L))). apply low_plus; [apply H; simpl; auto|apply IH; intros; apply H; simpl; auto].
Qed.
(** a positive rate beats every bound *)
Lemma low_up f D M : low f D -> 0 < D -> exists s0, 0 < s0 /\ forall s, 0 < s < s0 -> M < f s.
Proof.
  intros Hf HD. destruct (Hf (D / 2) ltac:(lra)) as (a&Ha&K). pose proof (Rabs_pos M).
  assert (HB : 0 < D / 2 / (1 + Rabs M)) by (apply Rdiv_lt_0_compat; lra).
  exists (Rmin 1 (Rmin a (D / 2 / (1 + Rabs M)))). split; [repeat apply Rmin_glb_lt; lra|]. intros s [G0 G1].
  assert (s < 1) by (eapply Rlt_le_trans; [exact G1|apply Rmin_l]).
  assert (s < a) by (eapply Rlt_le_trans; [exact G1|]; eapply Rle_trans; [apply Rmin_r|apply Rmin_l]).
  assert (H3 : s < D / 2 / (1 + Rabs M)) by (eapply Rlt_le_trans; [exact G1|]; eapply Rle_trans; apply Rmin_r).
  apply (Rmult_lt_compat_r (1 + Rabs M)) in H3; [|lra]. replace (D / 2 / (1 + Rabs M) * (1 + Rabs M)) with (D / 2) in H3 by (field; lra).
  specialize (K s ltac:(lra)). apply (Rmult_lt_reg_l (s * s)); [nra|]. pose proof (Rle_abs M).
  assert (s * s * M <= s * s * Rabs M) by (apply Rmult_le_compat_l; nra).
  assert (s * s * Rabs M <= s * Rabs M) by (apply Rmult_le_compat_r; nra). nra.
Qed.
Lemma sinks_sum A (F : A -> R -> R) L : L <> [] -> (forall a, In a L -> sinks (F a)) -> sinks (fun s => rsum (map (fun a => F a s) L)).
Proof.
  intros Hne H. assert (G : forall L, (forall a, In a L -> sinks (F a)) -> exists s0, 0 < s0 /\ forall s, 0 < s < s0 -> rsum (map (fun a => F a s) L) <= 0).
  { clear. induction L as [|a L IH]; intros H; [exists 1; split; [lra|]; intros; unfold rsum; simpl; lra|].
    destruct IH as (b&Hb&Kb); [intros; apply H; simpl; auto|]. destruct (H a (or_introl eq_refl) 0) as (c&Hc&Kc).
    exists (Rmin b c). split; [now apply Rmin_glb_lt|]. intros s [G0 G1].
    assert (s < b) by (eapply Rlt_le_trans; [exact G1|apply Rmin_l]). assert (s < c) by (eapply Rlt_le_trans; [exact G1|apply Rmin_r]).
    change (F a s + rsum (map (fun a => F a s) L) <= 0). specialize (Kb s ltac:(lra)). specialize (Kc s ltac:(lra)). lra. }
  destruct L as [|a L]; [easy|]. intros M. destruct (G L) as (b&Hb&Kb); [intros; apply H; simpl; auto|]. destruct (H a (or_introl eq_refl) M) as (c&Hc&Kc).
  exists (Rmin b c). split; [now apply Rmin_glb_lt|]. intros s [G0 G1].
  assert (s < b) by (eapply Rlt_le_trans; [exact G1|apply Rmin_l]). assert (s < c) by (eapply Rlt_le_trans; [exact G1|apply Rmin_r]).
  change (F a s + rsum (map (fun a => F a s) L) < M). specialize (Kb s ltac:(lra)). specialize (Kc s ltac:(lra)). lra.
Qed.
Lemma fades_sum A (F : A -> R -> R) L : (forall a, In a L -> fades (F a)) -> fades (fun s => rsum (map (fun a => F a s) L)).
Proof.
  induction L as [|a L IH]; intros H e He.
  - exists 1. split; [lra|]. intros. unfold rsum. simpl. rewrite Rabs_R0. auto.
  - destruct (IH (fun b Hb => H b (or_intror Hb)) (e / 2) ltac:(lra)) as (b&Hb&Kb). destruct (H a (or_introl eq_refl) (e / 2) ltac:(lra)) as (c&Hc&Kc).
    exists (Rmax b c). pose proof (Rmax_l b c). pose proof (Rmax_r b c). split; [lra|]. intros s Hs.
    change (Rabs (F a s + rsum (map (fun a => F a s) L)) < e). specialize (Kb s ltac:(lra)). specialize (Kc s ltac:(lra)).
    eapply Rle_lt_trans; [apply Rabs_triang|]. lra.
Qed.

(** ** one cut: [n] rows with sum [c] and sides of [nl] and [nr] rows with sums [a] and [b] *)
Definition rate (n nl nr c a b t : R) : R := t * t / 2 * (a * a / (nl * t) + b * b / (nr * t) - c * c / (n * t)).
Lemma first_bounds n nl nr t v : 1 <= n -> 1 <= nl -> 1 <= nr -> 0 < t -> 0 < v <= 1 ->
  let r := v * (v + n * t) / ((v + nl * (t * t)) * (v + nr * (t * t))) in
  v * (n * t / ((1 + nl * (t * t)) * (1 + nr * (t * t)))) <= r <= v * ((1 + n * t) / (nl * (t * t) * (nr * (t * t)))).
Proof.
  intros Hn Hl Hr Ht [H0 H1]. assert (Htt : 0 < t * t) by nra. set (w := t * t) in *.
  assert (0 < nl * w) by nra. assert (0 < nr * w) by nra. assert (0 < n * t) by nra. simpl. split.
  - unfold Rdiv. rewrite (Rmult_assoc v). apply Rmult_le_compat_l; [lra|].
    apply Rmult_le_compat; try nra.
    + apply Rlt_le, Rinv_0_lt_compat. nra.
    + apply Rinv_le_contravar; [nra|]. apply Rmult_le_compat; nra.
  - unfold Rdiv. rewrite (Rmult_assoc v). apply Rmult_le_compat_l; [lra|].
    apply Rmult_le_compat; try nra.
    + apply Rlt_le, Rinv_0_lt_compat. nra.
    + apply Rinv_le_contravar; [nra|]. apply Rmult_le_compat; nra.
Qed.
Definition respg (n nl nr c a b t s : R) : R := a * a / (s + nl * t) + b * b / (s + nr * t) - c * c / (s + n * t).
Lemma respg_continuous n nl nr c a b t : 0 < n -> 0 < nl -> 0 < nr -> 0 < t -> continuity_pt (respg n nl nr c a b t) 0.
Proof.
  intros Hn Hl Hr Ht. unfold respg. assert (0 < nl * t) by nra. assert (0 < nr * t) by nra. assert (0 < n * t) by nra.
  reg; rewrite ?Rplus_0_l; nra.
Qed.
Lemma gain_low n nl nr c a b t : 1 <= n -> 1 <= nl -> 1 <= nr -> 0 < t -> low (fun sigma => grow_val n nl nr c a b sigma t) (rate n nl nr c a b t).
Proof.
  intros Hn Hl Hr Ht e He. assert (Htt : 0 < t * t) by nra.
  set (K := n * t / ((1 + nl * (t * t)) * (1 + nr * (t * t)))).
  assert (HK : 0 < K) by (apply Rdiv_lt_0_compat; [nra|apply Rmult_lt_0_compat; nra]).
  destruct (near_zero _ (e / (t * t)) (respg_continuous n nl nr c a b t ltac:(lra) ltac:(lra) ltac:(lra) Ht)) as (d&Hd&Hnear); [apply Rdiv_lt_0_compat; lra|].
  set (B := 2 + Rabs (ln K)). assert (HB : 2 <= B) by (unfold B; pose proof (Rabs_pos (ln K)); lra).
  exists (Rmin 1 (Rmin d (e / 2 / B))). split.
  { repeat apply Rmin_glb_lt; try lra. apply Rdiv_lt_0_compat; lra. }
  intros s [Hs Hs']. assert (Hs1 : s < 1) by (eapply Rlt_le_trans; [exact Hs'|apply Rmin_l]).
  assert (Hsd : s < d) by (eapply Rlt_le_trans; [exact Hs'|]; eapply Rle_trans; [apply Rmin_r|apply Rmin_l]).
  assert (HsB : s < e / 2 / B) by (eapply Rlt_le_trans; [exact Hs'|]; eapply Rle_trans; [apply Rmin_r|apply Rmin_r]).
  apply (Rmult_lt_compat_r B) in HsB; [|lra]. replace (e / 2 / B * B) with (e / 2) in HsB by (field; lra).
  unfold grow_val. cbv zeta. set (v := s * s). assert (Hv : 0 < v) by (unfold v; nra). assert (Hv1 : v <= 1) by (unfold v; nra).
  assert (Hvs : v <= s) by (unfold v; nra). assert (Hvd : v < d) by lra.
  destruct (first_bounds n nl nr t v Hn Hl Hr Ht (conj Hv Hv1)) as [Hlo _]. fold K in Hlo.
  set (r := v * (v + n * t) / ((v + nl * (t * t)) * (v + nr * (t * t)))) in *.
  assert (HvK : 0 < v * K) by nra. rewrite ln_sqrt_ln by lra.
  pose proof (ln_mono _ _ HvK Hlo) as Hln. rewrite (ln_mult v K Hv HK) in Hln.
  assert (Elnv : ln v = ln s + ln s) by (unfold v; now apply ln_mult). rewrite Elnv in Hln.
  pose proof (ln_above s Hs) as Habove.
  specialize (Hnear v (conj Hv Hvd)). apply Rabs_def2 in Hnear as [_ Hnear].
  change (a * a / (v + nl * t) + b * b / (v + nr * t) - c * c / (v + n * t)) with (respg n nl nr c a b t v).
  assert (E0 : rate n nl nr c a b t = t * t / 2 * respg n nl nr c a b t 0) by (unfold rate, respg; now rewrite !Rplus_0_l). rewrite E0.
  set (Q := respg n nl nr c a b t v) in *. set (Q0 := respg n nl nr c a b t 0) in *.
  replace (v * (ln r / 2 + t * t / (2 * v) * Q)) with (v * (ln r / 2) + t * t / 2 * Q) by (field; lra).
  assert (H1 : t * t / 2 * Q0 - e / 2 < t * t / 2 * Q).
  { assert (H : Q0 - e / (t * t) < Q) by lra. apply (Rmult_lt_compat_l (t * t / 2)) in H; [|lra].
    replace (t * t / 2 * (Q0 - e / (t * t))) with (t * t / 2 * Q0 - e / 2) in H by (field; lra). exact H. }
  assert (H2 : - (s * B) <= v * (ln r / 2)); [|lra].
  assert (H3 : v * (- / s + ln K / 2) <= v * (ln r / 2)) by (apply Rmult_le_compat_l; lra).
  replace (v * (- / s + ln K / 2)) with (- s + v * (ln K / 2)) in H3 by (unfold v; field; lra).
  pose proof (Rle_abs (- ln K)) as Hk. rewrite Rabs_Ropp in Hk. pose proof (Rabs_pos (ln K)).
  assert (v * - (Rabs (ln K) / 2) <= v * (ln K / 2)) by (apply Rmult_le_compat_l; lra).
  assert (v * Rabs (ln K) <= s * Rabs (ln K)) by (apply Rmult_le_compat_r; lra).
  unfold B. nra.
Qed.
(** both sides keep everything and the sum is 0 *)
Lemma gain_sinks_same n t : 1 <= n -> 0 < t -> sinks (fun sigma => grow_val n n n 0 0 0 sigma t).
Proof.
  intros Hn Ht M. assert (Htt : 0 < t * t) by nra.
  set (K := (1 + n * t) / (n * (t * t) * (n * (t * t)))).
  assert (HK : 0 < K) by (apply Rdiv_lt_0_compat; [nra|repeat apply Rmult_lt_0_compat; lra]).
  exists (Rmin 1 (exp (M - ln K / 2))). split; [apply Rmin_glb_lt; [lra|apply exp_pos]|].
  intros s [Hs Hs']. assert (Hs1 : s < 1) by (eapply Rlt_le_trans; [exact Hs'|apply Rmin_l]).
  assert (Hse : s < exp (M - ln K / 2)) by (eapply Rlt_le_trans; [exact Hs'|apply Rmin_r]).
  unfold grow_val. cbv zeta. set (v := s * s). assert (Hv : 0 < v) by (unfold v; nra). assert (Hv1 : v <= 1) by (unfold v; nra).
  destruct (first_bounds n n n t v Hn Hn Hn Ht (conj Hv Hv1)) as [_ Hhi]. fold K in Hhi.
  set (r := v * (v + n * t) / ((v + n * (t * t)) * (v + n * (t * t)))) in *.
  assert (Hr0 : 0 < r). { assert (0 < n * (t * t)) by nra. assert (0 < n * t) by nra. unfold r. apply Rdiv_lt_0_compat; [nra|]. apply Rmult_lt_0_compat; lra. }
  rewrite ln_sqrt_ln by lra. pose proof (ln_mono _ _ Hr0 Hhi) as Hln. rewrite (ln_mult v K Hv HK) in Hln.
  assert (Elnv : ln v = ln s + ln s) by (unfold v; now apply ln_mult). rewrite Elnv in Hln.
  assert (Hlns : ln s < M - ln K / 2) by (rewrite <- (ln_exp (M - ln K / 2)); now apply ln_increasing).
  replace (t * t / (2 * v) * (0 * 0 / (v + n * t) + 0 * 0 / (v + n * t) - 0 * 0 / (v + n * t))) with 0 by (unfold Rdiv; rewrite !Rmult_0_l; ring). lra.
Qed.
Lemma gain_sinks n nl nr a b t : 1 <= nl -> 1 <= nr -> n = nl + nr -> 0 < t -> a * nr = b * nl -> sinks (fun sigma => grow_val n nl nr (a + b) a b sigma t).
Proof. intros Hl Hr Hn Ht Hab M. now apply grow_val_small_equal. Qed.
(** the rates *)
Lemma rate_split n nl nr a b t : 1 <= nl -> 1 <= nr -> n = nl + nr -> 0 < t ->
  0 <= rate n nl nr (a + b) a b t /\ (a * nr <> b * nl -> 0 < rate n nl nr (a + b) a b t).
Proof.
  intros Hl Hr Hn Ht.
  assert (E : rate n nl nr (a + b) a b t = (a * nr - b * nl) * (a * nr - b * nl) * (t / (2 * (nl * nr * n)))) by (rewrite Hn; unfold rate; field; repeat split; lra).
  assert (Hp : 0 < t / (2 * (nl * nr * n))) by (apply Rdiv_lt_0_compat; auto; repeat apply Rmult_lt_0_compat; lra).
  rewrite E. split; [apply Rmult_le_pos; [apply Rle_0_sqr|lra]|]. intros Hab. apply Rmult_lt_0_compat; auto.
  assert (a * nr - b * nl <> 0) by lra. nra.
Qed.
Lemma rate_same n c t : 1 <= n -> 0 < t -> 0 <= rate n n n c c c t /\ (c <> 0 -> 0 < rate n n n c c c t).
Proof.
  intros Hn Ht. assert (E : rate n n n c c c t = c * c * (t / (2 * n))) by (unfold rate; field; lra).
  assert (Hp : 0 < t / (2 * n)) by (apply Rdiv_lt_0_compat; lra). rewrite E. split; [apply Rmult_le_pos; [apply Rle_0_sqr|lra]|].
  intros Hc. apply Rmult_lt_0_compat; auto. nra.
Qed.
(** much noise *)
Definition farg (n nl nr c a b t u : R) : R :=
  ln ((1 + n * t * u) / ((1 + nl * (t * t) * u) * (1 + nr * (t * t) * u))) / 2
  + t * t * u / 2 * (a * a * u / (1 + nl * t * u) + b * b * u / (1 + nr * t * u) - c * c * u / (1 + n * t * u)).
Lemma farg_continuous n nl nr c a b t : continuity_pt (farg n nl nr c a b t) 0.
Proof.
  unfold farg. apply continuity_pt_plus.
  - apply continuity_pt_mult; [|reg].
    apply (continuity_pt_comp (fun u => (1 + n * t * u) / ((1 + nl * (t * t) * u) * (1 + nr * (t * t) * u))) ln).
    + reg; rewrite !Rmult_0_r, !Rplus_0_r; lra.
    + rewrite !Rmult_0_r, !Rplus_0_r. replace (1 / (1 * 1)) with 1 by field. apply derivable_continuous_pt. exists (/ 1). apply derivable_pt_lim_ln. lra.
  - reg; rewrite !Rmult_0_r, !Rplus_0_r; lra.
Qed.
Lemma farg_zero n nl nr c a b t : farg n nl nr c a b t 0 = 0.
Proof. unfold farg. rewrite !Rmult_0_r, !Rplus_0_r. replace (1 / (1 * 1)) with 1 by field. rewrite ln_1. lra. Qed.
Lemma grow_val_farg n nl nr c a b sigma t : 0 <= n -> 0 <= nl -> 0 <= nr -> 0 < t -> 0 < sigma ->
  grow_val n nl nr c a b sigma t = farg n nl nr c a b t (/ (sigma * sigma)).
Proof.
  intros Hn Hl Hr Ht Hs. unfold grow_val, farg. set (v := sigma * sigma). assert (Hv : 0 < v) by (unfold v; nra). cbv zeta.
  assert (Htt : 0 < t * t) by nra. assert (Hu : 0 < / v) by now apply Rinv_0_lt_compat.
  assert (0 <= nl * (t * t)) by nra. assert (0 <= nr * (t * t)) by nra. assert (0 <= nl * t) by nra. assert (0 <= nr * t) by nra. assert (0 <= n * t) by nra.
  assert (Hp : 0 < v * (v + n * t) / ((v + nl * (t * t)) * (v + nr * (t * t)))).
  { apply Rdiv_lt_0_compat; [nra|]. apply Rmult_lt_0_compat; lra. }
  rewrite ln_sqrt_ln by auto. f_equal.
  - f_equal. f_equal. field. repeat split; try lra; nra.
  - field. repeat split; try lra; nra.
Qed.
Lemma gain_fades n nl nr c a b t : 0 <= n -> 0 <= nl -> 0 <= nr -> 0 < t -> fades (fun sigma => grow_val n nl nr c a b sigma t).
Proof.
  intros Hn Hl Hr Ht e He. destruct (near_zero _ e (farg_continuous n nl nr c a b t) He) as (d&Hd&H).
  exists (Rmax 1 (/ d)). assert (Hid : 0 < / d) by now apply Rinv_0_lt_compat. split; [pose proof (Rmax_l 1 (/ d)); lra|].
  intros sigma Hs. pose proof (Rmax_l 1 (/ d)). pose proof (Rmax_r 1 (/ d)).
  rewrite grow_val_farg by (auto; lra). rewrite farg_zero in H. rewrite <- (Rminus_0_r (farg _ _ _ _ _ _ _ _)).
  apply H. assert (Hss : 0 < sigma * sigma) by nra. split; [now apply Rinv_0_lt_compat|].
  rewrite <- (Rinv_inv d). apply Rinv_lt_contravar; [nra|]. nra.
Qed.
