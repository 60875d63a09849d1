(** Property C93: the inherited score, beside rmse. *)
From Coq Require Import Reals Lra Lia.
From Verif Require Import Base Fl Ext MData MSplit MTree MSampler MModel MSklearn MScore Spec SpecModel SpecSklearn SpecInvariance SpecQuality.
From Verif Require Import LList PData PModel PSklearn2 Properties_Model Properties_Sklearn Properties_Invariance.
Local Open Scope R_scope.

Lemma sum_squares_cons x l : sum_squares (x :: l) = x ^ 2 + sum_squares l.
Proof. reflexivity. Qed.
Lemma sum_squares_pos l : 0 <= sum_squares l.
Proof. induction l as [|x l IH]; [unfold sum_squares, rsum; simpl; lra|]. rewrite sum_squares_cons. nra. Qed.
Lemma sum_squares_zero l : sum_squares l = 0 -> forall x, In x l -> x = 0.
Proof.
  induction l as [|x l IH]; [easy|]. rewrite sum_squares_cons. pose proof (sum_squares_pos l). intros E z [<-|Hz].
  - assert (x ^ 2 = 0) by nra. nra.
  - apply IH; auto. nra.
Qed.
Lemma sum_squares_zeros l : (forall x, In x l -> x = 0) -> sum_squares l = 0.
Proof. induction l as [|x l IH]; intros H; [reflexivity|]. rewrite sum_squares_cons, IH, (H x (or_introl eq_refl)) by (intros; apply H; now right). ring. Qed.
Lemma sum_squares_app a b : sum_squares (a ++ b) = sum_squares a + sum_squares b.
Proof. unfold sum_squares. now rewrite map_app, rsum_app. Qed.
Lemma sum_squares_scale b l : sum_squares (map (fun x => b * x) l) = b ^ 2 * sum_squares l.
Proof. induction l as [|x l IH]; [unfold sum_squares, rsum; simpl; ring|]. simpl map. rewrite !sum_squares_cons, IH. ring. Qed.
(** sums about a constant *)
Lemma constant_sum c y : error_of_constant c y = sum_squares y - 2 * c * rsum y + INR (length y) * c ^ 2.
Proof.
  unfold error_of_constant. induction y as [|x y IH]; [unfold sum_squares, rsum; simpl; ring|].
  simpl map. rewrite !sum_squares_cons, IH. change (rsum (x :: y)) with (x + rsum y). simpl length. rewrite S_INR. ring.
Qed.
Lemma spread_least c y : spread y <= error_of_constant c y.
Proof.
  unfold spread. destruct y as [|x y]; [unfold error_of_constant, sum_squares, rsum; simpl; lra|].
  set (z := x :: y). assert (Hn : 0 < INR (length z)) by (apply lt_0_INR; simpl; lia).
  rewrite !constant_sum. unfold mean. set (n := INR (length z)) in *. set (S := rsum z). set (m := S / n).
  assert (E : S = n * m) by (unfold m; field; lra). rewrite E. pose proof (Rle_0_sqr (c - m)) as Hq. unfold Rsqr in Hq. nra.
Qed.
Lemma spread_pos y : not_constant y -> 0 < spread y.
Proof.
  intros (a&b&Ha&Hb&Hne). destruct (Rle_lt_or_eq_dec 0 (spread y) (sum_squares_pos _)) as [|E]; auto. exfalso. apply Hne.
  pose proof (fun x Hx => sum_squares_zero _ (eq_sym E) _ (in_map (fun x => x - mean y) y x Hx)) as H. cbv beta in H.
  pose proof (H a Ha). pose proof (H b Hb). lra.
Qed.
Lemma spread_zero y : ~ not_constant y -> spread y = 0.
Proof.
  intros Hc. apply sum_squares_zeros. intros z Hz. apply in_map_iff in Hz as (x&<-&Hx).
  assert (Hall : forall w, In w y -> w = x). { intros w Hw. destruct (Req_dec w x); auto. exfalso. apply Hc. exists w, x. auto. }
  assert (E : mean y = x); [|lra]. unfold mean.
  assert (Hn : 0 < INR (length y)) by (apply lt_0_INR; destruct y; [destruct Hx|simpl; lia]).
  assert (S : rsum y = INR (length y) * x).
  { clear Hx Hn Hc. induction y as [|w y IH]; [unfold rsum; simpl; ring|]. change (rsum (w :: y)) with (w + rsum y).
    rewrite IH by (intros; apply Hall; now right). rewrite (Hall w (or_introl eq_refl)). simpl length. rewrite S_INR. ring. }
  rewrite S. field. lra.
Qed.
Lemma not_constant_dec y : not_constant y \/ ~ not_constant y.
Proof.
  destruct (Req_dec (spread y) 0) as [E|E].
  - right. intros H. apply spread_pos in H. lra.
  - left. destruct (Exists_dec (fun a => a <> mean y) y) as [H|H]; [intros a; destruct (Req_EM_T a (mean y)); auto|..].
    + apply Exists_exists in H as (a&Ha&Hne). destruct (Exists_dec (fun b => b <> a) y) as [H'|H']; [intros b; destruct (Req_EM_T b a); auto|..].
      * apply Exists_exists in H' as (b&Hb&Hnb). exists a, b. auto.
      * exfalso. apply E, spread_zero. intros (p&q&Hp&Hq&Hpq). apply H'. apply Exists_exists.
        destruct (Req_dec p a) as [->|]; [exists q; auto|exists p; auto].
    + exfalso. apply E. unfold spread. apply sum_squares_zeros. intros z Hz. apply in_map_iff in Hz as (x&<-&Hx).
      destruct (Req_dec x (mean y)); [lra|]. exfalso. apply H. apply Exists_exists. eauto.
Qed.

(** ** r2_score *)
Lemma squares_fold l : rsum (map (fun x => x * x) l) = sum_squares l.
Proof. unfold sum_squares. f_equal. apply map_ext. intros x. ring. Qed.
Lemma r2_value y v : length v = length y -> (2 <= length y)%nat -> exists x, r2_score y v = Ok (XFin x) /\
  (not_constant y -> x = 1 - sum_squares (map2 Rminus y v) / spread y) /\
  (~ not_constant y -> x = if Req_EM_T (sum_squares (map2 Rminus y v)) 0 then 1 else 0).
Proof.
  intros Hl Hn. unfold r2_score. rewrite (proj2 (Nat.eqb_eq _ _) (eq_sym Hl)). simpl negb. cbv iota.
  rewrite (proj2 (Nat.ltb_ge _ _)) by lia. unfold vop. rewrite (proj2 (Nat.eqb_eq _ _) (eq_sym Hl)). cbn [rbind].
  rewrite squares_fold. set (N := sum_squares _).
  assert (ED : rsum (map (fun x => (x - rsum y / INR (length y)) * (x - rsum y / INR (length y))) y) = spread y).
  { unfold spread, error_of_constant. rewrite <- squares_fold, map_map. reflexivity. }
  rewrite ED. destruct (Req_EM_T (spread y) 0) as [E|E].
  - destruct (Req_EM_T N 0) as [E'|E']; eexists; (split; [reflexivity|split; [intros H; apply spread_pos in H; lra|auto]]).
  - assert (Hv : not_constant y). { destruct (not_constant_dec y) as [|H]; auto. now apply spread_zero in H. }
    destruct (Req_EM_T N 0) as [E'|E']; eexists; (split; [reflexivity|split; [intros _|intros H; now elim H]]); auto.
    rewrite E'. field. auto.
Qed.
Lemma errors_zero (y v : list R) : length v = length y -> (sum_squares (map2 Rminus y v) = 0 <-> v = y).
Proof.
  revert v. induction y as [|a y IH]; intros [|b v] Hl; try discriminate; [simpl; split; reflexivity|].
  simpl map2. rewrite sum_squares_cons. injection Hl as Hl. specialize (IH v Hl). pose proof (sum_squares_pos (map2 Rminus y v)). split.
  - intros E. assert (a - b = 0) by nra. f_equal; [lra|]. apply IH. nra.
  - intros [= -> ->]. rewrite (proj2 IH eq_refl). ring.
Qed.
Lemma rmse_value s X y v : sk_predict s (Some X) = Ok v -> length v = length y ->
  exists r, sk_rmse s X y = Ok r /\ 0 <= r /\ r ^ 2 = sum_squares (map2 Rminus y v).
Proof.
  intros Hv Hl. unfold sk_rmse, rmse_with, l2_with, residuals_with. rewrite Hv. cbn [rbind]. unfold vop. rewrite (proj2 (Nat.eqb_eq _ _) (eq_sym Hl)).
  cbn [rbind]. eexists. split; [reflexivity|]. rewrite squares_fold. split; [apply sqrt_pos|]. simpl. rewrite Rmult_1_r. apply sqrt_sqrt, sum_squares_pos.
Qed.
Lemma score_lengths s X y q : sk_score s X y = Ok q -> exists v, sk_predict s (Some X) = Ok v /\ length v = length y /\ r2_score y v = Ok q.
Proof.
  unfold sk_score, score_with. destruct (sk_predict s (Some X)) as [v| |]; try discriminate. cbn [rbind]. intros E. exists v. split; auto. split; auto.
  unfold r2_score in E. destruct (Nat.eqb_spec (length y) (length v)); [auto|discriminate].
Qed.

(** ** C93 *)
(** score fails only if predict does, or if there are not as many targets as rows. *)
Theorem C93_defined : forall s X y,
  (forall e, sk_predict s (Some X) = Raise e -> sk_score s X y = Raise e) /\
  (forall v, sk_predict s (Some X) = Ok v -> length v <> length y -> sk_score s X y = Raise EValueError) /\
  (forall v, sk_predict s (Some X) = Ok v -> length v = length y -> exists q, sk_score s X y = Ok q /\ (q = XNaN <-> (length y < 2)%nat)).
Proof.
  intros s X y. unfold sk_score, score_with. split; [now intros e ->|]. split.
  - intros v -> Hl. cbn [rbind]. unfold r2_score. now rewrite (proj2 (Nat.eqb_neq _ _)) by auto.
  - intros v -> Hl. cbn [rbind]. destruct (Nat.lt_ge_cases (length y) 2) as [H|H].
    + exists XNaN. unfold r2_score. rewrite (proj2 (Nat.eqb_eq _ _) (eq_sym Hl)). simpl negb. cbv iota.
      rewrite (proj2 (Nat.ltb_lt _ _)) by lia. split; auto. tauto.
    + destruct (r2_value y v Hl H) as (x&E&_). exists (XFin x). split; auto. split; [discriminate|lia].
Qed.
(** On two rows or more: the score is at most 1, which is reached by perfect predictions only; if the targets differ it is
    1 - rmse^2 / spread, and otherwise 0 or 1. *)
Theorem C93_value : forall s X y q, sk_score s X y = Ok q -> (2 <= length y)%nat ->
  exists x r, q = XFin x /\ sk_rmse s X y = Ok r /\ x <= 1 /\ (x = 1 <-> sk_predict s (Some X) = Ok y) /\
    (not_constant y -> x = 1 - r ^ 2 / spread y) /\ (~ not_constant y -> x = 1 \/ x = 0).
Proof.
  intros s X y q E Hn. destruct (score_lengths _ _ _ _ E) as (v&Hv&Hl&Er). destruct (rmse_value _ _ _ _ Hv Hl) as (r&Hr&Hp&Hr2).
  destruct (r2_value y v Hl Hn) as (x&Ex&H1&H2). rewrite Ex in Er. injection Er as <-. exists x, r. rewrite <- Hr2 in H1, H2.
  assert (Hz : r ^ 2 = 0 <-> sk_predict s (Some X) = Ok y).
  { rewrite Hr2, errors_zero by auto. rewrite Hv. split; [now intros ->|now intros [= ->]]. }
  split; auto. split; auto. assert (0 <= r ^ 2) by nra. destruct (not_constant_dec y) as [Hc|Hc].
  - pose proof (spread_pos y Hc) as Hs. specialize (H1 Hc). split; [|split; [|split; [auto|contradiction]]].
    + assert (0 <= r ^ 2 / spread y) by (apply Rmult_le_pos; auto; left; now apply Rinv_0_lt_compat). lra.
    + rewrite <- Hz. split; intros K.
      * assert (D : r ^ 2 / spread y = 0) by lra. apply Rmult_integral in D as [D|D]; auto. pose proof (Rinv_0_lt_compat _ Hs). lra.
      * rewrite H1, K. field. lra.
  - specialize (H2 Hc). destruct (Req_EM_T (r ^ 2) 0) as [K|K]; subst x.
    + split; [lra|]. split; [split; auto; intros _; now apply Hz|]. split; [contradiction|auto].
    + split; [lra|]. split; [split; [lra|intros K'; now apply Hz in K']|]. split; [contradiction|auto].
Qed.
(** The score is positive exactly if the predictions beat every constant prediction. *)
Theorem C93_beats_constants : forall s X y x r, (2 <= length y)%nat -> not_constant y -> sk_score s X y = Ok (XFin x) -> sk_rmse s X y = Ok r ->
  (0 < x <-> forall c, r ^ 2 < error_of_constant c y).
Proof.
  intros s X y x r Hn Hc E Er. destruct (C93_value _ _ _ _ E Hn) as (x'&r'&[= <-]&Er'&_&_&H&_). rewrite Er in Er'. injection Er' as <-.
  pose proof (spread_pos y Hc) as Hs. specialize (H Hc).
  assert (K : 0 < x <-> r ^ 2 < spread y).
  { rewrite H. split; intros K.
    - apply Rmult_lt_reg_r with (/ spread y); [now apply Rinv_0_lt_compat|]. rewrite Rinv_r by lra. unfold Rdiv in K. lra.
    - apply Rmult_lt_compat_r with (r := / spread y) in K; [|now apply Rinv_0_lt_compat]. rewrite Rinv_r in K by lra. unfold Rdiv. lra. }
  rewrite K. split.
  - intros K' c. pose proof (spread_least c y). lra.
  - intros K'. apply (K' (mean y)).
Qed.
(** Two estimators are ranked by score as by rmse. *)
Theorem C93_same_ranking : forall s1 s2 X y x1 x2 r1 r2, (2 <= length y)%nat -> not_constant y ->
  sk_score s1 X y = Ok (XFin x1) -> sk_score s2 X y = Ok (XFin x2) -> sk_rmse s1 X y = Ok r1 -> sk_rmse s2 X y = Ok r2 ->
  (x1 < x2 <-> r2 < r1).
Proof.
  intros s1 s2 X y x1 x2 r1 r2 Hn Hc E1 E2 R1 R2.
  destruct (C93_value _ _ _ _ E1 Hn) as (x&r&[= <-]&Er&_&_&H1&_). rewrite R1 in Er. injection Er as <-.
  destruct (C93_value _ _ _ _ E2 Hn) as (x&r&[= <-]&Er&_&_&H2&_). rewrite R2 in Er. injection Er as <-.
  destruct (C53_rmse_is_sum _ _ _ _ R1) as (_&_&P1&_). destruct (C53_rmse_is_sum _ _ _ _ R2) as (_&_&P2&_).
  specialize (H1 Hc). specialize (H2 Hc). pose proof (spread_pos y Hc) as Hs. pose proof (Rinv_0_lt_compat _ Hs) as Hi. unfold Rdiv in *.
  assert (K : x1 < x2 <-> r2 ^ 2 < r1 ^ 2).
  { rewrite H1, H2. split; intros K.
    - apply Rmult_lt_reg_r with (/ spread y); auto. lra.
    - apply Rmult_lt_compat_r with (r := / spread y) in K; auto. lra. }
  rewrite K. split; intros; nra.
Qed.
(** Evaluating on every row twice leaves the score alone but multiplies rmse by sqrt 2. *)
Theorem C93_duplicated : forall s n rows y x r, (2 <= length y)%nat -> sk_score s (Mx n rows) y = Ok (XFin x) -> sk_rmse s (Mx n rows) y = Ok r ->
  sk_score s (Mx n (rows ++ rows)) (y ++ y) = Ok (XFin x) /\ sk_rmse s (Mx n (rows ++ rows)) (y ++ y) = Ok (sqrt 2 * r).
Proof.
  intros s n rows y x r Hn E R1. destruct (score_lengths _ _ _ _ E) as (v&Hv&Hl&Er).
  pose proof (C19_estimator_concatenation _ _ _ _ _ _ Hv Hv) as Hv2.
  assert (Hl2 : length (v ++ v) = length (y ++ y)) by (rewrite !app_length; lia).
  assert (Hn2 : (2 <= length (y ++ y))%nat) by (rewrite app_length; lia).
  assert (HN : sum_squares (map2 Rminus (y ++ y) (v ++ v)) = 2 * sum_squares (map2 Rminus y v)).
  { rewrite map2_app by auto. rewrite sum_squares_app. ring. }
  assert (Hm : mean (y ++ y) = mean y).
  { unfold mean. rewrite rsum_app, app_length, plus_INR. assert (0 < INR (length y)) by (apply lt_0_INR; lia). field. lra. }
  assert (HD : spread (y ++ y) = 2 * spread y).
  { unfold spread, error_of_constant. rewrite Hm, map_app, sum_squares_app. ring. }
  assert (Hc : not_constant (y ++ y) <-> not_constant y).
  { split; intros (a&b&Ha&Hb&Hne); exists a, b; rewrite ?in_app_iff in *; tauto. }
  destruct (r2_value y v Hl Hn) as (x'&Ex&H1&H2). rewrite Ex in Er. injection Er as ->.
  destruct (r2_value _ _ Hl2 Hn2) as (x2&Ex2&H1'&H2'). rewrite HN in *. rewrite HD in *. rewrite Hc in *.
  destruct (rmse_value _ _ _ _ Hv2 Hl2) as (r2&Hr2&Hp2&Hq2). destruct (rmse_value _ _ _ _ Hv Hl) as (r1&Hr1&Hp1&Hq1).
  rewrite R1 in Hr1. injection Hr1 as <-. rewrite HN in Hq2. split.
  - unfold sk_score, score_with. rewrite Hv2. cbn [rbind]. rewrite Ex2. do 2 f_equal. destruct (not_constant_dec y) as [H|H].
    + rewrite H1, H1' by auto. pose proof (spread_pos y H). field. lra.
    + rewrite H2, H2' by auto. destruct (Req_EM_T (2 * _) 0), (Req_EM_T _ 0); auto; lra.
  - rewrite Hr2. f_equal. assert (S2 : sqrt 2 * sqrt 2 = 2) by (apply sqrt_sqrt; lra). pose proof (sqrt_pos 2).
    apply Rsqr_inj; auto; [now apply Rmult_le_pos|]. unfold Rsqr. nra.
Qed.
(** After a change of the units of the target the score is the same and rmse is in the new units. *)
Theorem C93_units : forall a b bk s h h' X y rs s1 s2, 0 < b -> heap_ok h -> heap_ok h' ->
  fit bk s h X y rs = Ok s1 -> fit bk s h' X (affine a b y) rs = Ok s2 ->
  forall X' y', sk_score s2 X' (affine a b y') = sk_score s1 X' y' /\
    same_outcome (fun r r' => r' = b * r) (sk_rmse s1 X' y') (sk_rmse s2 X' (affine a b y')).
Proof.
  intros a b bk s h h' X y rs s1 s2 Hb Hh Hh' F1 F2 X' y'. pose proof (C51_affine a b bk s h h' X y rs Hb Hh Hh') as H.
  rewrite F1, F2 in H. destruct H as (_&H&_). specialize (H X').
  unfold sk_score, score_with, sk_rmse, rmse_with, l2_with, residuals_with.
  destruct (sk_predict s1 (Some X')) as [v|e|], (sk_predict s2 (Some X')) as [v2|e2|]; simpl in H; try contradiction; subst; try (split; reflexivity).
  cbn [rbind].
  assert (HN : map2 Rminus (affine a b y') (map (fun v => a + b * v) v) = map (fun x => b * x) (map2 Rminus y' v)).
  { unfold affine. clear. revert v. induction y' as [|c y' IH]; intros [|d v]; simpl; auto. rewrite IH. f_equal. ring. }
  assert (L1 : length (affine a b y') = length y') by (unfold affine; apply map_length).
  split.
  - destruct (Nat.eq_dec (length v) (length y')) as [Hl|Hl].
    + destruct (Nat.lt_ge_cases (length y') 2) as [Hn|Hn].
      * unfold r2_score. rewrite L1, map_length, (proj2 (Nat.eqb_eq _ _) (eq_sym Hl)). simpl negb. cbv iota. rewrite (proj2 (Nat.ltb_lt _ _)) by lia. reflexivity.
      * assert (Hl2 : length (map (fun v => a + b * v) v) = length (affine a b y')) by now rewrite map_length, L1.
        destruct (r2_value _ _ Hl Hn) as (x&->&A1&A2). destruct (r2_value _ _ Hl2 ltac:(now rewrite L1)) as (x2&->&B1&B2).
        rewrite HN, sum_squares_scale in *. do 2 f_equal.
        assert (Hm : mean (affine a b y') = a + b * mean y').
        { unfold mean. rewrite L1. assert (E : rsum (affine a b y') = INR (length y') * a + b * rsum y').
          { clear. induction y' as [|c y' IH]; [unfold rsum; simpl; ring|]. simpl affine. change (rsum (a + b * c :: affine a b y')) with (a + b * c + rsum (affine a b y')).
            change (rsum (c :: y')) with (c + rsum y'). rewrite IH. simpl length. rewrite S_INR. ring. }
          rewrite E. field. apply not_0_INR. lia. }
        assert (HD : spread (affine a b y') = b ^ 2 * spread y').
        { unfold spread, error_of_constant. rewrite Hm. unfold affine. rewrite map_map, <- sum_squares_scale, map_map. f_equal. apply map_ext. intros c. ring. }
        assert (Hc : not_constant (affine a b y') <-> not_constant y').
        { unfold affine. split.
          - intros (p&q&Hp&Hq&Hne). apply in_map_iff in Hp as (p'&<-&Hp). apply in_map_iff in Hq as (q'&<-&Hq). exists p', q'. repeat split; auto. congruence.
          - intros (p&q&Hp&Hq&Hne). exists (a + b * p), (a + b * q). repeat split; try (now apply (in_map (fun v => a + b * v))).
            intros K. apply Hne. apply Rmult_eq_reg_l with b; lra. }
        destruct (not_constant_dec y') as [Hy|Hy].
        -- rewrite A1, B1 by (auto; now apply Hc). rewrite HD. pose proof (spread_pos y' Hy). field. split; lra.
        -- rewrite A2, B2 by (auto; now rewrite Hc). assert (0 < b ^ 2) by nra. set (N := sum_squares _).
           destruct (Req_EM_T (b ^ 2 * N) 0) as [K|K], (Req_EM_T N 0) as [K'|K']; auto; exfalso.
           ++ apply Rmult_integral in K as [K|K]; lra.
           ++ apply K. rewrite K'. ring.
    + unfold r2_score. rewrite L1, map_length. rewrite (proj2 (Nat.eqb_neq _ _)) by auto. reflexivity.
  - unfold vop. rewrite L1, map_length. destruct (length y' =? length v)%nat; [|reflexivity]. cbn [rbind same_outcome].
    rewrite HN, !squares_fold, sum_squares_scale. rewrite sqrt_mult by (try apply sum_squares_pos; nra).
    f_equal. replace (b ^ 2) with (b * b) by ring. apply sqrt_square. lra.
Qed.
(** The subclasses score base and tree predictions together. *)
Theorem C93_extension : forall s f X y u v, rb_base s = Some f -> f X = Ok u -> sk_predict (rb_bart s) (Some X) = Ok v ->
  length u = length y -> length v = length y -> (2 <= length y)%nat -> not_constant y ->
  rb_score s X y = Ok (XFin (1 - sum_squares (map2 Rminus y (map2 Rplus u v)) / spread y)).
Proof.
  intros s f X y u v Hf Hu Hv L1 L2 Hn Hc. unfold rb_score, score_with, rb_predict. rewrite Hf, Hu. cbn [rbind]. rewrite Hv. cbn [rbind].
  unfold vop. rewrite (proj2 (Nat.eqb_eq _ _)) by congruence. cbn [rbind].
  assert (Hl : length (map2 Rplus u v) = length y) by (rewrite LList.map2_length; congruence).
  destruct (r2_value y _ Hl Hn) as (x&->&H&_). do 2 f_equal. auto.
Qed.

(** a fitted estimator evaluated on what it predicts itself, and on something one unit above *)
Example C93_case : exists rs s' v, fit Processes ex_sk ex_empty mx_X mx_y rs = Ok s' /\ sk_predict s' (Some mx_X) = Ok v /\ length v = 3%nat /\
  sk_score s' mx_X v = Ok (XFin 1) /\
  exists x, sk_score s' mx_X (map (fun z => z + 1) v) = Ok (XFin x) /\ x < 1 /\
  sk_score s' mx_X [1; 2] = Raise EValueError.
Proof.
  destruct (C49_C50_case Processes) as (rs&s'&v&Hf&_&Hv&Hlv&_). exists rs, s', v. split; auto. split; auto. split; auto. split.
  - destruct (proj2 (proj2 (C93_defined s' mx_X v)) v Hv eq_refl) as (q&Hq&_). destruct (C93_value _ _ _ _ Hq ltac:(lia)) as (x&r&->&_&_&H1&_).
    rewrite (proj2 H1 Hv) in Hq. exact Hq.
  - assert (Hl : length v = length (map (fun z => z + 1) v)) by now rewrite map_length.
    destruct (proj2 (proj2 (C93_defined s' mx_X (map (fun z => z + 1) v))) v Hv Hl) as (q&Hq&_).
    destruct (C93_value _ _ _ _ Hq ltac:(rewrite <- Hl; lia)) as (x&r&->&_&Hle&H1&_). exists x. split; auto. split.
    + destruct Hle as [|E]; auto. exfalso. apply H1 in E. rewrite Hv in E. destruct v as [|a v]; [discriminate|]. injection E as E _. lra.
    + apply (proj1 (proj2 (C93_defined s' mx_X [1; 2])) v Hv). rewrite Hlv. discriminate.
Qed.

Print Assumptions C93_defined.
Print Assumptions C93_value.
Print Assumptions C93_beats_constants.
Print Assumptions C93_same_ranking.
Print Assumptions C93_duplicated.
Print Assumptions C93_units.
Print Assumptions C93_extension.
