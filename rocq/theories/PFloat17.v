(** A tree's turn with the oblivious sampler in double precision. *)
From Coq Require Import ZArith Reals List Lra Lia Psatz.
From Flocq Require Import Core.Core IEEE754.BinarySingleNaN.
From Verif Require Import Base MFloat MFloat2 MFloat3 MFloat4 MFloat5 MFloat7 MFloat9 MFloat10 SpecDouble SpecDouble3 SpecDouble4 SpecDouble5 SpecDouble7 SpecDouble9 SpecDouble10 SpecSampler
  PFloat PFloat2 PFloat3 PFloat5 PFloat6 PFloat7 PFloat8 PFloat9 PFloat10 PFloat11 PFloat12 PFloat14 PFloat16 Properties_Double7.
Import ListNotations.
Local Open Scope R_scope.

Lemma close0 M j rows mask s : usual_rows M j rows -> length mask = length rows -> node_sum_f rows j mask s ->
  close_sum (sum_error (length rows) (members mask) M) (INR (members mask)) M s (exact_node_sum j rows mask).
Proof.
  intros U L H. destruct (members mask) as [|k] eqn:K.
  - destruct (node_sum_ok M j rows mask s U L H) as (F & E & A & B & _). rewrite K in *. unfold sum_error in *. cbn [INR] in *.
    split; [exact F|]. split; [exact E|]. split; [exact B|]. lra.
  - rewrite <- K. apply fresh_close; auto. lia.
Qed.
Lemma none_left mask maskl maskr : shared_out mask maskl maskr -> members maskr = 0%nat -> maskl = mask.
Proof.
  intros (Ll & Lr & H). revert maskl maskr Ll Lr H. induction mask as [|b mask IH]; intros [|bl maskl] [|br maskr] Ll Lr H K; try discriminate; auto.
  injection Ll as Ll. injection Lr as Lr. destruct (H 0%nat) as (X & _). unfold in_node in X. cbn [nth_error] in X. unfold members in *. destruct br; cbn [filter negb length] in K; try discriminate.
  f_equal; [|apply (IH maskl maskr); auto; intros i; apply (H (S i))]. destruct b, bl; auto; exfalso; intuition congruence.
Qed.
Lemma fsub_same s : finite s -> finite (fsub s s) /\ val (fsub s s) = 0.
Proof.
  intros F. unfold finite, val in *. destruct (fsub_ok s s F F) as (E & G).
  - replace (fr s - fr s) with 0 by ring. rewrite rnd_0, Rabs_R0. apply bpow_gt_0.
  - split; [exact G|]. rewrite E. replace (fr s - fr s) with 0 by ring. apply rnd_0.
Qed.
Lemma empty_sum M j rows mask : usual_rows M j rows -> length mask = length rows -> members mask = 0%nat -> exact_node_sum j rows mask = 0.
Proof.
  intros U L K. unfold exact_node_sum. replace (filter _ (combine rows mask)) with (@nil (frow * bool)); [reflexivity|]. clear U. revert mask L K.
  induction rows as [|r rows IH]; intros [|b mask] L K; try discriminate; auto. unfold members in *. destruct b; cbn [filter negb length combine snd] in *; [|discriminate]. apply IH; auto.
Qed.
(** the sums of one mutation *)
Lemma mutation_close M j rows gr sum c : usual_rows M j rows -> usual_mutation rows c -> (forall mask, mask <> nil -> node_sum_f rows j mask (sum mask)) ->
  let q := cut_sums_f gr sum c in
  exists E El Er,
    close_sum E (INR (members (rc_mask c))) M (fc_s q) (exact_node_sum j rows (rc_mask c)) /\
    close_sum El (INR (members (rc_left c))) M (fc_sl q) (exact_node_sum j rows (rc_left c)) /\
    close_sum Er (INR (members (rc_right c))) M (fc_sr q) (exact_node_sum j rows (rc_right c)) /\
    E + El + Er <= 4 * (INR (length rows + 2) * INR (members (rc_mask c)) * M * bpow radix2 (-50)).
Proof.
  intros U (L & Sh & Cn & _) Hs q. pose proof Cn as (_ & _ & K1 & _). pose proof U as (HM & _ & _).
  assert (NE : forall m : list bool, length m = length rows -> m <> nil).
  { intros m Hm ->. destruct rows; [|discriminate]. destruct (rc_mask c); [cbn in K1; lia|discriminate]. }
  set (B := INR (length rows + 2) * INR (members (rc_mask c)) * M * bpow radix2 (-50)).
  assert (B0 : 0 <= B). { apply Rmult_le_pos; [|apply bpow_ge_0]. apply Rmult_le_pos; [|lra]. apply Rmult_le_pos; apply pos_INR. }
  assert (SE : forall k, (k <= members (rc_mask c))%nat -> sum_error (length rows) k M <= B) by (intros k Hk; apply sum_error_le; [lra|auto]).
  pose proof (close0 M j rows _ _ U L (Hs _ (NE _ L))) as A. unfold q, cut_sums_f. cbn [fc_s fc_sl fc_sr].
  destruct (rc_copy c) eqn:Cp.
  - destruct Sh as (-> & ->). destruct gr; exists (sum_error (length rows) (members (rc_mask c)) M), (sum_error (length rows) (members (rc_mask c)) M), (sum_error (length rows) (members (rc_mask c)) M);
      (split; [exact A|]; split; [exact A|]; split; [exact A|]); pose proof (SE _ (le_n _)); lra.
  - destruct (share_sums j rows _ _ _ L Sh) as (_ & EK). pose proof Sh as (Ll & Lr & _).
    assert (L1 : length (rc_left c) = length rows) by lia. assert (L2 : length (rc_right c) = length rows) by lia.
    pose proof (close0 M j rows _ _ U L1 (Hs _ (NE _ L1))) as Al. pose proof (close0 M j rows _ _ U L2 (Hs _ (NE _ L2))) as Ar.
    pose proof (SE (members (rc_mask c)) ltac:(lia)). pose proof (SE (members (rc_left c)) ltac:(lia)). pose proof (SE (members (rc_right c)) ltac:(lia)).
    destruct gr.
    + destruct (members (rc_right c)) as [|k] eqn:K.
      * exists (sum_error (length rows) (members (rc_mask c)) M), (sum_error (length rows) (members (rc_left c)) M), 0. split; [exact A|]. split; [exact Al|]. split; [|lra].
        rewrite (none_left _ _ _ Sh K). destruct (fsub_same _ (proj1 A)) as (F & V). rewrite (empty_sum M j rows _ U L2 K). split; [exact F|]. rewrite V, Rminus_0_r, Rabs_R0. cbn [INR]. lra.
      * exists (sum_error (length rows) (members (rc_mask c)) M), (sum_error (length rows) (members (rc_left c)) M), (INR (length rows + 2) * (2 * INR (members (rc_mask c))) * M * bpow radix2 (-50)).
        split; [exact A|]. split; [exact Al|]. split; [|unfold B in *; lra]. rewrite <- K. apply (right_close M j rows _ (rc_left c)); auto; lia.
    + exists (sum_error (length rows) (members (rc_mask c)) M), (sum_error (length rows) (members (rc_left c)) M), (sum_error (length rows) (members (rc_right c)) M). split; [exact A|]. split; [exact Al|]. split; [exact Ar|lra].
Qed.
Lemma weight_diff0 sigma tau (k : nat) s S E M : 0 < sigma -> 0 < tau -> 0 <= M -> close_sum E (INR k) M s S ->
  Rabs (weight sigma tau (INR k) (val s) - weight sigma tau (INR k) S) <= 7 / 2 * E * M * (tau / (sigma * sigma)).
Proof.
  intros Ps Pt PM C. destruct k as [|k]; [|apply weight_diff; auto; apply lt_0_INR; lia].
  destruct C as (F & D & B & EK). cbn [INR] in *. pose proof (Rabs_pos (val s - S)). assert (E = 0) by lra. subst E. pose proof (Rabs_pos S).
  assert (S = 0) by (destruct (Req_dec S 0) as [|N]; auto; pose proof (Rabs_pos_lt S N); lra). assert (val s - S = 0) by (destruct (Req_dec (val s - S) 0) as [|N]; auto; pose proof (Rabs_pos_lt _ N); lra).
  replace (val s) with S by lra. rewrite Rminus_diag_eq, Rabs_R0 by reflexivity. lra.
Qed.
Lemma ratio_shift0 M N sigma tau k kl kr s sl sr S Sl Sr E El Er : 0 <= M -> 0 < sigma -> 0 < tau ->
  close_sum E (INR k) M s S -> close_sum El (INR kl) M sl Sl -> close_sum Er (INR kr) M sr Sr ->
  E + El + Er <= 4 * (INR (N + 2) * INR k * M * bpow radix2 (-50)) ->
  let D := / 2 * sums_error sigma tau M N k in
  Rabs (exact_ratio sigma tau (INR k) (INR kl) (INR kr) (val s) (val sl) (val sr) - exact_ratio sigma tau (INR k) (INR kl) (INR kr) S Sl Sr) <= D /\
  ratio_size sigma tau (INR k) (INR kl) (INR kr) (val s) (val sl) (val sr) <= ratio_size sigma tau (INR k) (INR kl) (INR kr) S Sl Sr + D.
Proof.
  intros PM Ps Pt C Cl Cr EE D.
  pose proof (weight_diff0 sigma tau _ _ _ _ M Ps Pt PM C) as W. pose proof (weight_diff0 sigma tau _ _ _ _ M Ps Pt PM Cl) as Wl. pose proof (weight_diff0 sigma tau _ _ _ _ M Ps Pt PM Cr) as Wr.
  assert (T : 0 <= tau / (sigma * sigma)) by (apply Rmult_le_pos; [lra|apply Rlt_le, Rinv_0_lt_compat, Rmult_lt_0_compat; lra]).
  set (q := tau / (sigma * sigma)) in *. assert (MQ : 0 <= M * q) by (apply Rmult_le_pos; auto).
  assert (DD : 7 / 2 * E * M * q + 7 / 2 * El * M * q + 7 / 2 * Er * M * q <= D).
  { replace (7 / 2 * E * M * q + 7 / 2 * El * M * q + 7 / 2 * Er * M * q) with (7 / 2 * ((E + El + Er) * (M * q))) by field.
    assert (X : (E + El + Er) * (M * q) <= 4 * (INR (N + 2) * INR k * M * bpow radix2 (-50)) * (M * q)) by (apply Rmult_le_compat_r; auto).
    unfold D, sums_error. fold q. change (-45)%Z with (5 + -50)%Z. rewrite (bpow_plus radix2 5 (-50)). change (bpow radix2 5) with 32.
    set (t := bpow radix2 (-50)) in *. assert (0 < t) by apply bpow_gt_0. assert (0 <= INR (N + 2) * INR k * M * t * (M * q)).
    { apply Rmult_le_pos; [|exact MQ]. apply Rmult_le_pos; [|lra]. apply Rmult_le_pos; [|lra]. apply Rmult_le_pos; apply pos_INR. } lra. }
  unfold exact_ratio, ratio_size, sums_part. split.
  - match goal with |- Rabs ?x <= _ => replace x with ((weight sigma tau (INR kl) (val sl) - weight sigma tau (INR kl) Sl) + (weight sigma tau (INR kr) (val sr) - weight sigma tau (INR kr) Sr) - (weight sigma tau (INR k) (val s) - weight sigma tau (INR k) S)) by ring end.
    eapply Rle_trans; [apply Rabs_triang|]. rewrite Rabs_Ropp. eapply Rle_trans; [apply Rplus_le_compat_r, Rabs_triang|]. lra.
  - apply abs_interval in W. apply abs_interval in Wl. apply abs_interval in Wr. lra.
Qed.
Section Turn.
  Context (M : R) (j : nat) (rows : list frow) (alpha sigma tau : b64) (gr : bool) (sum : list bool -> b64).
  Hypothesis U : usual_rows M j rows.
  Hypothesis Hs : moderate sigma.
  Hypothesis Ht : moderate tau.
  Hypothesis Sum : forall mask, mask <> nil -> node_sum_f rows j mask (sum mask).
  Notation q c := (cut_sums_f gr sum c).
  Lemma mutation_usual c : usual_mutation rows c -> usual_cut sigma tau (q c).
  Proof using U Hs Ht Sum.
    intros Uc. destruct (mutation_close M j rows gr sum c U Uc Sum) as (E & El & Er & A & Al & Ar & _). destruct Uc as (L & Sh & Cn & Cl & Cr & Cc). pose proof U as (HM & _ & LN).
    assert (Lm : length (rc_left c) = length rows /\ length (rc_right c) = length rows). { destruct (rc_copy c); [destruct Sh as (-> & ->); auto|]. destruct Sh as (A1 & A2 & _). lia. }
    assert (MB : forall m, length m = length rows -> 0 <= INR (members m) <= bpow radix2 24).
    { intros m H. split; [apply pos_INR|]. eapply Rle_trans; [|exact LN]. apply le_INR. rewrite <- H. apply members_le. }
    pose proof (close_bound _ _ _ _ _ HM (MB _ L) A). pose proof (close_bound _ _ _ _ _ HM (MB _ (proj1 Lm)) Al). pose proof (close_bound _ _ _ _ _ HM (MB _ (proj2 Lm)) Ar).
    pose proof (proj1 A). pose proof (proj1 Al). pose proof (proj1 Ar).
    unfold usual_cut. split; [exact Hs|]. split; [exact Ht|]. split; [exists (members (rc_mask c)); exact Cn|]. split; [exists (members (rc_left c)); exact Cl|]. split; [exists (members (rc_right c)); exact Cr|].
    split; [exact Cc|]. auto 10.
  Qed.
  Lemma mutation_shift c : usual_mutation rows c ->
    Rabs (exact_cut sigma tau (q c) - of_rows rows j c (exact_ratio (val sigma) (val tau))) <= / 2 * sums_error (val sigma) (val tau) M (length rows) (members (rc_mask c)) /\
    cut_error alpha sigma tau (q c) + / 2 * sums_error (val sigma) (val tau) M (length rows) (members (rc_mask c)) <= mutation_error rows j M alpha sigma tau c.
  Proof using U Hs Ht Sum.
    intros Uc. destruct (mutation_close M j rows gr sum c U Uc Sum) as (E & El & Er & A & Al & Ar & EE). destruct Uc as (L & Sh & Cn & Cl & Cr & Cc). pose proof U as (HM & _ & LN).
    pose proof (moderate_pos _ Hs) as Ps. pose proof (moderate_pos _ Ht) as Pt.
    destruct (ratio_shift0 M (length rows) (val sigma) (val tau) _ _ _ _ _ _ _ _ _ E El Er (proj1 HM) Ps Pt A Al Ar EE) as (D1 & D2).
    pose proof (error_shift (val alpha) _ _ _ _ _ _ _ _ _ _ _ _ (sums_error_pos (val sigma) (val tau) M (length rows) (members (rc_mask c)) Ps Pt (proj1 HM)) D2) as ES.
    unfold exact_cut, cut_error, mutation_error, of_rows. change (fc_n (q c)) with (rc_n c). change (fc_nl (q c)) with (rc_nl c). change (fc_nr (q c)) with (rc_nr c).
    replace (val (rc_n c)) with (INR (members (rc_mask c))) by (symmetry; apply Cn). replace (val (rc_nl c)) with (INR (members (rc_left c))) by (symmetry; apply Cl). replace (val (rc_nr c)) with (INR (members (rc_right c))) by (symmetry; apply Cr).
    auto.
  Qed.
End Turn.
Lemma level_shift gr a b al be k x y : Rabs (exact_level gr a b al be k x - exact_level gr a b al be k y) = Rabs (x - y).
Proof. unfold exact_level. destruct gr; [f_equal; ring|rewrite <- Rabs_Ropp; f_equal; ring]. Qed.
Lemma turn_accuracy M j rows (gr : bool) sum alpha beta pgrow pprune sigma tau d dd depth cs r :
  usual_rows M j rows -> usual_settings alpha beta pgrow pprune -> moderate sigma -> moderate tau -> counts d (S depth) -> counts dd (S (S depth)) -> (depth <= 1022)%nat ->
  Forall (usual_mutation rows) cs -> INR (length cs) <= bpow radix2 52 -> (forall mask, mask <> nil -> node_sum_f rows j mask (sum mask)) ->
  ob_total_f gr alpha beta pgrow pprune sigma tau d dd (map (cut_sums_f gr sum) cs) r ->
  let exact c := exact_level gr (val pgrow) (val pprune) (val alpha) (val beta) depth (of_rows rows j c (exact_ratio (val sigma) (val tau))) in
  finite r /\ Rabs (val r - rtotal (map exact cs)) <=
    rtotal (map (mutation_error rows j M alpha sigma tau) cs) +
    INR (length cs) * bpow radix2 (-52) * rtotal (map (fun c => Rabs (exact c) + mutation_error rows j M alpha sigma tau c) cs).
Proof.
  intros U Us Hs Ht D1 D2 Dp Q L Sum T exact.
  assert (QU : Forall (usual_cut sigma tau) (map (cut_sums_f gr sum) cs)).
  { apply Forall_map. eapply Forall_impl; [|exact Q]. intros c Hc. now apply (mutation_usual M j rows). }
  destruct (level_accuracy _ _ _ _ Us sigma tau _ _ _ D1 D2 Dp gr _ r QU ltac:(now rewrite map_length) T) as (F & E). split; [exact F|]. rewrite map_length in E.
  set (ex := fun q => exact_level gr (val pgrow) (val pprune) (val alpha) (val beta) depth (exact_cut sigma tau q)).
  assert (G : Rabs (rtotal (map ex (map (cut_sums_f gr sum) cs)) - rtotal (map exact cs)) + rtotal (map (cut_error alpha sigma tau) (map (cut_sums_f gr sum) cs)) <= rtotal (map (mutation_error rows j M alpha sigma tau) cs) /\
    rtotal (map (fun q => Rabs (ex q) + cut_error alpha sigma tau q) (map (cut_sums_f gr sum) cs)) <= rtotal (map (fun c => Rabs (exact c) + mutation_error rows j M alpha sigma tau c) cs)).
  { clear E T L QU. induction Q as [|c cs Hc _ IH]; unfold rtotal in *; cbn [map fold_right]; [rewrite Rminus_0_r, Rabs_R0; lra|].
    destruct IH as (I1 & I2). destruct (mutation_shift M j rows alpha sigma tau gr sum U Hs Ht Sum c Hc) as (A & B).
    pose proof (level_shift gr (val pgrow) (val pprune) (val alpha) (val beta) depth (exact_cut sigma tau (cut_sums_f gr sum c)) (of_rows rows j c (exact_ratio (val sigma) (val tau)))) as Sf.
    change (Rabs (ex (cut_sums_f gr sum c) - exact c) = Rabs (exact_cut sigma tau (cut_sums_f gr sum c) - of_rows rows j c (exact_ratio (val sigma) (val tau)))) in Sf. rewrite <- Sf in A. split.
    - match goal with |- Rabs (?a + ?b - (?c' + ?e)) + _ <= _ => replace (a + b - (c' + e)) with ((a - c') + (b - e)) by ring; pose proof (Rabs_triang (a - c') (b - e)) end. lra.
    - assert (Rabs (ex (cut_sums_f gr sum c)) <= Rabs (exact c) + Rabs (ex (cut_sums_f gr sum c) - exact c)).
      { replace (ex (cut_sums_f gr sum c)) with (exact c + (ex (cut_sums_f gr sum c) - exact c)) at 1 by ring. apply Rabs_triang. } lra. }
  destruct G as (G1 & G2). change (fr r) with (val r) in E. fold ex in E.
  match type of E with Rabs (_ - ?t) <= _ => change t with (rtotal (map ex (map (cut_sums_f gr sum) cs))) in E end.
  match type of E with _ <= _ + _ * rtotal ?t => change t with (map (fun q => Rabs (ex q) + cut_error alpha sigma tau q) (map (cut_sums_f gr sum) cs)) in E end.
  replace (val r - rtotal (map exact cs)) with ((val r - rtotal (map ex (map (cut_sums_f gr sum) cs))) + (rtotal (map ex (map (cut_sums_f gr sum) cs)) - rtotal (map exact cs))) by ring.
  eapply Rle_trans; [apply Rabs_triang|].
  assert (P : INR (length cs) * bpow radix2 (-52) * rtotal (map (fun q => Rabs (ex q) + cut_error alpha sigma tau q) (map (cut_sums_f gr sum) cs)) <=
    INR (length cs) * bpow radix2 (-52) * rtotal (map (fun c => Rabs (exact c) + mutation_error rows j M alpha sigma tau c) cs)).
  { apply Rmult_le_compat_l; [apply Rmult_le_pos; [apply pos_INR|apply bpow_ge_0]|exact G2]. } lra.
Qed.
