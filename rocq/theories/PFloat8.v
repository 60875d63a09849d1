(** Leaf draws outside the normal range, and the scale of the gamma draw. *)
From Coq Require Import ZArith Reals List Lra Lia Psatz Permutation.
From Flocq Require Import Core.Core IEEE754.BinarySingleNaN.
From Verif Require Import Base MFloat MFloat2 MFloat3 SpecDouble SpecDouble3 PFloat PFloat2 PFloat3 PFloat5 PFloat6 PFloat7.
Import ListNotations.
Local Open Scope R_scope.

(** ** numbers without a sign *)
Notation inf := (@B754_infinity 53 1024 false).
Definition up (x : b64) : Prop := x = inf \/ (fin x = true /\ @Bsign 53 1024 x = false).
Lemma up_pos x : up x -> 0 <= fr x.
Proof.
  intros [->|(F & S)]; [cbn; lra|]. destruct x as [s|s| |s m e b]; try discriminate; cbn [B2R]; [lra|]. cbn in S. subst s. apply F2R_ge_0. cbn. lia.
Qed.
Lemma up_of x : fin x = true -> 0 < fr x -> up x.
Proof.
  intros F P. right. split; auto. destruct x as [s|s| |[] m e b]; try discriminate; auto; cbn [B2R] in P; [lra|]. exfalso.
  assert (F2R (Float radix2 (cond_Zopp true (Z.pos m)) e) <= 0); [|lra]. apply F2R_le_0. cbn. lia.
Qed.
Lemma sf_inf (x : b64) : B2SF x = SpecFloat.S754_infinity false -> x = inf.
Proof. destruct x; cbn; intros H; try discriminate. injection H as ->. reflexivity. Qed.
Lemma up_add x y : up x -> up y -> up (fadd x y) /\ (fin (fadd x y) = true -> fin x = true /\ fin y = true /\ fr x <= fr (fadd x y) /\ fr y <= fr (fadd x y)).
Proof.
  intros U V. destruct U as [->|(F & S)].
  - assert (E : fadd inf y = inf) by (destruct V as [->|(G & T)]; [reflexivity|destruct y; try discriminate; reflexivity]). rewrite E. split; [now left|discriminate].
  - destruct V as [->|(G & T)].
    + assert (E : fadd x inf = inf) by (destruct x; try discriminate; reflexivity). rewrite E. split; [now left|discriminate].
    + assert (Px : 0 <= fr x) by (apply up_pos; right; auto). assert (Py : 0 <= fr y) by (apply up_pos; right; auto).
      pose proof (Bplus_correct 53 1024 prec64 emax64 mode_NE x y F G) as C.
      change (round radix2 (SpecFloat.fexp 53 1024) (round_mode mode_NE)) with rnd in C. fold (fadd x y) in C.
      destruct (Rlt_bool_spec (Rabs (rnd (fr x + fr y))) big) as [L|L].
      * destruct C as (A & B & D). split.
        -- right. split; auto. rewrite D, S, T. destruct (Rcompare_spec (fr x + fr y) 0); auto. lra.
        -- intros _. rewrite A. repeat split; auto; (apply Rle_trans with (rnd (fr x)); [rewrite rnd_id by apply fr_format; lra|apply rnd_le; lra])
             || (apply Rle_trans with (rnd (fr y)); [rewrite rnd_id by apply fr_format; lra|apply rnd_le; lra]).
      * destruct C as (C & _). rewrite S in C. cbn in C. apply sf_inf in C. rewrite C. split; [now left|discriminate].
Qed.
Lemma up_div x y : up x -> up y -> (fin x = true -> 0 < fr x \/ 0 < fr y \/ fin y = false) -> (fin x = true \/ fin y = true) -> up (fdiv x y).
Proof.
  intros [->|(F & S)] [->|(G & T)] H K.
  - destruct K; discriminate.
  - destruct y as [t|t| |t m e b]; try discriminate; cbn in T; subst t; now left.
  - destruct x as [s|s| |s m e b]; try discriminate; cbn in S; subst s; right; split; reflexivity.
  - assert (Y : 0 <= fr y) by (apply up_pos; right; auto). destruct (Req_dec (fr y) 0) as [Z|Z].
    + destruct (H F) as [P|[P|P]]; [|lra|congruence].
      destruct y as [t|t| |t m e b]; try discriminate.
      * cbn in T; subst t. destruct x as [s|s| |s m e b]; try discriminate; cbn in S; subst s; [cbn in P; lra|now left].
      * cbn in T; subst t. exfalso. revert Z. cbn [B2R]. pose proof (F2R_gt_0 radix2 (Float radix2 (cond_Zopp false (Z.pos m)) e) ltac:(cbn; lia)). lra.
    + pose proof (Bdiv_correct 53 1024 prec64 emax64 mode_NE x y Z) as C.
      change (round radix2 (SpecFloat.fexp 53 1024) (round_mode mode_NE)) with rnd in C. fold (fdiv x y) in C. rewrite S, T in C.
      destruct (Rlt_bool (Rabs (rnd (fr x / fr y))) big).
      * destruct C as (A & B & D). right. rewrite F in B. split; auto. apply D. destruct (fdiv x y); try discriminate; reflexivity.
      * left. apply sf_inf. exact C.
Qed.
Lemma up_inv x : up x -> up (fdiv fone x).
Proof. intros U. apply up_div; [right; split; reflexivity|exact U|intros _; left; rewrite one_val; lra|left; reflexivity]. Qed.
Lemma up_square x r : squares x r -> ~ nan x -> up r.
Proof.
  intros S N. destruct x; cbn [squares] in S; cbv zeta in S.
  - destruct S as [[[S _]|(S & T & _)] _]; [now left|right; auto].
  - now left.
  - exfalso. apply N. reflexivity.
  - destruct S as [[[S _]|(S & T & _)] _]; [now left|right; auto].
Qed.
Lemma counts_form x k : counts x k -> exists m e b, x = @B754_finite 53 1024 false m e b.
Proof.
  intros C. destruct (counts_between _ _ C) as (F & E & B). apply between_pos in B. rewrite <- E in B. destruct (up_of _ F B) as [->|(_ & S)]; [discriminate|].
  destruct x as [s|s| |s m e b]; try discriminate; [cbn in B; lra|]. cbn in S. subst s. eauto.
Qed.
Lemma counts_up x k : counts x k -> up x /\ fin x = true /\ 0 < fr x.
Proof. intros C. destruct (counts_between _ _ C) as (F & E & B). apply between_pos in B. rewrite <- E in B. auto using up_of. Qed.
Lemma up_root x r : roots x r -> up x -> fin x = true -> fin r = true.
Proof.
  intros S [->|(F & T)]; [discriminate|]. intros _. destruct x as [s|s| |s m e b]; try discriminate; cbn in T; subst s; cbn [roots] in S; [now subst r|apply S].
Qed.
Lemma inv_fin x L : up x -> 0 < L -> L <= bpow radix2 1000 -> bpow radix2 (-1000) <= L -> (fin x = true -> L <= fr x) -> fin (fdiv fone x) = true.
Proof.
  intros U P L1 L2 H. destruct U as [->|(F & S)]; [reflexivity|]. specialize (H F). destruct (fdiv_ok fone x eq_refl) as (_ & G); auto; [lra|]. rewrite one_val.
  assert (A : Rabs (1 / fr x) <= bpow radix2 1000).
  { rewrite Rabs_pos_eq by (unfold Rdiv; rewrite Rmult_1_l; left; apply Rinv_0_lt_compat; lra). unfold Rdiv. rewrite Rmult_1_l.
    replace (bpow radix2 1000) with (/ bpow radix2 (-1000)) by (rewrite <- bpow_opp; reflexivity). apply Rinv_le; [apply bpow_gt_0|lra]. }
  eapply Rle_lt_trans; [apply rnd_bound; [|exact A]; apply bpow_format; lia|apply bpow_lt; lia].
Qed.

(** ** whatever sigma is, the leaf's mean is shrunk *)
Lemma leaf_shrinks n nt s sigma sm b r k kt :
  counts n k -> counts nt kt -> finite s -> ~ nan sigma -> finite sm -> bpow radix2 (-200) <= val sm <= bpow radix2 200 ->
  leaf_draw_f n nt s sigma sm (B754_zero b) r ->
  finite r /\ Rabs (val r) <= Rabs (val (fdiv s n)) /\ 0 <= val s * val r.
Proof.
  unfold finite, val. intros Cn Ct Fs Ng Fm Bm (pv & s2 & rt & Sp & Ss & Sr & ->).
  destruct (near_square _ _ _ Sp Fm eq_refl Bm) as (Np & Fp). pose proof (near_pos _ _ _ Np) as Pp. pose proof (up_of _ Fp Pp) as Up.
  pose proof (up_square _ _ Ss Ng) as Us. destruct (counts_up _ _ Cn) as (Un & Fn & Pn). destruct (counts_up _ _ Ct) as (Ut & Ft & Pt).
  assert (Ul : up (fdiv s2 n)) by (apply up_div; auto).
  (* the factor *)
  assert (Hf : fin (fdiv pv (fadd (fdiv s2 n) pv)) = true /\ 0 <= fr (fdiv pv (fadd (fdiv s2 n) pv)) <= 1).
  { destruct (up_add _ _ Ul Up) as (Ud & Hd). destruct Ud as [E|(Fd & Sd)].
    - rewrite E. destruct pv as [s'|s'| |s' m e bb]; try discriminate; cbn; split; auto; lra.
    - destruct (Hd Fd) as (_ & _ & _ & D). set (D' := fadd (fdiv s2 n) pv) in *.
      assert (Q : 0 <= fr pv / fr D' <= 1).
      { split; [apply Rmult_le_pos; [lra|left; apply Rinv_0_lt_compat; lra]|]. apply (Rmult_le_reg_r (fr D')); [lra|]. unfold Rdiv. rewrite Rmult_assoc, Rinv_l by lra. lra. }
      apply rnd_unit in Q. destruct (fdiv_ok pv D' Fp) as (E & F); [lra|rewrite Rabs_pos_eq by lra; pose proof big_gt1; lra|]. rewrite E. auto. }
  destruct Hf as (Ff & Bf).
  (* the spread *)
  assert (Frt : fin rt = true).
  { assert (Uip : up (fdiv fone pv)) by (now apply up_inv).
    assert (Uil : up (fdiv fone (fdiv s2 n))) by (now apply up_inv).
    destruct (up_add _ _ Uip Uil) as (Us' & Hs).
    assert (Bip : between (-1000) 1000 (1 / (fr sm * fr sm))).
    { pose proof (between_mul _ _ _ _ _ _ Bm Bm) as Q. assert (B1 : between 0 0 1) by (unfold between; cbn; lra). pose proof (between_div _ _ _ _ _ _ B1 Q) as W. cbn in W. eapply between_weaken; [| |exact W]; lia. }
    destruct (near_fdiv 0 2 fone 1 pv _ near_one Np eq_refl) as (Nip & Fip); [lia|exact Bip|]. cbn [Nat.add] in Nip.
    assert (L : bpow radix2 (-800) <= fr (fdiv fone pv)).
    { destruct Nip as (_ & _ & W). pose proof (gk_2 3 ltac:(lia)) as G2. assert (V : bpow radix2 (-400) <= 1 / (fr sm * fr sm)).
      { pose proof (between_mul _ _ _ _ _ _ Bm Bm) as Q. assert (B1 : between 0 0 1) by (unfold between; cbn; lra). exact (proj1 (between_div _ _ _ _ _ _ B1 Q)). }
      destruct Nip as [_ _] || idtac. pose proof (near_pos _ _ _ Np). 
      assert (P : 0 <= fr (fdiv fone pv)) by (apply up_pos; auto). 
      destruct (near_fdiv 0 2 fone 1 pv _ near_one Np eq_refl) as ((_ & W1 & _) & _); [lia|exact Bip|]. cbn [Nat.add] in W1. pose proof (gk_ge 3).
      assert (bpow radix2 (-400) <= 2 * fr (fdiv fone pv)) by nra.
      assert (E : bpow radix2 (-399) = 2 * bpow radix2 (-400)) by (change (-399)%Z with (1 + -400)%Z; rewrite bpow_plus; reflexivity).
      assert (E' : bpow radix2 (-400) = 2 * bpow radix2 (-401)) by (change (-400)%Z with (1 + -401)%Z; rewrite bpow_plus; reflexivity).
      apply Rle_trans with (bpow radix2 (-401)); [apply bpow_le; lia|lra]. }
    assert (Fv : fin (leaf_var_f pv s2 n) = true).
    { unfold leaf_var_f. apply (inv_fin _ (bpow radix2 (-800))); auto; try (apply bpow_le; lia); [apply bpow_gt_0|]. intros F. destruct (Hs F) as (_ & _ & W & _). lra. }
    assert (Uv : up (leaf_var_f pv s2 n)).
    { unfold leaf_var_f. now apply up_inv. }
    assert (Uw : up (fdiv (leaf_var_f pv s2 n) nt)) by (apply up_div; auto).
    destruct (leaf_mean_ok _ _ _ Ct Fv) as (Fw & _). exact (up_root _ _ Sr Uw Fw). }
  (* the mean *)
  destruct (leaf_mean_ok s n k Cn Fs) as (Flm & Elm & _ & _ & Sg).
  unfold leaf_mean_f. set (lm := fdiv s n) in *. set (f := fdiv pv (fadd (fdiv s2 n) pv)) in *. clearbody lm f.
  assert (A : Rabs (fr lm * fr f) <= Rabs (fr lm)) by (rewrite Rabs_mult, (Rabs_pos_eq (fr f)) by lra; pose proof (Rabs_pos (fr lm)); nra).
  assert (R : Rabs (rnd (fr lm * fr f)) <= Rabs (fr lm)) by (apply rnd_bound; auto; apply generic_format_abs, fr_format).
  destruct (fmul_ok lm f Flm Ff) as (Em & Fme); [eapply Rle_lt_trans; [exact R|apply fr_lt]|].
  assert (Z : fin (fmul (B754_zero b) rt) = true /\ fr (fmul (B754_zero b) rt) = 0) by (destruct rt; try discriminate; split; reflexivity).
  destruct Z as (Fz & Ez). destruct (fadd_ok (fmul lm f) (fmul (B754_zero b) rt) Fme Fz) as (Er & Fr).
  { rewrite Ez, Rplus_0_r, rnd_id by apply fr_format. apply fr_lt. }
  rewrite Ez, Rplus_0_r, rnd_id in Er by apply fr_format. rewrite Er, Em. split; [exact Fr|split; [exact R|]].
  destruct (Rle_or_lt 0 (fr s)) as [H|H].
  - destruct (Req_dec (fr s) 0) as [H0|H0]; [rewrite H0; lra|]. assert (0 <= fr lm) by (apply (Rmult_le_reg_l (fr s)); lra). apply Rmult_le_pos; auto. rewrite <- rnd_0. apply rnd_le. apply Rmult_le_pos; lra.
  - assert (fr lm <= 0) by nra. assert (rnd (fr lm * fr f) <= 0); [|nra]. rewrite <- rnd_0. apply rnd_le. nra.
Qed.

Lemma square_small x r : squares x r -> finite x -> Rabs (val x) < bpow radix2 (-538) -> r = B754_zero false.
Proof.
  unfold finite, val. intros S F H. assert (Q : fr x * fr x < bpow radix2 (-1076)).
  { change (-1076)%Z with (-538 + -538)%Z. rewrite bpow_plus. apply Rabs_def2 in H. set (c := bpow radix2 (-538)) in *. assert (0 < (c - fr x) * (c + fr x)) by (apply Rmult_lt_0_compat; lra). lra. }
  destruct x; try discriminate; cbn [squares] in S; cbv zeta in S; apply S, Q.
Qed.
Lemma square_large x r : squares x r -> ~ nan x -> (finite x -> bpow radix2 512 <= Rabs (val x)) -> r = inf.
Proof.
  unfold finite, val. intros S N H. assert (Q : fin x = true -> bpow radix2 1024 <= fr x * fr x).
  { intros F. specialize (H F). replace (bpow radix2 1024) with (bpow radix2 512 * bpow radix2 512) by (now rewrite <- bpow_plus). replace (fr x * fr x) with (Rabs (fr x) * Rabs (fr x)) by (unfold Rabs; destruct (Rcase_abs (fr x)); ring).
    pose proof (bpow_gt_0 radix2 512). apply Rmult_le_compat; lra. }
  destruct x; cbn [squares] in S; cbv zeta in S; auto.
  - destruct S as [[[S _]|(_ & _ & S & _)] _]; auto. specialize (Q eq_refl). lra.
  - exfalso. apply N. reflexivity.
  - destruct S as [[[S _]|(_ & _ & S & _)] _]; auto. specialize (Q eq_refl). lra.
Qed.

(** ** no noise *)
Lemma leaf_no_noise n nt s sigma sm z r k kt :
  counts n k -> counts nt kt -> finite s -> finite sigma -> finite sm -> finite z ->
  Rabs (val sigma) < bpow radix2 (-538) -> bpow radix2 (-200) <= val sm <= bpow radix2 200 ->
  leaf_draw_f n nt s sigma sm z r -> finite r /\ val r = val (fdiv s n).
Proof.
  intros Cn Ct Fs Fg Fm Fz Bg Bm (pv & s2 & rt & Sp & Ss & Sr & ->). rewrite (square_small _ _ Ss Fg Bg) in *. clear s2 Ss.
  unfold finite, val in *. destruct (near_square _ _ _ Sp Fm eq_refl Bm) as (Np & Fp). pose proof (near_pos _ _ _ Np) as Pp.
  destruct (counts_form _ _ Cn) as (mn & en & bn & En). assert (El : fdiv (B754_zero false) n = B754_zero false) by (rewrite En; reflexivity).
  assert (Eil : fdiv fone (B754_zero false) = inf) by reflexivity.
  assert (Uip : up (fdiv fone pv)) by (apply up_inv; now apply up_of).
  assert (Es : fadd (fdiv fone pv) inf = inf) by (destruct Uip as [->|(F & _)]; [reflexivity|destruct (fdiv fone pv); try discriminate; reflexivity]).
  assert (Ev : leaf_var_f pv (B754_zero false) n = B754_zero false) by (unfold leaf_var_f; rewrite El, Eil, Es; reflexivity).
  rewrite Ev in Sr. destruct (counts_form _ _ Ct) as (mt & et & bt & Et). assert (Ew : fdiv (B754_zero false) nt = B754_zero false) by (rewrite Et; reflexivity).
  rewrite Ew in Sr. cbn [roots] in Sr. subst rt. unfold leaf_mean_f. rewrite El.
  destruct (fadd_ok (B754_zero false) pv eq_refl Fp) as (E1 & F1); [cbn [B2R]; rewrite Rplus_0_l, rnd_id by apply fr_format; apply fr_lt|].
  cbn [B2R] in E1. rewrite Rplus_0_l, rnd_id in E1 by apply fr_format.
  destruct (fdiv_ok pv (fadd (B754_zero false) pv) Fp) as (E2 & F2); [lra|rewrite E1; unfold Rdiv; rewrite Rinv_r, rnd_id, Rabs_R1 by (auto using one_format; lra); apply big_gt1|].
  rewrite E1 in E2. unfold Rdiv in E2. rewrite Rinv_r, rnd_id in E2 by (auto using one_format; lra).
  destruct (leaf_mean_ok s n k Cn Fs) as (Flm & _). set (lm := fdiv s n) in *. clearbody lm.
  destruct (fmul_ok lm _ Flm F2) as (E3 & F3); [rewrite E2, Rmult_1_r, rnd_id by apply fr_format; apply fr_lt|]. rewrite E2, Rmult_1_r, rnd_id in E3 by apply fr_format.
  assert (Z : fin (fmul z (B754_zero false)) = true /\ fr (fmul z (B754_zero false)) = 0) by (destruct z; try discriminate; split; reflexivity). destruct Z as (Fz' & Ez).
  destruct (fadd_ok _ _ F3 Fz') as (E4 & F4); [rewrite E3, Ez, Rplus_0_r, rnd_id by apply fr_format; apply fr_lt|]. rewrite E3, Ez, Rplus_0_r, rnd_id in E4 by apply fr_format. auto.
Qed.

(** ** only noise *)
Lemma leaf_only_noise n nt s sigma sm z r k kt :
  counts n k -> counts nt kt -> finite s -> ~ nan sigma -> (finite sigma -> bpow radix2 512 <= Rabs (val sigma)) -> finite sm -> finite z ->
  bpow radix2 (-200) <= val sm <= bpow radix2 200 -> Rabs (val z) <= bpow radix2 500 ->
  leaf_draw_f n nt s sigma sm z r ->
  finite r /\ Rabs (val r - val z * sqrt (val sm * val sm / INR kt)) <= bpow radix2 (-47) * (Rabs (val z) * sqrt (val sm * val sm / INR kt)) + bpow radix2 (-1075).
Proof.
  intros Cn Ct Fs Ng Bg Fm Fz Bm Bz (pv & s2 & rt & Sp & Ss & Sr & ->). rewrite (square_large _ _ Ss Ng Bg) in *. clear s2 Ss.
  unfold finite, val in *. destruct (near_square _ _ _ Sp Fm eq_refl Bm) as (Np & Fp). pose proof (near_pos _ _ _ Np) as Pp.
  destruct (counts_form _ _ Cn) as (mn & en & bn & En). assert (El : fdiv inf n = inf) by (rewrite En; reflexivity).
  assert (Eil : fdiv fone inf = B754_zero false) by reflexivity.
  pose proof (between_mul _ _ _ _ _ _ Bm Bm) as Bt2. cbn in Bt2. assert (B1 : between 0 0 1) by (unfold between; cbn; lra). pose proof (between_pos _ _ _ Bt2) as Pt2.
  pose proof (between_div _ _ _ _ _ _ B1 Bt2) as Bip. cbn in Bip. pose proof (between_pos _ _ _ Bip) as Pip.
  destruct (near_fdiv 0 2 fone 1 pv _ near_one Np eq_refl) as (Nip & Fip); [lia|eapply between_weaken; [| |exact Bip]; lia|]. cbn [Nat.add] in Nip.
  assert (As : fin (fadd (fdiv fone pv) (B754_zero false)) = true /\ fr (fadd (fdiv fone pv) (B754_zero false)) = fr (fdiv fone pv)).
  { destruct (fadd_ok (fdiv fone pv) (B754_zero false) Fip eq_refl) as (E & F); cbn [B2R] in *; rewrite ?Rplus_0_r, ?rnd_id in * by apply fr_format; auto using fr_lt. }
  destruct As as (Fsum & Esum).
  unfold leaf_var_f in Sr. rewrite El, Eil in Sr. set (sm' := fadd (fdiv fone pv) (B754_zero false)) in *. rewrite <- Esum in Nip. clearbody sm'.
  pose proof (between_div _ _ _ _ _ _ B1 Bip) as Bv. cbn in Bv.
  destruct (near_fdiv 0 3 fone 1 _ _ near_one Nip eq_refl) as (Nv & Fv); [lia|eapply between_weaken; [| |exact Bv]; lia|].
  destruct (counts_between _ _ Ct) as (Ft & Et & Bkt). pose proof (between_pos _ _ _ Bkt) as Pkt. assert (Nt : near 0 (fr nt) (INR kt)) by (rewrite Et; now apply near_refl).
  pose proof (between_div _ _ _ _ _ _ Bv Bkt) as Bw. cbn in Bw.
  destruct (near_fdiv 4 0 _ _ nt (INR kt) Nv Nt Fv) as (Nw & Fw); [lia|eapply between_weaken; [| |exact Bw]; lia|].
  assert (E : 1 / (1 / (fr sm * fr sm)) / INR kt = fr sm * fr sm / INR kt) by (assert (0 < fr sm) by exact (between_pos _ _ _ Bm); field; split; lra). rewrite E in Nw, Bw.
  destruct (near_root 3 _ _ _ Sr (near_weaken 5 6 _ _ ltac:(lia) Nw) Fw) as (Nr & Fr). cbn [Nat.add] in Nr.
  set (V := fr sm * fr sm / INR kt) in *.
  pose proof (near_abs 5 _ _ (small_count 5 ltac:(lia)) Nr) as Er. replace (INR (2 * 5)) with 10 in Er by (cbn; lra).
  assert (PV : 0 < sqrt V) by (destruct Nr as [Nr _]; exact Nr). pose proof u_pos as U. pose proof u_small as US. pose proof d52_u as D.
  set (w := fr z * sqrt V) in *. pose proof (Rabs_pos w) as Pw.
  assert (Aw : Rabs w = Rabs (fr z) * sqrt V) by (unfold w; rewrite Rabs_mult, (Rabs_pos_eq (sqrt V)); lra).
  assert (Ez : Rabs (fr z - fr z) <= 0 * Rabs (fr z) + 0) by (replace (fr z - fr z) with 0 by ring; rewrite Rabs_R0; lra).
  assert (Er' : Rabs (fr rt - sqrt V) <= 20 * u * Rabs (sqrt V)) by (rewrite (Rabs_pos_eq (sqrt V)) by lra; rewrite D in Er; lra).
  pose proof (product_err (fr z) (fr z) 0 0 (fr rt) (sqrt V) (20 * u) Ez Er' ltac:(lra) ltac:(lra) ltac:(lra)) as P2. fold w in P2.
  assert (P2' : Rabs (fr z * fr rt - w) <= 20 * u * Rabs w) by (eapply Rle_trans; [exact P2|]; lra).
  assert (Bw' : Rabs w <= bpow radix2 1000).
  { rewrite Aw. assert (S : sqrt V <= bpow radix2 450). { rewrite <- (sqrt_square (bpow radix2 450)) by apply bpow_ge_0. apply sqrt_le_1_alt. rewrite <- bpow_plus. eapply Rle_trans; [apply Bw|]. apply bpow_le; lia. }
    eapply Rle_trans; [apply Rmult_le_compat; [apply Rabs_pos|lra|exact Bz|exact S]|]. rewrite <- bpow_plus. apply bpow_le. lia. }
  pose proof (rnd_step (fr z * fr rt) w (20 * u * Rabs w) tiny P2' (any_err _)) as R2.
  assert (B2 : bpow radix2 1001 = 2 * bpow radix2 1000) by (change 1001%Z with (1 + 1000)%Z; rewrite bpow_plus; reflexivity).
  assert (O2 : Rabs (rnd (fr z * fr rt)) < big).
  { apply (rnd_fits _ w (20 * u * Rabs w) 1001); auto; try lia. rewrite B2. nra. }
  destruct (fmul_ok z rt Fz Fr O2) as (E2 & Fnoise). rewrite <- E2 in R2.
  destruct (leaf_mean_ok s n k Cn Fs) as (Flm & _).
  assert (Hm : fin (leaf_mean_f pv inf n s) = true /\ fr (leaf_mean_f pv inf n s) = 0).
  { unfold leaf_mean_f. rewrite El. replace (fadd inf pv) with inf by (destruct pv; try discriminate; reflexivity).
    assert (Q : exists sg, fdiv pv inf = B754_zero sg) by (destruct pv; try discriminate; eexists; reflexivity). destruct Q as (sg & ->).
    destruct (fdiv s n); try discriminate; split; reflexivity. }
  destruct Hm as (Fme & Eme).
  destruct (fadd_ok _ _ Fme Fnoise) as (E3 & F3); [rewrite Eme, Rplus_0_l, rnd_id by apply fr_format; apply fr_lt|].
  rewrite Eme, Rplus_0_l, rnd_id in E3 by apply fr_format. split; [exact F3|]. rewrite E3, <- Aw. fold tiny.
  eapply Rle_trans; [exact R2|]. pose proof (grow 20 (Rabs w) 0 tiny ltac:(lra) ltac:(lra) ltac:(lra)).
  assert (E47 : bpow radix2 (-47) = 64 * u) by (change (-47)%Z with (6 + -53)%Z; rewrite bpow_plus; reflexivity). rewrite E47. assert (0 <= u * Rabs w) by (apply Rmult_le_pos; lra). lra.
Qed.

(** ** NaN *)
Lemma leaf_nan n nt s sigma sm z r : nan s \/ nan sigma \/ nan z -> leaf_draw_f n nt s sigma sm z r -> nan r.
Proof.
  intros H (pv & s2 & rt & Sp & Ss & Sr & ->). destruct H as [H|[H|H]].
  - destruct s; try discriminate. unfold leaf_mean_f. replace (fdiv B754_nan n) with (@B754_nan 53 1024) by reflexivity. reflexivity.
  - destruct sigma; try discriminate. cbn [squares] in Ss. subst s2. unfold leaf_mean_f. replace (fdiv B754_nan n) with (@B754_nan 53 1024) by reflexivity. replace (fadd B754_nan pv) with (@B754_nan 53 1024) by reflexivity.
    replace (fdiv pv B754_nan) with (@B754_nan 53 1024) by (destruct pv; reflexivity). replace (fmul (fdiv s n) B754_nan) with (@B754_nan 53 1024) by (destruct (fdiv s n); reflexivity). reflexivity.
  - destruct z; try discriminate. replace (fmul B754_nan rt) with (@B754_nan 53 1024) by reflexivity. destruct (leaf_mean_f pv s2 n s); reflexivity.
Qed.
Lemma leaf_both_vanish n nt s sigma sm z r k : counts n k -> finite sigma -> finite sm -> Rabs (val sigma) < bpow radix2 (-538) -> Rabs (val sm) < bpow radix2 (-538) ->
  leaf_draw_f n nt s sigma sm z r -> nan r.
Proof.
  intros Cn Fg Fm Bg Bm (pv & s2 & rt & Sp & Ss & Sr & ->). rewrite (square_small _ _ Ss Fg Bg), (square_small _ _ Sp Fm Bm). unfold leaf_mean_f.
  destruct (counts_form _ _ Cn) as (mn & en & bn & En). replace (fdiv (B754_zero false) n) with (@B754_zero 53 1024 false) by (rewrite En; reflexivity).
  replace (fdiv (B754_zero false) (fadd (B754_zero false) (B754_zero false))) with (@B754_nan 53 1024) by reflexivity.
  destruct (fdiv s n); reflexivity.
Qed.
