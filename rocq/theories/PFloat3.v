(** Sums in double precision. *)
From Coq Require Import ZArith Reals List Lra Lia Psatz Permutation.
From Flocq Require Import Core.Core IEEE754.BinarySingleNaN.
From Verif Require Import Base MFloat MFloat2 SpecDouble PFloat PFloat2.
Import ListNotations.
Local Open Scope R_scope.

Definition eps (n : nat) : R := (1 + u) ^ n - 1.
Lemma eps_0 : eps 0 = 0.
Proof. unfold eps. cbn. ring. Qed.
Lemma eps_S n : eps (S n) = (1 + u) * eps n + u.
Proof. unfold eps. cbn [pow]. ring. Qed.
Lemma eps_pos n : 0 <= eps n.
Proof. induction n as [|n IH]; [rewrite eps_0; lra|]. rewrite eps_S. pose proof u_pos. nra. Qed.
Lemma eps_mono n m : (n <= m)%nat -> eps n <= eps m.
Proof.
  induction 1 as [|m _ IH]; [lra|]. rewrite eps_S. pose proof (eps_pos m). pose proof u_pos. nra.
Qed.
Lemma two_u : bpow radix2 (-52) = 2 * u.
Proof. symmetry. apply (twice (-53)). Qed.
Lemma eps_le n : INR n <= bpow radix2 52 -> eps n <= INR n * bpow radix2 (-52).
Proof.
  intros H. rewrite two_u. pose proof u_pos as Up.
  assert (U : 2 * u * bpow radix2 52 = 1).
  { rewrite <- two_u, <- bpow_plus. reflexivity. }
  induction n as [|n IH]; [rewrite eps_0; cbn; lra|].
  rewrite S_INR in *. specialize (IH ltac:(lra)). rewrite eps_S.
  assert (INR n * (2 * u) <= 1) by (rewrite <- U; pose proof (pos_INR n); nra).
  assert (eps n <= 1) by lra. nra.
Qed.
Lemma eps_1 n : INR n <= bpow radix2 52 -> eps n <= 1.
Proof.
  intros H. pose proof (eps_le n H) as E. eapply Rle_trans; [exact E|].
  replace 1 with (bpow radix2 52 * bpow radix2 (-52)) by (rewrite <- bpow_plus; reflexivity).
  apply Rmult_le_compat_r; [apply bpow_ge_0|exact H].
Qed.

Lemma total_app a b : total (a ++ b) = total a + total b.
Proof. unfold total. rewrite map_app. induction (map val a) as [|x l IH]; cbn; [lra|]. rewrite IH. lra. Qed.
Lemma size_app a b : size (a ++ b) = size a + size b.
Proof. unfold size. rewrite map_app. induction (map (fun x => Rabs (val x)) a) as [|x l IH]; cbn; [lra|]. rewrite IH. lra. Qed.
Lemma total_perm a b : Permutation a b -> total a = total b.
Proof. unfold total. induction 1; cbn; lra. Qed.
Lemma size_perm a b : Permutation a b -> size a = size b.
Proof. unfold size. induction 1; cbn; lra. Qed.
Lemma size_pos a : 0 <= size a.
Proof. unfold size. induction a as [|x l IH]; cbn; [lra|]. pose proof (Rabs_pos (val x)). lra. Qed.
Lemma total_size a : Rabs (total a) <= size a.
Proof.
  unfold total, size. induction a as [|x l IH]; cbn; [rewrite Rabs_R0; lra|].
  eapply Rle_trans; [apply Rabs_triang|]. lra.
Qed.

(** the relative error of adding up, in any order *)
Lemma sums_err l s : sums l s -> Forall finite l -> size l <= bpow radix2 1000 ->
  INR (length l) <= bpow radix2 52 ->
  finite s /\ Rabs (val s - total l) <= size l * eps (length l - 1).
Proof.
  induction 1 as [|x|l1 l2 l s1 s2 N1 N2 S1 IH1 S2 IH2 P]; intros Fl Sz Ln.
  - split; [reflexivity|]. unfold total, size, val. cbn. rewrite Rminus_0_r, Rabs_R0. lra.
  - inversion Fl; subst. split; [assumption|]. unfold total. cbn [map fold_right length Nat.sub].
    replace (val x - (val x + 0)) with 0 by ring. rewrite Rabs_R0, eps_0. lra.
  - rewrite <- (size_perm _ _ P) in *. rewrite <- (total_perm _ _ P). rewrite <- (Permutation_length P) in *.
    rewrite size_app, total_app in *. rewrite app_length in *.
    apply (Permutation_Forall (Permutation_sym P)) in Fl. apply Forall_app in Fl as (F1 & F2).
    pose proof (size_pos l1) as P1. pose proof (size_pos l2) as P2. rewrite plus_INR in Ln.
    pose proof (pos_INR (length l1)). pose proof (pos_INR (length l2)).
    destruct (IH1 F1 ltac:(lra) ltac:(lra)) as (Fs1 & E1). destruct (IH2 F2 ltac:(lra) ltac:(lra)) as (Fs2 & E2).
    assert (L1 : (1 <= length l1)%nat) by (destruct l1; [congruence|cbn; lia]).
    assert (L2 : (1 <= length l2)%nat) by (destruct l2; [congruence|cbn; lia]).
    set (n := (length l1 + length l2)%nat) in *.
    assert (Ln' : INR n <= bpow radix2 52) by (unfold n; rewrite plus_INR; lra).
    set (e := eps (n - 2)).
    assert (M1 : eps (length l1 - 1) <= e) by (apply eps_mono; unfold n; lia).
    assert (M2 : eps (length l2 - 1) <= e) by (apply eps_mono; unfold n; lia).
    assert (E1' : Rabs (val s1 - total l1) <= size l1 * e) by (eapply Rle_trans; [exact E1|]; apply Rmult_le_compat_l; lra).
    assert (E2' : Rabs (val s2 - total l2) <= size l2 * e) by (eapply Rle_trans; [exact E2|]; apply Rmult_le_compat_l; lra).
    assert (e1 : e <= 1).
    { apply (Rle_trans _ (eps n)); [apply eps_mono; unfold n; lia|]. apply eps_1, Ln'. }
    set (A := size l1 + size l2) in *.
    assert (D : Rabs (val s1 + val s2 - (total l1 + total l2)) <= A * e).
    { replace (val s1 + val s2 - (total l1 + total l2)) with ((val s1 - total l1) + (val s2 - total l2)) by ring.
      eapply Rle_trans; [apply Rabs_triang|]. unfold A. lra. }
    assert (T : Rabs (total l1 + total l2) <= A).
    { eapply Rle_trans; [apply Rabs_triang|]. unfold A. pose proof (total_size l1). pose proof (total_size l2). lra. }
    assert (X : Rabs (val s1 + val s2) <= A + A * e).
    { replace (val s1 + val s2) with ((total l1 + total l2) + (val s1 + val s2 - (total l1 + total l2))) by ring.
      eapply Rle_trans; [apply Rabs_triang|]. lra. }
    assert (Ap : 0 <= A) by (unfold A; lra).
    assert (X2 : Rabs (val s1 + val s2) <= bpow radix2 1001).
    { replace (bpow radix2 1001) with (2 * bpow radix2 1000) by apply twice. nra. }
    destruct (fadd_ok s1 s2 Fs1 Fs2) as (V & Fs).
    + eapply Rle_lt_trans; [apply rnd_bound; [|exact X2]; apply bpow_format; lia|]. apply bpow_lt. lia.
    + split; [exact Fs|]. unfold val at 1. rewrite V. fold (val s1) (val s2).
      pose proof (add_err (val s1) (val s2) (fr_format _) (fr_format _)) as R.
      replace (rnd (val s1 + val s2) - (total l1 + total l2))
        with ((rnd (val s1 + val s2) - (val s1 + val s2)) + (val s1 + val s2 - (total l1 + total l2))) by ring.
      eapply Rle_trans; [apply Rabs_triang|].
      replace (n - 1)%nat with (S (n - 2)) by (unfold n; lia). rewrite eps_S. fold e.
      pose proof u_pos. assert (u * Rabs (val s1 + val s2) <= u * (A + A * e)) by (apply Rmult_le_compat_l; lra).
      nra.
Qed.

Lemma within_size B l : within B l -> size l <= INR (length l) * B.
Proof.
  intros H. induction H as [|x l (_ & Hx) _ IH]; [cbn; unfold size; cbn; lra|].
  unfold size in *. cbn [map fold_right length]. rewrite S_INR. lra.
Qed.
Lemma within_finite B l : within B l -> Forall finite l.
Proof. intros H. eapply Forall_impl; [|exact H]. cbn. tauto. Qed.

(** the running prediction *)
Lemma Forall_firstn (P : b64 -> Prop) j l : Forall P l -> Forall P (firstn j l).
Proof. revert l. induction j as [|j IH]; intros l H; [constructor|]. destruct H; constructor; auto. Qed.
Lemma Forall_skipn (P : b64 -> Prop) j l : Forall P l -> Forall P (skipn j l).
Proof. revert l. induction j as [|j IH]; intros l H; [exact H|]. destruct H; [constructor|]. apply IH. assumption. Qed.
Lemma split_at j (vs : list b64) d : (j < length vs)%nat -> vs = firstn j vs ++ nth j vs d :: skipn (S j) vs.
Proof.
  revert vs. induction j as [|j IH]; intros [|v vs] H; cbn in H; try lia; [reflexivity|].
  cbn [firstn nth app]. f_equal. apply IH. lia.
Qed.
Lemma set_at_length j x vs : (j < length vs)%nat -> length (set_at j x vs) = length vs.
Proof.
  intros H. rewrite (split_at j vs x H) at 2. unfold set_at. rewrite !app_length. reflexivity.
Qed.
Notation others := all_but (only parsing).
Lemma total_cons x l : total (x :: l) = val x + total l.
Proof. reflexivity. Qed.
Lemma others_total j vs d : (j < length vs)%nat -> total vs = others j vs + val (nth j vs d).
Proof.
  intros H. rewrite (split_at j vs d H) at 1. rewrite total_app, total_cons. unfold all_but. lra.
Qed.
Lemma others_set j x vs : total (set_at j x vs) = others j vs + val x.
Proof. unfold set_at. rewrite total_app, total_cons. unfold all_but. lra. Qed.
Lemma within_set B j x vs : within B vs -> finite x -> Rabs (val x) <= B -> within B (set_at j x vs).
Proof.
  intros H Fx Hx. unfold set_at, within. apply Forall_app. split; [apply Forall_firstn, H|].
  constructor; [split; assumption|]. apply Forall_skipn, H.
Qed.
Lemma within_nth B j vs d : within B vs -> (j < length vs)%nat -> finite (nth j vs d) /\ Rabs (val (nth j vs d)) <= B.
Proof. intros H L. apply (proj1 (Forall_forall _ _) H). apply nth_In, L. Qed.
Lemma others_small B j vs : 0 <= B -> within B vs -> (j < length vs)%nat -> Rabs (others j vs) + B <= INR (length vs) * B.
Proof.
  intros Bp H L. unfold all_but.
  pose proof (total_size (firstn j vs)) as T1. pose proof (total_size (skipn (S j) vs)) as T2.
  pose proof (within_size B (firstn j vs) (Forall_firstn _ _ _ H)) as W1.
  pose proof (within_size B (skipn (S j) vs) (Forall_skipn _ _ _ H)) as W2.
  pose proof (Rabs_triang (total (firstn j vs)) (total (skipn (S j) vs))).
  rewrite firstn_length, Nat.min_l in W1 by lia. rewrite skipn_length in W2.
  replace (INR (length vs)) with (INR j + (INR (length vs - S j) + 1)).
  - nra.
  - rewrite <- S_INR, <- plus_INR. f_equal. lia.
Qed.

Section Drift.
  Variables (B : R) (n : nat).
  Hypothesis Bp : 0 <= B.
  Hypothesis Sz : INR n * B <= bpow radix2 1000.
  Let N := INR n * B.

  Definition drift_inv (K : nat) (st : b64 * list b64) : Prop :=
    let (p, vs) := st in
    finite p /\ length vs = n /\ within B vs /\ Rabs (val p - total vs) <= N * eps K.

  Lemma taken_off K p vs j : drift_inv K (p, vs) -> (j < n)%nat -> INR (S K) <= bpow radix2 52 ->
    let p1 := fsub p (nth j vs (B754_zero false)) in
    finite p1 /\ Rabs (val p1 - others j vs) <= N * eps (S K).
  Proof.
    intros (Fp & L & W & E) Hj HK. cbv zeta. set (v := nth j vs (B754_zero false)).
    rewrite <- L in Hj. destruct (within_nth B j vs (B754_zero false) W Hj) as (Fv & Bv). fold v in Fv, Bv.
    pose proof (others_small B j vs Bp W Hj) as O. rewrite L in O. fold N in O.
    rewrite (others_total j vs (B754_zero false) Hj) in E. fold v in E.
    pose proof (eps_pos K) as EK. pose proof u_pos as Up.
    assert (E1 : eps K <= 1) by (apply eps_1; rewrite S_INR in HK; lra).
    assert (Np : 0 <= N) by (pose proof (Rabs_pos (others j vs)); lra).
    assert (X : Rabs (val p - val v) <= N + N * eps K).
    { replace (val p - val v) with (others j vs + (val p - (others j vs + val v))) by ring.
      eapply Rle_trans; [apply Rabs_triang|]. lra. }
    assert (X2 : Rabs (val p - val v) <= bpow radix2 1001).
    { replace (bpow radix2 1001) with (2 * bpow radix2 1000) by apply twice. fold N in Sz. nra. }
    destruct (fsub_ok p v Fp Fv) as (V & F1).
    { eapply Rle_lt_trans; [apply rnd_bound; [|exact X2]; apply bpow_format; lia|]. apply bpow_lt. lia. }
    split; [exact F1|]. unfold val at 1. rewrite V. fold (val p) (val v).
    pose proof (sub_err (val p) (val v) (fr_format _) (fr_format _)) as R.
    replace (rnd (val p - val v) - others j vs)
      with ((rnd (val p - val v) - (val p - val v)) + (val p - (others j vs + val v))) by ring.
    eapply Rle_trans; [apply Rabs_triang|]. rewrite eps_S.
    assert (u * Rabs (val p - val v) <= u * (N + N * eps K)) by (apply Rmult_le_compat_l; lra).
    nra.
  Qed.

  Lemma drift_step K st j new : drift_inv K st -> (j < n)%nat -> finite new -> Rabs (val new) <= B ->
    INR (S (S K)) <= bpow radix2 52 -> drift_inv (S (S K)) (refresh_f st (j, new)).
  Proof.
    destruct st as (p, vs). intros I Hj Fn Bn HK.
    assert (HK' : INR (S K) <= bpow radix2 52) by (rewrite (S_INR (S K)) in HK; lra).
    destruct (taken_off K p vs j I Hj HK') as (F1 & E1).
    destruct I as (Fp & L & W & _).
    unfold refresh_f. cbv zeta. set (p1 := fsub p (nth j vs (B754_zero false))) in *.
    assert (Hj' : (j < length vs)%nat) by lia.
    pose proof (others_small B j vs Bp W Hj') as O. rewrite L in O. fold N in O.
    pose proof (eps_pos (S K)) as EK. pose proof u_pos as Up.
    pose proof (eps_1 (S K) HK') as E1'.
    assert (Np : 0 <= N) by (pose proof (Rabs_pos (others j vs)); lra).
    assert (X : Rabs (val p1 + val new) <= N + N * eps (S K)).
    { replace (val p1 + val new) with ((others j vs + val new) + (val p1 - others j vs)) by ring.
      eapply Rle_trans; [apply Rabs_triang|]. pose proof (Rabs_triang (others j vs) (val new)). lra. }
    assert (X2 : Rabs (val p1 + val new) <= bpow radix2 1001).
    { replace (bpow radix2 1001) with (2 * bpow radix2 1000) by apply twice. fold N in Sz. nra. }
    destruct (fadd_ok p1 new F1 Fn) as (V & F2).
    { eapply Rle_lt_trans; [apply rnd_bound; [|exact X2]; apply bpow_format; lia|]. apply bpow_lt. lia. }
    split; [exact F2|]. split; [rewrite set_at_length; assumption|].
    split; [apply within_set; assumption|]. rewrite others_set.
    unfold val at 1. rewrite V. fold (val p1) (val new).
    pose proof (add_err (val p1) (val new) (fr_format _) (fr_format _)) as R.
    replace (rnd (val p1 + val new) - (others j vs + val new))
      with ((rnd (val p1 + val new) - (val p1 + val new)) + (val p1 - others j vs)) by ring.
    eapply Rle_trans; [apply Rabs_triang|]. rewrite (eps_S (S K)).
    assert (u * Rabs (val p1 + val new) <= u * (N + N * eps (S K))) by (apply Rmult_le_compat_l; lra).
    nra.
  Qed.

  Lemma drift_run ops : forall K st, drift_inv K st ->
    Forall (fun op => (fst op < n)%nat /\ finite (snd op) /\ Rabs (val (snd op)) <= B) ops ->
    INR (K + 2 * length ops) <= bpow radix2 52 ->
    drift_inv (K + 2 * length ops) (refreshes_f st ops).
  Proof.
    induction ops as [|(j, new) ops IH]; intros K st I H HK.
    - cbn [length refreshes_f fold_left]. rewrite Nat.mul_0_r, Nat.add_0_r. exact I.
    - inversion H as [|? ? (H1 & H2 & H3) H']; subst. cbn [fst snd] in *.
      unfold refreshes_f. cbn [fold_left length] in *.
      replace (K + 2 * S (length ops))%nat with (S (S K) + 2 * length ops)%nat in * by lia.
      apply IH; [|exact H'|exact HK]. apply drift_step; try assumption.
      eapply Rle_trans; [|exact HK]. apply le_INR. lia.
  Qed.

  Lemma handed_err K y p vs j : drift_inv K (p, vs) -> (j < n)%nat -> finite y -> Rabs (val y) <= bpow radix2 1000 ->
    INR (S (S K)) <= bpow radix2 52 ->
    finite (handed_f y (p, vs) j) /\
    Rabs (val (handed_f y (p, vs) j) - (val y - others j vs)) <= N * eps (S (S K)) + u * Rabs (val y).
  Proof.
    intros I Hj Fy By HK.
    assert (HK' : INR (S K) <= bpow radix2 52) by (rewrite (S_INR (S K)) in HK; lra).
    destruct (taken_off K p vs j I Hj HK') as (F1 & E1).
    destruct I as (Fp & L & W & _).
    unfold handed_f. cbn [fst snd]. set (p1 := fsub p (nth j vs (B754_zero false))) in *.
    assert (Hj' : (j < length vs)%nat) by lia.
    pose proof (others_small B j vs Bp W Hj') as O. rewrite L in O. fold N in O.
    pose proof (eps_pos (S K)) as EK. pose proof u_pos as Up.
    pose proof (eps_1 (S K) HK') as E1'.
    assert (Np : 0 <= N) by (pose proof (Rabs_pos (others j vs)); lra).
    assert (X : Rabs (val y - val p1) <= Rabs (val y) + (N + N * eps (S K))).
    { replace (val y - val p1) with (val y + (- others j vs + - (val p1 - others j vs))) by ring.
      eapply Rle_trans; [apply Rabs_triang|].
      pose proof (Rabs_triang (- others j vs) (- (val p1 - others j vs))). rewrite !Rabs_Ropp in *. lra. }
    assert (X2 : Rabs (val y - val p1) <= bpow radix2 1002).
    { replace (bpow radix2 1002) with (2 * (2 * bpow radix2 1000)) by (rewrite (twice 1000); apply twice).
      fold N in Sz. assert (N * eps (S K) <= N * 1) by (apply Rmult_le_compat_l; lra).
      pose proof (bpow_gt_0 radix2 1000). lra. }
    destruct (fsub_ok y p1 Fy F1) as (V & F2).
    { eapply Rle_lt_trans; [apply rnd_bound; [|exact X2]; apply bpow_format; lia|]. apply bpow_lt. lia. }
    split; [exact F2|]. unfold val at 1. rewrite V. fold (val y) (val p1).
    pose proof (sub_err (val y) (val p1) (fr_format _) (fr_format _)) as R.
    replace (rnd (val y - val p1) - (val y - others j vs))
      with ((rnd (val y - val p1) - (val y - val p1)) + - (val p1 - others j vs)) by ring.
    eapply Rle_trans; [apply Rabs_triang|]. rewrite Rabs_Ropp, (eps_S (S K)).
    assert (u * Rabs (val y - val p1) <= u * (Rabs (val y) + (N + N * eps (S K)))) by (apply Rmult_le_compat_l; lra).
    nra.
  Qed.
End Drift.

Lemma drift_start B vs p : 0 <= B -> within B vs -> INR (length vs) * B <= bpow radix2 1000 ->
  INR (length vs) <= bpow radix2 52 -> sums vs p -> drift_inv B (length vs) (length vs) (p, vs).
Proof.
  intros Bp W Sz Ln S. pose proof (within_size B vs W) as Z.
  destruct (sums_err vs p S (within_finite B vs W) ltac:(lra) Ln) as (Fp & E).
  split; [exact Fp|]. split; [reflexivity|]. split; [exact W|].
  eapply Rle_trans; [exact E|]. pose proof (size_pos vs). pose proof (eps_pos (length vs - 1)).
  apply Rmult_le_compat; try assumption. apply eps_mono. lia.
Qed.
