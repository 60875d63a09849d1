(** Exact arithmetic on a grid. *)
From Coq Require Import ZArith Reals List Lra Lia Psatz Permutation.
From Flocq Require Import Core.Core IEEE754.BinarySingleNaN.
From Verif Require Import Base MFloat MFloat2 SpecDouble PFloat PFloat2 PFloat3.
Import ListNotations.
Local Open Scope R_scope.

Definition gridded (g : Z) (x : R) : Prop := exists m : Z, x = IZR m * bpow radix2 g.
Lemma gridded_add g x y : gridded g x -> gridded g y -> gridded g (x + y).
Proof. intros (m & ->) (k & ->). exists (m + k)%Z. rewrite plus_IZR. ring. Qed.
Lemma gridded_sub g x y : gridded g x -> gridded g y -> gridded g (x - y).
Proof. intros (m & ->) (k & ->). exists (m - k)%Z. rewrite minus_IZR. ring. Qed.
Lemma gridded_format g x : (-1074 <= g)%Z -> gridded g x -> Rabs x < bpow radix2 (g + 53) -> F64 x.
Proof.
  intros G (m & E) H. apply generic_format_FLT. exists (Float radix2 m g).
  - exact E.
  - cbn [Fnum]. rewrite E, Rabs_mult, (Rabs_pos_eq (bpow radix2 g)) in H by apply bpow_ge_0.
    rewrite Z.add_comm, bpow_plus in H. apply Rmult_lt_reg_r in H; [|apply bpow_gt_0].
    apply lt_IZR. rewrite abs_IZR. rewrite <- (IZR_Zpower radix2 53) in H by lia. exact H.
  - exact G.
Qed.
Lemma total_grid g l : Forall (multiple g) l -> gridded g (total l).
Proof.
  intros H. induction H as [|x l Hx _ IH].
  - exists 0%Z. unfold total. cbn. ring.
  - rewrite total_cons. apply gridded_add; assumption.
Qed.

Section Grid.
  Variables (g : Z) (B d : R) (n : nat).
  Hypothesis Glo : (-1074 <= g)%Z.
  Hypothesis Ghi : (g <= 971)%Z.
  Hypothesis Bp : 0 <= B.
  Hypothesis Sz : INR n * B + Rabs d < bpow radix2 (g + 53).

  Definition grid_inv (st : b64 * list b64) : Prop :=
    let (p, vs) := st in
    finite p /\ multiple g p /\ length vs = n /\ within B vs /\ Forall (multiple g) vs /\ val p - total vs = d.

  Lemma small_rnd x : gridded g x -> Rabs x < bpow radix2 (g + 53) -> rnd x = x /\ Rabs (rnd x) < big.
  Proof.
    intros G H. assert (E : rnd x = x) by (apply rnd_id; eapply gridded_format; eassumption).
    split; [exact E|]. rewrite E. eapply Rlt_le_trans; [exact H|]. apply bpow_le. lia.
  Qed.
  Lemma grid_step st j new : grid_inv st -> (j < n)%nat -> finite new -> Rabs (val new) <= B -> multiple g new ->
    grid_inv (refresh_f st (j, new)).
  Proof.
    destruct st as (p, vs). intros (Fp & Gp & L & W & G & E) Hj Fn Bn Gn.
    unfold refresh_f. set (v := nth j vs (B754_zero false)).
    assert (Hj' : (j < length vs)%nat) by lia.
    destruct (within_nth B j vs (B754_zero false) W Hj') as (Fv & Bv). fold v in Fv, Bv.
    assert (Gv : multiple g v) by (apply (proj1 (Forall_forall _ _) G); apply nth_In, Hj').
    pose proof (others_small B j vs Bp W Hj') as O. rewrite L in O.
    rewrite (others_total j vs (B754_zero false) Hj') in E. fold v in E.
    destruct (small_rnd (val p - val v)) as (R1 & R2).
    { apply gridded_sub; assumption. }
    { replace (val p - val v) with (all_but j vs + d) by lra.
      eapply Rle_lt_trans; [apply Rabs_triang|]. lra. }
    destruct (fsub_ok p v Fp Fv R2) as (V1 & F1). fold (val p) (val v) in V1. rewrite R1 in V1.
    change (fr (fsub p v)) with (val (fsub p v)) in V1.
    assert (G1 : multiple g (fsub p v)) by (unfold multiple; rewrite V1; apply gridded_sub; assumption).
    destruct (small_rnd (val (fsub p v) + val new)) as (R3 & R4).
    { apply gridded_add; assumption. }
    { rewrite V1. replace (val p - val v + val new) with ((all_but j vs + val new) + d) by lra.
      eapply Rle_lt_trans; [apply Rabs_triang|]. pose proof (Rabs_triang (all_but j vs) (val new)). lra. }
    destruct (fadd_ok (fsub p v) new F1 Fn R4) as (V2 & F2). 
    change (fr (fadd (fsub p v) new) = rnd (val (fsub p v) + val new)) in V2. rewrite R3 in V2.
    change (fr (fadd (fsub p v) new)) with (val (fadd (fsub p v) new)) in V2.
    split; [exact F2|]. split; [unfold multiple; rewrite V2; apply gridded_add; assumption|].
    split; [rewrite set_at_length; assumption|]. split; [apply within_set; assumption|].
    split.
    - unfold set_at. apply Forall_app. split; [apply Forall_firstn, G|]. constructor; [exact Gn|]. apply Forall_skipn, G.
    - rewrite V2, V1, others_set. lra.
  Qed.
  Lemma grid_run ops : forall st, grid_inv st ->
    Forall (fun op => (fst op < n)%nat /\ finite (snd op) /\ Rabs (val (snd op)) <= B /\ multiple g (snd op)) ops ->
    grid_inv (refreshes_f st ops).
  Proof.
    induction ops as [|(j, new) ops IH]; intros st I H; [exact I|].
    inversion H as [|? ? (H1 & H2 & H3 & H4) H']; subst. cbn [fst snd] in *.
    unfold refreshes_f. cbn [fold_left]. apply IH; [|exact H']. apply grid_step; assumption.
  Qed.
End Grid.
