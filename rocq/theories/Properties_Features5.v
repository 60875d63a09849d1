(** Property C61, continued: what np.percentile answers for every percentile.  See /verif/properties.jsonl. *)
From Coq Require Import Reals Lra Lia ZArith Permutation Sorted.
From Verif Require Import Base MFeatures LList PFeatures Properties_Features.
Local Open Scope R_scope.

(** [c] lies on the polygon through the points (k/(n-1), k-th smallest value), at q/100. *)
Theorem C61_interpolation : forall xs q c, percentile xs q = Ok c ->
  0 <= q <= 100 /\
  exists s i f, Permutation xs s /\ StronglySorted Rle s /\ (i < length s)%nat /\ 0 <= f < 1 /\
    INR i + f = q / 100 * (INR (length xs) - 1) /\
    ((f = 0 /\ c = nth i s 0) \/ ((S i < length s)%nat /\ c = (1 - f) * nth i s 0 + f * nth (S i) s 0)).
Proof.
  intros xs q c. unfold percentile. destruct (Rlt_dec q 0); [discriminate|]. destruct (Rlt_dec 100 q); [discriminate|]. destruct xs as [|x0 xs0] eqn:Ex; [discriminate|]. rewrite <- Ex.
  assert (Hl : (1 <= length xs)%nat) by (subst; simpl; lia). clear Ex x0 xs0. intros [= <-]. split; [lra|].
  assert (Hpm := rsort_perm xs). assert (Hso := rsort_sorted xs). assert (Hls := Permutation_length Hpm). set (s := rsort xs) in *.
  set (pos := q / 100 * INR (length xs - 1)). assert (Hn : INR (length xs - 1) = INR (length xs) - 1) by (rewrite minus_INR by auto; reflexivity).
  assert (H0 : 0 <= INR (length xs - 1)) by apply pos_INR.
  assert (Hp : 0 <= pos <= INR (length xs - 1)) by (unfold pos; split; [apply Rmult_le_pos; lra|nra]).
  destruct (base_Int_part pos) as [H1 H2]. set (z := Int_part pos) in *. assert (Hz : (0 <= z)%Z).
  { assert (H : -1 < IZR z) by lra. apply (lt_IZR (-1)) in H. lia. }
  assert (Hi : INR (Z.to_nat z) = IZR z) by (rewrite INR_IZR_INZ, Z2Nat.id; auto). set (i := Z.to_nat z) in *.
  assert (Hin : (i <= length xs - 1)%nat) by (apply INR_le; lra).
  exists s, i, (pos - INR i). split; [apply Permutation_sym; auto|]. split; [auto|]. split; [lia|]. split; [lra|]. split; [rewrite <- Hn; fold pos; lra|].
  destruct (Nat.eq_dec i (length xs - 1)) as [E|E].
  - left. assert (Hf : pos - INR i = 0) by (rewrite <- E in Hp; lra). split; [auto|]. rewrite Hf. ring.
  - right. split; [lia|]. change (match (length xs - 1)%nat with 0%nat => 0%nat | S m => S (Nat.min i m) end) with (Nat.min (S i) (length xs - 1)). replace (Nat.min (S i) (length xs - 1)) with (S i) by lia. ring.
Qed.
Print Assumptions C61_interpolation.

(** numbers of values strictly above and strictly below *)
Definition above (c : R) (xs : list R) : nat := length (filter (fun x => if Rlt_dec c x then true else false) xs).
Definition below (c : R) (xs : list R) : nat := length (filter (fun x => if Rlt_dec x c then true else false) xs).
Lemma above_from s c i : StronglySorted Rle s -> (i < length s)%nat -> nth i s 0 <= c -> (above c s <= length s - 1 - i)%nat.
Proof.
  unfold above. intros Hs. revert i. induction Hs as [|x s Hs IH Hx]; intros i Hi Hc; [simpl in Hi; lia|]. cbn [filter length].
  destruct i as [|i].
  - simpl in Hc. destruct (Rlt_dec c x); [lra|]. assert (H : (length (filter (fun y => if Rlt_dec c y then true else false) s) <= length s)%nat).
    { clear. induction s as [|y s IH]; simpl; auto. destruct (Rlt_dec c y); simpl; lia. } lia.
  - simpl in Hi, Hc. assert (x <= nth i s 0) by (rewrite Forall_forall in Hx; apply Hx, nth_In; lia). destruct (Rlt_dec c x); [lra|]. specialize (IH i ltac:(lia) Hc). lia.
Qed.
Lemma below_to s c i : StronglySorted Rle s -> (i < length s)%nat -> c <= nth i s 0 -> (below c s <= i)%nat.
Proof.
  unfold below. intros Hs. revert i. induction Hs as [|x s Hs IH Hx]; intros i Hi Hc; [simpl in Hi; lia|]. cbn [filter length].
  destruct i as [|i].
  - simpl in Hc. destruct (Rlt_dec x c); [lra|]. assert (H : filter (fun y => if Rlt_dec y c then true else false) s = []).
    { clear IH Hi Hs. induction Hx as [|y s Hy Hx IH]; simpl; auto. destruct (Rlt_dec y c); [lra|auto]. } rewrite H. auto.
  - simpl in Hi, Hc. specialize (IH i ltac:(lia) Hc). destruct (Rlt_dec x c); simpl; lia.
Qed.
(** the shares of the null values on either side of the cutoff: up to one value, (100 - q)% are above and q% below *)
Theorem C61_share : forall xs q c, percentile xs q = Ok c ->
  INR (above c xs) < (1 - q / 100) * (INR (length xs) - 1) + 1 /\ INR (below c xs) < q / 100 * (INR (length xs) - 1) + 1.
Proof.
  intros xs q c H. destruct (C61_interpolation _ _ _ H) as (Hq&s&i&f&Hp&Hs&Hi&Hf&E&Hc).
  assert (Ea : above c xs = above c s) by (apply Permutation_length, filter_perm; auto).
  assert (Eb : below c xs = below c s) by (apply Permutation_length, filter_perm; auto). rewrite Ea, Eb.
  rewrite (Permutation_length Hp) in *. assert (Hn : INR (length s - 1 - i) = INR (length s) - 1 - INR i) by (rewrite !minus_INR by lia; reflexivity).
  destruct Hc as [(E0&->)|(Hi2&->)].
  - assert (A := above_from s (nth i s 0) i Hs Hi (Rle_refl _)). assert (B := below_to s (nth i s 0) i Hs Hi (Rle_refl _)). apply le_INR in A, B. rewrite Hn in A. split; lra.
  - assert (Hle := sorted_nth s Hs i (S i) ltac:(lia)). set (a := nth i s 0) in *. set (b := nth (S i) s 0) in *.
    assert (A := above_from s ((1 - f) * a + f * b) i Hs Hi ltac:(fold a; nra)). assert (B := below_to s ((1 - f) * a + f * b) (S i) Hs Hi2 ltac:(fold b; nra)).
    apply le_INR in A, B. rewrite Hn in A. rewrite S_INR in B. destruct (Req_dec f 0) as [E0|E0].
    + assert (B2 := below_to s ((1 - f) * a + f * b) i Hs Hi ltac:(fold a; rewrite E0; lra)). apply le_INR in B2. split; lra.
    + split; lra.
Qed.
Print Assumptions C61_share.
(** 0 gives the smallest value, 100 the largest, and a larger percentile never a smaller cutoff *)
Theorem C61_ends : forall xs c, (percentile xs 0 = Ok c -> In c xs /\ forall x, In x xs -> c <= x) /\ (percentile xs 100 = Ok c -> In c xs /\ forall x, In x xs -> x <= c).
Proof.
  intros xs c. split; intros H; destruct (C61_interpolation _ _ _ H) as (_&s&i&f&Hp&Hs&Hi&Hf&E&Hc).
  - assert (Hi0 := pos_INR i). assert (f = 0) as -> by lra. assert (E0 : INR i = INR 0) by (simpl; lra). apply INR_eq in E0. subst i.
    assert (c = nth 0 s 0) as -> by (destruct Hc as [(_&->)|(_&->)]; lra). split.
    + eapply Permutation_in; [apply Permutation_sym; eauto|]. apply nth_In. auto.
    + intros x Hx. apply (Permutation_in _ Hp) in Hx. apply (In_nth _ _ 0) in Hx as (j&Hj&<-). apply sorted_nth; auto. lia.
  - rewrite (Permutation_length Hp) in E. assert (E1 : INR i + f = INR (length s - 1)) by (rewrite minus_INR by lia; simpl; lra).
    assert (Hle : (i <= length s - 1)%nat) by lia. assert (f = 0) as ->.
    { destruct (Nat.eq_dec i (length s - 1)) as [->|N]; [lra|]. assert (L : (S i <= length s - 1)%nat) by lia. apply le_INR in L. rewrite S_INR in L. lra. }
    rewrite Rplus_0_r in E1. apply INR_eq in E1. assert (c = nth i s 0) as -> by (destruct Hc as [(_&->)|(_&->)]; lra). split.
    + eapply Permutation_in; [apply Permutation_sym; eauto|]. apply nth_In. auto.
    + intros x Hx. apply (Permutation_in _ Hp) in Hx. apply (In_nth _ _ 0) in Hx as (j&Hj&<-). apply sorted_nth; auto. lia.
Qed.
Print Assumptions C61_ends.
Lemma sorted_unique : forall s s', StronglySorted Rle s -> StronglySorted Rle s' -> Permutation s s' -> s = s'.
Proof.
  intros s s' Hs. revert s'. induction Hs as [|x s Hs IH Hx]; intros s' Hs' Hp; [symmetry; apply Permutation_nil; auto|].
  destruct Hs' as [|y s' Hs' Hy]; [apply Permutation_sym, Permutation_nil in Hp; discriminate|].
  assert (x = y).
  { assert (H1 : In x (y :: s')) by (eapply Permutation_in; [eauto|left; auto]). assert (H2 : In y (x :: s)) by (eapply Permutation_in; [apply Permutation_sym; eauto|left; auto]).
    rewrite Forall_forall in Hx, Hy. destruct H1 as [<-|H1]; auto. destruct H2 as [->|H2]; auto. apply Rle_antisym; auto. }
  subst y. f_equal. apply IH; auto. eapply Permutation_cons_inv; eauto.
Qed.
Theorem C61_monotone : forall xs q q' c c', q <= q' -> percentile xs q = Ok c -> percentile xs q' = Ok c' -> c <= c'.
Proof.
  intros xs q q' c c' Hq H H'. destruct (C61_interpolation _ _ _ H) as (_&s&i&f&Hp&Hs&Hi&Hf&E&Hc). destruct (C61_interpolation _ _ _ H') as (_&s'&i'&f'&Hp'&Hs'&Hi'&Hf'&E'&Hc').
  assert (s' = s) as -> by (apply sorted_unique; auto; etransitivity; [apply Permutation_sym; eauto|auto]). rewrite (Permutation_length Hp) in *.
  assert (Hn : 0 <= INR (length s) - 1) by (assert (1 <= length s)%nat as L by lia; apply le_INR in L; simpl in L; lra).
  assert (Hpos : INR i + f <= INR i' + f') by (rewrite E, E'; apply Rmult_le_compat_r; lra).
  assert (Hii : (i <= i')%nat). { apply Nat.nlt_ge. intros L. apply le_INR in L. rewrite S_INR in L. lra. }
  assert (Lc' : nth i' s 0 <= c'). { destruct Hc' as [(_&->)|(L&->)]; [lra|]. assert (X := sorted_nth s Hs i' (S i') ltac:(lia)). nra. }
  destruct (Nat.eq_dec i i') as [->|N].
  - assert (Hff : f <= f') by lra. destruct Hc as [(_&->)|(L&->)]; [auto|]. destruct Hc' as [(E0&->)|(_&->)]; [assert (f = 0) as -> by lra; lra|].
    assert (X := sorted_nth s Hs i' (S i') ltac:(lia)). nra.
  - assert (X2 := sorted_nth s Hs (S i) i' ltac:(lia)). assert (X := sorted_nth s Hs i (S i) ltac:(lia)). destruct Hc as [(_&->)|(L&->)]; [lra|]. nra.
Qed.
Print Assumptions C61_monotone.
Example C61_median_case : exists c, percentile [3; 1; 2] 50 = Ok c /\ (above c [3; 1; 2]%R <= 1)%nat /\ (below c [3; 1; 2]%R <= 1)%nat.
Proof.
  destruct (percentile [3; 1; 2] 50) as [c| |] eqn:E; [|unfold percentile in E; destruct (Rlt_dec 50 0); [lra|]; destruct (Rlt_dec 100 50); [lra|discriminate]..].
  exists c. split; [reflexivity|]. destruct (C61_share _ _ _ E) as [A B]. replace (INR (length [3; 1; 2])) with 3 in A, B by (simpl; lra).
  split; apply Nat.lt_succ_r, INR_lt; replace (INR 2) with 2 by (simpl; lra); lra.
Qed.
