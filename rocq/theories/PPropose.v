(** The proposal distribution of the unconstrained tree sampler. *)
From Coq Require Import Reals Lra Permutation.
From Verif Require Import Base Fl Ext MData MSplit MTree MSampler MHist MTreeHist Spec SpecTree SpecPropose LFl LList
  PData PSplit PDataProps PCond PTree PPred PTreeHist PTreeProps PTreeProps2 PSampler PSampler2.
Local Open Scope R_scope.

(** ** means *)
Definition total (f : nat -> R) (ds : list nat) : R := rsum (map f ds).
Lemma rsum_app l m : rsum (l ++ m) = rsum l + rsum m.
Proof. unfold rsum. induction l; simpl; lra. Qed.
Lemma total_cons f d ds : total f (d :: ds) = f d + total f ds. Proof. reflexivity. Qed.
Lemma total_app f l m : total f (l ++ m) = total f l + total f m. Proof. unfold total. now rewrite map_app, rsum_app. Qed.
Lemma total_ext f g ds : (forall d, In d ds -> f d = g d) -> total f ds = total g ds.
Proof. intros H. unfold total. f_equal. now apply map_ext_in. Qed.
Lemma total_scale f c ds : total (fun d => f d * c) ds = total f ds * c.
Proof. induction ds as [|d ds IH]; [unfold total, rsum; simpl; lra|]. rewrite !total_cons, IH. lra. Qed.
Lemma streams_length B k : length (streams B k) = (B ^ k)%nat.
Proof.
  induction k as [|k IH]; [reflexivity|]. cbn [streams Nat.pow]. assert (H : forall l, length (flat_map (fun d => map (cons d) (streams B k)) l) = (length l * B ^ k)%nat).
  { induction l as [|d l IHl]; [reflexivity|]. simpl. rewrite app_length, map_length, IH, IHl. reflexivity. }
  rewrite H, seq_length. reflexivity.
Qed.
Lemma filter_map_cons (P : list nat -> bool) d l : length (filter P (map (cons d) l)) = length (filter (fun ds => P (d :: ds)) l).
Proof. induction l as [|a l IH]; simpl; auto. destruct (P (d :: a)); simpl; auto. Qed.
Lemma share_S B k P : (0 < B)%nat -> share B (S k) P = total (fun d => share B k (fun ds => P (d :: ds))) (seq 0 B) / INR B.
Proof.
  intros HB. unfold share. rewrite !streams_length. cbn [Nat.pow]. rewrite mult_INR.
  assert (Hb : 0 < INR B) by (apply lt_0_INR; lia). assert (Hp : 0 < INR (B ^ k)) by (apply lt_0_INR; assert (B ^ k <> 0)%nat by (apply Nat.pow_nonzero; lia); lia).
  assert (H : forall l, INR (length (filter P (flat_map (fun d => map (cons d) (streams B k)) l))) = total (fun d => INR (length (filter (fun ds => P (d :: ds)) (streams B k)))) l).
  { induction l as [|d l IH]; [reflexivity|]. simpl flat_map. rewrite filter_app, app_length, plus_INR, IH, total_cons, filter_map_cons. reflexivity. }
  cbn [streams]. rewrite H. unfold Rdiv. rewrite total_scale. field. lra.
Qed.
Lemma share_ext B k P Q : (forall ds, P ds = Q ds) -> share B k P = share B k Q.
Proof. intros H. unfold share. now rewrite (filter_ext P Q H). Qed.
Lemma share_true B k : (0 < B)%nat -> share B k (fun _ => true) = 1.
Proof.
  intros HB. unfold share. assert (E : filter (fun _ : list nat => true) (streams B k) = streams B k) by (induction (streams B k) as [|a l IH]; simpl; congruence).
  rewrite E, streams_length. apply Rinv_r. apply not_0_INR, Nat.pow_nonzero. lia.
Qed.
Lemma share_false B k : share B k (fun _ => false) = 0.
Proof.
  unfold share. assert (E : filter (fun _ : list nat => false) (streams B k) = []) by (induction (streams B k) as [|a l IH]; simpl; auto).
  rewrite E. simpl. unfold Rdiv. lra.
Qed.
Lemma total_const c ds : total (fun _ => c) ds = INR (length ds) * c.
Proof. induction ds as [|d ds IH]; [unfold total, rsum; simpl; lra|]. rewrite total_cons, IH. change (length (d :: ds)) with (S (length ds)). rewrite S_INR. lra. Qed.
(** uniform below a multiple of n, taken modulo n, is uniform below n *)
Lemma total_mod f n c : (0 < n)%nat -> total (fun d => f (d mod n)%nat) (seq 0 (c * n)) = INR c * total f (seq 0 n).
Proof.
  intros Hn. induction c as [|c IH]; [unfold total, rsum; simpl; lra|].
  replace (S c * n)%nat with (c * n + n)%nat by lia. rewrite seq_app, total_app, IH, S_INR. simpl plus.
  assert (E : total (fun d => f (d mod n)%nat) (seq (c * n) n) = total f (seq 0 n)).
  { unfold total. f_equal. assert (Es : seq (c * n) n = map (fun d => (c * n + d)%nat) (seq 0 n)).
    { clear. generalize (c * n)%nat. intros b. induction n as [|n IH]; [reflexivity|]. rewrite seq_S, IH, seq_S, map_app. reflexivity. }
    rewrite Es, map_map. apply map_ext_in. intros d Hd. apply in_seq in Hd. f_equal. rewrite Nat.add_comm, Nat.mod_add by lia. apply Nat.mod_small. lia. }
  rewrite E. lra.
Qed.
Lemma total_nth {A} (G : A -> R) dflt xs : total (fun d => G (nth d xs dflt)) (seq 0 (length xs)) = rsum (map G xs).
Proof.
  unfold total. f_equal. induction xs as [|x xs IH] using rev_ind; [reflexivity|].
  rewrite app_length. simpl length. rewrite Nat.add_comm. simpl plus. rewrite seq_S, !map_app. simpl map. rewrite app_nth2, Nat.sub_diag by lia. f_equal.
  rewrite <- IH. apply map_ext_in. intros d Hd. apply in_seq in Hd. rewrite app_nth1 by lia. reflexivity.
Qed.
Lemma mean_choose {A} (G : A -> R) dflt xs B : xs <> [] -> (0 < B)%nat -> Nat.divide (length xs) B ->
  total (fun d => G (choose dflt xs d)) (seq 0 B) / INR B = rsum (map G xs) / INR (length xs).
Proof.
  intros Hne HB (c&->). assert (Hl : (0 < length xs)%nat) by (destruct xs; [congruence|simpl; lia]).
  unfold choose. rewrite (total_mod (fun d => G (nth d xs dflt)) (length xs) c Hl), total_nth, mult_INR.
  assert (0 < INR (length xs)) by (apply lt_0_INR; auto). assert (0 < INR c) by (apply lt_0_INR; destruct c; lia). field. lra.
Qed.
Lemma rsum_pick (xs : list nat) i q : NoDup xs -> In i xs -> rsum (map (fun j => if Nat.eqb j i then q else 0) xs) = q.
Proof.
  unfold rsum. induction xs as [|j xs IH]; intros Hn Hi; [destruct Hi|]. inversion Hn; subst. simpl. destruct Hi as [->|Hi].
  - rewrite Nat.eqb_refl. assert (E : fold_right Rplus 0 (map (fun j => if Nat.eqb j i then q else 0) xs) = 0).
    { clear IH Hn H2. induction xs as [|j xs IH]; [reflexivity|]. simpl in H1. simpl. destruct (Nat.eqb_spec j i); [exfalso; auto|]. rewrite IH by tauto. lra. }
    rewrite E. lra.
  - destruct (Nat.eqb_spec j i) as [->|_]; [contradiction|]. rewrite IH by auto. lra.
Qed.

(** ** the value loop *)
Definition loop_gives (col : list fl) (mx x : fl) (ds : list nat) : bool := match value_loop col mx ds with Ok (z, _) => feqb z x | _ => false end.
Lemma rsum_count (f : fl -> bool) xs a : rsum (map (fun z => if f z then a else 0) xs) = INR (length (filter f xs)) * a.
Proof.
  unfold rsum. induction xs as [|x xs IH]; [simpl; lra|]. simpl map. simpl fold_right. rewrite IH. simpl filter. destruct (f x); [|lra].
  change (length (x :: filter f xs)) with (S (length (filter f xs))). rewrite S_INR. lra.
Qed.
Lemma loop_share B col mx x k : col <> [] -> (0 < B)%nat -> Nat.divide (length col) B -> feqb x mx = false ->
  (forall z, In z col -> feqb z mx = true -> feqb z x = false) ->
  share B (S k) (loop_gives col mx x) =
  INR (count_eq col mx) / INR (length col) * share B k (loop_gives col mx x) + INR (count_eq col x) / INR (length col).
Proof.
  intros Hne HB Hd Hx Hdis. rewrite share_S by auto.
  set (q := share B k (loop_gives col mx x)).
  rewrite (total_ext _ (fun d => (fun z => (if feqb z mx then q else 0) + (if feqb z x then 1 else 0)) (choose FNaN col d))).
  - rewrite (mean_choose (fun z => (if feqb z mx then q else 0) + (if feqb z x then 1 else 0)) FNaN col B) by auto.
    assert (E : forall l, rsum (map (fun z => (if feqb z mx then q else 0) + (if feqb z x then 1 else 0)) l) = INR (count_eq l mx) * q + INR (count_eq l x) * 1).
    { intros l. unfold count_eq. rewrite <- (rsum_count (fun z => feqb z mx)), <- (rsum_count (fun z => feqb z x)). unfold rsum. induction l as [|z l IH]; simpl; [lra|]. rewrite IH. lra. }
    rewrite E. assert (0 < INR (length col)) by (apply lt_0_INR; destruct col; [congruence|simpl; lia]). field. lra.
  - intros d _. cbn beta. pose proof (choose_in FNaN col d Hne) as Hz. set (z := choose FNaN col d) in *.
    assert (E : forall ds, loop_gives col mx x (d :: ds) = if feqb z mx then loop_gives col mx x ds else feqb z x).
    { intros ds. unfold loop_gives. cbn [value_loop]. fold z. destruct (feqb z mx); reflexivity. }
    rewrite (share_ext _ _ _ _ E). destruct (feqb z mx) eqn:Em.
    + rewrite (Hdis z Hz Em), Rplus_0_r. reflexivity.
    + cbv iota. destruct (feqb z x); [rewrite share_true by auto|rewrite share_false]; lra.
Qed.
Lemma loop_share_zero B col mx x : share B 0 (loop_gives col mx x) = 0.
Proof. unfold share. simpl. lra. Qed.
Lemma loop_closed B col mx x k : col <> [] -> (0 < B)%nat -> Nat.divide (length col) B -> feqb x mx = false ->
  (forall z, In z col -> feqb z mx = true -> feqb z x = false) -> (count_eq col mx < length col)%nat ->
  share B k (loop_gives col mx x) =
  INR (count_eq col x) / (INR (length col) - INR (count_eq col mx)) * (1 - (INR (count_eq col mx) / INR (length col)) ^ k).
Proof.
  intros Hne HB Hd Hx Hdis Hlt. apply lt_INR in Hlt. pose proof (pos_INR (count_eq col mx)) as Hp.
  induction k as [|k IH]; [rewrite loop_share_zero; simpl; lra|].
  rewrite loop_share by auto. rewrite IH. cbn [pow]. field. lra.
Qed.
Lemma geometric_cv a b r : 0 <= r < 1 -> Un_cv (fun k => a * (b * (1 - r ^ k))) (a * b).
Proof.
  intros Hr. assert (H : Un_cv (fun k => a * b * (1 - r ^ k)) (a * b * (1 - 0))).
  { apply CV_mult; [|apply CV_minus].
    - intros e He. exists 0%nat. intros n _. unfold R_dist. rewrite Rminus_diag_eq, Rabs_R0 by auto. exact He.
    - intros e He. exists 0%nat. intros n _. unfold R_dist. rewrite Rminus_diag_eq, Rabs_R0 by auto. exact He.
    - intros e He. destruct (pow_lt_1_zero r) with (y := e) as (N&HN); [rewrite Rabs_right; lra|exact He|]. exists N. intros n Hn. unfold R_dist. rewrite Rminus_0_r. apply HN. exact Hn. }
  replace (a * b) with (a * b * (1 - 0)) by lra. intros e He. destruct (H e He) as (N&HN). exists N. intros n Hn. specialize (HN n Hn). rewrite <- Rmult_assoc. exact HN.
Qed.
Lemma shift2_cv (f : nat -> R) l : Un_cv (fun k => f (S (S k))) l -> Un_cv f l.
Proof. intros H e He. destruct (H e He) as (N&HN). exists (S (S N)). intros n Hn. destruct n as [|[|n]]; try lia. apply HN. lia. Qed.
Lemma shift1_cv (f : nat -> R) l : (forall k, f (S k) = l) -> Un_cv f l.
Proof. intros H e He. exists 1%nat. intros n Hn. destruct n as [|n]; [lia|]. rewrite H. unfold R_dist. rewrite Rminus_diag_eq, Rabs_R0 by auto. exact He. Qed.
