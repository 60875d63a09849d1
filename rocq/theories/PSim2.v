(** Two programs that read index draws run alike, up to a translation of the draws that leaves none out. *)
From Coq Require Import Reals Classical Permutation.
From Verif Require Import Base MData MSampler SpecCopy.
Local Open Scope nat_scope.

(** excluded middle with a result, from the axioms of the real numbers *)
Lemma decide_prop (P : Prop) : {P} + {~ P}.
Proof. destruct (ClassicalDedekindReals.sig_not_dec P) as [H|H]; [left; now apply NNPP|now right]. Qed.

Section Sim.
Definition good (F : list nat -> list nat) : Prop := (forall l, length (F l) = length l) /\ (forall l', exists l, F l = l').
Lemma good_id : good (fun l => l).
Proof. split; eauto. Qed.

(** ** programs that read a list of draws *)
Definition simL {A B} (T : A -> B) (f : list nat -> res (A * list nat)) (f' : list nat -> res (B * list nat)) : Type :=
  forall K : A -> list nat -> list nat, (forall a, good (K a)) ->
  { F | good F /\ forall l, match f l with
                            | Ok (a, l1) => f' (F l) = Ok (T a, K a l1)
                            | Raise e => f' (F l) = Raise e
                            | NoDraws => f' (F l) = NoDraws end }.
Lemma simL_ext {A B} (T : A -> B) f f' g g' : (forall l, g l = f l) -> (forall l, g' l = f' l) -> simL T f f' -> simL T g g'.
Proof. intros E E' S K HK. destruct (S K HK) as (F&G&H). exists F. split; auto. intros l. rewrite E, E'. apply H. Qed.
Lemma simL_ret {A B} (T : A -> B) a : simL T (fun l => Ok (a, l)) (fun l => Ok (T a, l)).
Proof. intros K HK. exists (K a). split; auto. Qed.
Lemma simL_raise {A B} (T : A -> B) e : simL T (fun _ => Raise e) (fun _ => Raise e).
Proof. intros K HK. exists (fun l => l). split; auto using good_id. Qed.
Lemma simL_none {A B} (T : A -> B) : simL T (fun _ => NoDraws) (fun _ => NoDraws).
Proof. intros K HK. exists (fun l => l). split; auto using good_id. Qed.
Lemma simL_bind {A B A' B'} (T : A -> A') (U : B -> B') f f' g g' (P : A -> Prop) :
  simL T f f' -> (forall l a l1, f l = Ok (a, l1) -> P a) -> (forall a, P a -> simL U (g a) (g' (T a))) ->
  simL U (fun l => let! (a, l1) := f l in g a l1) (fun l => let! (a, l1) := f' l in g' a l1).
Proof.
  intros S HP SG K HK.
  set (Ka := fun a => match decide_prop (P a) with left p => proj1_sig (SG a p K HK) | right _ => fun l => l end).
  assert (HKa : forall a, good (Ka a)).
  { intros a. unfold Ka. destruct (decide_prop (P a)) as [p|p]; [apply (proj2_sig (SG a p K HK))|apply good_id]. }
  destruct (S Ka HKa) as (F&G&H). exists F. split; auto. intros l. specialize (H l). destruct (f l) as [[a l1]|e|] eqn:E; rewrite H; cbn [rbind]; auto.
  unfold Ka. destruct (decide_prop (P a)) as [p|p]; [apply (proj2_sig (SG a p K HK))|]. now destruct (p (HP _ _ _ E)).
Qed.
(** the same choice on both sides, between the same things under other names: one draw, used as it is *)
Lemma simL_choice {A B} (T : A -> B) d0 d1 xs ys : (xs = [] <-> ys = []) -> (forall d, xs <> [] -> choose d1 ys d = T (choose d0 xs d)) ->
  simL T (np_choice d0 xs) (np_choice d1 ys).
Proof.
  intros E C K HK. destruct xs as [|x xs].
  - rewrite (proj1 E eq_refl). exists (fun l => l). split; auto using good_id. intros l. reflexivity.
  - destruct ys as [|y ys]; [now discriminate (proj2 E eq_refl)|].
    exists (fun l => match l with [] => [] | d :: ds => d :: K (choose d0 (x :: xs) d) ds end). split.
    + split.
      * intros [|d ds]; auto. cbn [length]. f_equal. apply HK.
      * intros [|d ds']; [now exists []|]. destruct (proj2 (HK (choose d0 (x :: xs) d)) ds') as (ds&E2). exists (d :: ds). now rewrite E2.
    + intros [|d ds]; [reflexivity|]. unfold np_choice. now rewrite <- C by discriminate.
Qed.

(** ** a choice between more things: the draw is translated *)
Fixpoint place (p : list nat) (v : nat) : nat := match p with [] => 0 | x :: p' => if x =? v then 0 else S (place p' v) end.
Lemma place_in p v : In v p -> place p v < length p /\ forall d, nth (place p v) p d = v.
Proof.
  induction p as [|x p IH]; [easy|]. cbn [place length]. destruct (Nat.eqb_spec x v) as [->|N]; intros I; [split; [lia|auto]|].
  destruct I as [I|I]; [congruence|]. destruct (IH I) as [A B]. split; [lia|]. intros d. cbn [nth]. auto.
Qed.
Definition onto (iv : nat -> nat) (xs ys : list nat) (d : nat) : nat :=
  length ys * (d / length xs) + place ys (iv (nth (d mod length xs) xs 0)).
Section Onto.
Variables (iv : nat -> nat) (xs ys : list nat).
Hypothesis Hin : forall x, In x xs -> In (iv x) ys.
Hypothesis Hon : forall y, In y ys -> exists x, In x xs /\ iv x = y.
Hypothesis Hne : xs <> [].
Hypothesis Hnd : NoDup ys.
Lemma len_pos : length xs <> 0.
Proof. destruct xs; [congruence|discriminate]. Qed.
Lemma in_pos d : In (iv (nth (d mod length xs) xs 0)) ys.
Proof. apply Hin, nth_In, Nat.mod_upper_bound, len_pos. Qed.
Lemma onto_choose d : choose 0 ys (onto iv xs ys d) = iv (choose 0 xs d).
Proof.
  unfold choose, onto. destruct (place_in ys _ (in_pos d)) as [A B].
  rewrite Nat.add_comm, Nat.mul_comm, Nat.mod_add, Nat.mod_small by lia. apply B.
Qed.
Lemma onto_all e : exists d, onto iv xs ys d = e.
Proof.
  pose proof len_pos as L. assert (Ly : length ys <> 0) by (destruct (place_in ys _ (in_pos 0)); lia).
  assert (Le : e mod length ys < length ys) by now apply Nat.mod_upper_bound.
  destruct (Hon (nth (e mod length ys) ys 0)) as (x&Ix&Ex); [now apply nth_In|].
  destruct (place_in xs x Ix) as [A B]. exists (place xs x + (e / length ys) * length xs). unfold onto.
  rewrite Nat.div_add, Nat.mod_add, Nat.div_small, (Nat.mod_small (place xs x)), B, Ex by auto. cbn [Nat.add].
  destruct (place_in ys (nth (e mod length ys) ys 0)) as [A' B']; [now apply nth_In|].
  assert (Q : place ys (nth (e mod length ys) ys 0) = e mod length ys) by (apply (proj1 (NoDup_nth ys 0) Hnd); auto).
  rewrite Q. symmetry. now apply Nat.div_mod.
Qed.
Lemma simL_onto : simL iv (np_choice 0 xs) (np_choice 0 ys).
Proof.
  intros K HK. assert (Hne' : ys <> []) by (intros E; pose proof (in_pos 0) as I; rewrite E in I; destruct I).
  assert (N : forall l, np_choice 0 xs l = match l with [] => NoDraws | d :: ds => Ok (choose 0 xs d, ds) end) by (intros l; unfold np_choice; clear -Hne; destruct xs; [congruence|reflexivity]).
  assert (N' : forall l, np_choice 0 ys l = match l with [] => NoDraws | d :: ds => Ok (choose 0 ys d, ds) end) by (intros l; unfold np_choice; clear -Hne'; destruct ys; [congruence|reflexivity]).
  exists (fun l => match l with [] => [] | d :: ds => onto iv xs ys d :: K (choose 0 xs d) ds end). split.
  - split.
    + intros [|d ds]; auto. cbn [length]. f_equal. apply HK.
    + intros [|e es]; [now exists []|]. destruct (onto_all e) as (d&Ed). destruct (proj2 (HK (choose 0 xs d)) es) as (ds&E2). exists (d :: ds). now rewrite Ed, E2.
  - intros l. rewrite N, N'. destruct l as [|d ds]; auto. now rewrite onto_choose.
Qed.
End Onto.

(** ** programs that read a generator *)
(** [ap G r]: [r] with its index draws exchanged by [G], which sees the other draws *)
Definition ap (G : rng -> list nat -> list nat) (r : rng) : rng := rng_set_index r (G (rng_set_index r []) (rg_index r)).
Definition simR {A B} (T : A -> B) (f : rng -> res (A * rng)) (f' : rng -> res (B * rng)) : Type :=
  forall K : A -> rng -> list nat -> list nat, (forall a q, good (K a q)) ->
  { F : rng -> list nat -> list nat | (forall q, good (F q)) /\
    forall r, match f r with
              | Ok (a, r1) => f' (ap F r) = Ok (T a, ap (K a) r1)
              | Raise e => f' (ap F r) = Raise e
              | NoDraws => f' (ap F r) = NoDraws end }.
Lemma simR_ext {A B} (T : A -> B) f f' g g' : (forall l, g l = f l) -> (forall l, g' l = f' l) -> simR T f f' -> simR T g g'.
Proof. intros E E' S K HK. destruct (S K HK) as (F&G&H). exists F. split; auto. intros l. rewrite E, E'. apply H. Qed.
Lemma simR_raise {A B} (T : A -> B) e : simR T (fun _ => Raise e) (fun _ => Raise e).
Proof. intros K HK. exists (fun _ l => l). split; auto using good_id. Qed.
Lemma simR_none {A B} (T : A -> B) : simR T (fun _ => NoDraws) (fun _ => NoDraws).
Proof. intros K HK. exists (fun _ l => l). split; auto using good_id. Qed.
Lemma simR_ret {A B} (T : A -> B) a : simR T (fun r => Ok (a, r)) (fun r => Ok (T a, r)).
Proof. intros K HK. exists (K a). split; auto. Qed.
Lemma simR_bind {A B A' B'} (T : A -> A') (U : B -> B') f f' g g' (P : A -> Prop) :
  simR T f f' -> (forall l a l1, f l = Ok (a, l1) -> P a) -> (forall a, P a -> simR U (g a) (g' (T a))) ->
  simR U (fun l => let! (a, l1) := f l in g a l1) (fun l => let! (a, l1) := f' l in g' a l1).
Proof.
  intros S HP SG K HK.
  set (Ka := fun a => match decide_prop (P a) with left p => proj1_sig (SG a p K HK) | right _ => fun _ l => l end).
  assert (HKa : forall a q, good (Ka a q)).
  { intros a. unfold Ka. destruct (decide_prop (P a)) as [p|p]; [apply (proj2_sig (SG a p K HK))|intros; apply good_id]. }
  destruct (S Ka HKa) as (F&G&H). exists F. split; auto. intros l. specialize (H l). destruct (f l) as [[a l1]|e|] eqn:E; rewrite H; cbn [rbind]; auto.
  unfold Ka. destruct (decide_prop (P a)) as [p|p]; [apply (proj2_sig (SG a p K HK))|]. now destruct (p (HP _ _ _ E)).
Qed.
(** a result is renamed at the end *)
Lemma simR_map {A B A' B'} (T : A -> A') (U : B -> B') f f' (g : A -> B) (g' : A' -> B') : (forall a, g' (T a) = U (g a)) -> simR T f f' ->
  simR U (fun r => let! (a, r1) := f r in Ok (g a, r1)) (fun r => let! (a, r1) := f' r in Ok (g' a, r1)).
Proof.
  intros E S. apply (simR_bind T U f f' (fun a r => Ok (g a, r)) (fun a r => Ok (g' a, r)) (fun _ => True) S); auto.
  intros a _. rewrite E. apply simR_ret.
Qed.
(** a program that does not look at the index draws *)
Lemma simR_pure {A B} (T : A -> B) f f' :
  (forall r l, f (rng_set_index r l) = match f r with Ok (a, r1) => Ok (a, rng_set_index r1 l) | Raise e => Raise e | NoDraws => NoDraws end) ->
  (forall r, f' r = match f r with Ok (a, r1) => Ok (T a, r1) | Raise e => Raise e | NoDraws => NoDraws end) ->
  simR T f f'.
Proof.
  intros H1 H2 K HK. exists (fun q l => match f q with Ok (a, r1) => K a (rng_set_index r1 []) l | _ => l end). split.
  - intros q. destruct (f q) as [[a r1]| |]; auto using good_id.
  - intros r. assert (I : forall r a r1, f r = Ok (a, r1) -> rg_index r1 = rg_index r).
    { intros q a q1 E. pose proof (H1 q (rg_index q)) as H. rewrite E in H. replace (rng_set_index q (rg_index q)) with q in H by now destruct q. rewrite E in H. injection H as H.
      now apply (f_equal rg_index) in H. }
    rewrite H2. unfold ap. rewrite (H1 r []). rewrite (H1 r (match (match f r with Ok (a, r1) => _ | Raise e => _ | NoDraws => _ end) with Ok _ => _ | Raise _ => _ | NoDraws => _ end)).
    destruct (f r) as [[a r1]|e|] eqn:E; auto. rewrite (I _ _ _ E). reflexivity.
Qed.
Lemma ap_index F r : rg_index (ap F r) = F (rng_set_index r []) (rg_index r).
Proof. reflexivity. Qed.
Lemma ap_translates F : (forall q, good (F q)) -> translates (ap F).
Proof.
  intros H. split; [|split].
  - now intros [? ? ? ? ?].
  - intros r. apply H.
  - intros r'. destruct (proj2 (H (rng_set_index r' [])) (rg_index r')) as (l&E). exists (rng_set_index r' l). unfold ap.
    destruct r' as [m l' u w g]. unfold rng_set_index in *. cbn in *. now rewrite E.
Qed.
End Sim.
