(** What the double precision results are compared with: exact real arithmetic on the same numbers. *)
From Coq Require Import ZArith Reals List.
From Flocq Require Import Core.Core IEEE754.BinarySingleNaN.
From Verif Require Import MFloat.
Import ListNotations.
Local Open Scope R_scope.

(** the real number a finite double stands for *)
Definition val (x : b64) : R := @B2R 53 1024 x.
Definition finite (x : b64) : Prop := @is_finite 53 1024 x = true.
Definition nan (x : b64) : Prop := @is_nan 53 1024 x = true.

(** [lo] and [hi] are the smallest and the largest number of the list *)
Definition smallest (lo : b64) (y : list b64) : Prop := In lo y /\ Forall (fun v => val lo <= val v) y.
Definition largest (hi : b64) (y : list b64) : Prop := In hi y /\ Forall (fun v => val v <= val hi) y.

(** the position of [v] between [lo] and [hi], mapped to [-1/2, 1/2] *)
Definition position (lo hi v : R) : R := - /2 + (v - lo) / (hi - lo).

(** two lists of the same length whose entries correspond *)
Definition rows {A B : Type} (P : A -> B -> Prop) (l : list A) (m : list B) : Prop := Forall2 P l m.

(** the exact sum of a list of doubles, and the sum of their absolute values *)
Definition total (l : list b64) : R := fold_right Rplus 0 (map val l).
Definition size (l : list b64) : R := fold_right Rplus 0 (map (fun x => Rabs (val x)) l).
(** all entries are finite and at most [B] in absolute value *)
Definition within (B : R) (l : list b64) : Prop := Forall (fun x => finite x /\ Rabs (val x) <= B) l.

(** the exact sum of all entries but the j-th *)
Definition all_but (j : nat) (l : list b64) : R := total (firstn j l) + total (skipn (S j) l).
(** a multiple of 2^g *)
Definition multiple (g : Z) (x : b64) : Prop := exists m : Z, val x = IZR m * bpow radix2 g.

(** the exact point prediction: the average over the samples of the sum over the trees, mapped back *)
Definition exact_prediction (lo hi : R) (leaves : list (list b64)) : R :=
  lo + (fold_right Rplus 0 (map total leaves) / INR (length leaves) + /2) * (hi - lo).

(** the entries of the rows that are not masked *)
Definition kept (y : list b64) (mask : list bool) : list b64 :=
  map fst (filter (fun vm : b64 * bool => negb (snd vm)) (combine y mask)).
