(** What a tree's turn in double precision is compared with: exact arithmetic on the rows of the data. *)
From Coq Require Import ZArith Reals List.
From Flocq Require Import Core.Core IEEE754.BinarySingleNaN.
From Verif Require Import MFloat MFloat7 SpecDouble SpecDouble3 SpecDouble4 SpecDouble5.
Import ListNotations.
Local Open Scope R_scope.

(** target, maintained sum and own prediction of tree [j] in a row *)
Definition row_target (r : frow) : b64 := fst r.
Definition row_sum (r : frow) : b64 := fst (snd r).
Definition row_own (j : nat) (r : frow) : b64 := nth j (snd (snd r)) (B754_zero false).
(** the target minus what the other trees predict *)
Definition exact_handed (j : nat) (r : frow) : R := val (row_target r) - (val (row_sum r) - val (row_own j r)).
(** its sum over the rows of a node *)
Definition exact_node_sum (j : nat) (rows : list frow) (mask : list bool) : R :=
  fold_right Rplus 0 (map (fun rm => exact_handed j (fst rm)) (filter (fun rm : frow * bool => negb (snd rm)) (combine rows mask))).
(** the number of rows of a node *)
Definition members (mask : list bool) : nat := length (filter negb mask).
(** the three numbers of a row are finite and at most [M] in absolute value *)
Definition settled (M : R) (j : nat) (r : frow) : Prop :=
  Forall (fun x => finite x /\ Rabs (val x) <= M) [row_target r; row_sum r; row_own j r].
(** at most 2^24 rows, all of them settled *)
Definition usual_rows (M : R) (j : nat) (rows : list frow) : Prop :=
  0 <= M <= bpow radix2 40 /\ Forall (settled M j) rows /\ INR (length rows) <= bpow radix2 24.
(** the rows of a node are shared out among the two nodes below it; a mask marks the rows that are left out *)
Definition in_node (mask : list bool) (i : nat) : Prop := nth_error mask i = Some false.
Definition shared_out (mask maskl maskr : list bool) : Prop :=
  length maskl = length mask /\ length maskr = length mask /\
  forall i, (in_node mask i <-> in_node maskl i \/ in_node maskr i) /\ ~ (in_node maskl i /\ in_node maskr i).
(** the error of the acceptance ratio that stems from the sums: [N] rows in the data, [k] rows in the node *)
Definition sums_error (sigma tau M : R) (N k : nat) : R := bpow radix2 (-45) * INR (N + 2) * INR k * (M * M) * (tau / (sigma * sigma)).
