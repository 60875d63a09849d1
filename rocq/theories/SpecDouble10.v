(** What a tree's turn in double precision with the oblivious sampler is compared with: exact arithmetic on the rows of the data. *)
From Coq Require Import ZArith Reals List.
From Flocq Require Import Core.Core IEEE754.BinarySingleNaN.
From Verif Require Import MFloat MFloat7 MFloat9 MFloat10 SpecDouble SpecDouble3 SpecDouble4 SpecDouble5 SpecDouble7 SpecDouble9.
Local Open Scope R_scope.

(** A usual mutation of data with the rows [rows]: the node has rows; its rows are shared out among the two nodes below it, one of
    which may get none, or both have all of them; at least one row of the node has the value of the cut *)
Definition usual_mutation (rows : list frow) (c : rcut) : Prop :=
  length (rc_mask c) = length rows /\
  (if rc_copy c then rc_left c = rc_mask c /\ rc_right c = rc_mask c else shared_out (rc_mask c) (rc_left c) (rc_right c)) /\
  counts (rc_n c) (members (rc_mask c)) /\ counts0 (rc_nl c) (members (rc_left c)) /\ counts0 (rc_nr c) (members (rc_right c)) /\ exists k, counts (rc_cnt c) k.
(** a function of the exact row counts and sums of a mutation *)
Definition of_rows (rows : list frow) (j : nat) (c : rcut) (f : R -> R -> R -> R -> R -> R -> R) : R :=
  f (INR (members (rc_mask c))) (INR (members (rc_left c))) (INR (members (rc_right c)))
    (exact_node_sum j rows (rc_mask c)) (exact_node_sum j rows (rc_left c)) (exact_node_sum j rows (rc_right c)).
(** the bound on the error of the ratio of one mutation *)
Definition mutation_error (rows : list frow) (j : nat) (M : R) (alpha sigma tau : b64) (c : rcut) : R :=
  of_rows rows j c (ratio_error (val alpha) (val sigma) (val tau)) + sums_error (val sigma) (val tau) M (length rows) (members (rc_mask c)).
