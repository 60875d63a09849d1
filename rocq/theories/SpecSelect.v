(** Feature selection and feature importance for the same data written down differently. *)
From Coq Require Import Reals.
From Verif Require Import Base MSampler SpecInvariance.
Local Open Scope R_scope.

(** the draws that go with the target in units [a + b*y]: the same ones, except that the normal draws have the
    opposite sign if [b] reverses the order *)
Definition draws_for (b : R) (rs : list rng) : list rng := if Rlt_dec b 0 then map mirrored rs else rs.
(** row numbers of a vector of length [n] *)
Definition row_numbers (n : nat) (p : list nat) : Prop := forall i, In i p -> (i < n)%nat.
