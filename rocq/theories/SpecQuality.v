(** How good predictions are: written independently of the code. *)
From Coq Require Import Reals.
From Verif Require Import Base Fl Ext MData MModel MSklearn SpecSklearn.
Local Open Scope R_scope.

Definition sum_squares (l : list R) : R := rsum (map (fun x => x ^ 2) l).
(** total error of predicting the constant [c] *)
Definition error_of_constant (c : R) (y : list R) : R := sum_squares (map (fun x => x - c) y).
(** the spread of the targets about their mean *)
Definition spread (y : list R) : R := error_of_constant (mean y) y.
Definition not_constant (y : list R) : Prop := exists a b, In a y /\ In b y /\ a <> b.
