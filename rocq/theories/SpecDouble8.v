(** What the error measures in double precision are compared with. *)
From Coq Require Import ZArith Reals List.
From Flocq Require Import Core.Core IEEE754.BinarySingleNaN.
From Verif Require Import MFloat SpecDouble.
Import ListNotations.
Local Open Scope R_scope.

(** the exact errors of the predictions [p] *)
Definition exact_errors (y p : list b64) : list R := map (fun yp => val (fst yp) - val (snd yp)) (combine y p).
(** the root of the sum of their squares, which is what rmse returns (C53) *)
Definition exact_rmse (y p : list b64) : R := sqrt (fold_right Rplus 0 (map (fun e => e * e) (exact_errors y p))).
