(** What the double precision draw of sigma is compared with. *)
From Coq Require Import ZArith Reals List.
From Flocq Require Import Core.Core IEEE754.BinarySingleNaN.
From Verif Require Import MFloat SpecDouble SpecDouble3.
Import ListNotations.
Local Open Scope R_scope.

(** if [w] has the standard gamma distribution, [w] / (b + half the sum of the squared residuals) is the precision, and sigma is
    the inverse of its square root *)
Definition exact_sigma (b : R) (e : list b64) (w : R) : R := / sqrt (w / (b + /2 * fold_right Rplus 0 (map (fun x => val x * val x) e))).
