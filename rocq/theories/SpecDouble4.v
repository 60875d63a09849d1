(** What the double precision likelihood ratio is compared with: exact real arithmetic on the same numbers. *)
From Coq Require Import ZArith Reals List.
From Flocq Require Import Core.Core IEEE754.BinarySingleNaN.
From Verif Require Import MFloat SpecDouble.
Local Open Scope R_scope.

(** the two parts of the log likelihood ratio of a split, for a node with [n] rows and nodes below it with [nl] and [nr] rows,
    noise [sigma] and prior spread [tau]: one depends on the row counts only, the other on the sums of the targets.
    (Textbook BART has tau squared everywhere; the code has tau in some places, C35.) *)
Definition counts_part (sigma tau n nl nr : R) : R :=
  ln (sqrt (sigma * sigma * (sigma * sigma + n * tau) / ((sigma * sigma + nl * (tau * tau)) * (sigma * sigma + nr * (tau * tau))))).
Definition weight (sigma tau n s : R) : R := tau * tau / (2 * (sigma * sigma)) * (s * s / (sigma * sigma + n * tau)).
Definition sums_part (sigma tau n nl nr s sl sr : R) : R := weight sigma tau nl sl + weight sigma tau nr sr - weight sigma tau n s.
Definition exact_ratio (sigma tau n nl nr s sl sr : R) : R := counts_part sigma tau n nl nr + sums_part sigma tau n nl nr s sl sr.
(** the size of the numbers that are added *)
Definition ratio_size (sigma tau n nl nr s sl sr : R) : R :=
  1 + Rabs (counts_part sigma tau n nl nr) + (weight sigma tau nl sl + weight sigma tau nr sr + weight sigma tau n s).
(** a finite double in the range between 2^-100 and 2^100 *)
Definition moderate (x : b64) : Prop := finite x /\ bpow radix2 (-100) <= val x <= bpow radix2 100.
