(** What the double precision draws are compared with: exact real arithmetic on the same numbers. *)
From Coq Require Import ZArith Reals List.
From Flocq Require Import Core.Core IEEE754.BinarySingleNaN.
From Verif Require Import MFloat SpecDouble.
Import ListNotations.
Local Open Scope R_scope.

(** the conjugate posterior of a leaf with [n] rows whose targets add up to [s], noise [sigma] and prior spread [tau]:
    its mean and variance *)
Definition posterior_mean (n s sigma tau : R) : R := s / n * (tau * tau / (sigma * sigma / n + tau * tau)).
Definition posterior_variance (n sigma tau : R) : R := / (/ (tau * tau) + n / (sigma * sigma)).
(** the value drawn: the code divides the variance by the number of trees (C32) *)
Definition exact_spread (n nt sigma tau : R) : R := sqrt (posterior_variance n sigma tau / nt).
Definition exact_leaf (n nt s sigma tau z : R) : R := posterior_mean n s sigma tau + z * exact_spread n nt sigma tau.
(** the exact scale of the gamma draw *)
Definition exact_scale (b : R) (e : list b64) : R := / (b + /2 * fold_right Rplus 0 (map (fun x => val x * val x) e)).
(** a double that is a number of things *)
Definition counts (x : b64) (k : nat) : Prop := finite x /\ val x = INR k /\ (1 <= k)%nat /\ INR k <= bpow radix2 52.
