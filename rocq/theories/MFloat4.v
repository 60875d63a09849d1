(** Double precision version of the likelihood ratio and of the comparison that decides a proposal. *)
From Coq Require Import ZArith Reals List.
From Flocq Require Import Core.Core IEEE754.BinarySingleNaN.
From Verif Require Import Base MFloat MFloat2 MFloat3.
Import ListNotations.
Local Open Scope R_scope.

(** np.sqrt (likihoodratio.py:21) is correctly rounded *)
Definition fsqrt (x : b64) : b64 := @Bsqrt 53 1024 prec64 emax64 mode_NE x.
Definition fneg (x : b64) : b64 := @Bopp 53 1024 x.
Definition ftwo : b64 := @B754_finite 53 1024 false 4503599627370496 (-51) eq_refl.
(** np.log (likihoodratio.py:21) need not return the nearest double.  Assumed of it: for a positive number the result is
    within 2^-50 of the logarithm, relatively, or within 2^-1074; the logarithm of a zero is -inf, of +inf +inf, and of
    anything below zero or NaN it is NaN. *)
Definition logs (x r : b64) : Prop :=
  match x with
  | B754_zero _ => r = B754_infinity true
  | B754_infinity false => r = B754_infinity false
  | B754_finite false _ _ _ => @is_finite 53 1024 r = true /\
      Rabs (@B2R 53 1024 r - ln (@B2R 53 1024 x)) <= bpow radix2 (-50) * Rabs (ln (@B2R 53 1024 x)) + bpow radix2 (-1074)
  | _ => r = B754_nan
  end.

(** unconstrainedtree/likihoodratio.py:20-21 (and oblivioustrees/likihoodratio.py:20-21), before the logarithm: [v] is var, [vm] is var_mu, [t] sigma_mu and
    [n], [nl], [nr] the row counts *)
Definition first_f (v vm t n nl nr : b64) : b64 :=
  fsqrt (fdiv (fmul v (fadd v (fmul n t))) (fmul (fadd v (fmul nl vm)) (fadd v (fmul nr vm)))).
(** likihoodratio.py:27-29: np.square(sum) / (var + n * sigma_mu); np.square multiplies *)
Definition resp_f (v t n s : b64) : b64 := fdiv (fmul s s) (fadd v (fmul n t)).
(** likihoodratio.py:31 *)
Definition resps_f (v t n nl nr s sl sr : b64) : b64 := fsub (fadd (resp_f v t nl sl) (resp_f v t nr sr)) (resp_f v t n s).
(** likihoodratio.py:13-33 log_grow_ratio, for the sums [s] [sl] [sr] of the targets of the node and of the two nodes below it *)
Definition likelihood_f (sigma t n nl nr s sl sr r : b64) : Prop :=
  exists v vm lf, squares sigma v /\ squares t vm /\ logs (first_f v vm t n nl nr) lf /\
    r = fadd lf (fmul (fdiv vm (fmul ftwo v)) (resps_f v t n nl nr s sl sr)).

(** treemutation.py:77 log_probability_ratio: [a] is the transition ratio, [r] the likelihood ratio and [c] the tree ratio;
    a prune uses the negative likelihood ratio (unconstrainedtree/likihoodratio.py:78) *)
Definition ratio_f (grow : bool) (a r c : b64) : b64 := fadd (fadd a (if grow then r else fneg r)) c.
(** unconstrainedtree/treemutation.py:41 [sample() < ratio]: false if either is NaN *)
Definition fless (x y : b64) : bool := match Bcompare x y with Some Lt => true | _ => false end.
Definition accepted_f (w : b64) (grow : bool) (a r c : b64) : bool := fless w (ratio_f grow a r c).
