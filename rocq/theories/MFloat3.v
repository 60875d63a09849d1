(** Double precision versions of the draws: leaf values and sigma. *)
From Coq Require Import ZArith Reals List.
From Flocq Require Import Core.Core IEEE754.BinarySingleNaN.
From Verif Require Import Base MFloat MFloat2.
Import ListNotations.
Local Open Scope R_scope.

(** [x ** 2] (leafnode.py:27, leafnode.py:29) and np.power(x, 0.5) (leafnode.py:33) are computed by the C library's pow,
    which need not return the nearest double.  Assumed of it: the result has no sign; it is within 2^-52 of the exact one,
    relatively, or within 2^-1074 below the normal range; squares far below the smallest double are +0, squares
    beyond the largest are +inf; inf and NaN are passed on. *)
Definition squares (x r : b64) : Prop :=
  match x with
  | B754_nan => r = B754_nan
  | B754_infinity _ => r = B754_infinity false
  | _ => let q := @B2R 53 1024 x * @B2R 53 1024 x in
      (r = B754_infinity false /\ bpow radix2 1023 < q \/
       @is_finite 53 1024 r = true /\ @Bsign 53 1024 r = false /\ q < bpow radix2 1024 /\
       Rabs (@B2R 53 1024 r - q) <= bpow radix2 (-52) * q + (if Rlt_dec q (bpow radix2 (-1022)) then bpow radix2 (-1074) else 0)) /\
      (q < bpow radix2 (-1076) -> r = B754_zero false)
  end.
Definition roots (x r : b64) : Prop :=
  match x with
  | B754_zero s => r = B754_zero false
  | B754_infinity _ => r = B754_infinity false
  | B754_finite false _ _ _ => @is_finite 53 1024 r = true /\ Rabs (@B2R 53 1024 r - sqrt (@B2R 53 1024 x)) <= bpow radix2 (-52) * sqrt (@B2R 53 1024 x)
  | _ => r = B754_nan
  end.

(** leafnode.py:28-32 on float64 numbers: [pv] is prior_var, [s2] is sigma squared, [n] the number of rows and [s] the sum of
    the targets.  All of them are numpy numbers, so dividing by zero gives inf or NaN and does not raise. *)
Definition leaf_mean_f (pv s2 n s : b64) : b64 :=
  let likihood_var := fdiv s2 n in
  let likihood_mean := fdiv s n in
  fmul likihood_mean (fdiv pv (fadd likihood_var pv)).
Definition leaf_var_f (pv s2 n : b64) : b64 :=
  fdiv fone (fadd (fdiv fone pv) (fdiv fone (fdiv s2 n))).
(** leafnode.py:26-33 LeafNodeSampler.sample: [sm] is model.sigma_m, [nt] the number of trees, [z] the normal draw *)
Definition leaf_draw_f (n nt s sigma sm z r : b64) : Prop :=
  exists pv s2 rt, squares sm pv /\ squares sigma s2 /\ roots (fdiv (leaf_var_f pv s2 n) nt) rt /\
    r = fadd (leaf_mean_f pv s2 n s) (fmul z rt).

(** samplers/sigma.py:18-19: posterior_beta and the scale given to np.random.gamma, for the residuals [e] and the prior's
    [b]; np.square multiplies, np.sum adds in some order *)
Definition half_f : b64 := @B754_finite 53 1024 false 4503599627370496 (-53) eq_refl.
Definition gamma_scale_f (b : b64) (e : list b64) (r : b64) : Prop :=
  exists q, sums (map (fun x => fmul x x) e) q /\ r = fdiv fone (fadd b (fmul half_f q)).
