(** Double precision version of the draw of sigma. *)
From Coq Require Import ZArith Reals List.
From Flocq Require Import Core.Core IEEE754.BinarySingleNaN.
From Verif Require Import Base MFloat MFloat2 MFloat3.
Local Open Scope R_scope.

(** np.power(x, -0.5) (samplers/sigma.py:20) is the C library's pow.  Assumed of it: within 2^-52 of the exact value, relatively;
    0 gives +inf, the infinities give +0, negative numbers and NaN give NaN. *)
Definition inverse_roots (x r : b64) : Prop :=
  match x with
  | B754_zero _ => r = B754_infinity false
  | B754_infinity _ => r = B754_zero false
  | B754_finite false _ _ _ => @is_finite 53 1024 r = true /\ Rabs (@B2R 53 1024 r - / sqrt (@B2R 53 1024 x)) <= bpow radix2 (-52) * / sqrt (@B2R 53 1024 x)
  | _ => r = B754_nan
  end.
(** samplers/sigma.py:17: posterior_alpha, the shape given to np.random.gamma; [n] is the number of rows *)
Definition gamma_shape_f (a n : b64) : b64 := fadd a (fdiv n (@B754_finite 53 1024 false 4503599627370496 (-51) eq_refl)).
(** samplers/sigma.py:16-21 SigmaSampler.sample: np.random.gamma(shape, scale) multiplies the scale by a standard gamma draw
    [w] of that shape (numpy's legacy_gamma) *)
Definition sigma_draw_f (b : b64) (e : list b64) (w r : b64) : Prop :=
  exists sc, gamma_scale_f b e sc /\ inverse_roots (fmul sc w) r.
(** sigma.py:33-34 current_unnormalized_value *)
Definition reported_sigma_f (sigma sf : b64) : b64 := fmul sigma sf.
