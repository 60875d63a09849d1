(** Predictions are doubles also when the targets are float32: data.py:255-258 on a float64 array with float32 original_y_min and
    original_y_max.  The range is computed in float32, the rest in float64. *)
From Coq Require Import ZArith List.
From Flocq Require Import Core.Core IEEE754.BinarySingleNaN.
From Verif Require Import Base MFloat.
From Verif Require MSingle.
Import ListNotations.

(** numpy: a float32 as a float64 *)
Definition widen (x : MSingle.b32) : b64 :=
  match x with
  | B754_zero s => B754_zero s
  | B754_infinity s => B754_infinity s
  | B754_nan => B754_nan
  | B754_finite s m e _ => @binary_normalize 53 1024 prec64 emax64 mode_NE (cond_Zopp s (Zpos m)) e s
  end.
(** data.py:255-258 unnormalize_y of predictions *)
Definition unnormalize_32 (lo hi : MSingle.b32) (p : list b64) : list b64 :=
  map (fun v => fadd (widen lo) (fmul (fsub v neg_half) (widen (MSingle.scale_f lo hi)))) p.
