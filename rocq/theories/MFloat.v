(** Double precision versions of the numeric code: the rest of the model computes with exact reals,
    here the same expressions are evaluated in IEEE 754 binary64 with round to nearest even, as numpy
    does for float64 arrays.  The format and its operations are Flocq's.  NaN payloads are not modelled. *)
From Coq Require Import ZArith List.
From Flocq Require Import Core.Core IEEE754.BinarySingleNaN.
From Verif Require Import Base.
Import ListNotations.

(** the dtype of y, of leaf values and of predictions: np.float64 *)
Definition prec64 : Prec_gt_0 53 := eq_refl.
Definition emax64 : Prec_lt_emax 53 1024 := eq_refl.
Definition b64 := binary_float 53 1024.

Definition fadd (x y : b64) : b64 := @Bplus 53 1024 prec64 emax64 mode_NE x y.
Definition fsub (x y : b64) : b64 := @Bminus 53 1024 prec64 emax64 mode_NE x y.
Definition fmul (x y : b64) : b64 := @Bmult 53 1024 prec64 emax64 mode_NE x y.
Definition fdiv (x y : b64) : b64 := @Bdiv 53 1024 prec64 emax64 mode_NE x y.

(** the literal -0.5 of data.py:253 and data.py:256 *)
Definition neg_half : b64 := @B754_finite 53 1024 true 4503599627370496 (-53) eq_refl.

(** np.min and np.max of two entries: NaN if either is *)
Definition fmin (x y : b64) : b64 :=
  match Bcompare x y with None => B754_nan | Some Gt => y | _ => x end.
Definition fmax (x y : b64) : b64 :=
  match Bcompare x y with None => B754_nan | Some Lt => y | _ => x end.

(** y.min(), y.max() (data.py:217, data.py:252); numpy raises ValueError on an empty array *)
Definition fmin_list (y : list b64) : res b64 :=
  match y with [] => Raise EValueError | a :: l => Ok (fold_left fmin l a) end.
Definition fmax_list (y : list b64) : res b64 :=
  match y with [] => Raise EValueError | a :: l => Ok (fold_left fmax l a) end.

(** data.py:233-253 normalize_y on a float64 array *)
Definition normalize_f (y : list b64) : res (list b64) :=
  let! lo := fmin_list y in
  let! hi := fmax_list y in
  Ok (map (fun v => fadd neg_half (fdiv (fsub v lo) (fsub hi lo))) y).

(** data.py:255-258 unnormalize_y, for the stored original_y_min and original_y_max *)
Definition unnormalize_f (lo hi : b64) (y : list b64) : list b64 :=
  map (fun v => fadd lo (fmul (fsub v neg_half) (fsub hi lo))) y.

(** data.py:265-266 normalizing_scale *)
Definition scale_f (lo hi : b64) : b64 := fsub hi lo.
