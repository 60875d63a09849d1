(** Normalisation of float32 targets: sklearnmodel.py:155-161 does not convert y, so with a float32 array the arithmetic of
    data.py:252-258 is done in IEEE 754 binary32 (numpy keeps float32 when the other operand is a Python float or a float32).
    The definitions are those of MFloat with the other format. *)
From Coq Require Import ZArith List.
From Flocq Require Import Core.Core IEEE754.BinarySingleNaN.
From Verif Require Import Base.
Import ListNotations.

(** the dtype of y: np.float32 *)
Definition prec32 : Prec_gt_0 24 := eq_refl.
Definition emax32 : Prec_lt_emax 24 128 := eq_refl.
Definition b32 := binary_float 24 128.

Definition fadd (x y : b32) : b32 := @Bplus 24 128 prec32 emax32 mode_NE x y.
Definition fsub (x y : b32) : b32 := @Bminus 24 128 prec32 emax32 mode_NE x y.
Definition fmul (x y : b32) : b32 := @Bmult 24 128 prec32 emax32 mode_NE x y.
Definition fdiv (x y : b32) : b32 := @Bdiv 24 128 prec32 emax32 mode_NE x y.

(** the literal -0.5 of data.py:253 and data.py:256 *)
Definition neg_half : b32 := @B754_finite 24 128 true 8388608 (-24) eq_refl.

(** np.min and np.max of two entries: NaN if either is *)
Definition fmin (x y : b32) : b32 :=
  match Bcompare x y with None => B754_nan | Some Gt => y | _ => x end.
Definition fmax (x y : b32) : b32 :=
  match Bcompare x y with None => B754_nan | Some Lt => y | _ => x end.

(** y.min(), y.max() (data.py:217, data.py:252); numpy raises ValueError on an empty array *)
Definition fmin_list (y : list b32) : res b32 :=
  match y with [] => Raise EValueError | a :: l => Ok (fold_left fmin l a) end.
Definition fmax_list (y : list b32) : res b32 :=
  match y with [] => Raise EValueError | a :: l => Ok (fold_left fmax l a) end.

(** data.py:233-253 normalize_y on a float32 array *)
Definition normalize_f (y : list b32) : res (list b32) :=
  let! lo := fmin_list y in
  let! hi := fmax_list y in
  Ok (map (fun v => fadd neg_half (fdiv (fsub v lo) (fsub hi lo))) y).

(** data.py:255-258 unnormalize_y, for the stored original_y_min and original_y_max *)
Definition unnormalize_f (lo hi : b32) (y : list b32) : list b32 :=
  map (fun v => fadd lo (fmul (fsub v neg_half) (fsub hi lo))) y.

(** data.py:265-266 normalizing_scale *)
Definition scale_f (lo hi : b32) : b32 := fsub hi lo.
