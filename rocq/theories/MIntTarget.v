(** Model of the normalisation of integer targets: sklearnmodel.py:155-161 does not convert y, so with an array of a w-bit signed integer
    dtype the subtractions of data.py:252-258 are done in that dtype, modulo 2^w, and only the division gives doubles. *)
From Coq Require Import ZArith List.
From Flocq Require Import Core.Core IEEE754.BinarySingleNaN.
From Verif Require Import Base MFloat MConvert.
Import ListNotations.
Local Open Scope Z_scope.

(** numpy: the result of an integer operation is reduced to the range of the dtype *)
Definition wrap (w z : Z) : Z := (z + 2 ^ (w - 1)) mod 2 ^ w - 2 ^ (w - 1).
(** y.min(), y.max() (data.py:217, data.py:252); numpy raises ValueError on an empty array *)
Definition imin_list (y : list Z) : res Z := match y with [] => Raise EValueError | a :: l => Ok (fold_left Z.min l a) end.
Definition imax_list (y : list Z) : res Z := match y with [] => Raise EValueError | a :: l => Ok (fold_left Z.max l a) end.
(** data.py:233-253 normalize_y on an integer array; numpy divides two integers as doubles *)
Definition normalize_i (w : Z) (y : list Z) : res (list b64) :=
  let! lo := imin_list y in
  let! hi := imax_list y in
  Ok (map (fun v => fadd neg_half (fdiv (z_to_f (wrap w (v - lo))) (z_to_f (wrap w (hi - lo))))) y).
(** data.py:255-258 unnormalize_y, for integer original_y_min and original_y_max *)
Definition unnormalize_i (w lo hi : Z) (p : list b64) : list b64 :=
  map (fun v => fadd (z_to_f lo) (fmul (fsub v neg_half) (z_to_f (wrap w (hi - lo))))) p.
(** the same for an unsigned dtype of [w] bits *)
Definition wrap_u (w z : Z) : Z := z mod 2 ^ w.
Definition normalize_u (w : Z) (y : list Z) : res (list b64) :=
  let! lo := imin_list y in
  let! hi := imax_list y in
  Ok (map (fun v => fadd neg_half (fdiv (z_to_f (wrap_u w (v - lo))) (z_to_f (wrap_u w (hi - lo))))) y).
Definition unnormalize_u (w lo hi : Z) (p : list b64) : list b64 :=
  map (fun v => fadd (z_to_f lo) (fmul (fsub v neg_half) (z_to_f (wrap_u w (hi - lo))))) p.
