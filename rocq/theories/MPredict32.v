(** Model of split conditions on rows of float32 when the training data were float64: splitcondition.py:69-73 compares a float32 array with
    float64 scalars. *)
From Coq Require Import ZArith List.
From Flocq Require Import Core.Core IEEE754.BinarySingleNaN.
From Verif Require Import Base MFloat MConvert MSplit MPredictType MSingle2.
From Verif Require MSingle.
Import ListNotations.

(** numpy: astype(np.float32) of a float64, to nearest even *)
Definition narrow (x : b64) : MSingle.b32 :=
  match x with
  | B754_zero s => B754_zero s
  | B754_infinity s => B754_infinity s
  | B754_nan => B754_nan
  | B754_finite s m e _ => @binary_normalize 24 128 MSingle.prec32 MSingle.emax32 mode_NE (cond_Zopp s (Zpos m)) e s
  end.
(** numpy before version 2 (min_scalar_type): a float64 scalar counts as float32 if it is between -3.4e38 and 3.4e38 or not finite *)
Definition limit : b64 := @binary_normalize 53 1024 prec64 emax64 mode_NE (34 * 10 ^ 37) 0 false.
Definition counts_as_single (t : b64) : bool :=
  if @is_finite 53 1024 t then match Bcompare (Babs t) limit with Some Lt => true | _ => false end else true.
(** numpy: comparing an entry of a float32 array with a float64 scalar.  Before version 2 ([legacy]) a scalar that counts as float32 is
    rounded and the comparison is one of float32; from version 2 on it is always one of float64. *)
Definition compare32 (legacy : bool) (x : MSingle.b32) (t : b64) : option comparison :=
  if legacy && counts_as_single t then Bcompare x (narrow t) else Bcompare (widen x) t.
(** splitcondition.py:69-73 condition(X) on one row of float32; the bounds are those of MPredictType, from float64 training data *)
Definition row32 (legacy : bool) (vars : list (nat * tcvc)) (r : list MSingle.b32) : bool :=
  forallb (fun vb => let x := nth (fst vb) r B754_nan in
             (match compare32 legacy x (to_float (tv_min (snd vb))) with Some Gt => true | _ => false end) &&
             (match compare32 legacy x (to_float (tv_max (snd vb))) with Some Lt | Some Eq => true | _ => false end)) vars.
