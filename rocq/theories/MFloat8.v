(** Double precision version of the error measures of the scikit-learn class. *)
From Coq Require Import ZArith Reals List.
From Flocq Require Import Core.Core IEEE754.BinarySingleNaN.
From Verif Require Import Base MFloat MFloat2 MFloat4.

(** sklearnmodel.py:249-252 residuals, for targets and predictions of the same length *)
Definition residuals_f (y p : list b64) : list b64 := map2 fsub y p.
(** sklearnmodel.py:254-269 l2_error; np.square multiplies *)
Definition l2_error_f (y p : list b64) : list b64 := map (fun e => fmul e e) (residuals_f y p).
(** sklearnmodel.py:271-288 rmse; np.sum adds in some order, np.sqrt is the correctly rounded root of IEEE 754 *)
Definition rmse_f (y p : list b64) (r : b64) : Prop := exists q, sums (l2_error_f y p) q /\ r = fsqrt q.
