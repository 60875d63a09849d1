(** The score of an estimator, which SklearnModel inherits from RegressorMixin. *)
From Coq Require Import Reals.
From Verif Require Import Base Fl Ext MData MModel MSklearn.
Local Open Scope R_scope.

(** sklearn/metrics/regression.py r2_score (0.20-0.23) on one output, with the prediction already made: ValueError unless
    there are as many predictions as targets; nan on fewer than two rows; on a constant target 1 if there is no error and 0
    otherwise.  Sample weights are not modelled. *)
Definition r2_score (y v : list R) : res ext :=
  if negb (length y =? length v)%nat then Raise EValueError else
  if (length v <? 2)%nat then Ok XNaN else
  let! d := vop Rminus y v in
  let num := rsum (map (fun x => x * x) d) in
  let c := rsum y / INR (length y) in
  let den := rsum (map (fun x => (x - c) * (x - c)) y) in
  if Req_EM_T den 0 then (if Req_EM_T num 0 then Ok (XFin 1) else Ok (XFin 0))
  else if Req_EM_T num 0 then Ok (XFin 1) else Ok (XFin (1 - num / den)).
(** sklearnmodel.py:40 (RegressorMixin); sklearn/base.py RegressorMixin.score: r2_score(y, self.predict(X)) *)
Definition score_with (predict : option matrix -> res (list R)) (X : matrix) (y : list R) : res ext :=
  let! v := predict (Some X) in r2_score y v.
Definition sk_score (s : sklearn) := score_with (sk_predict s).
(** extensions/baseestimator.py:9, ols.py:8: subclasses, with their own predict (baseestimator.py:26-30) *)
Definition rb_score (s : residual_bart) (X : matrix) (y : list R) : res ext :=
  score_with (fun o => match o with Some X => rb_predict s X | None => Raise ETypeError end) X y.
