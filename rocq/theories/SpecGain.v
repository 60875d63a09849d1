(** The closed form of the change of log likelihood when the rows of a leaf are shared out between two leaves. *)
From Coq Require Import Reals.
From Verif Require Import Base MData Spec SpecSampler.
Local Open Scope R_scope.

(** [yl], [yr]: the targets of the two sides; [sigma]: noise; [tau]: prior standard deviation of a leaf value.
    [a] is the number the row counts are multiplied with in the numerator of the first term and in the denominators of the
    sums of squares.  Integrating the leaf value out gives [a] = tau^2. *)
Definition split_gain (a tau sigma : R) (yl yr : list R) : R :=
  let v := sigma ^ 2 in
  let nl := INR (length yl) in let nr := INR (length yr) in
  ln (v * (v + (nl + nr) * a) / ((v + nl * tau ^ 2) * (v + nr * tau ^ 2))) / 2
  + tau ^ 2 / (2 * v) * (rsum yl ^ 2 / (v + nl * a) + rsum yr ^ 2 / (v + nr * a)
                         - (rsum yl + rsum yr) ^ 2 / (v + (nl + nr) * a)).
