(** Covariate values: what comparison of IEEE doubles can see.
    Finite doubles are rationals and are compared exactly, so canonical rationals [Qc] are a
    faithful carrier; NaN and the infinities are explicit.  (-0. and 0. compare equal and are one value.) *)
From Coq Require Import QArith Qcanon.
From Verif Require Import Base.

Inductive fl : Type := FNaN | FNInf | FFin (q : Qc) | FPInf.

Definition qc_ltb (a b : Qc) : bool := match Qccompare a b with Lt => true | _ => false end.
Definition qc_eqb (a b : Qc) : bool := match Qccompare a b with Eq => true | _ => false end.

(** IEEE [a < b]: false when either is NaN. *)
Definition flt (a b : fl) : bool :=
  match a, b with
  | FNaN, _ | _, FNaN => false
  | FNInf, FNInf => false
  | FNInf, _ => true
  | _, FNInf => false
  | FPInf, _ => false
  | _, FPInf => true
  | FFin x, FFin y => qc_ltb x y
  end.

(** IEEE [a == b] *)
Definition feqb (a b : fl) : bool :=
  match a, b with
  | FNInf, FNInf | FPInf, FPInf => true
  | FFin x, FFin y => qc_eqb x y
  | _, _ => false
  end.

(** IEEE [a <= b] *)
Definition fle (a b : fl) : bool := flt a b || feqb a b.
(** IEEE [a > b] *)
Definition fgt (a b : fl) : bool := flt b a.

Definition is_nan (a : fl) : bool := match a with FNaN => true | _ => false end.

(** [np.max] propagates NaN. *)
Definition fmax (a b : fl) : fl :=
  if is_nan a then a else if is_nan b then b else if flt a b then b else a.

(** integer literals, for examples *)
Definition fz (z : Z) : fl := FFin (Q2Qc (inject_Z z)).
