(** Extended reals: IEEE arithmetic without rounding and without signed zeros.
    Used where the code can produce inf/NaN (log ratios, division by zero). *)
From Coq Require Import Reals Lra.
From Verif Require Import Base.
Local Open Scope R_scope.

Inductive ext : Type := XNaN | XNInf | XFin (r : R) | XPInf.

Definition xneg (a : ext) : ext :=
  match a with XNaN => XNaN | XNInf => XPInf | XFin r => XFin (- r) | XPInf => XNInf end.

Definition xadd (a b : ext) : ext :=
  match a, b with
  | XNaN, _ | _, XNaN => XNaN
  | XNInf, XPInf | XPInf, XNInf => XNaN
  | XNInf, _ | _, XNInf => XNInf
  | XPInf, _ | _, XPInf => XPInf
  | XFin x, XFin y => XFin (x + y)
  end.

Definition xsub (a b : ext) : ext := xadd a (xneg b).

(** sign of an extended real: Lt / Eq / Gt compared with 0 (NaN is handled before) *)
Definition rsign (r : R) : comparison :=
  if Rlt_dec r 0 then Lt else if Rlt_dec 0 r then Gt else Eq.

Definition xmul (a b : ext) : ext :=
  match a, b with
  | XNaN, _ | _, XNaN => XNaN
  | XFin x, XFin y => XFin (x * y)
  | XFin x, XPInf | XPInf, XFin x =>
      match rsign x with Gt => XPInf | Lt => XNInf | Eq => XNaN end
  | XFin x, XNInf | XNInf, XFin x =>
      match rsign x with Gt => XNInf | Lt => XPInf | Eq => XNaN end
  | XPInf, XPInf | XNInf, XNInf => XPInf
  | XPInf, XNInf | XNInf, XPInf => XNInf
  end.

(** division; x/0 is signed by x (zeros are unsigned here), 0/0 is NaN *)
Definition xdiv (a b : ext) : ext :=
  match a, b with
  | XNaN, _ | _, XNaN => XNaN
  | XFin x, XFin y =>
      if Req_EM_T y 0
      then match rsign x with Gt => XPInf | Lt => XNInf | Eq => XNaN end
      else XFin (x / y)
  | XFin _, _ => XFin 0
  | XPInf, XFin y => match rsign y with Lt => XNInf | _ => XPInf end
  | XNInf, XFin y => match rsign y with Lt => XPInf | _ => XNInf end
  | _, _ => XNaN
  end.

(** [np.log] *)
Definition xlog (a : ext) : ext :=
  match a with
  | XNaN | XNInf => XNaN
  | XPInf => XPInf
  | XFin r => match rsign r with Gt => XFin (ln r) | Eq => XNInf | Lt => XNaN end
  end.

(** [np.sqrt] *)
Definition xsqrt (a : ext) : ext :=
  match a with
  | XNaN | XNInf => XNaN
  | XPInf => XPInf
  | XFin r => match rsign r with Lt => XNaN | _ => XFin (sqrt r) end
  end.

(** [a < b] as a Python bool *)
Definition xltb (a b : ext) : bool :=
  match a, b with
  | XNaN, _ | _, XNaN => false
  | XNInf, XNInf => false
  | XNInf, _ => true
  | _, XNInf => false
  | XPInf, _ => false
  | _, XPInf => true
  | XFin x, XFin y => if Rlt_dec x y then true else false
  end.

Definition xfin (a : ext) : option R := match a with XFin r => Some r | _ => None end.
