(** Model of the equality of split conditions and of a single column's bounds used on their own. *)
From Coq Require Import Reals.
From Verif Require Import Base Fl MData MSplit.

Definition op_eqb (a b : sop) : bool := match a, b with OpLe, OpLe | OpGt, OpGt | OpOther, OpOther => true | _, _ => false end.
(** splitcondition.py:36-37 SplitCondition.__eq__; two callables other than le and gt are not told apart here *)
Definition sc_eq (a b : scond) : bool := Nat.eqb (sc_var a) (sc_var b) && feqb (sc_val a) (sc_val b) && op_eqb (sc_op a) (sc_op b).

(** splitcondition.py:40-44 CombinedVariableCondition with its variable number *)
Record vcond := VC { vc_var : nat; vc_bounds : cvc }.
(** splitcondition.py:46-54 add_condition with the guard of line 47 *)
Definition vc_add (b : vcond) (s : scond) : vcond :=
  if negb (Nat.eqb (vc_var b) (sc_var s)) then b else VC (vc_var b) (add_condition (vc_bounds b) s).
