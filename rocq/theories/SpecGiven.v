(** The vocabulary in which the properties of Data objects built with explicit arguments are stated. *)
From Coq Require Import Reals.
From Verif Require Import Base Fl Ext MData MSplit MHist Spec.

(** [s] is Split(Data(X, y, mask, normalize, unique_columns, splittable_variables, y_sum, n_obsv)) after the calls [os];
    the arrays have matching lengths *)
Definition given (X : matrix) (y : list R) (mask : list bool) (normalize : bool)
  (unique : option (list (option pybool))) (spl : option (list (option bool))) (y_sum : option R) (n : option pint)
  (os : list client_op) (s : split) : Prop :=
  length y = length (mx_rows X) /\ length mask = length (mx_rows X) /\
  (forall u, unique = Some u -> length u = mx_ncols X) /\ (forall l, spl = Some l -> length l = mx_ncols X) /\
  Forall (sane_op (length y)) os /\
  exists d s0, make_data X y (Some mask) normalize unique spl y_sum n = Ok d /\ make_split d = Ok s0 /\ client_run s0 os = Ok s.
(** no call goes to a child *)
Definition stays_here (o : client_op) : Prop :=
  match o with CLeft _ _ | CRight _ _ | CAddLe _ _ | CAddGt _ _ => False | _ => True end.
(** some call replaces the target *)
Definition sets_target (os : list client_op) : bool := existsb (fun o => match o with CSetY _ => true | _ => false end) os.
(** entry [v] of an optional list of facts *)
Definition fact {A} (l : option (list (option A))) (v : nat) : option A := match l with Some l => nth v l None | None => None end.
(** row [i] is not masked *)
Definition unmasked (mask : list bool) (i : nat) : bool := match nth_error mask i with Some false => true | _ => false end.
