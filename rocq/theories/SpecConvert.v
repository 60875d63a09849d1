(** What the values in an array or DataFrame are, as written by the user. *)
From Coq Require Import ZArith Reals List.
From Verif Require Import MConvert SpecDouble.
Import ListNotations.
Local Open Scope R_scope.

(** the number an entry stands for *)
Definition written (e : entry) : R := match e with VInt z => IZR z | VBool b => if b then 1 else 0 | VFloat x => val x end.
(** an int64 is between -2^63 and 2^63 - 1 *)
Definition int64 (z : Z) : Prop := (- 2 ^ 63 <= z < 2 ^ 63)%Z.
Definition in_range (e : entry) : Prop := match e with VInt z => int64 z | _ => True end.
(** integers of at most 2^53 in absolute value *)
Definition moderate (e : entry) : Prop := match e with VInt z => (- 2 ^ 53 <= z <= 2 ^ 53)%Z | _ => True end.

(** the rows as the user wrote them, and the entry in row [i], column [j] *)
Definition rows_of (X : input) : list (list entry) := match X with InArr a => ar_rows a | InFrame f => df_rows f end.
Definition columns_of (X : input) : nat := match X with InArr a => ar_ncols a | InFrame f => length (df_kinds f) end.
Definition at_cell (rows : list (list entry)) (i j : nat) : option entry :=
  match nth_error rows i with Some r => nth_error r j | None => None end.
(** an entry of a column of the given dtype *)
Definition of_kind (k : kind) (e : entry) : Prop :=
  match k, e with KInt, VInt _ | KBool, VBool _ | KFloat, VFloat _ | KObject, _ => True | _, _ => False end.
(** a DataFrame whose entries have the dtypes of their columns *)
Definition well_typed (f : frame) : Prop := Forall (Forall2 of_kind (df_kinds f)) (df_rows f).
(** a DataFrame of integer and float columns only, with at least one float column *)
Definition mixed (f : frame) : Prop := In KFloat (df_kinds f) /\ Forall (fun k => k = KInt \/ k = KFloat) (df_kinds f).
