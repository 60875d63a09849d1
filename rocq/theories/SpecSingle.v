(** What the single precision results are compared with: exact real arithmetic on the same numbers. *)
From Coq Require Import ZArith Reals List.
From Flocq Require Import Core.Core IEEE754.BinarySingleNaN.
From Verif Require Import MSingle.
Import ListNotations.
Local Open Scope R_scope.

(** the real number a finite float32 stands for *)
Definition val (x : b32) : R := @B2R 24 128 x.
Definition finite (x : b32) : Prop := @is_finite 24 128 x = true.
Definition nan (x : b32) : Prop := @is_nan 24 128 x = true.

(** [lo] and [hi] are the smallest and the largest number of the list *)
Definition smallest (lo : b32) (y : list b32) : Prop := In lo y /\ Forall (fun v => val lo <= val v) y.
Definition largest (hi : b32) (y : list b32) : Prop := In hi y /\ Forall (fun v => val v <= val hi) y.

(** the position of [v] between [lo] and [hi], mapped to [-1/2, 1/2] *)
Definition position (lo hi v : R) : R := - /2 + (v - lo) / (hi - lo).

(** two lists of the same length whose entries correspond *)
Definition rows {A B : Type} (P : A -> B -> Prop) (l : list A) (m : list B) : Prop := Forall2 P l m.

