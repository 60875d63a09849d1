(** The vocabulary in which the properties of fitted trees and the training data are stated. *)
From Coq Require Import Reals.
From Verif Require Import Base Fl MData Spec SpecTree SpecFeatures.

(** The tree splits [rows], the training rows at its root, and sends some of them to every leaf; the threshold of every
    split is the value that one of the rows at that node has in the split's column, one of the first [n]. *)
Fixpoint splits_rows (n : nat) (rows : list row) (t : stree) : Prop :=
  match t with
  | SLeaf _ => rows <> []
  | SNode v x l r =>
      v < n /\ (exists q, In q rows /\ cell q v = x) /\
      splits_rows n (filter (fun q => fle (cell q v) x) rows) l /\ splits_rows n (filter (fun q => fgt (cell q v) x) rows) r
  end.
(** the splits of a tree, its number of leaves and the longest way from its root to a leaf *)
Fixpoint splits_of (t : stree) : list (nat * fl) :=
  match t with SLeaf _ => [] | SNode v x l r => (v, x) :: splits_of l ++ splits_of r end.
Fixpoint n_leaves (t : stree) : nat :=
  match t with SLeaf _ => 1 | SNode _ _ l r => n_leaves l + n_leaves r end.
Fixpoint height (t : stree) : nat :=
  match t with SLeaf _ => 0 | SNode _ _ l r => S (Nat.max (height l) (height r)) end.
(** within each column the thresholds are ordered as in a search tree *)
Fixpoint search_tree (t : stree) : Prop :=
  match t with
  | SLeaf _ => True
  | SNode v x l r =>
      (forall z, In (v, z) (splits_of l) -> flt z x = true) /\ (forall z, In (v, z) (splits_of r) -> flt x z = true) /\
      search_tree l /\ search_tree r
  end.
(** [a] and [b] lie on the same side of every training value of column [v], the largest excepted *)
Definition same_side (X : matrix) (v : nat) (a b : fl) : Prop :=
  forall q q', In q (mx_rows X) -> In q' (mx_rows X) -> flt (cell q v) (cell q' v) = true ->
    (fle a (cell q v) = true <-> fle b (cell q v) = true).
(** [x] is the smallest, the largest value of column [v] *)
Definition smallest (X : matrix) (v : nat) (x : fl) : Prop :=
  (exists q, In q (mx_rows X) /\ cell q v = x) /\ forall q, In q (mx_rows X) -> fle x (cell q v) = true.
Definition largest (X : matrix) (v : nat) (x : fl) : Prop :=
  (exists q, In q (mx_rows X) /\ cell q v = x) /\ forall q, In q (mx_rows X) -> fle (cell q v) x = true.
Definition clip (lo hi x : fl) : fl := if flt x lo then lo else if flt hi x then hi else x.
(** [x] is a value of column [v] *)
Definition training_value (X : matrix) (v : nat) (x : fl) : Prop := exists q, In q (mx_rows X) /\ cell q v = x.
