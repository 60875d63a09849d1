(** The vocabulary in which the properties of the diagnostics are stated. *)
From Coq Require Import Reals.
From Verif Require Import Base Fl SpecTree.

(** the distances from the root of all nodes of a tree, and the largest of them *)
Fixpoint distances (t : stree) : list nat :=
  match t with SLeaf _ => [0] | SNode _ _ l r => 0 :: map S (distances l ++ distances r) end.
Fixpoint height (t : stree) : nat :=
  match t with SLeaf _ => 0 | SNode _ _ l r => S (Nat.max (height l) (height r)) end.
Definition highest (ts : list stree) : nat := fold_right Nat.max 0 (map height ts).
