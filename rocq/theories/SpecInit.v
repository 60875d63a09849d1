(** The vocabulary for imported sklearn trees. *)
From Coq Require Import Reals ZArith.
From Verif Require Import Base Fl Ext MData MSplit MTree MSampler MHist MTreeHist MInit Spec SpecTree.

(** Reading the arrays of [T] from node [i] one meets the array positions [ids], and the tree so read is
    the last argument: a position whose left child is -1 is a leaf, any other one sends a row whose feature
    is at most the threshold to its left child and all others to its right child. *)
Inductive encodes (T : sktree) : nat -> list nat -> stree -> Prop :=
| en_leaf i v z : nth_error (sk_left T) i = Some (-1)%Z -> nth_error (sk_right T) i = Some z ->
    nth_error (sk_value T) i = Some v -> encodes T i [i] (SLeaf v)
| en_node i l r f x il ir tl tr :
    nth_error (sk_left T) i = Some (Z.of_nat l) -> nth_error (sk_right T) i = Some (Z.of_nat r) ->
    nth_error (sk_feature T) i = Some f -> nth_error (sk_threshold T) i = Some x ->
    encodes T l il tl -> encodes T r ir tr ->
    encodes T i (i :: il ++ ir) (SNode f x tl tr).
(** the prediction of sklearn for one row: descend from position [i] *)
Inductive sk_predicts (T : sktree) (w : row) : nat -> R -> Prop :=
| sp_leaf i v : nth_error (sk_left T) i = Some (-1)%Z -> nth_error (sk_value T) i = Some v -> sk_predicts T w i v
| sp_left i l f x v : nth_error (sk_left T) i = Some (Z.of_nat l) ->
    nth_error (sk_feature T) i = Some f -> nth_error (sk_threshold T) i = Some x -> fle (cell w f) x = true ->
    sk_predicts T w l v -> sk_predicts T w i v
| sp_right i r l f x v : nth_error (sk_left T) i = Some (Z.of_nat l) -> nth_error (sk_right T) i = Some (Z.of_nat r) ->
    nth_error (sk_feature T) i = Some f -> nth_error (sk_threshold T) i = Some x -> fle (cell w f) x = false ->
    sk_predicts T w r v -> sk_predicts T w i v.
Fixpoint sheight (s : stree) : nat := match s with SLeaf _ => 0 | SNode _ _ l r => S (Nat.max (sheight l) (sheight r)) end.
(** features are columns of the data, thresholds are numbers *)
Fixpoint usable (ncols : nat) (s : stree) : Prop :=
  match s with
  | SLeaf _ => True
  | SNode f x l r => f < ncols /\ x <> FNaN /\ usable ncols l /\ usable ncols r
  end.
(** [T] is the array form of [s]: no position is used twice, and the four arrays have one entry per position. *)
Definition sk_form (T : sktree) (s : stree) : Prop :=
  length (sk_right T) = length (sk_left T) /\ length (sk_value T) = length (sk_left T) /\
  exists ids, encodes T 0 ids s /\ NoDup ids.
(** the tree has at least one split *)
Definition splits (s : stree) : Prop := match s with SLeaf _ => False | SNode _ _ _ _ => True end.
(** [T] describes the tree [s], which has a split, fits the data, and is not too deep for the interpreter *)
Definition importable (X : matrix) (fuel : nat) (T : sktree) (s : stree) : Prop :=
  sk_form T s /\ splits s /\ usable (mx_ncols X) s /\ sheight s < fuel.
