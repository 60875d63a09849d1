(** The vocabulary in which the properties of the proposal distribution are stated. *)
From Coq Require Import Reals.
From Verif Require Import Base Fl Ext MData MSplit MTree MSampler MHist MTreeHist Spec SpecTree.

(** All streams of [k] draws below [B].  np.random.choice over n alternatives takes a draw modulo n, so a draw that
    is uniform below a multiple of n picks each alternative with probability 1/n. *)
Fixpoint streams (B k : nat) : list (list nat) :=
  match k with
  | O => [[]]
  | S k' => flat_map (fun d => map (cons d) (streams B k')) (seq 0 B)
  end.
(** the share of the streams of [k] draws with the property [P] *)
Definition share (B k : nat) (P : list nat -> bool) : R := (INR (length (filter P (streams B k))) / INR (length (streams B k)))%R.
(** [P] happens with probability [q]: the shares tend to [q] as the streams get longer, if the draws are uniform below
    any multiple of some number *)
Definition chance (P : list nat -> bool) (q : R) : Prop :=
  exists N, 0 < N /\ forall B, 0 < B -> Nat.divide N B -> Un_cv (fun k => share B k P) q.

(** with the draws [ds] the proposal is to split leaf [i] at [x] in column [v] *)
Definition proposes_grow (h : heap) (t : tree) (i v : nat) (x : fl) (ds : list nat) : bool :=
  match sample_grow_mutation h t ds with
  | Ok (m, h1, _) => Nat.eqb (mu_existing m) i &&
      match dec_most_recent h1 (mu_updated m) with Some c => Nat.eqb (sc_var c) v && feqb (sc_val c) x | None => false end
  | _ => false
  end.
(** with the draws [ds] the proposal is to prune node [i] *)
Definition proposes_prune (h : heap) (t : tree) (i : nat) (ds : list nat) : bool :=
  match sample_prune_mutation h t ds with Ok (m, _, _) => Nat.eqb (mu_existing m) i | _ => false end.

(** number of rows of the node with a value below the node's largest in column [v] *)
Definition rows_below_max (X : matrix) (s : split) (v : nat) : nat :=
  let n := length (mx_rows X) in
  count (fun i => in_nodeb s i && existsb (fun j => in_nodeb s j && flt (value_in X i v) (value_in X j v)) (seq 0 n)) n.
(** leaf [i] of the tree [h], [t] may be split at [x] in column [v] *)
Definition may_grow (X : matrix) (h : heap) (t : tree) (i v : nat) (x : fl) : Prop :=
  In i (leaf_nodes h t) /\ exists s, node_split h i = Some s /\ In v (fst (splittable_variables (d_X (sp_data s)))) /\
    (exists j, in_node s j /\ value_in X j v = x) /\ (exists j, in_node s j /\ flt x (value_in X j v) = true).
(** node [i] is a decision node with two leaf children *)
Definition may_prune (h : heap) (t : tree) (i : nat) : Prop :=
  In i (tr_nodes t) /\ exists l r, left_child h i = Some l /\ right_child h i = Some r /\ is_leaf h l = true /\ is_leaf h r = true.
(** the other child of [i]'s parent is a leaf too *)
Definition sibling_is_leaf (h : heap) (t : tree) (i : nat) : Prop :=
  exists j, may_prune h t j /\ (left_child h j = Some i \/ right_child h j = Some i).
