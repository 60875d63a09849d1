(** The vocabulary in which the properties of trees are stated. *)
From Coq Require Import Reals.
From Verif Require Import Base Fl Ext MData MSplit MTree MSampler MHist MTreeHist Spec.

(** A binary regression tree, and the textbook way of predicting with it. *)
Inductive stree := SLeaf (value : R) | SNode (var : nat) (threshold : fl) (l r : stree).
Fixpoint walk (t : stree) (r : row) : R :=
  match t with
  | SLeaf v => v
  | SNode v x tl tr => if fle (cell r v) x then walk tl r else walk tr r
  end.

(** Following the child links from node [i] (at depth [d]) one meets the nodes [ids], in this order and
    each at the depth its level says, and the tree so read is the last argument. *)
Inductive unfolds (h : heap) : nat -> nat -> list nat -> stree -> Prop :=
| uf_leaf i d v s : h_get h i = Some (Nd (KLeaf v) s d) -> unfolds h i d [i] (SLeaf v)
| uf_node i d l r s c il ir tl tr :
    h_get h i = Some (Nd (KDec l r) s d) ->
    dec_most_recent h i = Some c -> sc_op c = OpLe ->
    unfolds h l (S d) il tl -> unfolds h r (S d) ir tr ->
    unfolds h i d (i :: il ++ ir) (SNode (sc_var c) (sc_val c) tl tr).

(** [t] in heap [h] was obtained from a one-leaf tree on the data set by the calls [os].
    [h0] holds whatever other objects exist. *)
Definition sane_tree_op (n : nat) (o : tree_op) : Prop :=
  match o with
  | TGrow _ _ x => x <> FNaN
  | TUpdateY y => length y = n
  | _ => True
  end.
(** mutations come from the proposal functions only *)
Definition proposed_op (o : tree_op) : Prop :=
  match o with TGrow _ _ _ | TPrune _ => False | _ => True end.
Definition tree_reached (X : matrix) (y : list R) (normalize : bool) (h0 : heap) (os : list tree_op)
  (h : heap) (t : tree) : Prop :=
  length y = length (mx_rows X) /\ Forall (sane_tree_op (length y)) os /\
  exists s, root_split X y normalize = Ok s /\
    tree_run (fst (start_tree h0 s)) (snd (start_tree h0 s)) os = Ok (h, t).

(** rows of a leaf object *)
Definition leaf_holds (h : heap) (j i : nat) : Prop :=
  exists s, node_split h j = Some s /\ in_node s i.
(** the target the tree was last given *)
Fixpoint last_tree_target (y0 : list R) (os : list tree_op) : list R :=
  match os with
  | [] => y0
  | TUpdateY y :: os' => last_tree_target y os'
  | _ :: os' => last_tree_target y0 os'
  end.

(** calls that change leaf values / calls that make the tree recompute its prediction *)
Definition no_set (o : tree_op) : Prop := match o with TSetValue _ _ => False | _ => True end.
Definition no_predict (o : tree_op) : Prop := match o with TPredict => False | _ => True end.
Definition mutates (o : tree_op) : Prop :=
  match o with TGrow _ _ _ | TPrune _ | TSampleGrow _ | TSamplePrune _ => True | _ => False end.
Definition invalidates (o : tree_op) : Prop :=
  match o with TUpdateY _ => True | _ => mutates o end.
(** since the last set_value there was an update_y or a mutation (or there was no set_value at all) *)
Definition cache_current (os : list tree_op) : Prop :=
  Forall no_set os \/
  exists os1 o os2, os = os1 ++ o :: os2 /\ invalidates o /\ Forall no_set os2.

(** a node with every link to [e] redirected to [u]; leaves have no links *)
Definition redirected (e u : nat) (n : tnode) : tnode :=
  match n with
  | Nd (KDec l r) s d => Nd (KDec (if Nat.eqb l e then u else l) (if Nat.eqb r e then u else r)) s d
  | Nd (KLeaf v) s d => Nd (KLeaf v) s d
  end.
(** the row satisfies every condition on the path to the node *)
Definition on_path (s : split) (r : row) : bool := forallb (fun c => cond_holds c r) (cc_conds (sp_cc s)).
(** the rows of a node, as a set *)
Definition same_rows_target (s s' : split) : Prop :=
  sp_cc s' = sp_cc s /\ d_X (sp_data s') = d_X (sp_data s) /\ t_y (d_y (sp_data s')) = t_y (d_y (sp_data s)).

(** A legal grow proposal [m] for tree [t] (proposed objects live in [h1]): an existing leaf is split on
    an offered column at a value that occurs in it and is not its maximum, into two non-empty leaves one
    level below, by value <= threshold / value > threshold. *)
Definition legal_grow (X : matrix) (h : heap) (t : tree) (m : mutation) (h1 : heap) : Prop :=
  mu_kind m = MGrow /\ In (mu_existing m) (leaf_nodes h t) /\
  exists w s d v x l r sp sl sr,
    h_get h (mu_existing m) = Some (Nd (KLeaf w) (SFull s) d) /\
    In v (fst (splittable_variables (d_X (sp_data s)))) /\
    (exists i, in_node s i /\ value_in X i v = x) /\
    (exists i, in_node s i /\ flt x (value_in X i v) = true) /\
    h_get h1 (mu_updated m) = Some (Nd (KDec l r) (SFull sp) d) /\
    h_get h1 l = Some (Nd (KLeaf 0%R) (SFull sl) (S d)) /\
    h_get h1 r = Some (Nd (KLeaf 0%R) (SFull sr) (S d)) /\
    h_next h <= mu_updated m /\ h_next h <= l /\ h_next h <= r /\
    (forall i, in_node sp i <-> in_node s i) /\
    (forall i, in_node sl i <-> in_node s i /\ fle (value_in X i v) x = true) /\
    (forall i, in_node sr i <-> in_node s i /\ fgt (value_in X i v) x = true) /\
    (exists i, in_node sl i) /\ (exists i, in_node sr i) /\
    (exists c, dec_most_recent h1 (mu_updated m) = Some c /\ sc_var c = v /\ sc_val c = x /\ sc_op c = OpLe).
(** A legal prune proposal: a decision node of the tree with two leaf children is replaced by a leaf
    with the same conditions, rows, target and depth. *)
Definition legal_prune (h : heap) (t : tree) (m : mutation) (h1 : heap) : Prop :=
  mu_kind m = MPrune /\ In (mu_existing m) (tr_nodes t) /\
  exists l r s d,
    h_get h (mu_existing m) = Some (Nd (KDec l r) s d) /\ is_leaf h l = true /\ is_leaf h r = true /\
    h_get h1 (mu_updated m) = Some (Nd (KLeaf 0%R) s d) /\ h_next h <= mu_updated m.
