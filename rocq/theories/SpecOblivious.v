(** The vocabulary in which the properties of the oblivious tree sampler are stated. *)
From Coq Require Import Reals.
From Verif Require Import Base Fl Ext MData MSplit MTree MSampler MHist MTreeHist MOblivious Spec SpecTree.

(** [t] in heap [h] was obtained from a one-leaf tree on the data set by the calls [os]; [h0] holds whatever other
    objects exist. *)
Definition sane_ob_op (n : nat) (o : ob_op) : Prop := match o with OUpdateY y => length y = n | _ => True end.
Definition ob_reached (X : matrix) (y : list R) (normalize : bool) (h0 : heap) (os : list ob_op) (h : heap) (t : tree) : Prop :=
  length y = length (mx_rows X) /\ Forall (sane_ob_op (length y)) os /\
  exists s, root_split X y normalize = Ok s /\ ob_run (fst (start_tree h0 s)) (snd (start_tree h0 s)) os = Ok (h, t).

(** Following the child links from node [i] (at depth [d]) every path ends in a leaf after exactly [k] links, and
    the nodes met are [ids]. *)
Inductive perfect (h : heap) : nat -> nat -> nat -> list nat -> Prop :=
| perfect_leaf i d v s : h_get h i = Some (Nd (KLeaf v) s d) -> perfect h i d 0 [i]
| perfect_node i d k l r s il ir : h_get h i = Some (Nd (KDec l r) s d) ->
    perfect h l (S d) k il -> perfect h r (S d) k ir -> perfect h i d (S k) (i :: il ++ ir).
(** [t] is a perfect binary tree of depth [k] *)
Definition perfect_tree (h : heap) (t : tree) (k : nat) : Prop :=
  exists root ids, perfect h root 0 k ids /\ NoDup ids /\ NoDup (tr_nodes t) /\ forall j, In j (tr_nodes t) <-> In j ids.
(** the condition a leaf was made by *)
Definition last_condition (h : heap) (j : nat) : option scond :=
  match node_split h j with Some s => split_most_recent s | None => None end.
Definition grow_of (e : nat) (m : mutation) : Prop := mu_kind m = MGrow /\ mu_existing m = e.
Definition prune_of (e : nat) (m : mutation) : Prop := mu_kind m = MPrune /\ mu_existing m = e.
(** the split a grow proposal gives leaf [j] has positive probability: the leaf can be split, or the condition it
    was made by is "<=", or it is ">" and the leaf's rows all differ in the column of that condition *)
Definition scorable (X : matrix) (h : heap) (j : nat) : Prop :=
  is_splittable h j = true \/
  exists c, last_condition h j = Some c /\
    (sc_op c = OpLe \/ forall a b, leaf_holds h j a -> leaf_holds h j b -> value_in X a (sc_var c) = value_in X b (sc_var c) -> a = b).
(** [j] is the last leaf of the leaf list that holds training row [i] *)
Definition last_holder (h : heap) (t : tree) (i j : nat) : Prop :=
  exists L1 L2, leaf_nodes h t = L1 ++ j :: L2 /\ leaf_holds h j i /\ forall j', In j' L2 -> ~ leaf_holds h j' i.
(** the same parameters with probabilities [g] of growing and [q] of pruning *)
Definition with_moves (p : params) (g q : R) : params :=
  Pa (pa_ntrees p) (pa_alpha p) (pa_beta p) (pa_k p) (pa_siga p) (pa_sigb p) g q (pa_limit p).
