(** Double precision version of a tree's turn: from the rows of the data to the decision and the leaf values. *)
From Coq Require Import ZArith Reals List.
From Flocq Require Import Core.Core IEEE754.BinarySingleNaN.
From Verif Require Import Base MFloat MFloat2 MFloat3 MFloat4 MFloat5.

(** a row of the data during the fit: its target, the maintained sum of all trees and the prediction of each tree
    (model.py:44-48, model.py:71-76) *)
Definition frow := (b64 * (b64 * list b64))%type.
(** model.py:71-76 refreshed_trees, tree.py:67-74 update_y: the targets tree [j] gets at its turn *)
Definition turn_targets_f (rows : list frow) (j : nat) : list b64 := map (fun r => handed_f (fst r) (snd r) j) rows.
(** data.py:268-274 summed_y of a node of that tree *)
Definition node_sum_f (rows : list frow) (j : nat) (mask : list bool) (s : b64) : Prop := summed_f (turn_targets_f rows j) mask s.
(** node.py:90-94 split_node: the sum of the right node of a new split is carried over as a difference *)
Definition right_sum_f (rows : list frow) (j : nat) (mask maskl : list bool) (sr : b64) : Prop :=
  exists s sl, node_sum_f rows j mask s /\ node_sum_f rows j maskl sl /\ sr = fsub s sl.
(** samplers/leafnode.py:26-33 for a leaf of that tree; for the right leaf of a split made at this turn *)
Definition turn_leaf_f (rows : list frow) (j : nat) (mask : list bool) (n nt sigma sm z v : b64) : Prop :=
  exists s, node_sum_f rows j mask s /\ leaf_draw_f n nt s sigma sm z v.
Definition turn_right_leaf_f (rows : list frow) (j : nat) (mask maskl : list bool) (n nt sigma sm z v : b64) : Prop :=
  exists s, right_sum_f rows j mask maskl s /\ leaf_draw_f n nt s sigma sm z v.
(** samplers/unconstrainedtree/treemutation.py:38-44 for a proposed grow: [mask] and [maskl] are those of the node and of the left
    node below it; the other arguments are those of likihoodratio.py (MFloat4.v, MFloat5.v) *)
Definition turn_grow_f (rows : list frow) (j : nat) (mask maskl : list bool) (alpha beta pgrow pprune sigma tau n nl nr np1 ns nv cnt d1 d2 w : b64) (acc : bool) : Prop :=
  exists s sl a r c, node_sum_f rows j mask s /\ node_sum_f rows j maskl sl /\
    grow_transition_f pgrow pprune np1 ns nv cnt n a /\ likelihood_f sigma tau n nl nr s sl (fsub s sl) r /\ grow_tree_f alpha beta d1 d2 ns nv cnt n c /\
    acc = accepted_f w true a r c.
(** the same for a proposed prune; the sums of both nodes below are computed afresh, as tree.py:67-74 dropped the carried one *)
Definition turn_prune_f (rows : list frow) (j : nat) (mask maskl maskr : list bool) (alpha beta pgrow pprune sigma tau n nl nr : b64) (ns1 : option b64) (np nv cnt d1 d2 w : b64) (acc : bool) : Prop :=
  exists s sl sr a r c, node_sum_f rows j mask s /\ node_sum_f rows j maskl sl /\ node_sum_f rows j maskr sr /\
    prune_transition_f pgrow pprune ns1 np nv cnt n a /\ likelihood_f sigma tau n nl nr s sl sr r /\ prune_tree_f alpha beta d1 d2 nv cnt n c /\
    acc = accepted_f w false a r c.
