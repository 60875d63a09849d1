(** Double precision version of a tree's turn with the oblivious sampler: from the rows of the data to the decision. *)
From Coq Require Import ZArith Reals List.
From Flocq Require Import Core.Core IEEE754.BinarySingleNaN.
From Verif Require Import Base MFloat MFloat7 MFloat9.

(** Not a type of /repo: one mutation of a level.  The rows of the node and of the two nodes below it (as masks), their row counts,
    and the number of rows of the node with the value of the cut.  [rc_copy]: the node cannot be split, both nodes below it have
    its rows (oblivioustrees/proposer.py:68-72). *)
Record rcut := RCut { rc_copy : bool; rc_mask : list bool; rc_left : list bool; rc_right : list bool; rc_n : b64; rc_nl : b64; rc_nr : b64; rc_cnt : b64 }.
(** The sums of the targets ([sum] for the rows of a mask, data.py:268-274).  For a new split the sum of the right node is carried
    over as a difference (node.py:84-97); for a node that cannot be split and for a prune it is computed afresh, as tree.py:67-74
    dropped the carried ones. *)
Definition cut_sums_f (grow : bool) (sum : list bool -> b64) (c : rcut) : fcut :=
  FCut (rc_n c) (rc_nl c) (rc_nr c) (sum (rc_mask c)) (sum (rc_left c))
    (if grow then if rc_copy c then sum (rc_right c) else fsub (sum (rc_mask c)) (sum (rc_left c)) else sum (rc_right c)) (rc_cnt c).
(** oblivioustrees/treemutation.py:40-46: the sum for a mask is some sum in some order, always the same one for the same mask *)
Definition ob_turn_f (grow : bool) (rows : list frow) (j : nat) (alpha beta pgrow pprune sigma tau d dd : b64) (cs : list rcut) (w : b64) (acc : bool) : Prop :=
  exists sum r, (forall mask, mask <> nil -> node_sum_f rows j mask (sum mask)) /\
    ob_total_f grow alpha beta pgrow pprune sigma tau d dd (map (cut_sums_f grow sum) cs) r /\ acc = ob_accepted_f w r.
