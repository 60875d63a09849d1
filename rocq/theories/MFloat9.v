(** Double precision version of the acceptance ratio of the oblivious sampler. *)
From Coq Require Import ZArith Reals List.
From Flocq Require Import Core.Core IEEE754.BinarySingleNaN.
From Verif Require Import Base MFloat MFloat2 MFloat3 MFloat4 MFloat5.
Import ListNotations.

(** Not a type of /repo: the numbers that the ratio of one mutation uses.  Row counts and sums of the targets of the node and of
    the two nodes below it, and the number of rows of the node that have the value of the cut (data.py:187-191; 1 in a column
    without ties) *)
Record fcut := FCut { fc_n : b64; fc_nl : b64; fc_nr : b64; fc_s : b64; fc_sl : b64; fc_sr : b64; fc_cnt : b64 }.
(** oblivioustrees/likihoodratio.py:130-140 log_probability_split_within_node and 119-127 log_probability_split_within_tree *)
Definition ob_split_f (q : fcut) (r : b64) : Prop := logs (fdiv (fc_cnt q) (fc_n q)) r.
(** likihoodratio.py:79-86 log_grow_transition_ratio; [- np.log(1)] is -0.0 *)
Definition ob_grow_transition_f (pgrow pprune : b64) (q : fcut) (r : b64) : Prop :=
  exists g lr, ob_split_f q g /\ logs (fdiv pprune pgrow) lr /\ r = fadd lr (fsub (B754_zero true) g).
(** likihoodratio.py:88-92 log_prune_transition_ratio *)
Definition ob_prune_transition_f (pgrow pprune : b64) (q : fcut) (r : b64) : Prop :=
  exists g lr, ob_split_f q g /\ logs (fdiv pgrow pprune) lr /\ r = fadd lr g.
(** likihoodratio.py:94-104 log_tree_ratio_grow: [d] is 1 + the depth of the node, [dd] is 2 + that depth *)
Definition ob_grow_tree_f (alpha beta d dd : b64) (q : fcut) (r : b64) : Prop :=
  exists den l rt up ch, node_not_split_f alpha beta d den /\ node_not_split_f alpha beta dd l /\ node_not_split_f alpha beta dd rt /\
    node_split_f alpha beta d up /\ ob_split_f q ch /\ r = fsub (fadd (fadd (fadd l rt) up) ch) den.
(** likihoodratio.py:106-116 log_tree_ratio_prune *)
Definition ob_prune_tree_f (alpha beta d dd : b64) (q : fcut) (r : b64) : Prop :=
  exists num l rt up ch, node_not_split_f alpha beta d num /\ node_not_split_f alpha beta dd l /\ node_not_split_f alpha beta dd rt /\
    node_split_f alpha beta d up /\ ob_split_f q ch /\ r = fsub num (fadd (fadd (fadd l rt) up) ch).
(** samplers/treemutation.py:57-77 log_probability_ratio of one mutation *)
Definition ob_ratio_f (grow : bool) (alpha beta pgrow pprune sigma tau d dd : b64) (q : fcut) (r : b64) : Prop :=
  exists a x c,
    (if grow then ob_grow_transition_f pgrow pprune q a else ob_prune_transition_f pgrow pprune q a) /\
    likelihood_f sigma tau (fc_n q) (fc_nl q) (fc_nr q) (fc_s q) (fc_sl q) (fc_sr q) x /\
    (if grow then ob_grow_tree_f alpha beta d dd q c else ob_prune_tree_f alpha beta d dd q c) /\
    r = ratio_f grow a x c.
(** oblivioustrees/treemutation.py:42: np.sum over the mutations, which all are at the same depth (C63) *)
Definition ob_total_f (grow : bool) (alpha beta pgrow pprune sigma tau d dd : b64) (qs : list fcut) (r : b64) : Prop :=
  exists rs, Forall2 (ob_ratio_f grow alpha beta pgrow pprune sigma tau d dd) qs rs /\ sums rs r.
(** oblivioustrees/treemutation.py:43 [sample() < ratio] *)
Definition ob_accepted_f (w r : b64) : bool := fless w r.
