(** Double precision version of the whole acceptance ratio: transition ratio, tree ratio and their sum with the likelihood ratio. *)
From Coq Require Import ZArith Reals List.
From Flocq Require Import Core.Core IEEE754.BinarySingleNaN.
From Verif Require Import Base MFloat MFloat2 MFloat3 MFloat4.
Local Open Scope R_scope.

(** np.power (likihoodratio.py:173, likihoodratio.py:177) is the C library's pow.  Assumed of it: if the exact power is between
    2^-1000 and 2^1000 the result is within 2^-52 of it, relatively; nothing otherwise. *)
Definition powers (x y r : b64) : Prop :=
  let q := Rpower (@B2R 53 1024 x) (@B2R 53 1024 y) in
  bpow radix2 (-1000) <= q <= bpow radix2 1000 ->
  @is_finite 53 1024 r = true /\ Rabs (@B2R 53 1024 r - q) <= bpow radix2 (-52) * q.

(** likihoodratio.py:172-173 log_probability_node_split; [d] is 1 + node.depth *)
Definition node_split_f (alpha beta d r : b64) : Prop :=
  exists p, powers d (fneg beta) p /\ logs (fmul alpha p) r.
(** likihoodratio.py:176-177 log_probability_node_not_split *)
Definition node_not_split_f (alpha beta d r : b64) : Prop :=
  exists p, powers d (fneg beta) p /\ logs (fsub fone (fmul alpha p)) r.
(** likihoodratio.py:157-169 log_probability_split_within_node: [nv] is the number of splittable columns; the proportion of the
    chosen value (data.py:187-191) is [cnt] / [n], where [cnt] counts the rows with the value, or is 1 in a column without ties *)
Definition within_node_f (nv cnt n r : b64) : Prop :=
  exists lv lq, logs nv lv /\ logs (fdiv cnt n) lq /\ r = fadd (fneg lv) lq.
(** likihoodratio.py:145-154 log_probability_split_within_tree: [ns] is the number of splittable leaves *)
Definition within_tree_f (ns nv cnt n r : b64) : Prop :=
  exists l q, logs ns l /\ within_node_f nv cnt n q /\ r = fadd (fneg l) q.
(** likihoodratio.py:80-87 log_grow_transition_ratio: [np1] is the number of prunable nodes plus 1 *)
Definition grow_transition_f (pgrow pprune np1 ns nv cnt n r : b64) : Prop :=
  exists lp g lr, logs np1 lp /\ within_tree_f ns nv cnt n g /\ logs (fdiv pprune pgrow) lr /\ r = fadd lr (fsub (fneg lp) g).
(** likihoodratio.py:89-102 log_prune_transition_ratio: [ns1] is the number of splittable leaves minus 1, [None] if there is
    exactly one such leaf; [np] is the number of prunable nodes *)
Definition prune_transition_f (pgrow pprune : b64) (ns1 : option b64) (np nv cnt n r : b64) : Prop :=
  exists gn sp lp lr,
    match ns1 with None => gn = B754_infinity true | Some m => exists l, logs m l /\ gn = fneg l end /\
    within_node_f nv cnt n sp /\ logs np lp /\ logs (fdiv pgrow pprune) lr /\ r = fadd lr (fsub (fadd gn sp) (fneg lp)).
(** likihoodratio.py:104-114 log_tree_ratio_grow: [d] is 1 + the depth of the node, [dd] is 2 + that depth *)
Definition grow_tree_f (alpha beta d dd ns nv cnt n r : b64) : Prop :=
  exists den l rt up ch, node_not_split_f alpha beta d den /\ node_not_split_f alpha beta dd l /\ node_not_split_f alpha beta dd rt /\
    node_split_f alpha beta d up /\ within_tree_f ns nv cnt n ch /\ r = fsub (fadd (fadd (fadd l rt) up) ch) den.
(** likihoodratio.py:116-126 log_tree_ratio_prune *)
Definition prune_tree_f (alpha beta d dd nv cnt n r : b64) : Prop :=
  exists num l rt up ch, node_not_split_f alpha beta d num /\ node_not_split_f alpha beta dd l /\ node_not_split_f alpha beta dd rt /\
    node_split_f alpha beta d up /\ within_node_f nv cnt n ch /\ r = fsub num (fadd (fadd (fadd l rt) up) ch).
