(** The statistics the sampler properties refer to, written independently of the code. *)
From Coq Require Import Reals.
From Verif Require Import Base Fl Ext MData MSplit MTree Spec.
Local Open Scope R_scope.

(** logarithm of the density at [x] of the normal distribution with mean [m] and variance [v] *)
Definition normal_log (x m v : R) : R := - (ln (2 * Rtrigo1.PI * v) / 2) - (x - m) * (x - m) / (2 * v).

(** The model of one leaf: mu ~ N(0, tau^2); the rows of the leaf are independent N(mu, sigma^2). *)
Definition log_joint (y : list R) (sigma tau mu : R) : R :=
  rsum (map (fun yi => normal_log yi mu (sigma * sigma)) y) + normal_log mu 0 (tau * tau).

(** Bayes: joint density = marginal density * posterior density, for every value of mu. *)
Definition factorises (y : list R) (sigma tau : R) (log_marginal m v : R) : Prop :=
  0 < v /\ forall mu, log_joint y sigma tau mu = log_marginal + normal_log mu m v.
(** the posterior distribution of the leaf value is N(m, v) *)
Definition posterior_is (y : list R) (sigma tau m v : R) : Prop := exists c, factorises y sigma tau c m v.
(** the rows of the leaf have log integrated likelihood [c] *)
Definition log_marginal_is (y : list R) (sigma tau c : R) : Prop := exists m v, factorises y sigma tau c m v.

(** the prior standard deviation of a leaf value, 0.5 / (k sqrt(n_trees)) *)
Definition tau_of (k : R) (n_trees : nat) : R := / 2 / (k * sqrt (INR n_trees)).

(** prior probability that a node at depth [d] is split *)
Definition split_probability (alpha beta : R) (d : nat) : R := alpha * Rpower (1 + INR d) (- beta).
(** log prior odds of splitting a leaf at depth [d] into two leaves *)
Definition log_structure_odds (alpha beta : R) (d : nat) : R :=
  let q := split_probability alpha beta in
  ln (1 - q (S d)) + ln (1 - q (S d)) + ln (q d) - ln (1 - q d).

(** the target values of the rows of a node, in row order *)
Definition node_targets (s : split) (y : list R) : list R :=
  map (fun i => nth i y 0) (filter (in_nodeb s) (seq 0 (length y))).

(** what of a node makes up the structure of the tree: child links, conditions, rows, depth *)
Definition structure_of (n : tnode) : option (nat * nat) * ccond * option covmat * nat :=
  (match nd_kind n with KLeaf _ => None | KDec l r => Some (l, r) end, nsplit_cc (nd_split n),
   match nd_split n with SFull s => Some (d_X (sp_data s)) | SCond _ => None end, nd_depth n).
(** u is smaller than an extended real *)
Definition u_below (u : R) (L : ext) : Prop :=
  match L with XNaN | XNInf => False | XFin l => u < l | XPInf => True end.
(** arithmetic mean *)
Definition average (l : list R) : R := rsum l / INR (length l).
(** the two sides of the decision node [u] *)
Definition sides (h : heap) (u : nat) (sl sr : split) : Prop :=
  exists l r, left_child h u = Some l /\ right_child h u = Some r /\ node_split h l = Some sl /\ node_split h r = Some sr.
