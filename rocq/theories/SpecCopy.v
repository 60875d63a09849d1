(** What a fit has to do with a fit on the same columns, some of them copied. *)
From Coq Require Import Reals.
From Verif Require Import Base Fl Ext MData MSplit MTree MSampler MModel MSklearn MFeatures MDiag SpecInvariance SpecColumn.
Local Open Scope nat_scope.

(** [p] lists every one of the [n] columns once or more often, in any order *)
Definition covers (p : list nat) (n : nat) : Prop := forall v, In v p <-> v < n.
(** the matrix with the columns that [p] lists, from left to right *)
Definition copies (p : list nat) (X : matrix) : matrix :=
  Mx (length p) (map (fun r : row => map (fun v => nth v r FNaN) p) (mx_rows X)).
(** the numbers under which column [v] is found among the copies *)
Definition copies_of (p : list nat) (v : nat) : list nat := filter (fun j => nth j p v =? v) (seq 0 (length p)).

(** A translation of the index draws (the results of np.random.choice and of np.random.randint, taken modulo the number
    of choices): the other draws stay as they are, so does the number of index draws, and every sequence of draws is
    the translation of one. *)
Definition translates (f : rng -> rng) : Prop :=
  (forall r, rg_method (f r) = rg_method r /\ rg_unif (f r) = rg_unif r /\ rg_norm (f r) = rg_norm r /\ rg_gamma (f r) = rg_gamma r) /\
  (forall r, length (rg_index (f r)) = length (rg_index r)) /\
  (forall r', exists r, f r = r').

(** [s], fitted with the columns once each, predicts what [s'], fitted with the copies, predicts, in-sample and for new
    rows whose columns are copied in the same way; the acceptance traces, the sampled sigmas and the depths of the
    sampled trees are the same; a column's share of the splits is the sum of the shares of its copies *)
Definition copies_share (p : list nat) (s' s : sklearn) : Prop :=
  same_outcome eq (sk_predict s' None) (sk_predict s None) /\
  (forall X, rectangular X -> covers p (mx_ncols X) -> same_outcome eq (sk_predict s' (Some (copies p X))) (sk_predict s (Some X))) /\
  sk_accept s = sk_accept s' /\
  option_map (map (fun hs => sm_sigma (snd hs))) (sk_samples s) = option_map (map (fun hs => sm_sigma (snd hs))) (sk_samples s') /\
  plot_tree_depth s = plot_tree_depth s' /\
  (forall v, same_outcome (fun d' d => map fst d' = copies_of p v /\ d = [(v, rsum (map snd d'))])
     (feature_split_proportions s' (Some (copies_of p v))) (feature_split_proportions s (Some [v]))).

(** how often, among the index draws below [M], the column that is drawn from the splittable ones of [c] satisfies [f] *)
Definition drawn_among (c : covmat) (f : nat -> bool) (M : nat) : nat :=
  length (filter (fun d => match random_splittable_variable c d with Ok w => f w | _ => false end) (seq 0 M)).
