(** The vocabulary in which the long-run behaviour of the tree sampler at a fixed target and noise level is stated. *)
From Coq Require Import Reals Permutation.
From Verif Require Import Base Fl Ext MData MSplit MTree MSampler MTreeHist Spec SpecTree SpecSampler.
Local Open Scope R_scope.

(** the splits of a tree without its leaf values *)
Fixpoint splits_of (st : stree) : stree :=
  match st with SLeaf _ => SLeaf 0 | SNode v x l r => SNode v x (splits_of l) (splits_of r) end.
(** the tree [t] in heap [h], read from its root *)
Definition reads (h : heap) (t : tree) (st : stree) : Prop :=
  exists root ids, unfolds h root 0 ids st /\ Permutation (tr_nodes t) ids /\ NoDup ids.

(** sum of the target over some rows *)
Definition target_sum (Y : list R) (rows : list nat) : R := rsum (map (fun i => nth i Y 0) rows).
(** what the code takes for the log likelihood gained by splitting [rows] into [rl] and [rr]
    (C35 compares it with the integrated likelihood) *)
Definition split_gain (Y : list R) (sigma tau : R) (rows rl rr : list nat) : R :=
  let v := sigma * sigma in let n := INR (length rows) in let nl := INR (length rl) in let nr := INR (length rr) in
  ln (sqrt (v * (v + n * tau) / ((v + nl * (tau * tau)) * (v + nr * (tau * tau)))))
  + tau * tau / (2 * v) * (target_sum Y rl * target_sum Y rl / (v + nl * tau) + target_sum Y rr * target_sum Y rr / (v + nr * tau)
                           - target_sum Y rows * target_sum Y rows / (v + n * tau)).
(** The score of a tree: over all its splits, the gain plus the log prior odds of the split plus log(p_prune / p_grow).
    [rows] are the rows that arrive at the node, [d] is its depth. *)
Fixpoint score (X : matrix) (Y : list R) (sigma : R) (p : params) (rows : list nat) (d : nat) (st : stree) : R :=
  match st with
  | SLeaf _ => 0
  | SNode v x l r =>
      let rl := filter (fun i => fle (value_in X i v) x) rows in
      let rr := filter (fun i => negb (fle (value_in X i v) x)) rows in
      ln (pa_pprune p / pa_pgrow p) + log_structure_odds (pa_alpha p) (pa_beta p) d
      + split_gain Y sigma (tau_of (pa_k p) (pa_ntrees p)) rows rl rr
      + score X Y sigma p rl (S d) l + score X Y sigma p rr (S d) r
  end.
Definition tree_score (X : matrix) (Y : list R) (sigma : R) (p : params) (st : stree) : R :=
  score X Y sigma p (seq 0 (length (mx_rows X))) 0 st.

(** A stretch of the life of a tree during which the target, [sigma] and the parameters stay the same: sampler steps with draws
    that are not negative, and any calls that neither edit the tree nor replace its target. [n] counts the accepted moves.
    At every accepted prune the tree has more splittable leaves than prunable nodes
    (always so when every leaf can be split, C88_all_splittable). *)
Inductive stretch (X : matrix) (sigma : R) (p : params) : heap -> tree -> nat -> heap -> tree -> Prop :=
| st_done h t : stretch X sigma p h t 0 h t
| st_call h t o h1 t1 n h2 t2 : sane_tree_op (length (mx_rows X)) o -> ~ invalidates o -> tree_do h t o = Ok (h1, t1) ->
    stretch X sigma p h1 t1 n h2 t2 -> stretch X sigma p h t n h2 t2
| st_reject h t r h1 t1 r1 n h2 t2 : Forall (fun u => 0 <= u) (rg_unif r) -> tree_step h t sigma p r = Ok (None, h1, t1, r1) ->
    stretch X sigma p h1 t1 n h2 t2 -> stretch X sigma p h t n h2 t2
| st_accept h t r m h1 t1 r1 n h2 t2 : Forall (fun u => 0 <= u) (rg_unif r) -> tree_step h t sigma p r = Ok (Some m, h1, t1, r1) ->
    (mu_kind m = MPrune -> (length (prunable_decision_nodes h t) < length (splittable_leaf_nodes h t))%nat) ->
    stretch X sigma p h1 t1 n h2 t2 -> stretch X sigma p h t (S n) h2 t2.
