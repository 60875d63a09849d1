(** The vocabulary in which the properties of feature selection are stated. *)
From Coq Require Import Reals Permutation.
From Verif Require Import Base Fl Ext MData MSplit MTree MSampler MModel MSklearn Spec SpecTree SpecModel.
Local Open Scope R_scope.

(** the conditions that lead from the root of a tree to each of its nodes *)
Fixpoint paths (cs : list rule) (t : stree) : list (list rule) :=
  match t with
  | SLeaf _ => [cs]
  | SNode v x l r => cs :: paths (cs ++ [Rl v x true]) l ++ paths (cs ++ [Rl v x false]) r
  end.
(** the variables of a tree's splits, one entry per split; its number of nodes *)
Fixpoint split_vars (t : stree) : list nat :=
  match t with SLeaf _ => [] | SNode v _ l r => v :: split_vars l ++ split_vars r end.
Fixpoint n_nodes (t : stree) : nat :=
  match t with SLeaf _ => 1 | SNode _ _ l r => S (n_nodes l + n_nodes r) end.
(** the conditions recorded in a stored node *)
Definition stored_path (h : heap) (i : nat) : option (list rule) :=
  match h_get h i with
  | Some (Nd _ (SCond c) _) =>
      Some (map (fun q => Rl (sc_var q) (sc_val q) (match sc_op q with OpLe => true | _ => false end)) (cc_conds c))
  | _ => None
  end.
(** the stored sample [e] consists of the trees [ts] on [n] covariates: its nodes are theirs, the depth of a node is
    the number of conditions that lead to it, and the sample predicts the sum of what the trees predict *)
Definition consists_of (n : nat) (e : stored_sample) (ts : list stree) : Prop :=
  Forall2 (fun t st => Permutation (map (stored_path (fst e)) (tr_nodes t)) (map Some (paths [] st))) (sm_trees (snd e)) ts /\
  (forall t i, In t (sm_trees (snd e)) -> In i (tr_nodes t) ->
     exists nd ps, h_get (fst e) i = Some nd /\ stored_path (fst e) i = Some ps /\ nd_depth nd = length ps) /\
  (forall st v, In st ts -> In v (split_vars st) -> (v < n)%nat) /\
  forall X, (n <= mx_ncols X)%nat -> exists p, sample_predict (fst e) (snd e) X = Ok p /\ length p = length (mx_rows X) /\
    forall k, (k < length (mx_rows X))%nat -> row_clean n (nth k (mx_rows X) []) = true ->
      nth k p 0 = rsum (map (fun st => walk st (nth k (mx_rows X) [])) ts).
(** number of occurrences *)
Definition times (v : nat) (l : list nat) : nat := count_occ Nat.eq_dec l v.
(** a fitted or restored estimator holds samples that consist of the trees [tss], one list per sample *)
Definition holds_trees (n : nat) (s : sklearn) (tss : list (list stree)) : Prop :=
  exists ss, sk_samples s = Some ss /\ Forall2 (consists_of n) ss tss.
(** what feature_split_proportions reports for column [v] if the trees in the samples are [ts] *)
Definition reported (ts : list stree) (v : nat) : R :=
  2 * INR (times v (flat_map split_vars ts)) / INR (list_sum (map n_nodes ts)).
