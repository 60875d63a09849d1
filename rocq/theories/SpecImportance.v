(** The vocabulary in which the property of feature_importance is stated. *)
From Coq Require Import Reals Permutation.
From Verif Require Import Base Fl Ext MData MSplit MTree MSampler MModel MSklearn MFeatures.

(** What sklearn's KFold(k, shuffle=True).split yields for [n] rows: [k] test parts that together hold every row number
    once and whose sizes differ by at most one, the larger ones first; each training part is the rest, in ascending order. *)
Definition kfold (n k : nat) (parts : list (list nat * list nat)) : Prop :=
  2 <= k <= n /\ length parts = k /\ Permutation (flat_map snd parts) (seq 0 n) /\
  forall i tr te, nth_error parts i = Some (tr, te) ->
    length te = n / k + (if i <? n mod k then 1 else 0) /\ tr = filter (fun j => negb (existsb (Nat.eqb j) te)) (seq 0 n).
(** what KFold and np.random.permutation yield in the two functions called by feature_importance *)
Definition original_folds (n k : nat) (folds : list (list nat * list nat * list rng)) : Prop := kfold n k (map fst folds).
Definition null_folds (n k permutations : nat) (folds : list (list nat * list nat * list (list nat))) : Prop :=
  kfold n k (map fst folds) /\
  forall f, In f folds -> length (snd f) = permutations /\ forall p, In p (snd f) -> Permutation p (seq 0 n).
