(** What a fit has to do with a fit on the same columns in another order. *)
From Coq Require Import Reals Permutation.
From Verif Require Import Base Fl Ext MData MSplit MTree MSampler MModel MSklearn MFeatures MDiag SpecInvariance SpecColumn.
Local Open Scope nat_scope.

(** an order of [n] columns: the list of their old numbers, from left to right *)
Definition column_order (p : list nat) (n : nat) : Prop := Permutation p (seq 0 n).
(** the matrix with its columns in the order [p] *)
Definition reordered (p : list nat) (X : matrix) : matrix :=
  Mx (mx_ncols X) (map (fun r : row => map (fun j => nth j r FNaN) p) (mx_rows X)).
(** the new number of column [v]: its position in the list *)
Fixpoint position (p : list nat) (v : nat) : nat :=
  match p with [] => 0 | x :: p' => if x =? v then 0 else S (position p' v) end.

(** A one-to-one exchange of the index draws (the results of np.random.choice and of np.random.randint, taken modulo the
    number of choices): the other draws stay as they are, so does the number of index draws, and draws below [M] stay
    below [M], for every [M] that is a multiple of all numbers up to [n].  So if the index draws are independent and
    uniform below such an [M], the exchanged ones are, too. *)
Definition exchanges (n : nat) (f : rng -> rng) : Prop :=
  (forall r, rg_method (f r) = rg_method r /\ rg_unif (f r) = rg_unif r /\ rg_norm (f r) = rg_norm r /\ rg_gamma (f r) = rg_gamma r) /\
  (forall r, length (rg_index (f r)) = length (rg_index r)) /\
  (forall r M, (forall k, 1 <= k <= n -> Nat.divide k M) -> Forall (fun d => d < M) (rg_index r) -> Forall (fun d => d < M) (rg_index (f r))) /\
  (forall r r', f r = f r' -> r = r').

(** [s'], fitted with the columns in the order [p], predicts what [s] predicts, in-sample and for new rows whose
    columns are put into the same order; the acceptance traces, the sampled sigmas and the depths of the sampled
    trees are the same; every column has its share of the splits under its new number *)
Definition reorders (p : list nat) (s s' : sklearn) : Prop :=
  same_outcome eq (sk_predict s None) (sk_predict s' None) /\
  (forall X, rectangular X -> mx_ncols X = length p -> same_outcome eq (sk_predict s (Some X)) (sk_predict s' (Some (reordered p X)))) /\
  sk_accept s' = sk_accept s /\
  option_map (map (fun hs => sm_sigma (snd hs))) (sk_samples s') = option_map (map (fun hs => sm_sigma (snd hs))) (sk_samples s) /\
  plot_tree_depth s' = plot_tree_depth s /\
  (forall columns, Forall (fun v => v < length p) columns ->
     same_outcome (fun d d' => d' = map (fun q => (position p (fst q), snd q)) d)
       (feature_split_proportions s (Some columns)) (feature_split_proportions s' (Some (map (position p) columns)))) /\
  same_outcome (fun d d' => Permutation (map (fun q => (position p (fst q), snd q)) d) d')
    (feature_split_proportions s None) (feature_split_proportions s' None).

(** ** how likely an outcome is *)
(** every list of [nc] lists (one for each chain) of [len] index draws below [M] *)
Fixpoint draw_lists (len M : nat) : list (list nat) :=
  match len with O => [[]] | S len' => flat_map (fun d => map (cons d) (draw_lists len' M)) (seq 0 M) end.
Fixpoint draw_tables (nc len M : nat) : list (list (list nat)) :=
  match nc with O => [[]] | S nc' => flat_map (fun l => map (cons l) (draw_tables nc' len M)) (draw_lists len M) end.
(** generators with given other draws and these index draws *)
Fixpoint with_index (base : list rng) (ls : list (list nat)) : list rng :=
  match base, ls with r :: base', l :: ls' => rng_set_index r l :: with_index base' ls' | _, _ => [] end.
(** what a user sees of a fitted object: in-sample predictions, predictions for the rows of [X], the acceptance trace,
    the sampled sigmas and the depths of the sampled trees *)
Record report := Report { rp_in : res (list R); rp_out : res (list R); rp_accept : option (list (list (skey * R)));
                          rp_sigma : option (list R); rp_depth : res (list (nat * R * nat)) }.
Definition reported (fitted : res sklearn) (X : matrix) : res report :=
  let! s := fitted in Ok (Report (sk_predict s None) (sk_predict s (Some X)) (sk_accept s)
                                 (option_map (map (fun hs => sm_sigma (snd hs))) (sk_samples s)) (plot_tree_depth s)).
(** the number of tables of index draws after which [E] happens *)
Definition times {A} (E : A -> bool) (outcome : list (list nat) -> A) (tables : list (list (list nat))) : nat :=
  length (filter (fun ls => E (outcome ls)) tables).
