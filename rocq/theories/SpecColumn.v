(** What a fit on a matrix with one more, constant, column has to do with the fit without it. *)
From Coq Require Import Reals.
From Verif Require Import Base Fl Ext MData MSplit MTree MSampler MModel MSklearn MFeatures MDiag SpecInvariance.
Local Open Scope nat_scope.

(** a list with [x] put in at position [k], and a matrix with the column [cs] put in as column number [k] *)
Definition put_in {A} (k : nat) (x : A) (l : list A) : list A := firstn k l ++ x :: skipn k l.
Definition with_column (k : nat) (cs : list fl) (X : matrix) : matrix :=
  Mx (S (mx_ncols X)) (map2 (put_in k) cs (mx_rows X)).
(** a 2-d array: every row has one number per column *)
Definition rectangular (X : matrix) : Prop := Forall (fun r : row => length r = mx_ncols X) (mx_rows X).
(** [cs] can be put into [X] as column number [k] *)
Definition fits_in (k : nat) (cs : list fl) (X : matrix) : Prop :=
  rectangular X /\ k <= mx_ncols X /\ length cs = length (mx_rows X).
(** all entries from the second one on are the same number, infinite or not, but not NaN *)
Definition flat_from_second (cs : list fl) : Prop := exists c, c <> FNaN /\ forall x, In x (tl cs) -> x = c.
(** neither NaN nor minus infinity *)
Definition ordinary (x : fl) : Prop := x <> FNaN /\ x <> FNInf.
(** the number of column [v] once there is one more column at position [k] *)
Definition moved (k v : nat) : nat := if v <? k then v else S v.
(** [s'], fitted with one more column, predicts what [s] predicts, in-sample and for new rows whose entries in
    the additional column are ordinary; the acceptance traces, the sampled sigmas and the depths of the
    sampled trees are the same; every column gets its old share of the splits, and the additional column none *)
Definition ignores_column (k : nat) (s s' : sklearn) : Prop :=
  same_outcome eq (sk_predict s None) (sk_predict s' None) /\
  (forall cs X, fits_in k cs X -> Forall ordinary cs ->
     same_outcome eq (sk_predict s (Some X)) (sk_predict s' (Some (with_column k cs X)))) /\
  sk_accept s' = sk_accept s /\
  option_map (map (fun hs => sm_sigma (snd hs))) (sk_samples s') = option_map (map (fun hs => sm_sigma (snd hs))) (sk_samples s) /\
  plot_tree_depth s' = plot_tree_depth s /\
  (forall columns, same_outcome (fun d d' => d' = map (fun q => (moved k (fst q), snd q)) d)
     (feature_split_proportions s columns) (feature_split_proportions s' (option_map (map (moved k)) columns))) /\
  same_outcome (fun _ d' => d' = [(k, 0%R)]) (feature_split_proportions s (Some [])) (feature_split_proportions s' (Some [k])).
