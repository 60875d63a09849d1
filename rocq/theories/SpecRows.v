(** What a fit has to do with a fit on the same rows in another order. *)
From Coq Require Import Reals Permutation.
From Verif Require Import Base Fl Ext MData MSplit MTree MSampler MModel MSklearn MFeatures MDiag SpecInvariance SpecOrder.
Local Open Scope nat_scope.

(** an order of [n] rows: the list of their old numbers, from top to bottom; a list of [n] things in that order *)
Definition row_order (order : list nat) (n : nat) : Prop := Permutation order (seq 0 n).
Definition in_order {A} (d : A) (order : list nat) (l : list A) : list A := map (fun j => nth j l d) order.
Definition rows_in_order (order : list nat) (X : matrix) : matrix := Mx (mx_ncols X) (in_order [] order (mx_rows X)).

(** the rows on one side of a threshold on a column, and on the given sides of some thresholds.  (A missing value is
    on both sides.) *)
Record side := Side { sd_column : nat; sd_threshold : fl; sd_above : bool }.
Definition on_side (s : side) (r : row) : bool :=
  if sd_above s then negb (fle (cell r (sd_column s)) (sd_threshold s)) else negb (fgt (cell r (sd_column s)) (sd_threshold s)).
Definition cut_out (ss : list side) (rows : list row) : list row := filter (fun r => forallb (fun s => on_side s r) ss) rows.
(** the test for "there is something to split in column [v]": two rows differ there, the first row not counted *)
Definition looks_splittable (rows : list row) (v : nat) : Prop :=
  exists i j, 1 <= i < j /\ j < length rows /\ feqb (cell (nth i rows []) v) (cell (nth j rows []) v) = false.
(** whatever rows a tree can cut out, the test gives the same answer for them in both matrices *)
Definition same_tests (X X' : matrix) : Prop :=
  forall ss v, v < mx_ncols X -> looks_splittable (cut_out ss (mx_rows X)) v <-> looks_splittable (cut_out ss (mx_rows X')) v.
(** every row comes at least twice *)
Definition paired (X : matrix) : Prop :=
  forall i, i < length (mx_rows X) -> exists j, j < length (mx_rows X) /\ j <> i /\ nth j (mx_rows X) [] = nth i (mx_rows X) [].

(** [s'], fitted with the rows in another order, predicts in-sample what [s] predicts, in that order; it makes the same
    predictions for new rows; the acceptance traces, the sampled sigmas, the depths of the sampled trees and the
    columns' shares of the splits are the same *)
Definition reshuffles (order : list nat) (s s' : sklearn) : Prop :=
  same_outcome (fun v v' => v' = in_order 0%R order v) (sk_predict s None) (sk_predict s' None) /\
  (forall X, sk_predict s' (Some X) = sk_predict s (Some X)) /\
  sk_accept s' = sk_accept s /\
  option_map (map (fun hs => sm_sigma (snd hs))) (sk_samples s') = option_map (map (fun hs => sm_sigma (snd hs))) (sk_samples s) /\
  plot_tree_depth s' = plot_tree_depth s /\
  (forall columns, feature_split_proportions s' columns = feature_split_proportions s columns).

(** no two rows have the same value in any column *)
Definition no_ties (X : matrix) : Prop :=
  forall v i j, v < mx_ncols X -> i < j < length (mx_rows X) -> feqb (cell (nth i (mx_rows X) []) v) (cell (nth j (mx_rows X) []) v) = false.
(** a report (see SpecOrder.v) with the in-sample predictions in the given order *)
Definition report_in_order (order : list nat) (rp : report) : report :=
  Report (let! v := rp_in rp in Ok (in_order 0%R order v)) (rp_out rp) (rp_accept rp) (rp_sigma rp) (rp_depth rp).
