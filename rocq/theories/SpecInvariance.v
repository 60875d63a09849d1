(** Changes of the data that a fitted estimator must not notice, or must follow. *)
From Coq Require Import Reals QArith Qcanon.
From Verif Require Import Base Fl Ext MData MSplit MTree MSampler MModel MSklearn MFeatures MDiag.
Local Open Scope R_scope.

(** every finite entry of column [v] is replaced by its image under [psi v]; NaN and infinities stay *)
Definition recode_cell (psi : nat -> Qc -> Qc) (v : nat) (x : fl) : fl := match x with FFin q => FFin (psi v q) | _ => x end.
Definition recode (psi : nat -> Qc -> Qc) (X : matrix) : matrix :=
  Mx (mx_ncols X) (map (fun r => map2 (recode_cell psi) (seq 0 (length r)) r) (mx_rows X)).
Definition strictly_increasing (psi : nat -> Qc -> Qc) : Prop := forall v a b, (a < b)%Qc -> (psi v a < psi v b)%Qc.
(** [y] in other units *)
Definition affine (a b : R) (y : list R) : list R := map (fun v => a + b * v) y.
(** the same draws, except that the normal draws have the opposite sign *)
Definition mirrored (r : rng) : rng := Rng (rg_method r) (rg_index r) (rg_unif r) (map Ropp (rg_norm r)) (rg_gamma r).

(** no object lives at an address that was not allocated *)
Definition heap_ok (h : heap) : Prop := forall j, (h_next h <= j)%nat -> h_get h j = None.
(** two estimators with the same hyper-parameters *)
Definition same_settings (s s' : sklearn) : Prop :=
  sk_par s' = sk_par s /\ sk_nchains s' = sk_nchains s /\ sk_nsamples s' = sk_nsamples s /\ sk_nburn s' = sk_nburn s /\
  sk_thin s' = sk_thin s /\ sk_store_preds s' = sk_store_preds s /\ sk_store_accept s' = sk_store_accept s.
(** both return and the results are related, or both raise the same exception, or both are still running *)
Definition same_outcome {A B} (P : A -> B -> Prop) (m : res A) (m' : res B) : Prop :=
  match m, m' with
  | Ok a, Ok b => P a b
  | Raise e, Raise e' => e = e'
  | NoDraws, NoDraws => True
  | _, _ => False
  end.
(** [s'] predicts for [tx X] what [s] predicts for [X] with every number put through [f], and in-sample
    likewise; the acceptance traces, the sampled sigmas, the depths of the sampled trees and the share of the
    splits that every column gets are the same *)
Definition follows (f : R -> R) (tx : matrix -> matrix) (s s' : sklearn) : Prop :=
  same_outcome (fun v v' => v' = map f v) (sk_predict s None) (sk_predict s' None) /\
  (forall X, same_outcome (fun v v' => v' = map f v) (sk_predict s (Some X)) (sk_predict s' (Some (tx X)))) /\
  sk_accept s' = sk_accept s /\
  option_map (map (fun hs => sm_sigma (snd hs))) (sk_samples s') = option_map (map (fun hs => sm_sigma (snd hs))) (sk_samples s) /\
  plot_tree_depth s' = plot_tree_depth s /\
  (forall columns, feature_split_proportions s' columns = feature_split_proportions s columns).
