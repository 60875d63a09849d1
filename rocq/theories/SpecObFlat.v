(** The vocabulary in which the size of the trees of the oblivious sampler is stated. *)
From Coq Require Import Reals.
From Verif Require Import Base Fl Ext MData MSplit MTree MSampler MHist MTreeHist MModel MModelHist MOblivious MObModel Spec SpecTree SpecModel SpecOblivious SpecObModel.

(** tree [t] in heap [h] was obtained with the oblivious tree sampler on the training matrix [X]: on its own, or as one
    of the trees of an ensemble *)
Definition ob_tree (X : matrix) (h : heap) (t : tree) : Prop :=
  (exists y nrm h0 os, ob_reached X y nrm h0 os h t) \/
  (exists y nrm h0 sigma p os m, ob_model_reached X y nrm h0 sigma p os m /\ m_heap m = h /\ In t (m_trees m)).
(** [reps] holds a copy of every training row *)
Definition copies (X : matrix) (reps : list row) : Prop :=
  forall r, In r (mx_rows X) -> exists q, In q reps /\ forall v, v < mx_ncols X -> cell q v = cell r v.
(** three rows, one covariate *)
Definition three_rows : matrix := Mx 1 [[fz 1]; [fz 2]; [fz 3]].
