(** The vocabulary in which the properties of estimators fitted with the oblivious tree sampler are stated. *)
From Coq Require Import Reals.
From Verif Require Import Base Fl Ext MData MSplit MTree MSampler MHist MTreeHist MModel MModelHist MSklearn MOblivious MObModel MObSklearn
  Spec SpecTree SpecModel SpecSklearn SpecObModel.
Local Open Scope R_scope.

(** the row satisfies all conditions of leaf [j] *)
Definition accepts (h : heap) (j : nat) (r : row) : Prop := exists s, node_split h j = Some s /\ on_path s r = true.
(** [x] is the value of the last leaf in the tree's leaf list that accepts the row *)
Definition otree_gives (h : heap) (r : row) (t : tree) (x : R) : Prop :=
  exists L1 j L2, leaf_nodes h t = L1 ++ j :: L2 /\ accepts h j r /\ (forall j', In j' L2 -> ~ accepts h j' r) /\ leaf_value h j = Some x.
(** one chain of a fit: what it returned, and the heap in which its samples are read *)
Definition ob_chain_result (s : sklearn) (X : matrix) (y : list R) (e : extract) (r : rng) : Prop :=
  exists h0 m m' r', start_model X y true h0 1 (sk_par s) = Ok m /\
    ob_samples m (sk_nsamples s) (sk_nburn s) (sk_thin s) (sk_store_preds s) (sk_store_accept s) r = Ok (snd e, m', r') /\
    forall sm, In sm (ch_models (snd e)) -> forall X', sample_predict (fst e) sm X' = sample_predict (m_heap m') sm X'.
