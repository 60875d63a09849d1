(** The vocabulary in which the properties of fitted estimators are stated. *)
From Coq Require Import Reals.
From Verif Require Import Base Fl Ext MData MSplit MTree MSampler MHist MTreeHist MModel MModelHist MSklearn Spec SpecTree SpecModel.
Local Open Scope R_scope.

(** [lo] and [hi] are the smallest and the largest number of the list *)
Definition range_of (y : list R) (lo hi : R) : Prop := In lo y /\ In hi y /\ forall v, In v y -> lo <= v <= hi.
(** from the normalised scale, on which [lo] is -1/2 and [hi] is 1/2, to the original units *)
Definition in_units (lo hi x : R) : R := lo + (x + / 2) * (hi - lo).
Definition mean (xs : list R) : R := rsum xs / INR (length xs).
(** what the stored samples predict for [X], one array per sample *)
Definition samples_say (ss : list stored_sample) (X : matrix) (ps : list (list R)) : Prop :=
  Forall2 (fun s p => sample_predict (fst s) (snd s) X = Ok p) ss ps.
(** chain number [i] of a fit: what it returned, and the heap in which its samples are read *)
Definition chain_result (s : sklearn) (X : matrix) (y : list R) (e : extract) (r : rng) : Prop :=
  exists h0 m m' r', start_model X y true h0 1 (sk_par s) = Ok m /\
    samples m (sk_nsamples s) (sk_nburn s) (sk_thin s) (sk_store_preds s) (sk_store_accept s) r = Ok (snd e, m', r') /\
    forall sm, In sm (ch_models (snd e)) -> forall X', sample_predict (fst e) sm X' = sample_predict (m_heap m') sm X'.
(** the samples of the chains, one chain after the other *)
Definition all_samples (es : list extract) : list stored_sample :=
  flat_map (fun e : extract => map (fun sm => (fst e, sm)) (ch_models (snd e))) es.
