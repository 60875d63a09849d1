(** What users of scikit-learn estimators expect, written independently of the code. *)
From Coq Require Import Reals.
From Verif Require Import Base Fl Ext MData MSplit MTree MSampler MModel MSklearn MEstimator.

(** two fitted estimators that no user can tell apart: the same predictions (with and without X), the same
    acceptance traces, the same sigmas *)
Definition alike (limit : nat) (e e' : estimator) : Prop :=
  (forall X, est_predict limit e' X = est_predict limit e X) /\
  ft_accept (es_fitted e') = ft_accept (es_fitted e) /\
  option_map (map (fun hs => sm_sigma (snd hs))) (ft_samples (es_fitted e')) = option_map (map (fun hs => sm_sigma (snd hs))) (ft_samples (es_fitted e)).
(** the arguments [a] with all settings of the history applied to them *)
Fixpoint settings_after (a : hyper) (os : list est_op) : hyper :=
  match os with
  | [] => a
  | Set_ p :: os' => settings_after (set_hyper a p) os'
  | _ :: os' => settings_after a os'
  end.
(** the tree sampler of the constructor call that made the object: the user's, or the one in clone *)
Fixpoint constructed_with (a : hyper) (ts : tree_sampler) (os : list est_op) : tree_sampler :=
  match os with
  | [] => ts
  | Set_ p :: os' => constructed_with (set_hyper a p) ts os'
  | Clone :: os' => constructed_with a (hy_sampler a) os'
  | _ :: os' => constructed_with a ts os'
  end.
Definition sets_tree_sampler (o : est_op) : Prop := match o with Set_ (SetTreeSampler _) => True | _ => False end.
(** the parameters [a] hold this value under this name *)
Definition says (a : hyper) (p : setting) : Prop :=
  match p with
  | SetNTrees n => hy_ntrees a = n | SetNChains n => hy_nchains a = n | SetSigmaA x => hy_siga a = x | SetSigmaB x => hy_sigb a = x
  | SetNSamples n => hy_nsamples a = n | SetNBurn n => hy_nburn a = n | SetThin t => hy_thin a = t | SetAlpha x => hy_alpha a = x
  | SetBeta x => hy_beta a = x | SetStorePreds b => hy_store_preds a = b | SetStoreAccept b => hy_store_accept a = b
  | SetTreeSampler t => hy_sampler a = t | SetNJobs z => hy_njobs a = z
  end.
