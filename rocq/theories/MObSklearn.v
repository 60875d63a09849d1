(** SklearnModel with the tree_sampler of bartpy/samplers/oblivioustrees/treemutation.py:56-60 (get_tree_sampler) as its
    tree_sampler argument (sklearnmodel.py:99, 118).  The settings, the construction of the model, the combination of
    the chains and predict are those of MSklearn.v: only the sampling of a chain differs. *)
From Coq Require Import Reals.
From Verif Require Import Base Fl Ext MData MSplit MTree MSampler MModel MSklearn MOblivious MObModel.
Local Open Scope R_scope.

(** sklearnmodel.py:22-33 run_chain *)
Definition ob_run_chain (s : sklearn) (h : heap) (X : matrix) (y : list R) (r : rng) : res (chain * sklearn * heap) :=
  let! s1 := construct_model s h X y in
  match sk_model s1, sk_data s1 with
  | Some m, Some d =>
      let! (c, m1, _) := ob_samples m (sk_nsamples s) (sk_nburn s) (sk_thin s) (sk_store_preds s) (sk_store_accept s) r in
      Ok (c, sk_set_model s1 d m1, m_heap m1)
  | _, _ => Raise EAttributeError
  end.
(** joblib's Parallel with worker processes: as in MSklearn.v *)
Fixpoint ob_run_processes (tasks : list (sklearn * heap * matrix * list R)) (rs : list rng) : res (list extract) :=
  match tasks with
  | [] => Ok []
  | (s, h, X, y) :: tasks' =>
      match rs with
      | [] => NoDraws
      | r :: rs' => let! (c, _, h1) := ob_run_chain s h X y r in
                    let! es := ob_run_processes tasks' rs' in
                    Ok ((h1, c) :: es)
      end
  end.
(** joblib's Parallel with n_jobs=1: as in MSklearn.v *)
Fixpoint ob_run_here (n : nat) (s : sklearn) (h : heap) (X : matrix) (y : list R) (rs : list rng) : res (list chain * sklearn * heap) :=
  match n with
  | O => Ok ([], s, h)
  | S n' =>
      match rs with
      | [] => NoDraws
      | r :: rs' => let! (c, s1, h1) := ob_run_chain s h X y r in
                    let! (cs, s2, h2) := ob_run_here n' s1 h1 X y rs' in
                    Ok (c :: cs, s2, h2)
      end
  end.
(** sklearnmodel.py:124-145 fit, 176-206 f_delayed_chains and f_chains *)
Definition ob_fit (b : backend) (s : sklearn) (h : heap) (X : matrix) (y : list R) (rs : list rng) : res sklearn :=
  let! s1 := construct_model s h X y in
  match sk_model s1 with
  | None => Raise EAttributeError
  | Some m =>
      match b with
      | Processes => let! es := ob_run_processes (repeat (s1, m_heap m, X, y) (sk_nchains s1)) rs in store_chains s1 es
      | ThisProcess => let! (cs, s2, h2) := ob_run_here (sk_nchains s1) s1 (m_heap m) X y rs in
                       store_chains s2 (map (fun c => (h2, c)) cs)
      end
  end.
