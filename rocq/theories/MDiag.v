(** Model of bartpy/diagnostics/trees.py, sigma.py, sampling.py, residuals.py and diagnostics.py: the numbers that
    are handed to matplotlib, seaborn or statsmodels.  The drawing itself is not modelled. *)
From Coq Require Import Reals.
From Verif Require Import Base Fl Ext MData MSplit MTree MSampler MModel MSklearn.
Local Open Scope R_scope.

(** trees.py:14: [x.depth for x in tree.nodes] *)
Fixpoint node_depths (h : heap) (ids : list nat) : res (list nat) :=
  match ids with
  | [] => Ok []
  | i :: ids' => match h_get h i with
                 | Some n => let! ds := node_depths h ids' in Ok (nd_depth n :: ds)
                 | None => Raise EAttributeError
                 end
  end.
(** trees.py:12-14 *)
Fixpoint model_depths (h : heap) (ts : list tree) : res (list nat) :=
  match ts with
  | [] => Ok []
  | t :: ts' => let! ds := node_depths h (tr_nodes t) in
                let! es := model_depths h ts' in Ok (ds ++ es)
  end.
(** trees.py:15-17: np.min, np.mean, np.max; the minimum of an empty array is a ValueError *)
Definition summary (ds : list nat) : res (nat * R * nat) :=
  match ds with
  | [] => Raise EValueError
  | d :: ds' => Ok (fold_left Nat.min ds' d, rsum (map INR ds) / INR (length ds), fold_left Nat.max ds' d)
  end.
Fixpoint depth_summaries (ss : list stored_sample) : res (list (nat * R * nat)) :=
  match ss with
  | [] => Ok []
  | (h, s) :: ss' => let! ds := model_depths h (sm_trees s) in
                     let! q := summary ds in
                     let! qs := depth_summaries ss' in Ok (q :: qs)
  end.
(** trees.py:7-26 plot_tree_depth: the three curves, as one list of (min, mean, max).  Iterating over None raises
    TypeError. *)
Definition plot_tree_depth (s : sklearn) : res (list (nat * R * nat)) :=
  match sk_samples s with None => Raise ETypeError | Some ss => depth_summaries ss end.

(** sigma.py:6-14 plot_sigma_convergence; bartpy/sigma.py:30-31 current_value *)
Definition plot_sigma_convergence (s : sklearn) : res (list R) :=
  match sk_samples s with None => Raise ETypeError | Some ss => Ok (map (fun hs => sm_sigma (snd hs)) ss) end.
(** bartpy/sigma.py:33-34 current_unnormalized_value of a sigma object of this fit; its scaling factor is
    data.y.normalizing_scale (sklearnmodel.py:165) *)
Definition unnormalized_sigma (s : sklearn) (x : R) : res R :=
  match sk_data s with
  | None => Raise EAttributeError
  | Some d => let! f := normalizing_scale (d_y d) in Ok (x * f)
  end.

(** a dict as the list of its items *)
Fixpoint trace_get (d : list (skey * R)) : res R :=
  match d with
  | [] => Raise EKeyError
  | (KyTree, x) :: _ => Ok x
  | _ :: d' => trace_get d'
  end.
Fixpoint trace_rates (ds : list (list (skey * R))) : res (list R) :=
  match ds with
  | [] => Ok []
  | d :: ds' => let! x := trace_get d in
                let! xs := trace_rates ds' in Ok (x :: xs)
  end.
(** sampling.py:6-15 plot_tree_mutation_acceptance_rate: x["Tree"] of every entry.  The attribute _acceptance_trace does
    not exist before a fit (sklearnmodel.py:122 leaves it out). *)
Definition plot_tree_mutation_acceptance_rate (s : sklearn) : res (list R) :=
  match sk_accept s with None => Raise EAttributeError | Some ds => trace_rates ds end.

(** residuals.py:8-14 plot_qq: the residuals for the matrix the estimator was fitted to *)
Definition plot_qq (s : sklearn) : res (list R) :=
  match sk_data s with
  | None => Raise EAttributeError
  | Some d => sk_residuals s (Some (cm_X (d_X d))) None
  end.
(** residuals.py:17-24 plot_homoskedasity_diagnostics: the points *)
Definition plot_homoskedasity_diagnostics (s : sklearn) : res (list R * list R) :=
  match sk_data s with
  | None => Raise EAttributeError
  | Some d => let! v := sk_predict s (Some (cm_X (d_X d))) in
              let! e := sk_residuals s (Some (cm_X (d_X d))) None in Ok (v, e)
  end.
(** diagnostics.py:10-18 plot_diagnostics *)
Definition plot_diagnostics (s : sklearn) : res (list R * list (nat * R * nat) * list R * (list R * list R) * list R) :=
  let! a := plot_qq s in
  let! b := plot_tree_depth s in
  let! c := plot_sigma_convergence s in
  let! d := plot_homoskedasity_diagnostics s in
  let! e := plot_tree_mutation_acceptance_rate s in Ok (a, b, c, d, e).
