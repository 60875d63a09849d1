(** The vocabulary in which the properties of models are stated. *)
From Coq Require Import Reals Permutation.
From Verif Require Import Base Fl Ext MData MSplit MTree MSampler MHist MTreeHist MModel MModelHist Spec SpecTree.

(** what a consumer of refreshed_trees() may do to the tree it was handed: mutate it with its own or with
    proposed mutations, and set leaf values *)
Definition visit_op (o : tree_op) : Prop :=
  match o with TGrow _ _ x => x <> FNaN | TUpdateY _ | TPredict => False | _ => True end.
(** for a model of [n] trees *)
Definition sane_model_op (n : nat) (o : model_op) : Prop :=
  match o with
  | GPass acts => length acts = n /\ Forall (Forall visit_op) acts
  | GBroken acts os => length acts < n /\ Forall (Forall visit_op) acts /\ Forall visit_op os
  | _ => True
  end.
(** the calls made by the sampler itself *)
Definition sampler_op (o : model_op) : Prop := match o with GPass _ | GBroken _ _ => False | _ => True end.
(** every pass was run to its end *)
Definition completes (o : model_op) : Prop := match o with GHalf _ _ _ | GBroken _ _ => False | _ => True end.
Definition model_reached (X : matrix) (y : list R) (normalize : bool) (h0 : heap) (sigma : R) (p : params)
  (os : list model_op) (m : model) : Prop :=
  length y = length (mx_rows X) /\ Forall (sane_model_op (pa_ntrees p)) os /\
  exists m0, start_model X y normalize h0 sigma p = Ok m0 /\ model_run m0 os = Ok m.

(** the tree read along its child links assigns the values [v] to the training rows *)
Definition tree_says (h : heap) (X : matrix) (t : tree) (v : list R) : Prop :=
  exists root ids s, unfolds h root 0 ids s /\ Permutation (tr_nodes t) ids /\ NoDup ids /\ v = map (walk s) (mx_rows X).
(** the predictions of all trees of a model *)
Definition trees_say (m : model) (X : matrix) (vs : list (list R)) : Prop :=
  Forall2 (tree_says (m_heap m) X) (m_trees m) vs.
(** sum over the trees, at row [i] *)
Definition total (vs : list (list R)) (i : nat) : R := rsum (map (fun v => nth i v 0%R) vs).
Definition others {A} (k : nat) (l : list A) : list A := firstn k l ++ skipn (S k) l.
(** every node of the tree holds the target [y] *)
Definition has_target (h : heap) (t : tree) (y : list R) : Prop :=
  forall j, In j (tr_nodes t) -> exists s, node_split h j = Some s /\ t_y (d_y (sp_data s)) = Some y.

(** [d] is what is missing from the running prediction, row by row *)
Definition drift (m : model) (X : matrix) (d : nat -> R) : Prop :=
  match m_pred m with
  | None => forall i, i < length (mx_rows X) -> d i = 0%R
  | Some pr => length pr = length (mx_rows X) /\
      forall vs, trees_say m X vs -> forall i, i < length (mx_rows X) -> nth i pr 0%R = (total vs i - d i)%R
  end.
(** tree number [j] has as its target the residual of all other trees, plus [d] *)
Definition fits_residual (m : model) (X : matrix) (y : list R) (j : nat) (d : nat -> R) : Prop :=
  exists t target, nth_error (m_trees m) j = Some t /\ has_target (m_heap m) t target /\ length target = length (mx_rows X) /\
    forall vs, trees_say m X vs -> forall i, i < length (mx_rows X) ->
      nth i target 0%R = (nth i y 0 - total (others j vs) i + d i)%R.

(** [sampling stores i m r l m' r']: from state [m] with the draws [r], one Gibbs step for each entry of [l], the
    first of them being number [i]; after step number [k] the calls [stores k] are made.  An entry of [l] is what
    the step reported and the state right after it. *)
Inductive sampling (stores : nat -> list model_op) : nat -> model -> rng -> list (list (skey * R) * model) -> model -> rng -> Prop :=
| sampling_end i m r : sampling stores i m r [] m r
| sampling_step i m r d acts m1 r1 m2 l m' r' :
    gibbs_step m r = Ok (d, acts, m1, r1) -> model_run m1 (stores i) = Ok m2 ->
    sampling stores (S i) m2 r1 l m' r' -> sampling stores i m r ((d, m1) :: l) m' r'.
(** burn-in steps store nothing; of the others, every [q]th is kept *)
Definition stores_every (n_burn q : nat) (in_sample : bool) (i : nat) : list model_op :=
  if i <? n_burn then [] else
  if (i - n_burn) mod q =? 0 then (if in_sample then [GPredict; GStore] else [GStore]) else [].
(** the stored node [i] in heap [h] has the conditions, the kind (and value) and the depth of the node [i'] in heap
    [h'], without its data *)
Definition stripped (h : heap) (i : nat) (h' : heap) (i' : nat) : Prop :=
  exists n n' c s, h_get h i = Some n /\ nd_split n = SCond c /\ h_get h' i' = Some n' /\ nd_split n' = SFull s /\
    cc_conds c = cc_conds (sp_cc s) /\ nd_kind n = nd_kind n' /\ nd_depth n = nd_depth n'.
(** the trees [ts] in heap [h] have, node by node, the conditions of the trees [ts'] in heap [h'] *)
Definition same_conditions (h : heap) (ts : list tree) (h' : heap) (ts' : list tree) : Prop :=
  Forall2 (fun t t' => Forall2 (fun i i' => stripped h i h' i') (tr_nodes t) (tr_nodes t')) ts ts'.
(** the stored sample [s], read in the heap [h], has the trees of the state [m] and predicts as it does *)
Definition sample_of (h : heap) (s : sample) (m : model) : Prop :=
  sm_sigma s = m_sigma m /\ same_conditions h (sm_trees s) (m_heap m) (m_trees m) /\
  forall X, sample_predict h s X = trees_predict_out (m_heap m) (m_trees m) X.
(** node objects of the model's trees, and of a stored sample *)
Definition live_node (m : model) (k : nat) : Prop := exists t, In t (m_trees m) /\ In k (tr_nodes t).
Definition stored_node (s : sample) (k : nat) : Prop := exists t, In t (sm_trees s) /\ In k (tr_nodes t).
(** some covariate varies within the training rows other than the first *)
Definition varies (X : matrix) : Prop :=
  exists v i j, v < mx_ncols X /\ 0 < i < length (mx_rows X) /\ 0 < j < length (mx_rows X) /\ value_in X i v <> value_in X j v.
(** hyperparameters and gamma draws for which the formulas make sense *)
Definition sane_params (p : params) : Prop :=
  ((0 < pa_k p /\ 0 < pa_pgrow p /\ 0 < pa_pprune p)%R /\ 1 <= pa_ntrees p) /\
  (0 < pa_siga p)%R /\ (0 < pa_sigb p)%R.
Definition sane_draws (r : rng) : Prop :=
  Forall (fun g => forall a b, 0 < a -> 0 < b -> 0 < g a b)%R (rg_gamma r).
