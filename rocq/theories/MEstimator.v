(** Model of the SklearnModel object as a scikit-learn estimator (bartpy/sklearnmodel.py:87-122 and the methods get_params,
    set_params and clone it inherits), of the constructors of bartpy/extensions/{baseestimator,ols}.py, and of
    their predict() without X.  scikit-learn's BaseEstimator and clone are modelled from their
    source (0.20-0.23, the versions that have sklearn.linear_model.base, which baseestimator.py:3 imports). *)
From Coq Require Import Reals ZArith.
From Verif Require Import Base Fl Ext MData MSplit MTree MSampler MModel MSklearn.
Local Open Scope R_scope.

(** unconstrainedtree/treemutation.py:52-56 get_tree_sampler(p_grow, p_prune) *)
Record tree_sampler := Ts { ts_grow : R; ts_prune : R }.
(** the arguments of SklearnModel.__init__ (sklearnmodel.py:87-101).  Simplification: initializer is None. *)
Record hyper := Hy {
  hy_ntrees : nat; hy_nchains : nat; hy_siga : R; hy_sigb : R; hy_nsamples : nat; hy_nburn : nat; hy_thin : thinning;
  hy_alpha : R; hy_beta : R; hy_store_preds : bool; hy_store_accept : bool; hy_sampler : tree_sampler; hy_njobs : Z }.
(** sklearnmodel.py:88-101: the default values; 1/thin is 10 *)
Definition default_hyper : hyper :=
  Hy 200 4 (/ 1000) (/ 1000) 200 200 (TInv 10 1) (95 / 100) 2 false false (Ts (/ 2) (/ 2)) (-1).
(** what fit leaves in the object (sklearnmodel.py:122, 141-144) *)
Record fitted := Ft {
  ft_data : option data; ft_model : option model; ft_samples : option (list stored_sample);
  ft_preds : option (list (list R)); ft_accept : option (list (list (skey * R))) }.
Definition not_fitted : fitted := Ft None None None None None.
(** the object: the attributes named like the arguments; the sampler inside self.schedule, made of the tree sampler
    when the object was constructed (sklearnmodel.py:119-120); what fit left *)
Record estimator := Es { es_hyper : hyper; es_schedule : tree_sampler; es_fitted : fitted }.
(** sklearnmodel.py:102-122 __init__ *)
Definition construct (a : hyper) : estimator := Es a (hy_sampler a) not_fitted.

(** the object as it is seen by fit and predict (MSklearn.v): every attribute is read when it is needed, the tree
    sampler is the one inside the schedule; Model's k is 2 (model.py:23); [limit] is Python's recursion limit *)
Definition as_sklearn (limit : nat) (e : estimator) : sklearn :=
  let a := es_hyper e in
  let f := es_fitted e in
  Sk (Pa (hy_ntrees a) (hy_alpha a) (hy_beta a) 2 (hy_siga a) (hy_sigb a) (ts_grow (es_schedule e)) (ts_prune (es_schedule e)) limit)
     (hy_nchains a) (hy_nsamples a) (hy_nburn a) (hy_thin a) (hy_store_preds a) (hy_store_accept a)
     (ft_data f) (ft_model f) (ft_samples f) (ft_preds f) (ft_accept f).
(** joblib's effective_n_jobs on a machine with [cpus] processors; n_jobs=0 is a ValueError *)
Definition backend_of (cpus : nat) (n_jobs : Z) : res backend :=
  if (n_jobs =? 0)%Z then Raise EValueError else
  let n := if (n_jobs <? 0)%Z then Z.max (Z.of_nat cpus + 1 + n_jobs) 1 else n_jobs in
  Ok (if (n =? 1)%Z then ThisProcess else Processes).
(** sklearnmodel.py:124-145 fit.  The model is constructed (line 140) before joblib is asked for workers (line 141). *)
Definition est_fit (cpus limit : nat) (e : estimator) (h : heap) (X : matrix) (y : list R) (rs : list rng) : res estimator :=
  let! _ := construct_model (as_sklearn limit e) h X y in
  let! b := backend_of cpus (hy_njobs (es_hyper e)) in
  let! s := fit b (as_sklearn limit e) h X y rs in
  Ok (Es (es_hyper e) (es_schedule e) (Ft (sk_data s) (sk_model s) (sk_samples s) (sk_preds s) (sk_accept s))).
(** sklearnmodel.py:208-231 predict *)
Definition est_predict (limit : nat) (e : estimator) (X : option matrix) : res (list R) := sk_predict (as_sklearn limit e) X.

(** sklearn.base.BaseEstimator.get_params(deep=False): the attributes named like the arguments of __init__ *)
Definition get_params (e : estimator) : hyper := es_hyper e.
(** sklearn.base.BaseEstimator.set_params(name=value): setattr *)
Inductive setting :=
| SetNTrees (n : nat) | SetNChains (n : nat) | SetSigmaA (x : R) | SetSigmaB (x : R) | SetNSamples (n : nat) | SetNBurn (n : nat)
| SetThin (t : thinning) | SetAlpha (x : R) | SetBeta (x : R) | SetStorePreds (b : bool) | SetStoreAccept (b : bool)
| SetTreeSampler (t : tree_sampler) | SetNJobs (z : Z).
Definition set_hyper (a : hyper) (p : setting) : hyper :=
  let 'Hy nt nc sa sb ns nb th al be sp sac ts nj := a in
  match p with
  | SetNTrees n => Hy n nc sa sb ns nb th al be sp sac ts nj
  | SetNChains n => Hy nt n sa sb ns nb th al be sp sac ts nj
  | SetSigmaA x => Hy nt nc x sb ns nb th al be sp sac ts nj
  | SetSigmaB x => Hy nt nc sa x ns nb th al be sp sac ts nj
  | SetNSamples n => Hy nt nc sa sb n nb th al be sp sac ts nj
  | SetNBurn n => Hy nt nc sa sb ns n th al be sp sac ts nj
  | SetThin t => Hy nt nc sa sb ns nb t al be sp sac ts nj
  | SetAlpha x => Hy nt nc sa sb ns nb th x be sp sac ts nj
  | SetBeta x => Hy nt nc sa sb ns nb th al x sp sac ts nj
  | SetStorePreds b => Hy nt nc sa sb ns nb th al be b sac ts nj
  | SetStoreAccept b => Hy nt nc sa sb ns nb th al be sp b ts nj
  | SetTreeSampler t => Hy nt nc sa sb ns nb th al be sp sac t nj
  | SetNJobs z => Hy nt nc sa sb ns nb th al be sp sac ts z
  end.
(** names of arguments of __init__ methods; [NBase]: base_estimator or stat_model; [NKwargs]: a ** argument *)
Inductive argname := NNTrees | NNChains | NSigmaA | NSigmaB | NNSamples | NNBurn | NThin | NAlpha | NBeta | NStorePreds | NStoreAccept
| NTreeSampler | NInitializer | NNJobs | NBase | NKwargs.
Definition argname_eq_dec (a b : argname) : {a = b} + {a <> b}.
Proof. decide equality. Defined.
(** BaseEstimator._get_param_names: the arguments of __init__ without self and without ** arguments *)
Definition param_names (signature : list argname) : list argname :=
  filter (fun a => match a with NKwargs => false | _ => true end) signature.
(** sklearnmodel.py:87-101; baseestimator.py:11-13 and ols.py:10-12 *)
Definition sklearn_signature : list argname :=
  [NNTrees; NNChains; NSigmaA; NSigmaB; NNSamples; NNBurn; NThin; NAlpha; NBeta; NStorePreds; NStoreAccept; NTreeSampler; NInitializer; NNJobs].
Definition extension_signature : list argname := [NBase; NKwargs].
Definition name_of (p : setting) : argname :=
  match p with
  | SetNTrees _ => NNTrees | SetNChains _ => NNChains | SetSigmaA _ => NSigmaA | SetSigmaB _ => NSigmaB | SetNSamples _ => NNSamples
  | SetNBurn _ => NNBurn | SetThin _ => NThin | SetAlpha _ => NAlpha | SetBeta _ => NBeta | SetStorePreds _ => NStorePreds
  | SetStoreAccept _ => NStoreAccept | SetTreeSampler _ => NTreeSampler | SetNJobs _ => NNJobs
  end.
Definition is_param (signature : list argname) (p : setting) : bool :=
  if in_dec argname_eq_dec (name_of p) (param_names signature) then true else false.
(** set_params raises ValueError for a name that is not a parameter *)
Definition set_params (e : estimator) (p : setting) : res estimator :=
  if is_param sklearn_signature p then Ok (Es (set_hyper (es_hyper e) p) (es_schedule e) (es_fitted e)) else Raise EValueError.
(** sklearn.base.clone: the class is called with copies of get_params() *)
Definition clone (e : estimator) : estimator := construct (get_params e).

(** Not a function of /repo: what users do to an estimator.  A fit that raises leaves some of the attributes that
    fit sets changed: [Failed f]. *)
Inductive est_op := Set_ (p : setting) | Fit (cpus limit : nat) (h : heap) (X : matrix) (y : list R) (rs : list rng) | Failed (f : fitted) | Clone.
Definition est_do (e : estimator) (o : est_op) : res estimator :=
  match o with
  | Set_ p => set_params e p
  | Fit cpus limit h X y rs => est_fit cpus limit e h X y rs
  | Failed f => Ok (Es (es_hyper e) (es_schedule e) f)
  | Clone => Ok (clone e)
  end.
Fixpoint est_run (e : estimator) (os : list est_op) : res estimator :=
  match os with [] => Ok e | o :: os' => let! e1 := est_do e o in est_run e1 os' end.

(** extensions/baseestimator.py:9-20 ResidualBART and extensions/ols.py:8-16 OLS as estimators: one named argument
    ([B]: the base estimator, or the statsmodels class) and keyword arguments handed on to SklearnModel.__init__
    (those not given have their default values) *)
Record extension (B : Type) := Ex { ex_base : B; ex_bart : estimator }.
Arguments Ex {B}. Arguments ex_base {B}. Arguments ex_bart {B}.
Definition ext_construct {B} (base : B) (kwargs : list setting) : extension B :=
  Ex base (construct (fold_left set_hyper kwargs default_hyper)).
(** clone: of the attributes only those of the parameters [NBase] (param_names extension_signature) are handed on *)
Definition ext_clone {B} (e : extension B) : extension B := ext_construct (ex_base e) [].
Definition ext_set_params {B} (e : extension B) (p : setting) : res (extension B) :=
  if is_param extension_signature p then let! b := set_params (ex_bart e) p in Ok (Ex (ex_base e) b) else Raise EValueError.

(** baseestimator.py:27-31 and ols.py:21-27 predict() without X: the base estimator and every stored sample are
    handed the CovariateMatrix object self.data.X.  It has no length, so tree.py:107 raises TypeError for every tree;
    a sample without trees predicts 0.0 (model.py:65).  [base]: what the base estimator does with that object. *)
Definition object_predict (s : sample) : res R := match sm_trees s with [] => Ok 0 | _ => Raise ETypeError end.
Fixpoint objects_predict (ss : list stored_sample) : res (list R) :=
  match ss with
  | [] => Ok []
  | (_, s) :: ss' => let! v := object_predict s in let! vs := objects_predict ss' in Ok (v :: vs)
  end.
Definition ext_predict_training (base : covmat -> res (list R)) (s : sklearn) : res (list R) :=
  match sk_data s with
  | None => Raise EAttributeError
  | Some d =>
      let! v := base (d_X d) in
      match sk_samples s with
      | None => Raise ETypeError
      | Some [] => Raise XNonFinite                              (* np.mean of an empty list *)
      | Some ss => let! us := objects_predict ss in
                   let! u := unnormalize_y (d_y d) [rsum us / INR (length us)] in
                   Ok (map (fun x => x + hd 0 u) v)
      end
  end.

(** ** Who owns the base estimator of ResidualBART *)
(** base estimator objects: address -> what it has learnt ([None]: not fitted) *)
Definition store := nat -> option predictor.
Definition store_put (st : store) (a : nat) (f : predictor) : store := fun j => if Nat.eqb j a then Some f else st j.
Record residual_object := Ro { ro_base : nat; ro_bart : sklearn }.
(** baseestimator.py:11-20 __init__: the attribute set in line 16, a clone, is overwritten with the caller's own object in
    line 19; without a base estimator a new LinearRegression, at the address [fresh], is used (line 18) *)
Definition ro_construct (fresh : nat) (base : option nat) (s : sklearn) : residual_object :=
  match base with Some a => Ro a s | None => Ro fresh s end.
(** baseestimator.py:22-25 fit: self.base_estimator.fit changes the object *)
Definition ro_fit (learn : matrix -> list R -> res predictor) (b : backend) (st : store) (s : residual_object) (h : heap) (X : matrix) (y : list R) (rs : list rng)
  : res (residual_object * store) :=
  let! s1 := rb_fit learn b (Rb (st (ro_base s)) (ro_bart s)) h X y rs in
  match rb_base s1 with
  | Some f => Ok (Ro (ro_base s) (rb_bart s1), store_put st (ro_base s) f)
  | None => Raise EAttributeError
  end.
(** baseestimator.py:27-32 predict(X) *)
Definition ro_predict (st : store) (s : residual_object) (X : matrix) : res (list R) := rb_predict (Rb (st (ro_base s)) (ro_bart s)) X.
