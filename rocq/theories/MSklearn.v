(** Model of bartpy/sklearnmodel.py, bartpy/runner.py, bartpy/extensions/baseestimator.py and
    bartpy/extensions/ols.py. *)
From Coq Require Import Reals.
From Verif Require Import Base Fl Ext MData MSplit MTree MSampler MModel.
Local Open Scope R_scope.

(** sklearnmodel.py:87-122 SklearnModel: its settings and the attributes that fit and from_extract set.
    [sk_par] holds n_trees, alpha, beta, sigma_a, sigma_b, Model's default k, the probabilities of the tree
    sampler and Python's recursion limit.  A stored sample is kept with the heap in which its node objects
    are read: chains run in worker processes have one heap each.  columns, sigma, extract and combined_chains
    are never read and not modelled; the initializer is None (see MInit.v for the other case). *)
Definition stored_sample := (heap * sample)%type.
Record sklearn := Sk {
  sk_par : params; sk_nchains : nat; sk_nsamples : nat; sk_nburn : nat; sk_thin : thinning;
  sk_store_preds : bool; sk_store_accept : bool;
  sk_data : option data;                        (* self.data *)
  sk_model : option model;                      (* self.model *)
  sk_samples : option (list stored_sample);            (* self._model_samples *)
  sk_preds : option (list (list R));            (* self._prediction_samples *)
  sk_accept : option (list (list (skey * R))) }.  (* self._acceptance_trace *)
Definition sk_set_model (s : sklearn) (d : data) (m : model) : sklearn :=
  Sk (sk_par s) (sk_nchains s) (sk_nsamples s) (sk_nburn s) (sk_thin s) (sk_store_preds s) (sk_store_accept s)
     (Some d) (Some m) (sk_samples s) (sk_preds s) (sk_accept s).
Definition sk_set_data (s : sklearn) (d : data) : sklearn :=
  Sk (sk_par s) (sk_nchains s) (sk_nsamples s) (sk_nburn s) (sk_thin s) (sk_store_preds s) (sk_store_accept s)
     (Some d) (sk_model s) (sk_samples s) (sk_preds s) (sk_accept s).
Definition sk_set_chains (s : sklearn) ms ps acs : sklearn :=
  Sk (sk_par s) (sk_nchains s) (sk_nsamples s) (sk_nburn s) (sk_thin s) (sk_store_preds s) (sk_store_accept s)
     (sk_data s) (sk_model s) (Some ms) (Some ps) (Some acs).
(** SklearnModel(...) before any fit (sklearnmodel.py:122) *)
Definition new_sklearn p nc ns nb th sp sa : sklearn := Sk p nc ns nb th sp sa None None None None None.

(** sklearnmodel.py:155-161 _convert_covariates_to_data: the deep copies are values here; a DataFrame is
    its .values *)
Definition convert_to_data (X : matrix) (y : list R) : res data := make_data X y None true None None None None.

(** sklearnmodel.py:163-174 _construct_model.  Sigma starts at 1.0 (sigma.py:23); its scaling factor is read
    (AttributeError if absent) but enters no computation. *)
Definition construct_model (s : sklearn) (h : heap) (X : matrix) (y : list R) : res sklearn :=
  if (length (mx_rows X) =? 0)%nat || (mx_ncols X =? 0)%nat then Raise EValueError else
  let! d := convert_to_data X y in
  let! _ := normalizing_scale (d_y d) in
  let! m := make_model h d 1 (sk_par s) in
  Ok (sk_set_model s d m).

(** sklearnmodel.py:22-33 run_chain.  Returned: the chain and the object it was run on. *)
Definition run_chain (s : sklearn) (h : heap) (X : matrix) (y : list R) (r : rng) : res (chain * sklearn * heap) :=
  let! s1 := construct_model s h X y in
  match sk_model s1, sk_data s1 with
  | Some m, Some d =>
      let! (c, m1, _) := samples m (sk_nsamples s) (sk_nburn s) (sk_thin s) (sk_store_preds s) (sk_store_accept s) r in
      Ok (c, sk_set_model s1 d m1, m_heap m1)
  | _, _ => Raise EAttributeError
  end.

(** The result of one chain, with the heap in which its samples are read *)
Definition extract := (heap * chain)%type.
(** joblib's Parallel with worker processes (n_jobs <> 1): every call works on its own copy of [s] and of the
    heap; its changes to the copy are lost, its result is sent back.  [rs]: the draws of each call.  Of several
    failing calls the first is reported. *)
Fixpoint run_processes (tasks : list (sklearn * heap * matrix * list R)) (rs : list rng) : res (list extract) :=
  match tasks with
  | [] => Ok []
  | (s, h, X, y) :: tasks' =>
      match rs with
      | [] => NoDraws
      | r :: rs' => let! (c, _, h1) := run_chain s h X y r in
                    let! es := run_processes tasks' rs' in
                    Ok ((h1, c) :: es)
      end
  end.
(** joblib's Parallel with n_jobs=1: the calls are made one after the other in this process, on [s] itself.
    Returned: the chains, the object and the heap at the end. *)
Fixpoint run_here (n : nat) (s : sklearn) (h : heap) (X : matrix) (y : list R) (rs : list rng) : res (list chain * sklearn * heap) :=
  match n with
  | O => Ok ([], s, h)
  | S n' =>
      match rs with
      | [] => NoDraws
      | r :: rs' => let! (c, s1, h1) := run_chain s h X y r in
                    let! (cs, s2, h2) := run_here n' s1 h1 X y rs' in
                    Ok (c :: cs, s2, h2)
      end
  end.

(** sklearnmodel.py:147-153 _combine_chains: IndexError without chains; np.concatenate along the first axis.
    Simplification: the arrays to be concatenated have matching shapes (all chains were run on one data set
    with the same settings). *)
Definition combine_chains (es : list extract) : res (list stored_sample * list (list R) * list (list (skey * R))) :=
  match es with
  | [] => Raise EIndexError
  | _ => Ok (flat_map (fun e : extract => map (fun sm => (fst e, sm)) (ch_models (snd e))) es,
             flat_map (fun e : extract => ch_preds (snd e)) es, flat_map (fun e : extract => ch_accept (snd e)) es)
  end.
(** sklearnmodel.py:143-144 and 364-365: storing the combined chains in an object *)
Definition store_chains (s : sklearn) (es : list extract) : res sklearn :=
  let! (ms, ps, acs) := combine_chains es in Ok (sk_set_chains s ms ps acs).

(** sklearnmodel.py:124-145 fit, 176-206 f_delayed_chains and f_chains *)
Inductive backend := Processes | ThisProcess.
Definition fit (b : backend) (s : sklearn) (h : heap) (X : matrix) (y : list R) (rs : list rng) : res sklearn :=
  let! s1 := construct_model s h X y in
  match sk_model s1 with
  | None => Raise EAttributeError
  | Some m =>
      match b with
      | Processes => let! es := run_processes (repeat (s1, m_heap m, X, y) (sk_nchains s1)) rs in store_chains s1 es
      | ThisProcess => let! (cs, s2, h2) := run_here (sk_nchains s1) s1 (m_heap m) X y rs in
                       store_chains s2 (map (fun c => (h2, c)) cs)
      end
  end.

(** np.mean(vs, axis=0); the mean of no arrays is nan *)
Definition vmean (vs : list (list R)) : res (list R) :=
  match vs with
  | [] => Raise XNonFinite
  | v :: _ => let! s := vsum (length v) vs in Ok (map (fun x => x / INR (length vs)) s)
  end.
(** [x.predict(X) for x in self._model_samples] *)
Fixpoint predict_samples (ss : list stored_sample) (X : matrix) : res (list (list R)) :=
  match ss with
  | [] => Ok []
  | (h, s) :: ss' => let! v := sample_predict h s X in
                     let! vs := predict_samples ss' X in Ok (v :: vs)
  end.
(** sklearnmodel.py:290-291 _out_of_sample_predict.  self.data.y is looked up first. *)
Definition out_of_sample_predict (s : sklearn) (X : matrix) : res (list R) :=
  match sk_data s with
  | None => Raise EAttributeError
  | Some d => match sk_samples s with
              | None => Raise ETypeError
              | Some ss => let! vs := predict_samples ss X in
                           let! v := vmean vs in unnormalize_y (d_y d) v
              end
  end.
(** sklearnmodel.py:208-231 predict.  np.mean(None, axis=0) raises numpy's AxisError, a ValueError. *)
Definition sk_predict (s : sklearn) (X : option matrix) : res (list R) :=
  match X with
  | None =>
      if sk_store_preds s
      then match sk_data s with
           | None => Raise EAttributeError
           | Some d => match sk_preds s with
                       | None => Raise EValueError
                       | Some ps => let! v := vmean ps in unnormalize_y (d_y d) v
                       end
           end
      else Raise EValueError
  | Some X => out_of_sample_predict s X
  end.

(** sklearnmodel.py:249-252 residuals, for an arbitrary predict method (subclasses override it) *)
Definition residuals_with (predict : option matrix -> res (list R)) (s : sklearn) (X : option matrix) (y : option (list R)) : res (list R) :=
  match y with
  | None => match sk_model s with
            | None => Raise EAttributeError
            | Some m => let! u := unnormalized_y (d_y (m_data m)) in
                        let! v := predict X in vop Rminus u v
            end
  | Some y => let! v := predict X in vop Rminus y v
  end.
Definition sk_residuals (s : sklearn) := residuals_with (sk_predict s) s.
(** sklearnmodel.py:254-269 l2_error, 271-288 rmse *)
Definition l2_with predict s X y : res (list R) := let! e := residuals_with predict s X y in Ok (map (fun x => x * x) e).
Definition rmse_with predict s (X : matrix) (y : list R) : res R :=
  let! e := l2_with predict s (Some X) (Some y) in Ok (sqrt (rsum e)).
Definition sk_l2_error (s : sklearn) := l2_with (sk_predict s) s.
Definition sk_rmse (s : sklearn) := rmse_with (sk_predict s) s.

(** sklearnmodel.py:293-298 fit_predict *)
Definition fit_predict (b : backend) (s : sklearn) (h : heap) (X : matrix) (y : list R) (rs : list rng) : res (list R * sklearn) :=
  let! s1 := fit b s h X y rs in
  let! v := sk_predict s1 (if sk_store_preds s1 then None else Some X) in Ok (v, s1).

(** sklearnmodel.py:330-341: the property returns itself; [limit] is Python's recursion limit *)
Fixpoint prediction_samples (limit : nat) (s : sklearn) : res (list (list R)) :=
  match limit with
  | O => Raise ERecursionError
  | S limit' => prediction_samples limit' s
  end.

(** sklearnmodel.py:343-368 from_extract: the combined chains are stored in [s] itself, not in the copy.
    Returned: the new model and [s]. *)
Definition from_extract (s : sklearn) (es : list extract) (X : matrix) (y : list R) : res (sklearn * sklearn) :=
  let new_model := s in
  let! s1 := store_chains s es in
  let! d := convert_to_data X y in
  Ok (sk_set_data new_model d, s1).

(** runner.py:21-25: the grouping loop; [groups] is built in order, its last element grows *)
Fixpoint app_last {A} (groups : list (list A)) (x : A) : res (list (list A)) :=
  match groups with
  | [] => Raise EIndexError
  | [g] => Ok [g ++ [x]]
  | g :: gs => let! gs' := app_last gs x in Ok (g :: gs')
  end.
Fixpoint group_loop {A} (n i : nat) (chains : list A) (groups : list (list A)) : res (list (list A)) :=
  match chains with
  | [] => Ok groups
  | x :: chains' =>
      if (n =? 0)%nat then Raise EZeroDivisionError else
      let! groups' := app_last (if (i mod n =? 0)%nat then groups ++ [[]] else groups) x in
      group_loop n (S i) chains' groups'
  end.
(** runner.py:27: the list comprehension over the two zips, each call changing [s] *)
Fixpoint convert_loop (s : sklearn) (groups : list (list extract)) (Xs : list matrix) (ys : list (list R)) : res (list sklearn * sklearn) :=
  match groups, Xs, ys with
  | es :: groups', X :: Xs', y :: ys' =>
      let! (new_model, s1) := from_extract s es X y in
      let! (ms, s2) := convert_loop s1 groups' Xs' ys' in
      Ok (new_model :: ms, s2)
  | _, _, _ => Ok ([], s)
  end.
(** runner.py:14-27 convert_chains_models *)
Definition convert_chains_models (s : sklearn) (Xs : list matrix) (ys : list (list R)) (chains : list extract) : res (list sklearn * sklearn) :=
  let! groups := group_loop (sk_nchains s) 0 chains [] in convert_loop s groups Xs ys.
(** runner.py:30-56 run_models.  Every data set gets a deep copy of [s], so it makes no difference here whether
    the calls run in other processes. *)
Fixpoint all_tasks (s : sklearn) (h : heap) (Xs : list matrix) (ys : list (list R)) : list (sklearn * heap * matrix * list R) :=
  match Xs, ys with
  | X :: Xs', y :: ys' => repeat (s, h, X, y) (sk_nchains s) ++ all_tasks s h Xs' ys'
  | _, _ => []
  end.
Definition run_models (s : sklearn) (h : heap) (Xs : list matrix) (ys : list (list R)) (rs : list rng) : res (list sklearn * sklearn) :=
  let! chains := run_processes (all_tasks s h Xs ys) rs in convert_chains_models s Xs ys chains.

(** extensions/baseestimator.py:9-35 ResidualBART.  The base estimator is any function that learns a predictor
    from a data set; lines 15-19 use the caller's estimator object itself, not the clone.  [predictor] is the
    fitted base estimator.  predict() without X (lines 27-28), which hands a CovariateMatrix object to the base
    estimator, is not modelled. *)
Definition predictor := matrix -> res (list R).
Record residual_bart := Rb { rb_base : option predictor; rb_bart : sklearn }.
(** baseestimator.py:22-25 fit *)
Definition rb_fit (learn : matrix -> list R -> res predictor) (b : backend) (s : residual_bart) (h : heap) (X : matrix) (y : list R) (rs : list rng)
  : res residual_bart :=
  let! f := learn X y in
  let! v := f X in
  let! target := vop Rminus y v in
  let! s1 := fit b (rb_bart s) h X target rs in Ok (Rb (Some f) s1).
(** baseestimator.py:27-32 predict(X) *)
Definition rb_predict (s : residual_bart) (X : matrix) : res (list R) :=
  match rb_base s with
  | None => Raise EAttributeError      (* sklearn's NotFittedError *)
  | Some f => let! v := f X in
              let! u := sk_predict (rb_bart s) (Some X) in vop Rplus v u
  end.
(** the inherited residuals(X, y), with X given *)
Definition rb_residuals (s : residual_bart) (X : matrix) (y : option (list R)) : res (list R) :=
  residuals_with (fun X => match X with Some X => rb_predict s X | None => Raise ETypeError end) (rb_bart s) (Some X) y.

(** extensions/ols.py:8-27 OLS: [regress X y] is stat_model(y, X).fit(), of which resid and predict are used *)
Definition ols_fit (regress : matrix -> list R -> res (list R * predictor)) (b : backend) (s : residual_bart) (h : heap) (X : matrix) (y : list R) (rs : list rng)
  : res residual_bart :=
  let! (resid, f) := regress X y in
  let! s1 := fit b (rb_bart s) h X resid rs in Ok (Rb (Some f) s1).
