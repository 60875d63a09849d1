(** Model of bartpy/diagnostics/features.py, bartpy/features/featureselection.py and
    bartpy/features/featureimportance.py, without the plotting functions. *)
From Coq Require Import Reals.
From Verif Require Import Base Fl Ext MData MSplit MTree MSampler MModel MSklearn.
Local Open Scope R_scope.

(** Python's sorted() / np.sort, for a list of nat and a list of numbers *)
Fixpoint ninsert (x : nat) (l : list nat) : list nat :=
  match l with
  | [] => [x]
  | y :: l' => if (x <=? y)%nat then x :: l else y :: ninsert x l'
  end.
Definition nsort (l : list nat) : list nat := fold_right ninsert [] l.
Fixpoint rinsert (x : R) (l : list R) : list R :=
  match l with
  | [] => [x]
  | y :: l' => if Rle_dec x y then x :: l else y :: rinsert x l'
  end.
Definition rsort (l : list R) : list R := fold_right rinsert [] l.

(** features.py:19-23: node.split.splitting_variable of every node.  A node of a stored sample has a
    CombinedCondition as its split; a Split object has no such attribute. *)
Fixpoint node_variables (h : heap) (ids : list nat) : res (list (option nat)) :=
  match ids with
  | [] => Ok []
  | i :: ids' =>
      match h_get h i with
      | Some (Nd _ (SCond c) _) => let! vs := node_variables h ids' in Ok (cc_splitting_variable c :: vs)
      | _ => Raise EAttributeError
      end
  end.
Fixpoint tree_variables (h : heap) (ts : list tree) : res (list (option nat)) :=
  match ts with
  | [] => Ok []
  | t :: ts' => let! vs := node_variables h (tr_nodes t) in
                let! ws := tree_variables h ts' in Ok (vs ++ ws)
  end.
Fixpoint sample_variables (ss : list stored_sample) : res (list (option nat)) :=
  match ss with
  | [] => Ok []
  | (h, s) :: ss' => let! vs := tree_variables h (sm_trees s) in
                     let! ws := sample_variables ss' in Ok (vs ++ ws)
  end.
(** features.py:24-26: Counter(split_variables)[v]; its keys other than None, sorted *)
Definition oeq_dec (a b : option nat) : {a = b} + {a <> b}.
Proof. decide equality. apply Nat.eq_dec. Defined.
Definition counter (l : list (option nat)) (v : nat) : nat := count_occ oeq_dec l (Some v).
Definition counted (l : list (option nat)) : list nat :=
  nsort (nodup Nat.eq_dec (flat_map (fun o => match o with Some v => [v] | None => [] end) l)).
(** features.py:28-35.  A column given twice is set twice. *)
Fixpoint proportions_of (l : list (option nat)) (columns : list nat) (d : list (nat * R)) : list (nat * R) :=
  match columns with
  | [] => d
  | c :: columns' =>
      proportions_of l columns'
        (dict_set c (if (counter l c =? 0)%nat then 0 else INR (counter l c) / INR (length l)) d)
  end.
(** features.py:16-35 feature_split_proportions.  Iterating over None raises TypeError. *)
Definition feature_split_proportions (s : sklearn) (columns : option (list nat)) : res (list (nat * R)) :=
  match sk_samples s with
  | None => Raise ETypeError
  | Some ss => let! l := sample_variables ss in
               Ok (proportions_of l (match columns with Some cs => cs | None => counted l end) [])
  end.

(** features.py:81: np.random.permutation(y) for the permutation [p] of the indices *)
Definition permuted (p : list nat) (y : list R) : list R := map (fun i => nth i y 0) p.
(** features.py:88-89: the inner loop.  KeyError cannot occur: the columns asked for are the keys. *)
Fixpoint append_all (splits : list (nat * R)) (d : list (nat * list R)) : res (list (nat * list R)) :=
  match splits with
  | [] => Ok d
  | (k, v) :: splits' => match dict_get k d with
                         | None => Raise EKeyError
                         | Some l => append_all splits' (dict_set k (l ++ [v]) d)
                         end
  end.
(** features.py:86-89 *)
Fixpoint collect (ms : list sklearn) (ncols : nat) (d : list (nat * list R)) : res (list (nat * list R)) :=
  match ms with
  | [] => Ok d
  | m :: ms' => let! splits := feature_split_proportions m (Some (seq 0 ncols)) in
                let! d' := append_all splits d in collect ms' ncols d'
  end.
(** features.py:56-91 null_feature_split_proportions_distribution.  [perms]: the permutations drawn, one per
    run.  Returned: the distribution, and the caller's object, which run_models changes. *)
Definition null_distribution (s : sklearn) (h : heap) (X : matrix) (y : list R) (perms : list (list nat)) (rs : list rng)
  : res (list (nat * list R) * sklearn) :=
  let ys := map (fun p => permuted p y) perms in
  let! (ms, s1) := run_models s h (map (fun _ => X) ys) ys rs in
  let! d := collect ms (mx_ncols X) (map (fun c => (c, [])) (seq 0 (mx_ncols X))) in
  Ok (d, s1).

(** np.percentile(xs, q): linear interpolation between the order statistics around position
    q/100 * (n-1).  ValueError for q outside [0, 100]; nan for an empty list. *)
Definition percentile (xs : list R) (q : R) : res R :=
  if Rlt_dec q 0 then Raise EValueError else
  if Rlt_dec 100 q then Raise EValueError else
  match xs with
  | [] => Raise XNonFinite
  | _ => let s := rsort xs in
         let pos := q / 100 * INR (length xs - 1) in
         let i := Z.to_nat (Int_part pos) in
         let lo := nth i s 0 in
         let hi := nth (Nat.min (S i) (length xs - 1)) s 0 in
         Ok (lo + (pos - INR i) * (hi - lo))
  end.
(** features.py:106-128 local_thresholds *)
Fixpoint local_thresholds (null : list (nat * list R)) (q : R) : res (list (nat * R)) :=
  match null with
  | [] => Ok []
  | (f, xs) :: null' => let! t := percentile xs q in
                        let! ts := local_thresholds null' q in Ok ((f, t) :: ts)
  end.
(** features.py:131-161 global_thresholds: pd.DataFrame of lists of different lengths raises ValueError; a
    DataFrame has no method iter_rows. *)
Definition global_thresholds (null : list (nat * list R)) (q : R) : res (list (nat * R)) :=
  match null with
  | [] => Raise EAttributeError
  | (_, xs) :: null' =>
      if forallb (fun e : nat * list R => (length (snd e) =? length xs)%nat) null' then Raise EAttributeError else Raise EValueError
  end.

(** features.py:182-201 is_kept *)
Fixpoint is_kept_loop (fp th : list (nat * R)) (fs : list nat) : res (list bool) :=
  match fs with
  | [] => Ok []
  | f :: fs' =>
      match dict_get f fp, dict_get f th with
      | Some p, Some t => let! bs := is_kept_loop fp th fs' in Ok ((if Rlt_dec t p then true else false) :: bs)
      | _, _ => Raise EKeyError
      end
  end.
Definition is_kept (fp th : list (nat * R)) : res (list bool) := is_kept_loop fp th (nsort (map fst fp)).
(** features.py:164-179 kept_features *)
Definition kept_features (fp th : list (nat * R)) : res (list nat) :=
  let! bs := is_kept fp th in
  Ok (map fst (filter snd (combine (nsort (map fst fp)) bs))).
(** features.py:204-208 partition_into_passed_and_failed_features *)
Definition member (x : nat) (l : list nat) : bool := existsb (Nat.eqb x) l.
Definition partition_features (fp th : list (nat * R)) : res (list (nat * R) * list (nat * R)) :=
  let! kept := kept_features fp th in
  Ok (filter (fun e => member (fst e) kept) fp, filter (fun e => negb (member (fst e) kept)) fp).

(** the heap of an estimator's objects, for calls made after it was fitted *)
Definition sk_heap (s : sklearn) (h : heap) : heap := match sk_model s with Some m => m_heap m | None => h end.

(** featureselection.py:14-31 SelectSplitProportionThreshold: fit and _get_support_mask *)
Record select_split := Ss { ss_model : sklearn; ss_percentile : R; ss_proportions : option (list (nat * R)) }.
Definition make_select_split (m : sklearn) (q : R) : select_split := Ss m q None.
Definition select_split_fit (b : backend) (s : select_split) (h : heap) (X : matrix) (y : list R) (rs : list rng) : res select_split :=
  let! m1 := fit b (ss_model s) h X y rs in
  let! fp := feature_split_proportions m1 None in
  Ok (Ss m1 (ss_percentile s) (Some fp)).
Definition select_split_mask (s : select_split) : res (list bool) :=
  match ss_proportions s with
  | None => Raise EAttributeError
  | Some fp => Ok (map (fun e : nat * R => if Rlt_dec (ss_percentile s) (snd e) then true else false) fp)
  end.

(** featureselection.py:38-71 SelectNullDistributionThreshold: __init__, fit and _get_support_mask.  For any
    other method the message of the NotImplementedError reads the attribute method, not yet set. *)
Inductive method_name := MethodLocal | MethodGlobal | MethodOther.
Record select_null := Sn { sn_method : list (nat * list R) -> R -> res (list (nat * R)); sn_model : sklearn; sn_percentile : R;
  sn_null : option (list (nat * list R)); sn_thresholds : option (list (nat * R)); sn_proportions : option (list (nat * R)) }.
Definition sk_set_ntrees (s : sklearn) (n : nat) : sklearn :=
  let p := sk_par s in
  Sk (Pa n (pa_alpha p) (pa_beta p) (pa_k p) (pa_siga p) (pa_sigb p) (pa_pgrow p) (pa_pprune p) (pa_limit p))
     (sk_nchains s) (sk_nsamples s) (sk_nburn s) (sk_thin s) (sk_store_preds s) (sk_store_accept s)
     (sk_data s) (sk_model s) (sk_samples s) (sk_preds s) (sk_accept s).
Definition make_select_null (m : sklearn) (q : R) (name : method_name) (n_trees : option nat) : res select_null :=
  let m' := match n_trees with Some n => sk_set_ntrees m n | None => m end in
  match name with
  | MethodLocal => Ok (Sn local_thresholds m' q None None None)
  | MethodGlobal => Ok (Sn global_thresholds m' q None None None)
  | MethodOther => Raise EAttributeError
  end.
Definition select_null_fit (b : backend) (s : select_null) (h : heap) (X : matrix) (y : list R)
  (rs : list rng) (perms : list (list nat)) (rs' : list rng) : res select_null :=
  let! m1 := fit b (sn_model s) h X y rs in
  let! (null, m2) := null_distribution m1 (sk_heap m1 h) X y perms rs' in
  let! th := sn_method s null (sn_percentile s) in
  let! fp := feature_split_proportions m2 None in
  Ok (Sn (sn_method s) m2 (sn_percentile s) (Some null) (Some th) (Some fp)).
Definition select_null_mask (s : select_null) : res (list bool) :=
  match sn_proportions s, sn_thresholds s with
  | Some fp, Some th => is_kept fp th
  | _, _ => Raise EAttributeError
  end.
(** sklearn.feature_selection.base.SelectorMixin.transform, which both selectors inherit: all columns are
    dropped if the mask has no True; ValueError if it has not one entry per column; else the columns of the
    True entries are kept *)
Definition keep_columns (mask : list bool) (X : matrix) : matrix :=
  Mx (count_false (map negb mask)) (map (select (map negb mask)) (mx_rows X)).
Definition selector_transform (mask : list bool) (X : matrix) : res matrix :=
  if existsb (fun b => b) mask
  then if (length mask =? mx_ncols X)%nat then Ok (keep_columns mask X) else Raise EValueError
  else Ok (Mx 0 (map (fun _ => []) (mx_rows X))).

(** X[index], y[index] for an array of row numbers *)
Definition take_rows (X : matrix) (ix : list nat) : res matrix :=
  if forallb (fun i => i <? length (mx_rows X))%nat ix then Ok (Mx (mx_ncols X) (map (fun i => nth i (mx_rows X) []) ix)) else Raise EIndexError.
Definition take_values (y : list R) (ix : list nat) : res (list R) :=
  if forallb (fun i => i <? length y)%nat ix then Ok (map (fun i => nth i y 0) ix) else Raise EIndexError.
(** featureimportance.py:36-43 original_model_rmse.  [folds]: what kf.split(X) yields, with the draws used in
    fitting for each.  The caller's object is copied before it is fitted. *)
Fixpoint original_rmses (b : backend) (s : sklearn) (h : heap) (X : matrix) (y : list R) (folds : list (list nat * list nat * list rng)) : res (list R) :=
  match folds with
  | [] => Ok []
  | (train, test, rs) :: folds' =>
      let! X1 := take_rows X train in
      let! y1 := take_values y train in
      let! s1 := fit b s h X1 y1 rs in
      let! X2 := take_rows X test in
      let! y2 := take_values y test in
      let! e := sk_rmse s1 X2 y2 in
      let! es := original_rmses b s1 (sk_heap s1 h) X y folds' in
      Ok (e :: es)
  end.
(** featureimportance.py:90-91: a copy of X with one column permuted *)
Definition permute_column (X : matrix) (v : nat) (p : list nat) : res matrix :=
  if (v <? mx_ncols X)%nat
  then Ok (Mx (mx_ncols X) (map2 (fun r i => set_nth v (cell (nth i (mx_rows X) []) v) r) (mx_rows X) p))
  else Raise EIndexError.
(** featureimportance.py:88-95: one entry per fold and permutation: covariates to train on, covariates to score
    on (line 93 takes the rows of train_index again), targets to train on and to score on *)
Record null_task := Nt { nt_train_X : matrix; nt_test_X : matrix; nt_train_y : list R; nt_test_y : list R }.
Fixpoint fold_tasks (X : matrix) (y : list R) (v : nat) (train test : list nat) (perms : list (list nat)) : res (list null_task) :=
  match perms with
  | [] => Ok []
  | p :: perms' =>
      let! PX := permute_column X v p in
      let! X1 := take_rows PX train in
      let! X2 := take_rows PX train in
      let! y1 := take_values y train in
      let! y2 := take_values y test in
      let! ts := fold_tasks X y v train test perms' in
      Ok (Nt X1 X2 y1 y2 :: ts)
  end.
Fixpoint null_tasks (X : matrix) (y : list R) (v : nat) (folds : list (list nat * list nat * list (list nat))) : res (list null_task) :=
  match folds with
  | [] => Ok []
  | (train, test, perms) :: folds' =>
      let! ts := fold_tasks X y v train test perms in
      let! us := null_tasks X y v folds' in Ok (ts ++ us)
  end.
Fixpoint score (ms : list sklearn) (ts : list null_task) : res (list R) :=
  match ms, ts with
  | m :: ms', t :: ts' => let! e := sk_rmse m (nt_test_X t) (nt_test_y t) in
                          let! es := score ms' ts' in Ok (e :: es)
  | _, _ => Ok []
  end.
(** featureimportance.py:46-102 null_rmse_distribution.  Returned: the errors and the caller's object. *)
Definition null_rmse_distribution (s : sklearn) (h : heap) (X : matrix) (y : list R) (v : nat)
  (folds : list (list nat * list nat * list (list nat))) (rs : list rng) : res (list R * sklearn) :=
  let! ts := null_tasks X y v folds in
  let! (ms, s1) := run_models s h (map nt_train_X ts) (map nt_train_y ts) rs in
  let! es := score ms ts in
  Ok (es, s1).
(** featureimportance.py:105-145 feature_importance, without the plots *)
Definition feature_importance (b : backend) (s : sklearn) (h : heap) (X : matrix) (y : list R) (v : nat)
  (folds : list (list nat * list nat * list rng)) (folds' : list (list nat * list nat * list (list nat))) (rs : list rng)
  : res (list R * list R * sklearn) :=
  let! es := original_rmses b s h X y folds in
  let! (ns, s1) := null_rmse_distribution s h X y v folds' rs in
  Ok (es, ns, s1).
