(** Model of bartpy/model.py, bartpy/sigma.py, bartpy/samplers/sigma.py, bartpy/samplers/schedule.py,
    bartpy/samplers/modelsampler.py and bartpy/trace.py. *)
From Coq Require Import Reals.
From Verif Require Import Base Fl Ext MData MSplit MTree MSampler.
Local Open Scope R_scope.

(** elementwise operation of two arrays; shapes must agree (broadcasting is not modelled) *)
Definition vop (f : R -> R -> R) (a b : list R) : res (list R) :=
  if (length a =? length b)%nat then Ok (map2 f a b) else Raise EValueError.

(** model.py:15-42 Model: the attributes data, _trees, _prediction and _sigma (whose current value is
    [m_sigma], sigma.py:21-25); n_trees, alpha, beta, k and the prior of sigma are in [m_par].
    [m_heap] holds the node objects of the trees (and of stored copies). *)
Record model := Md {
  m_heap : heap; m_trees : list tree; m_data : data; m_pred : option (list R); m_sigma : R; m_par : params }.
Definition m_set_trees (m : model) h ts := Md h ts (m_data m) (m_pred m) (m_sigma m) (m_par m).
Definition m_set_pred (m : model) p := Md (m_heap m) (m_trees m) (m_data m) p (m_sigma m) (m_par m).
Definition m_set_sigma (m : model) s := Md (m_heap m) (m_trees m) (m_data m) (m_pred m) s (m_par m).

(** model.py:45: [n] trees of one leaf each, on deep copies of the data *)
Fixpoint new_trees (n : nat) (h : heap) (d : data) : res (heap * list tree) :=
  match n with
  | O => Ok (h, [])
  | S n' => let! s := make_split d in
            let (i, h1) := h_alloc h (Nd (KLeaf 0) (SFull s) 0) in
            let! (h2, ts) := new_trees n' h1 d in
            Ok (h2, make_tree [i] :: ts)
  end.
(** model.py:46-47: update_y returns None, which is passed to update_y again *)
Fixpoint init_targets (h : heap) (ts : list tree) (y : list R) : res (heap * list tree) :=
  match ts with
  | [] => Ok (h, [])
  | t :: ts' => let! (h1, t1) := tree_update_y h t (Some y) in
                let! (h2, t2) := tree_update_y h1 t1 None in
                let! (h3, ts2) := init_targets h2 ts' y in
                Ok (h3, t2 :: ts2)
  end.
Definition data_values (d : data) : res (list R) :=
  match t_y (d_y d) with Some y => Ok y | None => Raise ETypeError end.
(** model.py:44-48 initialize_trees *)
Definition initialize_trees (h : heap) (d : data) (n : nat) : res (heap * list tree) :=
  let! (h1, ts) := new_trees n h d in
  match ts with
  | [] => Ok (h1, [])
  | _ => let! y := data_values d in init_targets h1 ts (map (fun v => v / INR n) y)
  end.
(** model.py:17-42 Model.__init__(data, sigma, n_trees=..., initializer=None).  With [trees] given see
    [deep_copy_model]; with an initializer see MInit.v. *)
Definition make_model (h : heap) (d : data) (sigma : R) (p : params) : res model :=
  let! (h1, ts) := initialize_trees h d (pa_ntrees p) in
  Ok (Md h1 ts d None sigma p).

(** model.py:59: [tree.predict() for tree in self.trees] *)
Fixpoint predict_all (h : heap) (ts : list tree) : res (list (list R) * list tree) :=
  match ts with
  | [] => Ok ([], [])
  | t :: ts' => let! (v, t1) := tree_predict h t in
                let! (vs, ts1) := predict_all h ts' in
                Ok (v :: vs, t1 :: ts1)
  end.
(** np.sum(vs, axis=0).  Simplification: the sum of no arrays is the scalar 0.0, which behaves as the zero
    array of the right size [n] in every use made of it here. *)
Fixpoint vsum (n : nat) (vs : list (list R)) : res (list R) :=
  match vs with
  | [] => Ok (repeat 0 n)
  | v :: vs' => let! s := vsum n vs' in vop Rplus v s
  end.
(** model.py:56-59 predict() *)
Definition model_predict (m : model) : res (list R * model) :=
  let! (vs, ts) := predict_all (m_heap m) (m_trees m) in
  let! v := vsum (length (d_mask (m_data m))) vs in
  Ok (v, m_set_trees m (m_heap m) ts).
(** model.py:61-65 _out_of_sample_predict, for a list of trees in a heap *)
Fixpoint predict_out_all (h : heap) (ts : list tree) (X : matrix) : res (list (list R)) :=
  match ts with
  | [] => Ok []
  | t :: ts' => let! v := tree_predict_out h t X in
                let! vs := predict_out_all h ts' X in Ok (v :: vs)
  end.
Definition trees_predict_out (h : heap) (ts : list tree) (X : matrix) : res (list R) :=
  let! vs := predict_out_all h ts X in vsum (length (mx_rows X)) vs.
(** model.py:50-51 residuals *)
Definition residuals (m : model) : res (list R * model) :=
  let! y := data_values (m_data m) in
  let! (v, m1) := model_predict m in
  let! e := vop Rminus y v in Ok (e, m1).
(** model.py:53-54 unnormalized_residuals *)
Definition unnormalized_residuals (m : model) : res (list R * model) :=
  let! y := unnormalized_y (d_y (m_data m)) in
  let! (v, m1) := model_predict m in
  let! u := unnormalize_y (d_y (m_data m)) v in
  let! e := vop Rminus y u in Ok (e, m1).

(** model.py:71-78 refreshed_trees, a generator: the code up to the loop, the code from the head of the loop
    to the yield for tree number [j], and the code after the yield. *)
Definition rt_start (m : model) : res model :=
  match m_pred m with
  | Some _ => Ok m
  | None => let! (v, m1) := model_predict m in Ok (m_set_pred m1 (Some v))
  end.
Definition rt_open (m : model) (j : nat) : res model :=
  match nth_error (m_trees m) j, m_pred m with
  | Some t, Some pr =>
      let! (v, t1) := tree_predict (m_heap m) t in
      let! pr1 := vop Rminus pr v in
      let! y := data_values (m_data m) in
      let! target := vop Rminus y pr1 in
      let! (h1, t2) := tree_update_y (m_heap m) t1 (Some target) in
      Ok (m_set_pred (m_set_trees m h1 (set_nth j t2 (m_trees m))) (Some pr1))
  | _, _ => Raise ETypeError
  end.
Definition rt_close (m : model) (j : nat) : res model :=
  match nth_error (m_trees m) j, m_pred m with
  | Some t, Some pr =>
      let! (v, t1) := tree_predict (m_heap m) t in
      let! pr1 := vop Rplus pr v in
      Ok (m_set_pred (m_set_trees m (m_heap m) (set_nth j t1 (m_trees m))) (Some pr1))
  | _, _ => Raise ETypeError
  end.

(** samplers/sigma.py:10-20.  numpy rejects negative gamma parameters; a rate of 0 gives the scale inf. *)
Definition sigma_step (m : model) (r : rng) : res (model * rng) :=
  let shape := pa_siga (m_par m) + IZR (pz (cm_nobsv (d_X (m_data m)))) / 2 in
  let! (e, m1) := residuals m in
  let rate := pa_sigb (m_par m) + / 2 * rsum (map (fun x => x * x) e) in
  if Req_EM_T rate 0 then Raise XNonFinite else
  if Rlt_dec shape 0 then Raise EValueError else
  if Rlt_dec (/ rate) 0 then Raise EValueError else
  match rg_gamma r with
  | [] => NoDraws
  | g :: gs => match sigma_value (g shape (/ rate)) with
               | XFin s => Ok (m_set_sigma m1 s, rng_set_gamma r gs)
               | _ => Raise XNonFinite
               end
  end.

(** schedule.py:35-55 steps: a generator yielding (key, lambda).  The lambdas read the generator's local
    variables [tree] and [leaf_node] when they are called, not when they are made. *)
Inductive skey := KyTree | KyNode.
Inductive thunk := ThTree | ThLeaf | ThSigma.
Record frame := Fr { fr_tree : option nat; fr_leaf : option nat }.
Inductive gpc :=
| GStart                              (* not started *)
| GTree (j : nat)                     (* at the yield of line 51, tree number j *)
| GLeaf (j : nat) (rest : list nat)   (* at the yield of line 54; rest: leaves not yet visited *)
| GSigma.                             (* at the yield of line 55 *)
Definition yield := option (skey * thunk).
(** to the next tree, or past the loop of line 50 *)
Definition gen_tree (m : model) (fr : frame) (j : nat) : res (yield * gpc * frame * model) :=
  if (j <? length (m_trees m))%nat
  then let! m1 := rt_open m j in Ok (Some (KyTree, ThTree), GTree j, Fr (Some j) (fr_leaf fr), m1)
  else Ok (Some (KyNode, ThSigma), GSigma, fr, m).
(** the loop of line 53 *)
Definition gen_leaves (m : model) (fr : frame) (j : nat) (rest : list nat) : res (yield * gpc * frame * model) :=
  match rest with
  | i :: rest' => Ok (Some (KyNode, ThLeaf), GLeaf j rest', Fr (fr_tree fr) (Some i), m)
  | [] => let! m1 := rt_close m j in gen_tree m1 fr (S j)
  end.
(** next(steps): runs the generator to its next yield; None: StopIteration *)
Definition gen_next (m : model) (fr : frame) (pc : gpc) : res (yield * gpc * frame * model) :=
  match pc with
  | GStart => let! m1 := rt_start m in gen_tree m1 fr 0
  | GTree j => match nth_error (m_trees m) j with
               | Some t => gen_leaves m fr j (leaf_nodes (m_heap m) t)
               | None => Raise ETypeError
               end
  | GLeaf j rest => gen_leaves m fr j rest
  | GSigma => Ok (None, GSigma, fr, m)
  end.
(** what a lambda was applied to when it was called *)
Inductive act := DoTree (j : nat) | DoLeaf (i : nat) | DoSigma.
(** calling a lambda.  Of the returned value only whether it is None is kept: a tree step returns the accepted
    mutation or None, the other steps the sampled number. *)
Definition call (m : model) (fr : frame) (th : thunk) (r : rng) : res (bool * act * model * rng) :=
  match th with
  | ThTree =>
      match fr_tree fr with
      | None => Raise EAttributeError
      | Some j =>
          match nth_error (m_trees m) j with
          | None => Raise EIndexError
          | Some t => let! (om, h1, t1, r1) := tree_step (m_heap m) t (m_sigma m) (m_par m) r in
                      Ok (match om with Some _ => true | None => false end, DoTree j,
                          m_set_trees m h1 (set_nth j t1 (m_trees m)), r1)
          end
      end
  | ThLeaf =>
      match fr_leaf fr with
      | None => Raise EAttributeError
      | Some i => let! (h1, r1) := leaf_step (m_heap m) i (m_sigma m) (m_par m) r in
                  Ok (true, DoLeaf i, m_set_trees m h1 (m_trees m), r1)
      end
  | ThSigma => let! (m1, r1) := sigma_step m r in Ok (true, DoSigma, m1, r1)
  end.

(** trace.py:12, 19-27: the default TraceLogger logs [x is not None] under "Tree" and nothing under "Node" *)
Definition trace_log (k : skey) (not_none : bool) : option bool :=
  match k with KyTree => Some not_none | KyNode => None end.
(** modelsampler.py:25-29: the loop of ModelSampler.step.  Returns the log messages with their keys and the
    steps made.  The fuel bounds the number of iterations. *)
Fixpoint drive (fuel : nat) (m : model) (fr : frame) (pc : gpc) (r : rng) : res (list (skey * bool) * list act * model * rng) :=
  match fuel with
  | O => NoDraws
  | S fuel' =>
      let! (y, pc1, fr1, m1) := gen_next m fr pc in
      match y with
      | None => Ok ([], [], m1, r)
      | Some (k, th) =>
          let! (result, a, m2, r1) := call m1 fr1 th r in
          let! (log, acts, m3, r2) := drive fuel' m2 fr1 pc1 r1 in
          Ok (match trace_log k result with Some b => (k, b) :: log | None => log end, a :: acts, m3, r2)
      end
  end.
(** enough iterations: a tree step adds at most two nodes to a tree *)
Definition drive_fuel (m : model) : nat :=
  2 + fold_right (fun t n => 3 + length (tr_nodes t) + n)%nat 0%nat (m_trees m).
(** modelsampler.py:24, 30: the dictionary of means, keys in order of first appearance *)
Definition skey_eqb (a b : skey) : bool := match a, b with KyTree, KyTree | KyNode, KyNode => true | _, _ => false end.
Definition mean01 (bs : list bool) : R := rsum (map (fun b : bool => if b then 1 else 0) bs) / INR (length bs).
Definition log_keys (log : list (skey * bool)) : list skey :=
  filter (fun k => existsb (fun e => skey_eqb k (fst e)) log) [KyTree; KyNode].
Definition step_dict (log : list (skey * bool)) : list (skey * R) :=
  map (fun k => (k, mean01 (map snd (filter (fun e => skey_eqb k (fst e)) log)))) (log_keys log).
(** modelsampler.py:23-30 ModelSampler.step *)
Definition gibbs_step (m : model) (r : rng) : res (list (skey * R) * list act * model * rng) :=
  let! (log, acts, m1, r1) := drive (drive_fuel m) m (Fr None None) GStart r in
  Ok (step_dict log, acts, m1, r1).

(** model.py:89-91 deep_copy_model: Model(None, deepcopy(sigma), copies of the trees) *)
Record sample := Sm { sm_trees : list tree; sm_sigma : R }.
Fixpoint copy_trees (h : heap) (ts : list tree) : res (list tree * heap) :=
  match ts with
  | [] => Ok ([], h)
  | t :: ts' => let! (t1, h1) := deep_copy_tree h t in
                let! (ts1, h2) := copy_trees h1 ts' in
                Ok (t1 :: ts1, h2)
  end.
Definition deep_copy_model (m : model) : res (sample * model) :=
  let! (ts, h) := copy_trees (m_heap m) (m_trees m) in
  Ok (Sm ts (m_sigma m), m_set_trees m h (m_trees m)).

(** modelsampler.py:32-67 samples.  [thin] enters only through thin_inverse = 1./thin, an exact rational
    number here (a Python float is one): TZero is thin = 0.  Progress bars and prints are not modelled. *)
Inductive thinning := TZero | TInv (num : Z) (den : positive).
(** ss % thin_inverse == 0: exact for floats *)
Definition keeps_sample (ss : nat) (num : Z) (den : positive) : bool :=
  ((Z.of_nat ss * Zpos den) mod num =? 0)%Z.
Record chain := Ch { ch_models : list sample; ch_accept : list (list (skey * R)); ch_preds : list (list R) }.
Fixpoint burn (n : nat) (m : model) (r : rng) : res (model * rng) :=
  match n with
  | O => Ok (m, r)
  | S n' => let! (_, _, m1, r1) := gibbs_step m r in burn n' m1 r1
  end.
(** one iteration of the loop of line 51: the step, then what is stored *)
Definition sample_iter (ss : nat) (num : Z) (den : positive) (store_pred store_acc : bool) (m : model) (r : rng)
  : res (chain * model * rng) :=
  let! (d, _, m1, r1) := gibbs_step m r in
  if (num =? 0)%Z then Raise EZeroDivisionError else
  if keeps_sample ss num den then
    let! (ps, m2) := (if store_pred then let! (v, m2) := model_predict m1 in Ok ([v], m2) else Ok ([], m1)) in
    let! (s, m3) := deep_copy_model m2 in
    Ok (Ch [s] (if store_acc then [d] else []) ps, m3, r1)
  else Ok (Ch [] [] [], m1, r1).
Definition ch_app (a b : chain) : chain :=
  Ch (ch_models a ++ ch_models b) (ch_accept a ++ ch_accept b) (ch_preds a ++ ch_preds b).
Fixpoint sample_loop (ss todo : nat) (num : Z) (den : positive) (sp sa : bool) (m : model) (r : rng)
  : res (chain * model * rng) :=
  match todo with
  | O => Ok (Ch [] [] [], m, r)
  | S todo' => let! (c, m1, r1) := sample_iter ss num den sp sa m r in
               let! (c', m2, r2) := sample_loop (S ss) todo' num den sp sa m1 r1 in
               Ok (ch_app c c', m2, r2)
  end.
Definition samples (m : model) (n_samples n_burn : nat) (thin : thinning) (sp sa : bool) (r : rng)
  : res (chain * model * rng) :=
  let! (m1, r1) := burn n_burn m r in
  match thin with
  | TZero => Raise EZeroDivisionError
  | TInv num den => sample_loop 0 n_samples num den sp sa m1 r1
  end.
(** Model.predict(X) of a stored sample *)
Definition sample_predict (h : heap) (s : sample) (X : matrix) : res (list R) := trees_predict_out h (sm_trees s) X.
