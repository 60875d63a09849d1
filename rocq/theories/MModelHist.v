(** What can be done to a Model.  Not functions of /repo: the histories the theorems about models quantify
    over.  Only [drive_for] mirrors code: it is the loop of ModelSampler.step stopped early. *)
From Coq Require Import Reals.
From Verif Require Import Base Fl Ext MData MSplit MTree MSampler MHist MTreeHist MModel.

(** the first [n] iterations of the loop of modelsampler.py:25-29 *)
Fixpoint drive_for (n : nat) (m : model) (fr : frame) (pc : gpc) (r : rng) : res (model * frame * gpc * rng) :=
  match n with
  | O => Ok (m, fr, pc, r)
  | S n' =>
      let! (y, pc1, fr1, m1) := gen_next m fr pc in
      match y with
      | None => Ok (m1, fr1, pc1, r)
      | Some (_, th) => let! (_, _, m2, r1) := call m1 fr1 th r in drive_for n' m2 fr1 pc1 r1
      end
  end.
(** a Gibbs step abandoned after [n] iterations, or one instruction later: when the next step has been
    produced ([produced]) but not run (as when running it raises an exception) *)
Definition half_step (n : nat) (produced : bool) (m : model) (r : rng) : res (model * gpc) :=
  let! (m1, fr1, pc1, r1) := drive_for n m (Fr None None) GStart r in
  if produced then let! (_, pc2, _, m2) := gen_next m1 fr1 pc1 in Ok (m2, pc2) else Ok (m1, pc1).
(** the tree whose turn it is *)
Definition open_of (pc : gpc) : option nat := match pc with GTree j | GLeaf j _ => Some j | _ => None end.

(** for tree in model.refreshed_trees(): <calls on tree> *)
Definition on_tree (m : model) (j : nat) (os : list tree_op) : res model :=
  match nth_error (m_trees m) j with
  | None => Raise EIndexError
  | Some t => let! (h1, t1) := tree_run (m_heap m) t os in Ok (m_set_trees m h1 (set_nth j t1 (m_trees m)))
  end.
Fixpoint pass_from (j : nat) (acts : list (list tree_op)) (m : model) : res model :=
  match acts with
  | [] => Ok m
  | os :: acts' => let! m1 := rt_open m j in
                   let! m2 := on_tree m1 j os in
                   let! m3 := rt_close m2 j in
                   pass_from (S j) acts' m3
  end.
Definition pass (m : model) (acts : list (list tree_op)) : res model :=
  let! m1 := rt_start m in pass_from 0 acts m1.
(** a pass abandoned at tree number [length acts], after the calls [os] on it *)
Definition broken_pass (m : model) (acts : list (list tree_op)) (os : list tree_op) : res model :=
  let! m1 := pass m acts in
  let! m2 := rt_open m1 (length acts) in
  on_tree m2 (length acts) os.

Inductive model_op :=
| GStep (r : rng)                                        (* ModelSampler.step(model, TraceLogger()) *)
| GPass (acts : list (list tree_op))                     (* a pass of another consumer of refreshed_trees() *)
| GPredict                                               (* model.predict() *)
| GStore                                                 (* deep_copy_model(model) *)
| GHalf (n : nat) (produced : bool) (r : rng)            (* an abandoned Gibbs step *)
| GBroken (acts : list (list tree_op)) (os : list tree_op).   (* an abandoned pass *)
Definition model_do (m : model) (o : model_op) : res model :=
  match o with
  | GStep r => let! (_, _, m1, _) := gibbs_step m r in Ok m1
  | GPass acts => pass m acts
  | GPredict => let! (_, m1) := model_predict m in Ok m1
  | GStore => let! (_, m1) := deep_copy_model m in Ok m1
  | GHalf n b r => let! (m1, _) := half_step n b m r in Ok m1
  | GBroken acts os => broken_pass m acts os
  end.
Fixpoint model_run (m : model) (os : list model_op) : res model :=
  match os with
  | [] => Ok m
  | o :: os' => let! m1 := model_do m o in model_run m1 os'
  end.
(** Model(Data(X, y, normalize=...), Sigma(...), n_trees=..., initializer=None) among other objects [h0] *)
Definition start_model (X : matrix) (y : list R) (normalize : bool) (h0 : heap) (sigma : R) (p : params) : res model :=
  let! d := make_data X y None normalize None None None None in make_model h0 d sigma p.

(** steps = list(schedule.steps(model)): the generator is run to its end, no step is called.  Returned are the
    steps, the model and the generator's local variables, which the lambdas will read. *)
Fixpoint collect (fuel : nat) (m : model) (fr : frame) (pc : gpc) : res (list (skey * thunk) * model * frame) :=
  match fuel with
  | O => NoDraws
  | S fuel' =>
      let! (y, pc1, fr1, m1) := gen_next m fr pc in
      match y with
      | None => Ok ([], m1, fr1)
      | Some s => let! (l, m2, fr2) := collect fuel' m1 fr1 pc1 in Ok (s :: l, m2, fr2)
      end
  end.
Definition list_steps (m : model) : res (list (skey * thunk) * model * frame) := collect (drive_fuel m) m (Fr None None) GStart.
