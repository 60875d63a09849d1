(** Gibbs sampling of a Model whose tree sampler is the one of bartpy/samplers/oblivioustrees/treemutation.py
    (get_tree_sampler, lines 56-60), given to SklearnModel as its tree_sampler.  The generator of steps, the samplers of leaves and
    of sigma, the traces and the storing of copies are those of MModel.v: only the call made for a tree differs. *)
From Coq Require Import Reals.
From Verif Require Import Base Fl Ext MData MSplit MTree MSampler MModel MOblivious.

(** schedule.py:51, 54, 55: calling a lambda; tree_sampler.step is oblivioustrees/treemutation.py:48-53.  It returns
    the list of accepted mutations or None: of the result only whether it is None is kept. *)
Definition ob_call (m : model) (fr : frame) (th : thunk) (r : rng) : res (bool * act * model * rng) :=
  match th with
  | ThTree =>
      match fr_tree fr with
      | None => Raise EAttributeError
      | Some j =>
          match nth_error (m_trees m) j with
          | None => Raise EIndexError
          | Some t => let! (om, h1, t1, r1) := ob_step (m_heap m) t (m_sigma m) (m_par m) r in
                      Ok (match om with Some _ => true | None => false end, DoTree j,
                          m_set_trees m h1 (set_nth j t1 (m_trees m)), r1)
          end
      end
  | ThLeaf | ThSigma => call m fr th r
  end.
(** modelsampler.py:25-29: the loop of ModelSampler.step *)
Fixpoint ob_drive (fuel : nat) (m : model) (fr : frame) (pc : gpc) (r : rng) : res (list (skey * bool) * list act * model * rng) :=
  match fuel with
  | O => NoDraws
  | S fuel' =>
      let! (y, pc1, fr1, m1) := gen_next m fr pc in
      match y with
      | None => Ok ([], [], m1, r)
      | Some (k, th) =>
          let! (result, a, m2, r1) := ob_call m1 fr1 th r in
          let! (log, acts, m3, r2) := ob_drive fuel' m2 fr1 pc1 r1 in
          Ok (match trace_log k result with Some b => (k, b) :: log | None => log end, a :: acts, m3, r2)
      end
  end.
(** enough iterations: a step replaces every leaf of a tree by at most three nodes *)
Definition ob_drive_fuel (m : model) : nat :=
  2 + fold_right (fun t n => 1 + 3 * length (tr_nodes t) + n)%nat 0%nat (m_trees m).
(** modelsampler.py:23-30 ModelSampler.step *)
Definition ob_gibbs_step (m : model) (r : rng) : res (list (skey * R) * list act * model * rng) :=
  let! (log, acts, m1, r1) := ob_drive (ob_drive_fuel m) m (Fr None None) GStart r in
  Ok (step_dict log, acts, m1, r1).

(** modelsampler.py:43-45: the burn-in *)
Fixpoint ob_burn (n : nat) (m : model) (r : rng) : res (model * rng) :=
  match n with
  | O => Ok (m, r)
  | S n' => let! (_, _, m1, r1) := ob_gibbs_step m r in ob_burn n' m1 r1
  end.
(** modelsampler.py:51-61: one iteration *)
Definition ob_sample_iter (ss : nat) (num : Z) (den : positive) (store_pred store_acc : bool) (m : model) (r : rng)
  : res (chain * model * rng) :=
  let! (d, _, m1, r1) := ob_gibbs_step m r in
  if (num =? 0)%Z then Raise EZeroDivisionError else
  if keeps_sample ss num den then
    let! (ps, m2) := (if store_pred then let! (v, m2) := model_predict m1 in Ok ([v], m2) else Ok ([], m1)) in
    let! (s, m3) := deep_copy_model m2 in
    Ok (Ch [s] (if store_acc then [d] else []) ps, m3, r1)
  else Ok (Ch [] [] [], m1, r1).
(** modelsampler.py:51: the loop *)
Fixpoint ob_sample_loop (ss todo : nat) (num : Z) (den : positive) (sp sa : bool) (m : model) (r : rng)
  : res (chain * model * rng) :=
  match todo with
  | O => Ok (Ch [] [] [], m, r)
  | S todo' => let! (c, m1, r1) := ob_sample_iter ss num den sp sa m r in
               let! (c', m2, r2) := ob_sample_loop (S ss) todo' num den sp sa m1 r1 in
               Ok (ch_app c c', m2, r2)
  end.
(** modelsampler.py:32-67 samples *)
Definition ob_samples (m : model) (n_samples n_burn : nat) (thin : thinning) (sp sa : bool) (r : rng)
  : res (chain * model * rng) :=
  let! (m1, r1) := ob_burn n_burn m r in
  match thin with
  | TZero => Raise EZeroDivisionError
  | TInv num den => ob_sample_loop 0 n_samples num den sp sa m1 r1
  end.

(** Not functions of /repo: what happens to a model under this sampler.  [ob_half_step] is the loop of
    ModelSampler.step abandoned after [n] iterations, or one instruction later (see MModelHist.v). *)
Fixpoint ob_drive_for (n : nat) (m : model) (fr : frame) (pc : gpc) (r : rng) : res (model * frame * gpc * rng) :=
  match n with
  | O => Ok (m, fr, pc, r)
  | S n' =>
      let! (y, pc1, fr1, m1) := gen_next m fr pc in
      match y with
      | None => Ok (m1, fr1, pc1, r)
      | Some (_, th) => let! (_, _, m2, r1) := ob_call m1 fr1 th r in ob_drive_for n' m2 fr1 pc1 r1
      end
  end.
Definition ob_half_step (n : nat) (produced : bool) (m : model) (r : rng) : res (model * gpc) :=
  let! (m1, fr1, pc1, r1) := ob_drive_for n m (Fr None None) GStart r in
  if produced then let! (_, pc2, _, m2) := gen_next m1 fr1 pc1 in Ok (m2, pc2) else Ok (m1, pc1).
Inductive ob_model_op :=
| BStep (r : rng)                                  (* ModelSampler.step(model, TraceLogger()) *)
| BPredict                                         (* model.predict() *)
| BStore                                           (* deep_copy_model(model) *)
| BHalf (n : nat) (produced : bool) (r : rng).     (* an abandoned Gibbs step *)
Definition ob_model_do (m : model) (o : ob_model_op) : res model :=
  match o with
  | BStep r => let! (_, _, m1, _) := ob_gibbs_step m r in Ok m1
  | BPredict => let! (_, m1) := model_predict m in Ok m1
  | BStore => let! (_, m1) := deep_copy_model m in Ok m1
  | BHalf n b r => let! (m1, _) := ob_half_step n b m r in Ok m1
  end.
Fixpoint ob_model_run (m : model) (os : list ob_model_op) : res model :=
  match os with
  | [] => Ok m
  | o :: os' => let! m1 := ob_model_do m o in ob_model_run m1 os'
  end.
