(** Model of bartpy/samplers/oblivioustrees/{proposer,likihoodratio,treemutation}.py, the alternative tree sampler
    (used by examples/sin.py).  Line numbers refer to the files of that directory unless another is named.
    As in MSampler.v, random draws are inputs. *)
From Coq Require Import Reals.
From Verif Require Import Base Fl Ext MData MSplit MTree MSampler MHist.
Local Open Scope R_scope.

(** proposer.py:42-56 sample_split_condition.  An index draw is used up only if there is something to choose from. *)
Definition ob_sample_split_condition (c : covmat) (idx : list nat) : res (scond * scond * list nat) :=
  match idx with
  | [] => let! _ := random_splittable_variable c 0 in NoDraws
  | k :: idx1 =>
      let! v := random_splittable_variable c k in
      let! (x, idx2) := random_splittable_value c v idx1 in
      Ok (SC v x OpLe None None, SC v x OpGt None None, idx2)
  end.
(** proposer.py:59-71 sample_split_node.  An unsplittable leaf gets two children with its own split.
    Simplification: the three nodes share one Split object in the code and hold equal values here.  Nothing can
    tell the difference: a Split only changes by Tree.update_y, which gives every node of a tree the same target,
    and by filling caches with values that are functions of its rows and target. *)
Definition ob_split_node (h : heap) (i : nat) (idx : list nat) : res (nat * heap * list nat) :=
  if is_splittable h i
  then match node_data h i with
       | None => Raise EAttributeError
       | Some d =>
           let! (c0, c1, idx1) := ob_sample_split_condition (d_X d) idx in
           let! (p, h1) := split_node h i c0 c1 in
           Ok (p, h1, idx1)
       end
  else match h_get h i with
       | Some (Nd _ s d) =>
           let (l, h1) := h_alloc h (Nd (KLeaf 0) s (d + 1)) in
           let (r, h2) := h_alloc h1 (Nd (KLeaf 0) s (d + 1)) in
           let (p, h3) := h_alloc h2 (Nd (KDec l r) s d) in
           Ok (p, h3, idx)
       | None => Raise EAttributeError
       end.

(** proposer.py:15-16 grow_mutations: the comprehension over the leaves *)
Fixpoint ob_grows (h : heap) (leaves : list nat) (idx : list nat) : res (list mutation * heap * list nat) :=
  match leaves with
  | [] => Ok ([], h, idx)
  | i :: leaves' =>
      let! (p, h1, idx1) := ob_split_node h i idx in
      let! m := grow_mutation h1 i p in
      let! (ms, h2, idx2) := ob_grows h1 leaves' idx1 in
      Ok (m :: ms, h2, idx2)
  end.
Definition ob_grow_mutations (h : heap) (t : tree) (idx : list nat) : res (list mutation * heap * list nat) :=
  ob_grows h (leaf_nodes h t) idx.

(** proposer.py:19-20 prune_mutations: the comprehension over the prunable decision nodes *)
Fixpoint ob_prunes (h : heap) (ns : list nat) : res (list mutation * heap) :=
  match ns with
  | [] => Ok ([], h)
  | i :: ns' =>
      match h_get h i with
      | None => Raise EAttributeError
      | Some n =>
          let (u, h1) := h_alloc h (Nd (KLeaf 0) (nd_split n) (nd_depth n)) in
          let! m := prune_mutation h1 i u in
          let! (ms, h2) := ob_prunes h1 ns' in
          Ok (m :: ms, h2)
      end
  end.
Definition ob_prune_mutations (h : heap) (t : tree) : res (list mutation * heap) :=
  ob_prunes h (prunable_decision_nodes h t).

(** proposer.py:32-39 propose *)
Fixpoint ob_propose (limit : nat) (h : heap) (t : tree) (r : rng) : res (list mutation * heap * rng) :=
  match limit with
  | O => Raise ERecursionError
  | S limit' =>
      match rg_method r with
      | [] => NoDraws
      | b :: bs =>
          let r1 := rng_set_method r bs in
          match (if b then ob_grow_mutations h t (rg_index r)
                 else let! (ms, h1) := ob_prune_mutations h t in Ok (ms, h1, rg_index r)) with
          | Ok (ms, h1, idx) => Ok (ms, h1, rng_set_index r1 idx)
          | Raise ENoSplittableVariable => ob_propose limit' h t r1
          | Raise ENoPrunableNode => ob_propose limit' h t r1
          | Raise e => Raise e
          | NoDraws => NoDraws
          end
      end
  end.

(** likihoodratio.py:130-140 log_probability_split_within_node and 119-127 log_probability_split_within_tree,
    which is the same number *)
Definition ob_log_split (h : heap) (existing updated : nat) : res ext :=
  match dec_most_recent h updated with
  | None => Raise EAttributeError
  | Some s =>
      match node_data h existing with
      | None => Raise EAttributeError
      | Some d => let! (q, _) := proportion_of_value_in_variable (d_X d) (sc_var s) (sc_val s) in Ok (xlog q)
      end
  end.

(** likihoodratio.py:79-86 log_grow_transition_ratio; [- np.log(1)] is 0 *)
Definition ob_log_grow_transition (h : heap) (m : mutation) (p : params) : res ext :=
  let! prob_grow := ob_log_split h (mu_existing m) (mu_updated m) in
  let! q := py_div (pa_pprune p) (pa_pgrow p) in
  Ok (xadd (xlog q) (xsub (XFin 0) prob_grow)).
(** likihoodratio.py:88-92 log_prune_transition_ratio *)
Definition ob_log_prune_transition (h : heap) (m : mutation) (p : params) : res ext :=
  let! _ := grow_mutation h (mu_updated m) (mu_existing m) in
  let! prob := ob_log_split h (mu_updated m) (mu_existing m) in
  let! q := py_div (pa_pgrow p) (pa_pprune p) in
  Ok (xadd (xlog q) prob).
(** likihoodratio.py:40-48 log_transition_ratio *)
Definition ob_log_transition (h : heap) (m : mutation) (p : params) : res ext :=
  match mu_kind m with
  | MPrune => ob_log_prune_transition h m p
  | MGrow => ob_log_grow_transition h m p
  | MOther => Raise ENotImplementedError
  end.
(** likihoodratio.py:94-104 log_tree_ratio_grow *)
Definition ob_log_tree_grow (h : heap) (m : mutation) (p : params) : res ext :=
  let! de := node_depth h (mu_existing m) in
  let! (l, r) := get_children h (mu_updated m) in
  let! dl := node_depth h l in
  let! dr := node_depth h r in
  let! du := node_depth h (mu_updated m) in
  let! chosen := ob_log_split h (mu_existing m) (mu_updated m) in
  let numerator := xadd (xadd (xadd (log_probability_node_not_split p dl) (log_probability_node_not_split p dr))
                              (log_probability_node_split p du)) chosen in
  Ok (xsub numerator (log_probability_node_not_split p de)).
(** likihoodratio.py:106-116 log_tree_ratio_prune: line 111 uses the LEFT child again *)
Definition ob_log_tree_prune (h : heap) (m : mutation) (p : params) : res ext :=
  let! du := node_depth h (mu_updated m) in
  let! (l, r) := get_children h (mu_existing m) in
  let! dl := node_depth h l in
  let! dr := node_depth h l in
  let! de := node_depth h (mu_existing m) in
  let! _ := grow_mutation h (mu_updated m) (mu_existing m) in
  let! chosen := ob_log_split h (mu_updated m) (mu_existing m) in
  let denominator := xadd (xadd (xadd (log_probability_node_not_split p dl) (log_probability_node_not_split p dr))
                                (log_probability_node_split p de)) chosen in
  Ok (xsub (log_probability_node_not_split p du) denominator).
(** likihoodratio.py:50-56 log_tree_ratio *)
Definition ob_log_tree (h : heap) (m : mutation) (p : params) : res ext :=
  match mu_kind m with
  | MGrow => ob_log_tree_grow h m p
  | MPrune => ob_log_tree_prune h m p
  | MOther => Raise ETypeError
  end.
(** samplers/treemutation.py:57-77 log_probability_ratio with these parts; likihoodratio.py:13-29 and 58-77 are
    those of MSampler.log_grow_ratio and MSampler.log_likihood_ratio: other kinds have failed in the transition ratio before
    line 67 is reached, where [log_lik] would be unset; the arrays are taken not to be numpy masked arrays, so that the test of
    line 67 is never true *)
Definition ob_log_ratio (h : heap) (m : mutation) (sigma : R) (p : params) : res ext :=
  let! a := ob_log_transition h m p in
  let! b := log_likihood_ratio h m sigma p in
  let! c := ob_log_tree h m p in
  Ok (xadd (xadd a b) c).
(** treemutation.py:42: np.sum of the ratios of the proposals, 0 if there are none *)
Fixpoint ob_ratio_from (acc : ext) (h : heap) (ms : list mutation) (sigma : R) (p : params) : res ext :=
  match ms with
  | [] => Ok acc
  | m :: ms' => let! x := ob_log_ratio h m sigma p in ob_ratio_from (xadd acc x) h ms' sigma p
  end.
Definition ob_ratio (h : heap) (ms : list mutation) (sigma : R) (p : params) : res ext := ob_ratio_from (XFin 0) h ms sigma p.

(** treemutation.py:40-46 sample *)
Definition ob_sample (h : heap) (t : tree) (sigma : R) (p : params) (r : rng) : res (option (list mutation) * heap * rng) :=
  let! (ms, h1, r1) := ob_propose (pa_limit p) h t r in
  let! ratio := ob_ratio h1 ms sigma p in
  match rg_unif r1 with
  | [] => NoDraws
  | u :: us => Ok (if accepts u ratio then Some ms else None, h1, rng_set_unif r1 us)
  end.
(** treemutation.py:48-53 step: the accepted mutations are applied one after the other *)
Fixpoint mutate_all (h : heap) (t : tree) (ms : list mutation) : res (heap * tree) :=
  match ms with
  | [] => Ok (h, t)
  | m :: ms' => match mutate h t m with
                | (h1, t1, None) => mutate_all h1 t1 ms'
                | (_, _, Some e) => Raise e
                end
  end.
Definition ob_step (h : heap) (t : tree) (sigma : R) (p : params) (r : rng) : res (option (list mutation) * heap * tree * rng) :=
  let! (om, h1, r1) := ob_sample h t sigma p r in
  match om with
  | None => Ok (None, h1, t, r1)
  | Some ms => let! (h2, t2) := mutate_all h1 t ms in Ok (Some ms, h2, t2, r1)
  end.

(** Not functions of /repo: what happens to one tree under this sampler *)
Inductive ob_op :=
| OGrow (idx : list nat)           (* an accepted grow proposal made with these draws *)
| OPrune                           (* an accepted prune proposal *)
| ODiscard (grow : bool) (idx : list nat)   (* a rejected proposal *)
| OSetValue (i : nat) (w : R)
| OUpdateY (y : list R)
| OPredict
| OStep (sigma : R) (p : params) (r : rng).
Definition ob_do (h : heap) (t : tree) (o : ob_op) : res (heap * tree) :=
  match o with
  | OGrow idx => let! (ms, h1, _) := ob_grow_mutations h t idx in mutate_all h1 t ms
  | OPrune => let! (ms, h1) := ob_prune_mutations h t in mutate_all h1 t ms
  | ODiscard true idx => let! (_, h1, _) := ob_grow_mutations h t idx in Ok (h1, t)
  | ODiscard false _ => let! (_, h1) := ob_prune_mutations h t in Ok (h1, t)
  | OSetValue i w => if existsb (Nat.eqb i) (leaf_nodes h t) then Ok (set_value h i w, t) else Raise EAttributeError
  | OUpdateY y => tree_update_y h t (Some y)
  | OPredict => let! (_, t1) := tree_predict h t in Ok (h, t1)
  | OStep sigma p r => let! (_, h1, t1, _) := ob_step h t sigma p r in Ok (h1, t1)
  end.
Fixpoint ob_run (h : heap) (t : tree) (os : list ob_op) : res (heap * tree) :=
  match os with
  | [] => Ok (h, t)
  | o :: os' => let! (h1, t1) := ob_do h t o in ob_run h1 t1 os'
  end.
