(** Model of bartpy/samplers/unconstrainedtree/{proposer,likihoodratio,treemutation}.py,
    bartpy/samplers/treemutation.py:57-77, bartpy/samplers/leafnode.py, bartpy/samplers/sigma.py.
    Random draws are inputs: [rng] holds one stream per kind of draw.  The cached scalar samplers
    (scalar.py) are modelled in MScalar.v and shown there to hand out such a stream. *)
From Coq Require Import Reals.
From Verif Require Import Base Fl Ext MData MSplit MTree.
Local Open Scope R_scope.

Record rng := Rng {
  rg_method : list bool;   (* method_sampler.sample(): true = grow, false = prune *)
  rg_index : list nat;     (* np.random.choice *)
  rg_unif : list R;        (* uniform(0,1) draws *)
  rg_norm : list R;        (* normal(0,1) draws *)
  rg_gamma : list (R -> R -> R) }.   (* gamma draws, as functions of shape and scale *)
Definition rng_set_method (r : rng) l := Rng l (rg_index r) (rg_unif r) (rg_norm r) (rg_gamma r).
Definition rng_set_index (r : rng) l := Rng (rg_method r) l (rg_unif r) (rg_norm r) (rg_gamma r).
Definition rng_set_unif (r : rng) l := Rng (rg_method r) (rg_index r) l (rg_norm r) (rg_gamma r).
Definition rng_set_norm (r : rng) l := Rng (rg_method r) (rg_index r) (rg_unif r) l (rg_gamma r).
Definition rng_set_gamma (r : rng) l := Rng (rg_method r) (rg_index r) (rg_unif r) (rg_norm r) l.

(** one draw of np.random.choice over a list; numpy raises ValueError on an empty list *)
Definition np_choice {A} (dflt : A) (xs : list A) (idx : list nat) : res (A * list nat) :=
  match xs with
  | [] => Raise EValueError
  | _ => match idx with [] => NoDraws | d :: ds => Ok (choose dflt xs d, ds) end
  end.

(** proposer.py:53-62 random_splittable_leaf_node *)
Definition random_splittable_leaf_node (h : heap) (t : tree) (idx : list nat) : res (nat * list nat) :=
  match splittable_leaf_nodes h t with
  | [] => Raise ENoSplittableVariable
  | ns => np_choice 0%nat ns idx
  end.

(** proposer.py:65-73 random_prunable_decision_node *)
Definition random_prunable_decision_node (h : heap) (t : tree) (idx : list nat) : res (nat * list nat) :=
  match prunable_decision_nodes h t with
  | [] => Raise ENoPrunableNode
  | ns => np_choice 0%nat ns idx
  end.

(** proposer.py:76-90 sample_split_condition *)
Definition sample_split_condition (c : covmat) (idx : list nat) : res (scond * scond * list nat) :=
  let! (v, idx1) := np_choice 0%nat (fst (splittable_variables c)) idx in
  let! (x, idx2) := random_splittable_value c v idx1 in
  Ok (SC v x OpLe None None, SC v x OpGt None None, idx2).

(** proposer.py:93-99 sample_split_node *)
Definition sample_split_node (h : heap) (i : nat) (idx : list nat) : res (nat * heap * list nat) :=
  match node_data h i with
  | None => Raise EAttributeError
  | Some d =>
      let! (c0, c1, idx1) := sample_split_condition (d_X d) idx in
      let! (p, h1) := split_node h i c0 c1 in
      Ok (p, h1, idx1)
  end.

(** proposer.py:15-18 uniformly_sample_grow_mutation *)
Definition sample_grow_mutation (h : heap) (t : tree) (idx : list nat) : res (mutation * heap * list nat) :=
  let! (i, idx1) := random_splittable_leaf_node h t idx in
  let! (p, h1, idx2) := sample_split_node h i idx1 in
  let! m := grow_mutation h1 i p in
  Ok (m, h1, idx2).

(** proposer.py:21-24 uniformly_sample_prune_mutation; LeafNode(...) has value 0.0 (node.py:51) *)
Definition sample_prune_mutation (h : heap) (t : tree) (idx : list nat) : res (mutation * heap * list nat) :=
  let! (i, idx1) := random_prunable_decision_node h t idx in
  match h_get h i with
  | None => Raise EAttributeError
  | Some n =>
      let (u, h1) := h_alloc h (Nd (KLeaf 0) (nd_split n) (nd_depth n)) in
      let! m := prune_mutation h1 i u in
      Ok (m, h1, idx1)
  end.

(** proposer.py:43-50 UniformMutationProposer.propose: retries on the two library exceptions.
    [limit] is Python's recursion limit. *)
Fixpoint propose (limit : nat) (h : heap) (t : tree) (r : rng) : res (mutation * heap * rng) :=
  match limit with
  | O => Raise ERecursionError
  | S limit' =>
      match rg_method r with
      | [] => NoDraws
      | b :: bs =>
          let r1 := rng_set_method r bs in
          match (if b then sample_grow_mutation h t (rg_index r) else sample_prune_mutation h t (rg_index r)) with
          | Ok (m, h1, idx) => Ok (m, h1, rng_set_index r1 idx)
          | Raise ENoSplittableVariable => propose limit' h t r1
          | Raise ENoPrunableNode => propose limit' h t r1
          | Raise e => Raise e
          | NoDraws => NoDraws
          end
      end
  end.

(** The parameters of a Model (model.py:17-31, sigma.py:21-25) and of get_tree_sampler
    (treemutation.py:53-57) *)
Record params := Pa {
  pa_ntrees : nat; pa_alpha : R; pa_beta : R; pa_k : R;
  pa_siga : R; pa_sigb : R;           (* Sigma.alpha, Sigma.beta *)
  pa_pgrow : R; pa_pprune : R;        (* prob_method *)
  pa_limit : nat }.                   (* Python recursion limit *)

(** model.py:80-82 sigma_m = 0.5 / (k * n_trees ** 0.5) *)
Definition sigma_m (p : params) : ext :=
  xdiv (XFin (/2)) (xmul (XFin (pa_k p)) (xsqrt (XFin (INR (pa_ntrees p))))).

(** likihoodratio.py:13-33 log_grow_ratio, with the row counts and sums of y of the three nodes *)
Definition log_grow_ratio (n nl nr : Z) (ys yl yr : R) (sigma : R) (sm : ext) : ext :=
  let var := XFin (sigma * sigma) in
  let var_mu := xmul sm sm in
  let X (z : Z) := XFin (IZR z) in
  let first_term := xdiv (xmul var (xadd var (xmul (X n) sm)))
                         (xmul (xadd var (xmul (X nl) var_mu)) (xadd var (xmul (X nr) var_mu))) in
  let first_term := xlog (xsqrt first_term) in
  let left_c := xdiv (XFin (yl * yl)) (xadd var (xmul (X nl) sm)) in
  let right_c := xdiv (XFin (yr * yr)) (xadd var (xmul (X nr) sm)) in
  let comb_c := xdiv (XFin (ys * ys)) (xadd var (xmul (X n) sm)) in
  let resp := xsub (xadd left_c right_c) comb_c in
  xadd first_term (xmul (xdiv var_mu (xmul (XFin 2) var)) resp).

(** n_obsv and summed_y of a node *)
Definition node_n (h : heap) (i : nat) : res Z :=
  match node_data h i with Some d => Ok (pz (cm_nobsv (d_X d))) | None => Raise EAttributeError end.
Definition node_sum (h : heap) (i : nat) : res R :=
  match node_data h i with
  | Some d => let! (s, _) := summed_y (d_y d) in Ok s
  | None => Raise EAttributeError end.

Definition log_grow_ratio_nodes (h : heap) (combined l r : nat) (sigma : R) (p : params) : res ext :=
  let! n := node_n h combined in
  let! nl := node_n h l in
  let! nr := node_n h r in
  let! ys := node_sum h combined in
  let! yl := node_sum h l in
  let! yr := node_sum h r in
  Ok (log_grow_ratio n nl nr ys yl yr sigma (sigma_m p)).

Definition get_children (h : heap) (i : nat) : res (nat * nat) :=
  match left_child h i, right_child h i with
  | Some l, Some r => Ok (l, r)
  | _, _ => Raise EAttributeError
  end.

(** likihoodratio.py:62-78 log_likihood_ratio *)
Definition log_likihood_ratio (h : heap) (m : mutation) (sigma : R) (p : params) : res ext :=
  match mu_kind m with
  | MGrow => let! (l, r) := get_children h (mu_updated m) in
             log_grow_ratio_nodes h (mu_existing m) l r sigma p
  | MPrune => let! (l, r) := get_children h (mu_existing m) in
              let! x := log_grow_ratio_nodes h (mu_updated m) l r sigma p in Ok (xneg x)
  | MOther => Raise ENotImplementedError
  end.

(** likihoodratio.py:129-142 *)
Definition n_prunable_decision_nodes (h : heap) (t : tree) : nat := length (prunable_decision_nodes h t).
Definition n_splittable_leaf_nodes (h : heap) (t : tree) : nat := length (splittable_leaf_nodes h t).

(** likihoodratio.py:157-169 log_probability_split_within_node for GrowMutation(existing, updated) *)
Definition log_probability_split_within_node (h : heap) (existing updated : nat) : res ext :=
  match node_data h existing with
  | None => Raise EAttributeError
  | Some d =>
      let prob_var := xneg (xlog (XFin (INR (fst (n_splittable_variables (d_X d)))))) in
      match dec_most_recent h updated with
      | None => Raise EAttributeError
      | Some s =>
          let! (q, _) := proportion_of_value_in_variable (d_X d) (sc_var s) (sc_val s) in
          Ok (xadd prob_var (xlog q))
      end
  end.

(** likihoodratio.py:145-154 log_probability_split_within_tree *)
Definition log_probability_split_within_tree (h : heap) (t : tree) (existing updated : nat) : res ext :=
  let! q := log_probability_split_within_node h existing updated in
  Ok (xadd (xneg (xlog (XFin (INR (n_splittable_leaf_nodes h t))))) q).

(** likihoodratio.py:172-177 *)
Definition split_prior (p : params) (depth : nat) : R := pa_alpha p * Rpower (INR (1 + depth)) (- pa_beta p).
Definition log_probability_node_split (p : params) (depth : nat) : ext := xlog (XFin (split_prior p depth)).
Definition log_probability_node_not_split (p : params) (depth : nat) : ext := xlog (XFin (1 - split_prior p depth)).
Definition node_depth (h : heap) (i : nat) : res nat :=
  match h_get h i with Some n => Ok (nd_depth n) | None => Raise EAttributeError end.

(** Python float division: ZeroDivisionError (prob_method holds Python floats) *)
Definition py_div (a b : R) : res ext :=
  if Req_EM_T b 0 then Raise EZeroDivisionError else Ok (XFin (a / b)).

(** likihoodratio.py:80-87 log_grow_transition_ratio *)
Definition log_grow_transition_ratio (h : heap) (t : tree) (m : mutation) (p : params) : res ext :=
  let prob_prune := xneg (xlog (XFin (INR (n_prunable_decision_nodes h t + 1)))) in
  let! prob_grow := log_probability_split_within_tree h t (mu_existing m) (mu_updated m) in
  let! q := py_div (pa_pprune p) (pa_pgrow p) in
  Ok (xadd (xlog q) (xsub prob_prune prob_grow)).

(** likihoodratio.py:89-102 log_prune_transition_ratio.  GrowMutation(updated, existing) at line 94
    raises TypeError unless [updated] is a leaf. *)
Definition log_prune_transition_ratio (h : heap) (t : tree) (m : mutation) (p : params) : res ext :=
  let ns := n_splittable_leaf_nodes h t in
  let prob_node := if Nat.eqb ns 1 then XNInf else xneg (xlog (XFin (INR ns - 1))) in
  let! _ := grow_mutation h (mu_updated m) (mu_existing m) in
  let! prob_split := log_probability_split_within_node h (mu_updated m) (mu_existing m) in
  let prob_grow := xadd prob_node prob_split in
  let prob_prune := xneg (xlog (XFin (INR (n_prunable_decision_nodes h t)))) in
  let! q := py_div (pa_pgrow p) (pa_pprune p) in
  Ok (xadd (xlog q) (xsub prob_grow prob_prune)).

(** likihoodratio.py:44-52 log_transition_ratio *)
Definition log_transition_ratio (h : heap) (t : tree) (m : mutation) (p : params) : res ext :=
  match mu_kind m with
  | MPrune => log_prune_transition_ratio h t m p
  | MGrow => log_grow_transition_ratio h t m p
  | MOther => Raise ENotImplementedError
  end.

(** likihoodratio.py:104-114 log_tree_ratio_grow *)
Definition log_tree_ratio_grow (h : heap) (t : tree) (m : mutation) (p : params) : res ext :=
  let! de := node_depth h (mu_existing m) in
  let! (l, r) := get_children h (mu_updated m) in
  let! dl := node_depth h l in
  let! dr := node_depth h r in
  let! du := node_depth h (mu_updated m) in
  let! chosen := log_probability_split_within_tree h t (mu_existing m) (mu_updated m) in
  let numerator := xadd (xadd (xadd (log_probability_node_not_split p dl) (log_probability_node_not_split p dr))
                              (log_probability_node_split p du)) chosen in
  Ok (xsub numerator (log_probability_node_not_split p de)).

(** likihoodratio.py:116-126 log_tree_ratio_prune: note that line 121 uses the LEFT child twice *)
Definition log_tree_ratio_prune (h : heap) (m : mutation) (p : params) : res ext :=
  let! du := node_depth h (mu_updated m) in
  let! (l, r) := get_children h (mu_existing m) in
  let! dl := node_depth h l in
  let! dr := node_depth h l in
  let! de := node_depth h (mu_existing m) in
  let! _ := grow_mutation h (mu_updated m) (mu_existing m) in
  let! chosen := log_probability_split_within_node h (mu_updated m) (mu_existing m) in
  let denominator := xadd (xadd (xadd (log_probability_node_not_split p dl) (log_probability_node_not_split p dr))
                                (log_probability_node_split p de)) chosen in
  Ok (xsub (log_probability_node_not_split p du) denominator).

(** likihoodratio.py:54-60 log_tree_ratio: any other kind falls through and returns None, on which
    the addition in treemutation.py:77 raises TypeError *)
Definition log_tree_ratio (h : heap) (t : tree) (m : mutation) (p : params) : res ext :=
  match mu_kind m with
  | MGrow => log_tree_ratio_grow h t m p
  | MPrune => log_tree_ratio_prune h m p
  | MOther => Raise ETypeError
  end.

(** samplers/treemutation.py:57-77 log_probability_ratio *)
Definition log_probability_ratio (h : heap) (t : tree) (m : mutation) (sigma : R) (p : params) : res ext :=
  let! a := log_transition_ratio h t m p in
  let! b := log_likihood_ratio h m sigma p in
  let! c := log_tree_ratio h t m p in
  Ok (xadd (xadd a b) c).

(** unconstrainedtree/treemutation.py:38-44 sample *)
Definition accepts (u : R) (ratio : ext) : bool := xltb (XFin u) ratio.
Definition tree_sample (h : heap) (t : tree) (sigma : R) (p : params) (r : rng)
  : res (option mutation * heap * rng) :=
  let! (m, h1, r1) := propose (pa_limit p) h t r in
  let! ratio := log_probability_ratio h1 t m sigma p in
  match rg_unif r1 with
  | [] => NoDraws
  | u :: us => Ok (if accepts u ratio then Some m else None, h1, rng_set_unif r1 us)
  end.

(** unconstrainedtree/treemutation.py:46-50 step *)
Definition tree_step (h : heap) (t : tree) (sigma : R) (p : params) (r : rng)
  : res (option mutation * heap * tree * rng) :=
  let! (om, h1, r1) := tree_sample h t sigma p r in
  match om with
  | None => Ok (None, h1, t, r1)
  | Some m => match mutate h1 t m with
              | (h2, t2, None) => Ok (Some m, h2, t2, r1)
              | (_, _, Some e) => Raise e
              end
  end.

(** leafnode.py:26-33 LeafNodeSampler.sample, z the standard normal draw *)
Definition leaf_sample (n : Z) (ysum : R) (sigma : R) (p : params) (z : R) : ext :=
  let prior_var := xmul (sigma_m p) (sigma_m p) in
  let lik_var := xdiv (XFin (sigma * sigma)) (XFin (IZR n)) in
  let lik_mean := xdiv (XFin ysum) (XFin (IZR n)) in
  let post_var := xdiv (XFin 1) (xadd (xdiv (XFin 1) prior_var) (xdiv (XFin 1) lik_var)) in
  let post_mean := xmul lik_mean (xdiv prior_var (xadd lik_var prior_var)) in
  xadd post_mean (xmul (XFin z) (xsqrt (xdiv post_var (XFin (INR (pa_ntrees p)))))).

(** leafnode.py:21-24 step *)
Definition leaf_step (h : heap) (i : nat) (sigma : R) (p : params) (r : rng) : res (heap * rng) :=
  let! n := node_n h i in
  let! s := node_sum h i in
  match rg_norm r with
  | [] => NoDraws
  | z :: zs => match leaf_sample n s sigma p z with
               | XFin v => Ok (set_value h i v, rng_set_norm r zs)
               | _ => Raise XNonFinite
               end
  end.

(** samplers/sigma.py:19: the value made of a gamma draw g, g ** -0.5 *)
Definition sigma_value (g : R) : ext :=
  match rsign g with Gt => XFin (/ sqrt g) | Eq => XPInf | Lt => XNaN end.
