(** What a client (the samplers) can do with one Tree.
    Not functions of /repo: the call histories the theorems about trees quantify over. *)
From Coq Require Import Reals.
From Verif Require Import Base Fl Ext MData MSplit MTree MSampler MHist.

Inductive tree_op :=
| TGrow (i v : nat) (x : fl)       (* mutate(tree, GrowMutation(i, split_node(i, (v <= x, v > x)))) *)
| TPrune (i : nat)                 (* mutate(tree, PruneMutation(i, LeafNode(i.split, depth=i.depth))) *)
| TSampleGrow (idx : list nat)     (* mutate(tree, uniformly_sample_grow_mutation(tree)) with these draws *)
| TSamplePrune (idx : list nat)    (* mutate(tree, uniformly_sample_prune_mutation(tree)) *)
| TDiscardGrow (idx : list nat)    (* uniformly_sample_grow_mutation(tree), rejected *)
| TDiscardPrune (idx : list nat)   (* uniformly_sample_prune_mutation(tree), rejected *)
| TSetValue (i : nat) (w : R)      (* i.set_value(w), i one of tree.leaf_nodes *)
| TUpdateY (y : list R)            (* tree.update_y(y) *)
| TPredict.                        (* tree.predict() *)

Definition done (r : heap * tree * option exn) : res (heap * tree) :=
  match r with (h, t, None) => Ok (h, t) | (_, _, Some e) => Raise e end.

Definition tree_do (h : heap) (t : tree) (o : tree_op) : res (heap * tree) :=
  match o with
  | TGrow i v x =>
      let! (p, h1) := split_node h i (fresh_le v x) (fresh_gt v x) in
      let! m := grow_mutation h1 i p in done (mutate h1 t m)
  | TPrune i =>
      match h_get h i with
      | None => Raise EAttributeError
      | Some n => let (u, h1) := h_alloc h (Nd (KLeaf 0%R) (nd_split n) (nd_depth n)) in
                  let! m := prune_mutation h1 i u in done (mutate h1 t m)
      end
  | TSampleGrow idx => let! (m, h1, _) := sample_grow_mutation h t idx in done (mutate h1 t m)
  | TSamplePrune idx => let! (m, h1, _) := sample_prune_mutation h t idx in done (mutate h1 t m)
  | TDiscardGrow idx => let! (_, h1, _) := sample_grow_mutation h t idx in Ok (h1, t)
  | TDiscardPrune idx => let! (_, h1, _) := sample_prune_mutation h t idx in Ok (h1, t)
  | TSetValue i w => if existsb (Nat.eqb i) (leaf_nodes h t) then Ok (set_value h i w, t) else Raise EAttributeError
  | TUpdateY y => tree_update_y h t (Some y)
  | TPredict => let! (_, t') := tree_predict h t in Ok (h, t')
  end.
Fixpoint tree_run (h : heap) (t : tree) (os : list tree_op) : res (heap * tree) :=
  match os with
  | [] => Ok (h, t)
  | o :: os' => let! (h1, t1) := tree_do h t o in tree_run h1 t1 os'
  end.
(** Tree([LeafNode(Split(data))]) in a heap [h0] that may hold other objects *)
Definition start_tree (h0 : heap) (s : split) : heap * tree :=
  let (i, h) := h_alloc h0 (Nd (KLeaf 0%R) (SFull s) 0) in (h, make_tree [i]).

(** A sampler's life with one tree: non-mutating calls and steps of the tree sampler. *)
Inductive samp_op :=
| SCall (o : tree_op)
| SStep (sigma : R) (p : params) (r : rng).
Definition samp_do (h : heap) (t : tree) (o : samp_op) : res (heap * tree) :=
  match o with
  | SCall o => tree_do h t o
  | SStep sigma p r => let! (_, h1, t1, _) := tree_step h t sigma p r in Ok (h1, t1)
  end.
Fixpoint samp_run (h : heap) (t : tree) (os : list samp_op) : res (heap * tree) :=
  match os with
  | [] => Ok (h, t)
  | o :: os' => let! (h1, t1) := samp_do h t o in samp_run h1 t1 os'
  end.
