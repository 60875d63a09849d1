(** Model of bartpy/node.py, bartpy/mutation.py and bartpy/tree.py.
    Node objects live in a heap: an id is an object identity.  TreeNode defines no __eq__, so
    [==], [in] and [list.remove] on nodes compare identities. *)
From Coq Require Import Reals.
From Verif Require Import Base Fl Ext MData MSplit.

(** node.py:43-66 LeafNode (with _value) and node.py:69-82 DecisionNode (with its two children) *)
Inductive nkind := KLeaf (value : R) | KDec (l r : nat).

(** The _split attribute: a Split in a live tree, a CombinedCondition in a stored copy
    (node.py:105, 108). *)
Inductive nsplit := SFull (s : split) | SCond (c : ccond).

(** node.py:7-18 TreeNode *)
Record tnode := Nd { nd_kind : nkind; nd_split : nsplit; nd_depth : nat }.

Record heap := Hp { h_next : nat; h_get : nat -> option tnode }.
Definition h_empty : heap := Hp 0 (fun _ => None).
Definition h_set (h : heap) (i : nat) (n : tnode) : heap :=
  Hp (h_next h) (fun j => if Nat.eqb j i then Some n else h_get h j).
(** object construction: a fresh identity *)
Definition h_alloc (h : heap) (n : tnode) : nat * heap :=
  (h_next h, Hp (S (h_next h)) (fun j => if Nat.eqb j (h_next h) then Some n else h_get h j)).

Definition is_leaf (h : heap) (i : nat) : bool :=
  match h_get h i with Some (Nd (KLeaf _) _ _) => true | _ => false end.
Definition is_dec (h : heap) (i : nat) : bool :=
  match h_get h i with Some (Nd (KDec _ _) _ _) => true | _ => false end.
(** node.py:24-30 *)
Definition left_child (h : heap) (i : nat) : option nat :=
  match h_get h i with Some (Nd (KDec l _) _ _) => Some l | _ => None end.
Definition right_child (h : heap) (i : nat) : option nat :=
  match h_get h i with Some (Nd (KDec _ r) _ _) => Some r | _ => None end.
(** node.py:20-22 data: only a Split has a .data attribute *)
Definition node_split (h : heap) (i : nat) : option split :=
  match h_get h i with Some (Nd _ (SFull s) _) => Some s | _ => None end.
Definition node_data (h : heap) (i : nat) : option data :=
  match node_split h i with Some s => Some (sp_data s) | None => None end.
(** node.py:62-63 predict of a leaf *)
Definition leaf_value (h : heap) (i : nat) : option R :=
  match h_get h i with Some (Nd (KLeaf v) _ _) => Some v | _ => None end.
(** node.py:55-56 set_value *)
Definition set_value (h : heap) (i : nat) (v : R) : heap :=
  match h_get h i with
  | Some (Nd (KLeaf _) s d) => h_set h i (Nd (KLeaf v) s d)
  | _ => h
  end.
(** node.py:65-66 is_splittable (of live leaves) *)
Definition is_splittable (h : heap) (i : nat) : bool :=
  match node_data h i with
  | Some d => fst (is_at_least_one_splittable_variable (d_X d))
  | None => false
  end.
(** node.py:78-79 is_prunable *)
Definition is_prunable (h : heap) (i : nat) : bool :=
  match left_child h i, right_child h i with
  | Some l, Some r => is_leaf h l && is_leaf h r
  | _, _ => false
  end.
Definition nsplit_cc (s : nsplit) : ccond := match s with SFull s => sp_cc s | SCond c => c end.
(** node.py:81-82 most_recent_split_condition of a decision node *)
Definition dec_most_recent (h : heap) (i : nat) : option scond :=
  match left_child h i with
  | Some l => match h_get h l with Some n => cc_most_recent (nsplit_cc (nd_split n)) | None => None end
  | None => None
  end.

(** node.py:85-99 split_node: three new objects *)
Definition split_node (h : heap) (i : nat) (c0 c1 : scond) : res (nat * heap) :=
  match h_get h i with
  | Some (Nd _ (SFull s) d) =>
      let! (s', sl, sr) := split_children s c0 c1 in
      let (l, h1) := h_alloc h (Nd (KLeaf 0%R) (SFull sl) (d + 1)) in
      let (r, h2) := h_alloc h1 (Nd (KLeaf 0%R) (SFull sr) (d + 1)) in
      let (p, h3) := h_alloc h2 (Nd (KDec l r) (SFull s') d) in
      Ok (p, h3)
  | _ => Raise EAttributeError
  end.

(** node.py:102-110 deep_copy_node.  A decision copy keeps the ORIGINAL children. *)
Definition deep_copy_node (h : heap) (i : nat) : res (nat * heap) :=
  match h_get h i with
  | Some (Nd k (SFull s) d) => Ok (h_alloc h (Nd k (SCond (sp_cc s)) d))
  | Some (Nd _ (SCond _) _) => Raise EAttributeError   (* no out_of_sample_conditioner *)
  | None => Raise ETypeError
  end.

(** mutation.py:4-16 TreeMutation *)
Inductive mkind := MGrow | MPrune | MOther.
Record mutation := Mu { mu_kind : mkind; mu_existing : nat; mu_updated : nat }.
(** mutation.py:22-27 PruneMutation, mutation.py:30-35 GrowMutation *)
Definition prune_mutation (h : heap) (e u : nat) : res mutation :=
  if negb (is_dec h e) || negb (is_prunable h e) then Raise ETypeError else Ok (Mu MPrune e u).
Definition grow_mutation (h : heap) (e u : nat) : res mutation :=
  if negb (is_leaf h e) then Raise ETypeError else Ok (Mu MGrow e u).

(** tree.py:24-27 Tree *)
Record tree := Tr { tr_nodes : list nat; tr_fresh : bool; tr_pred : option (list R) }.
Definition make_tree (nodes : list nat) : tree := Tr nodes false None.

(** tree.py:36-65 *)
Definition leaf_nodes (h : heap) (t : tree) : list nat := filter (is_leaf h) (tr_nodes t).
Definition splittable_leaf_nodes (h : heap) (t : tree) : list nat := filter (is_splittable h) (leaf_nodes h t).
Definition decision_nodes (h : heap) (t : tree) : list nat := filter (is_dec h) (tr_nodes t).
Definition prunable_decision_nodes (h : heap) (t : tree) : list nat := filter (is_prunable h) (decision_nodes h t).

(** node.py:36-40 TreeNode.update_y: the node's data, then both subtrees through the child links.
    Fuel bounds the recursion; exhaustion is RecursionError.  A node holding a CombinedCondition
    has no .data (AttributeError). *)
Definition set_node_y (n : tnode) (y : option (list R)) : option tnode :=
  match nd_split n with
  | SFull s => Some (Nd (nd_kind n) (SFull (Sp (data_update_y (sp_data s) y) (sp_cc s))) (nd_depth n))
  | SCond _ => None
  end.
Fixpoint node_update_y (fuel : nat) (h : heap) (i : nat) (y : option (list R)) : res heap :=
  match fuel with
  | O => Raise ERecursionError
  | S fuel' =>
      match h_get h i with
      | None => Raise EAttributeError
      | Some n =>
          match set_node_y n y with
          | None => Raise EAttributeError
          | Some n' =>
              let h1 := h_set h i n' in
              match nd_kind n with
              | KLeaf _ => Ok h1
              | KDec l r => let! h2 := node_update_y fuel' h1 l y in node_update_y fuel' h2 r y
              end
          end
      end
  end.
Fixpoint nodes_update_y (fuel : nat) (h : heap) (ids : list nat) (y : option (list R)) : res heap :=
  match ids with
  | [] => Ok h
  | i :: ids' => let! h1 := node_update_y fuel h i y in nodes_update_y fuel h1 ids' y
  end.
(** tree.py:67-74 Tree.update_y.  The fuel exceeds the depth of any tree all of whose nodes are in the
    node list; Python's own recursion limit is not modelled. *)
Definition tree_update_y (h : heap) (t : tree) (y : option (list R)) : res (heap * tree) :=
  let! h' := nodes_update_y (S (length (tr_nodes t))) h (tr_nodes t) y in
  Ok (h', Tr (tr_nodes t) false (tr_pred t)).

(** [buf[cond] = v] *)
Definition assign_where (cond : list bool) (v : R) (buf : list R) : list R :=
  map2 (fun (b : bool) old => if b then v else old) cond buf.

(** tree.py:86-89: the loop over the leaves; [nodes0] is self.nodes[0] *)
Fixpoint predict_loop (h : heap) (nodes0 : option nat) (leaves : list nat) (buf : option (list R))
  : res (option (list R)) :=
  match leaves with
  | [] => Ok buf
  | i :: leaves' =>
      let! b := match buf with
                | Some b => Ok b
                | None =>                                              (* tree.py:87-88 *)
                    match nodes0 with
                    | None => Raise EIndexError
                    | Some i0 => match node_data h i0 with
                                 | None => Raise EAttributeError
                                 | Some d => if (pz (cm_nobsv (d_X d)) <? 0)%Z then Raise EValueError
                                             else Ok (repeat 0%R (Z.to_nat (pz (cm_nobsv (d_X d)))))
                                 end
                    end
                end in
      match h_get h i with
      | Some (Nd (KLeaf v) (SFull s) _) =>
          let cond := split_condition_in s in
          if negb (length cond =? length b) then Raise EIndexError      (* numpy: mask/array size *)
          else predict_loop h nodes0 leaves' (Some (assign_where cond v b))
      | _ => Raise ETypeError                                           (* condition() without X *)
      end
  end.
(** tree.py:76-91 Tree.predict(None) *)
Definition tree_predict (h : heap) (t : tree) : res (list R * tree) :=
  let! p := if tr_fresh t then Ok (tr_pred t)
            else predict_loop h (hd_error (tr_nodes t)) (leaf_nodes h t) (tr_pred t) in
  match p with
  | Some v => Ok (v, Tr (tr_nodes t) true (Some v))
  | None => Raise ETypeError      (* predict() returned None: a tree without leaves *)
  end.

(** tree.py:93-110 _out_of_sample_predict *)
Fixpoint out_loop (h : heap) (X : matrix) (leaves : list nat) (buf : list R) : res (list R) :=
  match leaves with
  | [] => Ok buf
  | i :: leaves' =>
      match h_get h i with
      | Some (Nd (KLeaf v) s _) =>
          let! cond := cc_condition (nsplit_cc s) X in
          out_loop h X leaves' (assign_where cond v buf)
      | _ => Raise ETypeError
      end
  end.
Definition tree_predict_out (h : heap) (t : tree) (X : matrix) : res (list R) :=
  out_loop h X (leaf_nodes h t) (repeat 0%R (length (mx_rows X))).

(** tree.py:153-157: the relinking loop *)
Definition relink_node (e u : nat) (n : tnode) : tnode :=
  match nd_kind n with
  | KLeaf _ => n
  | KDec l r => Nd (KDec (if Nat.eqb l e then u else l) (if Nat.eqb r e then u else r)) (nd_split n) (nd_depth n)
  end.
Fixpoint relink (h : heap) (ids : list nat) (e u : nat) : heap :=
  match ids with
  | [] => h
  | i :: ids' =>
      match h_get h i with
      | Some n => relink (h_set h i (relink_node e u n)) ids' e u
      | None => relink h ids' e u
      end
  end.

(** tree.py:127-157 mutate.  Returns the state reached and the exception raised, if any:
    on an exception the node list may already be partly changed. *)
Definition remove_id (x : option nat) (l : list nat) : option (list nat) :=
  match x with Some x => remove_first x l | None => None end.
Definition mutate (h : heap) (t : tree) (m : mutation) : heap * tree * option exn :=
  let with_nodes l := Tr l false (tr_pred t) in
  let e := mu_existing m in
  let u := mu_updated m in
  match mu_kind m with
  | MPrune =>
      match remove_first e (tr_nodes t) with
      | None => (h, with_nodes (tr_nodes t), Some EValueError)
      | Some l1 =>
          match remove_id (left_child h e) l1 with
          | None => (h, with_nodes l1, Some EValueError)
          | Some l2 =>
              match remove_id (right_child h e) l2 with
              | None => (h, with_nodes l2, Some EValueError)
              | Some l3 => let l4 := l3 ++ [u] in (relink h l4 e u, with_nodes l4, None)
              end
          end
      end
  | MGrow =>
      match remove_first e (tr_nodes t) with
      | None => (h, with_nodes (tr_nodes t), Some EValueError)
      | Some l1 =>
          match left_child h u, right_child h u with
          | Some ul, Some ur => let l4 := l1 ++ [ul; ur; u] in (relink h l4 e u, with_nodes l4, None)
          | _, _ => (h, with_nodes l1, Some EAttributeError)  (* None appended, tree.py:154 fails on it *)
          end
      end
  | MOther => (relink h (tr_nodes t) e u, with_nodes (tr_nodes t), None)
  end.

(** tree.py:160-174 deep_copy_tree *)
Fixpoint deep_copy_nodes (h : heap) (ids : list nat) : res (list nat * heap) :=
  match ids with
  | [] => Ok ([], h)
  | i :: ids' =>
      let! (j, h1) := deep_copy_node h i in
      let! (js, h2) := deep_copy_nodes h1 ids' in
      Ok (j :: js, h2)
  end.
Definition deep_copy_tree (h : heap) (t : tree) : res (tree * heap) :=
  let! (js, h') := deep_copy_nodes h (tr_nodes t) in Ok (make_tree js, h').
