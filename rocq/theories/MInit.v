(** Model of bartpy/initializers/initializer.py and bartpy/initializers/sklearntreeinitializer.py.
    Fitting the gradient boosting regressor is not modelled: the fitted sklearn tree is an input. *)
From Coq Require Import Reals ZArith.
From Verif Require Import Base Fl Ext MData MSplit MTree MSampler MHist MModel.

(** The arrays of a fitted sklearn tree that are read (sklearntreeinitializer.py:58-59, 69, 82-83).
    [value] holds value[i][0][0].  Simplification: [feature] is a natural number, because sklearn's
    negative entries occur only at leaves, where the code does not read it. *)
Record sktree := Skt {
  sk_left : list Z; sk_right : list Z; sk_feature : list nat; sk_threshold : list fl; sk_value : list R }.

Definition at_ {A} (l : list A) (i : nat) : res A :=
  match nth_error l i with Some x => Ok x | None => Raise EIndexError end.
(** numpy/list indexing with a signed index: -1 is the last entry *)
Definition zindex (n : nat) (z : Z) : option nat :=
  if (0 <=? z)%Z then (if (z <? Z.of_nat n)%Z then Some (Z.to_nat z) else None)
  else (if (- Z.of_nat n <=? z)%Z then Some (Z.to_nat (Z.of_nat n + z)) else None).
Definition zat {A} (l : list A) (z : Z) : res A :=
  match zindex (length l) z with Some i => at_ l i | None => Raise EIndexError end.
Fixpoint put {A} (l : list A) (i : nat) (x : A) : list A :=
  match l, i with
  | [], _ => []
  | _ :: l', 0 => x :: l'
  | y :: l', S i' => y :: put l' i' x
  end.
Definition zput {A} (l : list A) (z : Z) (x : A) : res (list A) :=
  match zindex (length l) z with Some i => Ok (put l i x) | None => Raise EIndexError end.

(** sklearntreeinitializer.py:44-60 map_sklearn_split_into_bartpy_split_conditions *)
Definition sk_conditions (T : sktree) (index : Z) : res (scond * scond) :=
  let! f := zat (sk_feature T) index in
  let! x := zat (sk_threshold T) index in
  Ok (SC f x OpLe None None, SC f x OpGt None None).

(** sklearntreeinitializer.py:67-92 the inner function search.  State: heap, tree, list [nodes].
    [fuel] is the number of nested calls the interpreter allows.  A [nodes] entry that is still None
    has no attribute .split (node.py:121). *)
Fixpoint search (fuel : nat) (T : sktree) (index : Z) (h : heap) (t : tree) (nodes : list (option nat))
  : res (heap * tree * list (option nat)) :=
  match fuel with
  | 0 => Raise ERecursionError
  | S fuel' =>
      let! li := zat (sk_left T) index in
      let! ri := zat (sk_right T) index in
      if (li =? -1)%Z then Ok (h, t, nodes) else
      let! o := zat nodes index in
      let! (c0, c1) := sk_conditions T index in
      match o with
      | None => Raise EAttributeError
      | Some i =>
          let! (p, h1) := split_node h i c0 c1 in
          match left_child h1 p, right_child h1 p with
          | Some l, Some r =>
              let! vl := zat (sk_value T) li in
              let h2 := set_value h1 l vl in
              let! vr := zat (sk_value T) ri in
              let h3 := set_value h2 r vr in
              let! m := grow_mutation h3 i p in
              match mutate h3 t m with
              | (h4, t4, None) =>
                  let! n1 := zput nodes index (Some p) in
                  let! n2 := zput n1 li (left_child h4 p) in
                  let! n3 := zput n2 ri (right_child h4 p) in
                  let! (h5, t5, n4) := search fuel' T li h4 t4 n3 in
                  search fuel' T ri h5 t5 n4
              | (_, _, Some e) => Raise e
              end
          | _, _ => Raise EAttributeError
          end
      end
  end.

(** sklearntreeinitializer.py:63-94 map_sklearn_tree_into_bartpy *)
Definition map_sklearn_tree (fuel : nat) (h : heap) (t : tree) (T : sktree) : res (heap * tree) :=
  let nodes := map (fun _ => @None nat) (sk_left T) in
  match tr_nodes t with
  | [] => Raise EIndexError
  | i0 :: _ =>
      let! n0 := zput nodes 0 (Some i0) in
      let! (h', t', _) := search fuel T 0 h t n0 in
      Ok (h', t')
  end.

(** sklearntreeinitializer.py:28-41 SklearnTreeInitializer.initialize_tree: the first argument of
    clf.fit is tree.nodes[0].data.X.data, and CovariateMatrix (data.py:79-88) has no attribute "data",
    so the call fails before anything is fitted.  (An empty tree fails at nodes[0].) *)
Definition sklearn_initialize_tree (h : heap) (t : tree) : res (heap * tree) :=
  match tr_nodes t with
  | [] => Raise EIndexError
  | _ :: _ => Raise EAttributeError
  end.
(** initializer.py:20-21 Initializer.initialize_tree of the base class does nothing *)
Definition base_initialize_tree (h : heap) (t : tree) : res (heap * tree) := Ok (h, t).
(** initializer.py:23-25 initialize_trees over model.refreshed_trees() (model.py:71-78): tree number [j]
    is given its target, initialised, and its prediction is added again, for [todo] trees. *)
Fixpoint initialize_from (init : heap -> tree -> res (heap * tree)) (j todo : nat) (m : model) : res model :=
  match todo with
  | 0 => Ok m
  | S todo' =>
      let! m1 := rt_open m j in
      match nth_error (m_trees m1) j with
      | None => Raise EIndexError
      | Some t =>
          let! (h2, t2) := init (m_heap m1) t in
          let! m3 := rt_close (m_set_trees m1 h2 (set_nth j t2 (m_trees m1))) j in
          initialize_from init (S j) todo' m3
      end
  end.
(** model.py:17-42 Model.__init__(data, sigma, n_trees=..., initializer=init) *)
Definition make_model_with (init : heap -> tree -> res (heap * tree)) (h : heap) (d : data) (sigma : R) (p : params)
  : res model :=
  let! m := make_model h d sigma p in
  let! m1 := rt_start m in
  initialize_from init 0 (length (m_trees m1)) m1.
