(** Vocabulary for what a sampling run keeps of its steps. *)
From Coq Require Import Reals.
From Verif Require Import Base Fl Ext MData MSplit MTree MSampler MModel.

(** addresses: objects exist at allocated addresses only, and child links lead to allocated addresses only.  This
    holds in every Python program: there are no dangling references. *)
Definition addresses_ok (h : heap) : Prop :=
  (forall j, h_next h <= j -> h_get h j = None) /\
  (forall i n l r, h_get h i = Some n -> nd_kind n = KDec l r -> l < h_next h /\ r < h_next h).
(** what a node holds: the conditions that lead to it, its value if it is a leaf, and its depth *)
Definition node_view (h : heap) (i : nat) : option (list scond * option R * nat) :=
  match h_get h i with
  | Some n => Some (cc_conds (nsplit_cc (nd_split n)), match nd_kind n with KLeaf v => Some v | KDec _ _ => None end, nd_depth n)
  | None => None
  end.
(** the trees, node by node *)
Definition trees_view (h : heap) (ts : list tree) : list (list (option (list scond * option R * nat))) :=
  map (fun t => map (node_view h) (tr_nodes t)) ts.
(** two stored samples, in the heaps [h] and [h'], that no user can tell apart *)
Definition same_sample (h : heap) (s : sample) (h' : heap) (s' : sample) : Prop :=
  sm_sigma s = sm_sigma s' /\ trees_view h (sm_trees s) = trees_view h' (sm_trees s') /\
  forall X, sample_predict h s X = sample_predict h' s' X.
(** two models that hold the same ensemble *)
Definition same_ensemble (m m' : model) : Prop :=
  m_sigma m = m_sigma m' /\ trees_view (m_heap m) (m_trees m) = trees_view (m_heap m') (m_trees m') /\
  forall X, trees_predict_out (m_heap m) (m_trees m) X = trees_predict_out (m_heap m') (m_trees m') X.
(** both absent, or both present and related *)
Definition both {A B} (P : A -> B -> Prop) (a : option A) (b : option B) : Prop :=
  match a, b with Some a, Some b => P a b | None, None => True | _, _ => False end.
