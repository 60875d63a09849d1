(** What a client can do with one Split/Data object and its descendants: queries (each writes the
    caches it fills back into the object), update_y, and descending into a child made by split_node
    (node.py:85-99) or by [split + SplitCondition(...)] (split.py:45-48).
    This is not a function of /repo: it is the set of call histories theorems quantify over. *)
From Coq Require Import Reals.
From Verif Require Import Base Fl Ext MData MSplit.

Inductive client_op :=
| CSplittable                 (* split.data.X.splittable_variables() *)
| CCountSplittable            (* split.data.X.n_splittable_variables *)
| CAnySplittable              (* split.data.X.is_at_least_one_splittable_variable() *)
| CUnique (v : nat)           (* split.data.X.is_column_unique(v) *)
| CMax (v : nat)              (* split.data.X.max_value_of_column(v) *)
| CProportion (v : nat) (x : fl)
| CSum                        (* split.data.y.summed_y() *)
| CSetY (y : list R)          (* split.data.update_y(y) *)
| CLeft (v : nat) (x : fl)    (* left child of split_node(node, (v <= x, v > x)) *)
| CRight (v : nat) (x : fl)   (* right child of the same *)
| CAddLe (v : nat) (x : fl)   (* split + SplitCondition(v, x, le) *)
| CAddGt (v : nat) (x : fl).  (* split + SplitCondition(v, x, gt) *)

Definition fresh_le (v : nat) (x : fl) : scond := SC v x OpLe None None.
Definition fresh_gt (v : nat) (x : fl) : scond := SC v x OpGt None None.

Definition sp_set_X (s : split) (c : covmat) : split := Sp (Dt c (d_y (sp_data s))) (sp_cc s).

Definition client_step (s : split) (o : client_op) : res split :=
  let c := d_X (sp_data s) in
  match o with
  | CSplittable => Ok (sp_set_X s (snd (splittable_variables c)))
  | CCountSplittable => Ok (sp_set_X s (snd (n_splittable_variables c)))
  | CAnySplittable => Ok (sp_set_X s (snd (is_at_least_one_splittable_variable c)))
  | CUnique v => let! (_, c') := is_column_unique c v in Ok (sp_set_X s c')
  | CMax v => let! (_, c') := max_value_of_column c v in Ok (sp_set_X s c')
  | CProportion v x => let! (_, c') := proportion_of_value_in_variable c v x in Ok (sp_set_X s c')
  | CSum => let! (_, t) := summed_y (d_y (sp_data s)) in Ok (sp_set_y s t)
  | CSetY y => Ok (Sp (data_update_y (sp_data s) (Some y)) (sp_cc s))
  | CLeft v x => let! (_, sl, _) := split_children s (fresh_le v x) (fresh_gt v x) in Ok sl
  | CRight v x => let! (_, _, sr) := split_children s (fresh_le v x) (fresh_gt v x) in Ok sr
  | CAddLe v x => split_add s (fresh_le v x)
  | CAddGt v x => split_add s (fresh_gt v x)
  end.

Fixpoint client_run (s : split) (os : list client_op) : res split :=
  match os with
  | [] => Ok s
  | o :: os' => let! s' := client_step s o in client_run s' os'
  end.

(** Split(Data(X, y, normalize=...)) *)
Definition root_split (X : matrix) (y : list R) (normalize : bool) : res split :=
  let! d := make_data X y None normalize None None None None in make_split d.
