(** Model of bartpy/splitcondition.py:40-82 and bartpy/split.py. *)
From Coq Require Import Reals.
From Verif Require Import Base Fl Ext MData.

(** splitcondition.py:40-44 CombinedVariableCondition, without its variable number: in
    CombinedCondition it is stored under that number (splitcondition.py:60). *)
Record cvc := CV { cv_min : fl; cv_max : fl }.

(** splitcondition.py:46-54 add_condition.  The guard [self.splitting_variable != ...] never fires
    because of the dictionary access in splitcondition.py:63. *)
Definition add_condition (b : cvc) (s : scond) : cvc :=
  match sc_op s with
  | OpGt => if fgt (sc_val s) (cv_min b) then CV (sc_val s) (cv_max b) else b
  | OpLe => if flt (sc_val s) (cv_max b) then CV (cv_min b) (sc_val s) else b
  | OpOther => b
  end.

(** splitcondition.py:57-67 CombinedCondition: [variables] is a dict in insertion order *)
Record ccond := CC { cc_vars : list (nat * cvc); cc_conds : list scond }.

Fixpoint dict_get {A} (k : nat) (d : list (nat * A)) : option A :=
  match d with
  | [] => None
  | (k', a) :: d' => if Nat.eqb k k' then Some a else dict_get k d'
  end.
Fixpoint dict_set {A} (k : nat) (a : A) (d : list (nat * A)) : list (nat * A) :=
  match d with
  | [] => [(k, a)]
  | (k', a') :: d' => if Nat.eqb k k' then (k, a) :: d' else (k', a') :: dict_set k a d'
  end.

(** splitcondition.py:62-63: KeyError for a condition on an unknown variable *)
Fixpoint fold_conditions (vars : list (nat * cvc)) (conds : list scond) : res (list (nat * cvc)) :=
  match conds with
  | [] => Ok vars
  | s :: conds' =>
      match dict_get (sc_var s) vars with
      | None => Raise EKeyError
      | Some b => fold_conditions (dict_set (sc_var s) (add_condition b s) vars) conds'
      end
  end.
(** splitcondition.py:59-67 CombinedCondition.__init__ *)
Definition make_cc (variables : list nat) (conds : list scond) : res ccond :=
  let! vs := fold_conditions (map (fun v => (v, CV FNInf FPInf)) variables) conds in
  Ok (CC vs conds).

(** splitcondition.py:64-67 splitting_variable *)
Definition cc_splitting_variable (c : ccond) : option nat :=
  match last_opt (cc_conds c) with None => None | Some s => Some (sc_var s) end.

(** splitcondition.py:69-73 condition(X); IndexError when X lacks a column *)
Definition row_selected (c : ccond) (r : row) : bool :=
  forallb (fun vb => fgt (cell r (fst vb)) (cv_min (snd vb)) && fle (cell r (fst vb)) (cv_max (snd vb)))
          (cc_vars c).
Definition cc_condition (c : ccond) (X : matrix) : res (list bool) :=
  if forallb (fun vb => fst vb <? mx_ncols X) (cc_vars c)
  then Ok (map (row_selected c) (mx_rows X))
  else Raise EIndexError.

(** splitcondition.py:75-76 __add__ *)
Definition cc_add (c : ccond) (s : scond) : res ccond :=
  make_cc (map fst (cc_vars c)) (cc_conds c ++ [s]).

(** splitcondition.py:78-82 *)
Definition cc_most_recent (c : ccond) : option scond := last_opt (cc_conds c).

(** split.py:10-24 Split *)
Record split := Sp { sp_data : data; sp_cc : ccond }.

(** split.py:20-24 Split.__init__ without combined_condition; data.py:203-205 variables *)
Definition make_split (d : data) : res split :=
  let! c := make_cc (seq 0 (cm_nfeat (d_X d))) [] in Ok (Sp d c).

(** split.py:33-40 condition / out_of_sample_condition *)
Definition split_condition_in (s : split) : list bool := map negb (d_mask (sp_data s)).
Definition split_condition_out (s : split) (X : matrix) : res (list bool) := cc_condition (sp_cc s) X.

(** split.py:45-48 __add__ *)
Definition split_add (s : split) (c : scond) : res split :=
  let! d := data_add (sp_data s) c in
  let! cc := cc_add (sp_cc s) c in
  Ok (Sp d cc).

(** split.py:50-51 *)
Definition split_most_recent (s : split) : option scond := cc_most_recent (sp_cc s).

Definition sp_set_y (s : split) (t : target) : split := Sp (Dt (d_X (sp_data s)) t) (sp_cc s).

(** node.py:85-99 split_node, the part that concerns Split objects: returns the parent's split
    (its sum cache now filled, node.py:92), the left split (cache filled too) and the right split.
    [split_conditions[1]] is mutated to carry n and the sum of y (node.py:91-92); the mutated
    object is the last element of the right split's conditions. *)
Definition split_children (s : split) (c0 c1 : scond) : res (split * split * split) :=
  let! sl := split_add s c0 in
  let n1 := pint_sub (cm_nobsv (d_X (sp_data s))) (cm_nobsv (d_X (sp_data sl))) in
  let! (sy, ty) := summed_y (d_y (sp_data s)) in
  let! (ly, tl) := summed_y (d_y (sp_data sl)) in
  let c1' := SC (sc_var c1) (sc_val c1) (sc_op c1) (Some (sy - ly)%R) (Some n1) in
  let s' := sp_set_y s ty in
  let! sr := split_add s' c1' in
  Ok (s', sp_set_y sl tl, sr).
