(** Model of split conditions on rows of another dtype than the training data: splitcondition.py compares the columns of the X given to
    predict with split values that keep the dtype of the training columns. *)
From Coq Require Import ZArith List.
From Flocq Require Import Core.Core IEEE754.BinarySingleNaN.
From Verif Require Import Base Fl MFloat MData MSplit MConvert.
Import ListNotations.

(** an entry that is not a float, as an integer *)
Definition z_of (e : entry) : Z := match e with VInt z => z | VBool b => if b then 1 else 0 | VFloat _ => 0 end.
(** numpy: an integer compared with a float64 is converted to float64 first; integers and booleans are compared as integers *)
Definition compare_entries (x t : entry) : option comparison :=
  match x, t with
  | VFloat a, _ => Bcompare a (to_float t)
  | _, VFloat b => Bcompare (to_float x) b
  | _, _ => Some (Z.compare (z_of x) (z_of t))
  end.
Definition gt_entries (x t : entry) : bool := match compare_entries x t with Some Gt => true | _ => false end.
Definition lt_entries (x t : entry) : bool := match compare_entries x t with Some Lt => true | _ => false end.
Definition le_entries (x t : entry) : bool := match compare_entries x t with Some Lt | Some Eq => true | _ => false end.
(** splitcondition.py:7-37 SplitCondition with the split value as it was taken from the training data *)
Record tcond := TC { tc_var : nat; tc_val : entry; tc_op : sop }.
(** splitcondition.py:40-54 CombinedVariableCondition and add_condition: the bounds are split values or the floats -inf and inf *)
Record tcvc := TV { tv_min : entry; tv_max : entry }.
Definition t_add (b : tcvc) (s : tcond) : tcvc :=
  match tc_op s with
  | OpGt => if gt_entries (tc_val s) (tv_min b) then TV (tc_val s) (tv_max b) else b
  | OpLe => if lt_entries (tc_val s) (tv_max b) then TV (tv_min b) (tc_val s) else b
  | OpOther => b
  end.
(** splitcondition.py:59-67 CombinedCondition.__init__; KeyError for a condition on an unknown variable *)
Fixpoint t_fold (vars : list (nat * tcvc)) (conds : list tcond) : res (list (nat * tcvc)) :=
  match conds with
  | [] => Ok vars
  | s :: conds' => match dict_get (tc_var s) vars with None => Raise EKeyError | Some b => t_fold (dict_set (tc_var s) (t_add b s) vars) conds' end
  end.
Definition t_make (variables : list nat) (conds : list tcond) : res (list (nat * tcvc)) :=
  t_fold (map (fun v => (v, TV (VFloat (B754_infinity true)) (VFloat (B754_infinity false)))) variables) conds.
(** splitcondition.py:69-73 condition(X), which split.py:39-40 calls to predict; IndexError when X lacks a column *)
Definition t_row (vars : list (nat * tcvc)) (r : list entry) : bool :=
  forallb (fun vb => let x := nth (fst vb) r (VFloat B754_nan) in gt_entries x (tv_min (snd vb)) && le_entries x (tv_max (snd vb))) vars.
Definition t_condition (vars : list (nat * tcvc)) (a : arr) : res (list bool) :=
  if forallb (fun vb => fst vb <? ar_ncols a) vars then Ok (map (t_row vars) (ar_rows a)) else Raise EIndexError.
