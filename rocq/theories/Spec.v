(** The vocabulary in which the properties are stated. *)
From Coq Require Import Reals.
From Verif Require Import Base Fl Ext MData MSplit MHist.

(** ** Data sets *)
Definition no_nan (X : matrix) : Prop :=
  forall r v, In r (mx_rows X) -> v < mx_ncols X -> cell r v <> FNaN.
(** no NaN and no -inf *)
Definition clean (X : matrix) : Prop :=
  forall r v, In r (mx_rows X) -> v < mx_ncols X -> cell r v <> FNaN /\ cell r v <> FNInf.

(** ** Nodes *)
(** training row number [i] belongs to the node *)
Definition in_node (s : split) (i : nat) : Prop := nth_error (d_mask (sp_data s)) i = Some false.
(** the value of training row [i] in column [v] *)
Definition value_in (X : matrix) (i v : nat) : fl := cell (nth i (mx_rows X) []) v.
(** number of rows of a node *)
Fixpoint count (p : nat -> bool) (n : nat) : nat :=
  match n with O => 0 | S k => count p k + (if p k then 1 else 0) end.
Definition in_nodeb (s : split) (i : nat) : bool :=
  match nth_error (d_mask (sp_data s)) i with Some false => true | _ => false end.
(** sum of y over the rows of a node *)
Fixpoint sum_over (p : nat -> bool) (y : list R) (n : nat) : R :=
  match n with O => 0%R | S k => (sum_over p y k + (if p k then nth k y 0 else 0))%R end.

(** ** Split rules *)
Record rule := Rl { rl_var : nat; rl_val : fl; rl_le : bool }.
Definition rule_holds (q : rule) (r : row) : bool :=
  if rl_le q then fle (cell r (rl_var q)) (rl_val q) else fgt (cell r (rl_var q)) (rl_val q).

(** [s] was obtained by building a Split on the data set (X,y) and then applying the calls [os];
    every threshold used is a number and every target passed has one entry per row *)
Definition sane_op (n : nat) (o : client_op) : Prop :=
  match o with
  | CSetY y => length y = n
  | CLeft _ x | CRight _ x | CAddLe _ x | CAddGt _ x => x <> FNaN
  | _ => True
  end.
Definition reached (X : matrix) (y : list R) (normalize : bool) (os : list client_op) (s : split) : Prop :=
  length y = length (mx_rows X) /\ Forall (sane_op (length y)) os /\
  exists s0, root_split X y normalize = Ok s0 /\ client_run s0 os = Ok s.

(** the last target set by a history, starting from [y0] *)
Fixpoint last_target (y0 : list R) (os : list client_op) : list R :=
  match os with
  | [] => y0
  | CSetY y :: os' => last_target y os'
  | _ :: os' => last_target y0 os'
  end.
(** the rules on the path of a history *)
Fixpoint path_of (os : list client_op) : list rule :=
  match os with
  | [] => []
  | CLeft v x :: os' | CAddLe v x :: os' => Rl v x true :: path_of os'
  | CRight v x :: os' | CAddGt v x :: os' => Rl v x false :: path_of os'
  | _ :: os' => path_of os'
  end.

(** a single split condition, read as written: value <= threshold, value > threshold *)
Definition cond_holds (c : scond) (r : row) : bool :=
  match sc_op c with
  | OpLe => fle (cell r (sc_var c)) (sc_val c)
  | OpGt => fgt (cell r (sc_var c)) (sc_val c)
  | OpOther => false
  end.
(** the first [n] entries of a row are neither NaN nor -inf *)
Definition row_clean (n : nat) (r : row) : bool :=
  forallb (fun v => negb (is_nan (cell r v)) && negb (feqb (cell r v) FNInf)) (seq 0 n).
(** adding conditions one after the other: split + c1 + c2 + ... *)
Fixpoint split_add_all (s : split) (cs : list scond) : res split :=
  match cs with
  | [] => Ok s
  | c :: cs' => let! s' := split_add s c in split_add_all s' cs'
  end.

(** the target a root starts with *)
Definition start_target (y : list R) (normalize : bool) : list R :=
  if normalize then match finite_vec (normalize_y y) with Some ny => ny | None => [] end else y.
(** the answer of a query, without the object it leaves behind *)
Definition answer {A B} (r : res (A * B)) : res A :=
  match r with Ok (a, _) => Ok a | Raise e => Raise e | NoDraws => NoDraws end.
(** a covariate object built afresh on the node's rows: no cached and no inherited facts *)
Definition fresh_object (s : split) : covmat :=
  make_covmat (cm_X (d_X (sp_data s))) (d_mask (sp_data s)) (cm_nobsv (d_X (sp_data s))) None None.
(** the n_obsv a node reports *)
Definition reported_n (s : split) : Z := pz (cm_nobsv (d_X (sp_data s))).
(** number of rows of the node, and of rows of the node with value [x] in column [v] *)
Definition rows_in (X : matrix) (s : split) : nat := count (in_nodeb s) (length (mx_rows X)).
Definition rows_with (X : matrix) (s : split) (v : nat) (x : fl) : nat :=
  count (fun i => in_nodeb s i && feqb (value_in X i v) x) (length (mx_rows X)).
