(** Model of bartpy/data.py and of bartpy/splitcondition.py:7-37 (SplitCondition). *)
From Coq Require Import Reals.
From Verif Require Import Base Fl Ext.

(** A 2-d float array: number of columns and rows.
    Simplification: column numbers are natural numbers (Python's negative indices are not modelled);
    [cell] reads NaN outside the array, every model function checks the column number before
    (numpy: IndexError) or uses it only inside [range(n_features)]. *)
Notation row := (list fl) (only parsing).
Record matrix := Mx { mx_ncols : nat; mx_rows : list row }.
Definition cell (r : row) (v : nat) : fl := nth v r FNaN.

(** Python int or numpy int64: comparing with a numpy int gives a numpy bool, and
    [x is True] (data.py:81) is false for a numpy bool. *)
Record pint := PI { pz : Z; p_np : bool }.
Definition pint_sub (a b : pint) : pint := PI (pz a - pz b)%Z (p_np a || p_np b).
Inductive pybool := PyBool (b : bool) | NpBool (b : bool).
Definition truthy (b : pybool) : bool := match b with PyBool b | NpBool b => b end.

(** bartpy/splitcondition.py:7-37.  [OpOther]: any callable other than operator.le / operator.gt. *)
Inductive sop := OpLe | OpGt | OpOther.
Record scond := SC {
  sc_var : nat;                 (* splitting_variable *)
  sc_val : fl;                  (* splitting_value *)
  sc_op : sop;                  (* operator *)
  sc_ysum : option R;           (* carry_y_sum *)
  sc_n : option pint }.         (* carry_n_obsv *)

(** data.py:11-34 is_not_constant.  The loop starts at index 1; [first] is first_value.
    [series[i] != None] is true, so the first visited element becomes first_value. *)
Fixpoint inc_loop (first : option fl) (s : list fl) : bool :=
  match s with
  | [] => false                                            (* data.py:34 *)
  | x :: s' =>
      match first with
      | None => inc_loop (Some x) s'                       (* data.py:30-31 *)
      | Some f => if negb (feqb x f) then true             (* data.py:29,33 *)
                  else inc_loop first s'
      end
  end.
Definition is_not_constant (s : list fl) : bool :=
  if length s <=? 1 then false else inc_loop None (tl s).  (* data.py:24-27 *)

(** data.py:61-91 CovariateMatrix.  Caches modelled: _unique_columns, _splittable_variables,
    _max_value_cache.  _X_cache is a memo of the pure expression values[~mask, :] of two
    never-reassigned fields and is not modelled; _max_values and _X_column_cache are never used. *)
Record covmat := CM {
  cm_X : matrix;
  cm_mask : list bool;
  cm_nobsv : pint;
  cm_unique : list (option pybool);
  cm_split : list (option bool);
  cm_max : list (option fl) }.

Definition cm_nfeat (c : covmat) : nat := mx_ncols (cm_X c).

(** data.py:63-91 CovariateMatrix.__init__ *)
Definition make_covmat (X : matrix) (mask : list bool) (n : pint)
    (unique : option (list (option pybool))) (spl : option (list (option bool))) : covmat :=
  {| cm_X := X; cm_mask := mask; cm_nobsv := n;
     cm_unique := match unique with                         (* data.py:80-83 *)
                  | Some u => map (fun x => match x with Some (PyBool true) => x | _ => None end) u
                  | None => repeat None (mx_ncols X) end;
     cm_split := match spl with                             (* data.py:84-87 *)
                 | Some s => map (fun x => match x with Some false => x | _ => None end) s
                 | None => repeat None (mx_ncols X) end;
     cm_max := repeat None (mx_ncols X) |}.

Definition cm_set_split (c : covmat) s := CM (cm_X c) (cm_mask c) (cm_nobsv c) (cm_unique c) s (cm_max c).
Definition cm_set_unique (c : covmat) u := CM (cm_X c) (cm_mask c) (cm_nobsv c) u (cm_split c) (cm_max c).
Definition cm_set_max (c : covmat) m := CM (cm_X c) (cm_mask c) (cm_nobsv c) (cm_unique c) (cm_split c) m.

(** data.py:101-104 get_column (for i < n_features; mask and X have equal length) *)
Definition get_column (c : covmat) (i : nat) : list fl :=
  map (fun r => cell r i) (select (cm_mask c) (mx_rows (cm_X c))).

(** data.py:106-119 splittable_variables: fills the missing cells, returns the True ones *)
Definition fill_splittable (c : covmat) : list (option bool) :=
  map (fun i => match nth i (cm_split c) None with
                | None => Some (is_not_constant (get_column c i))
                | x => x
                end) (seq 0 (cm_nfeat c)).
Definition true_indices (cells : list (option bool)) : list nat :=
  filter (fun i => match nth i cells None with Some true => true | _ => false end)
         (seq 0 (length cells)).
Definition splittable_variables (c : covmat) : list nat * covmat :=
  (true_indices (fill_splittable c), cm_set_split c (fill_splittable c)).

(** data.py:121-123 *)
Definition n_splittable_variables (c : covmat) : nat * covmat :=
  let (vs, c') := splittable_variables c in (length vs, c').

(** data.py:125-129 *)
Definition is_at_least_one_splittable_variable (c : covmat) : bool * covmat :=
  if existsb (fun x => match x with Some true => true | _ => false end) (cm_split c)
  then (true, c)
  else let (vs, c') := splittable_variables c in (0 <? length vs, c').

(** data.py:131-141 random_splittable_variable *)
Definition random_splittable_variable (c : covmat) (d : nat) : res nat :=
  if fst (is_at_least_one_splittable_variable c)
  then Ok (choose 0 (fst (splittable_variables c)) d)
  else Raise ENoSplittableVariable.

Definition fl_eq_dec (a b : fl) : {a = b} + {a <> b}.
Proof. decide equality. apply Qcanon.Qc_eq_dec. Defined.

(** [len(np.unique(col))] for NaN-free columns (how many NaNs numpy counts depends on its version) *)
Definition n_unique (col : list fl) : nat := length (nodup fl_eq_dec col).

(** data.py:143-154 is_column_unique *)
Definition is_column_unique (c : covmat) (i : nat) : res (bool * covmat) :=
  if cm_nfeat c <=? i then Raise EIndexError else
  match nth i (cm_unique c) None with
  | Some b => Ok (truthy b, c)
  | None =>
      let eq := (Z.of_nat (n_unique (get_column c i)) =? pz (cm_nobsv c))%Z in
      let b := if p_np (cm_nobsv c) then NpBool eq else PyBool eq in
      Ok (eq, cm_set_unique c (set_nth i (Some b) (cm_unique c)))
  end.

(** [col.max()]: ValueError on an empty array *)
Definition list_max (col : list fl) : res fl :=
  match col with
  | [] => Raise EValueError
  | x :: xs => Ok (fold_left fmax xs x)
  end.

(** data.py:156-159 max_value_of_column *)
Definition max_value_of_column (c : covmat) (i : nat) : res (fl * covmat) :=
  if cm_nfeat c <=? i then Raise EIndexError else
  match nth i (cm_max c) None with
  | Some m => Ok (m, c)
  | None => let! m := list_max (get_column c i) in
            Ok (m, cm_set_max c (set_nth i (Some m) (cm_max c)))
  end.

(** data.py:183-185: the rejection loop; one draw per iteration *)
Fixpoint value_loop (col : list fl) (mx : fl) (draws : list nat) : res (fl * list nat) :=
  match draws with
  | [] => NoDraws
  | d :: ds => let candidate := choose FNaN col d in
               if feqb candidate mx then value_loop col mx ds else Ok (candidate, ds)
  end.
(** data.py:161-185 random_splittable_value; returns the value and the remaining draws *)
Definition random_splittable_value (c : covmat) (v : nat) (draws : list nat)
  : res (fl * list nat) :=
  let (vs, c1) := splittable_variables c in
  if negb (existsb (Nat.eqb v) vs) then Raise ENoSplittableVariable else
  let! (mx, c2) := max_value_of_column c1 v in
  value_loop (get_column c2 v) mx draws.

(** data.py:187-191 proportion_of_value_in_variable.  1./n and np.mean as extended reals. *)
Definition count_eq (col : list fl) (v : fl) : nat := length (filter (fun x => feqb x v) col).
Definition proportion_of_value_in_variable (c : covmat) (i : nat) (v : fl) : res (ext * covmat) :=
  let! (u, c1) := is_column_unique c i in
  if u then Ok (xdiv (XFin 1) (XFin (IZR (pz (cm_nobsv c1)))), c1)
  else let col := get_column c1 i in
       Ok (xdiv (XFin (INR (count_eq col v))) (XFin (INR (length col))), c1).

(** data.py:193-201 update_mask *)
Definition column_mask (c : covmat) (s : scond) : res (list bool) :=
  if cm_nfeat c <=? sc_var s then Raise EIndexError else
  match sc_op s with
  | OpGt => Ok (map (fun r => fle (cell r (sc_var s)) (sc_val s)) (mx_rows (cm_X c)))
  | OpLe => Ok (map (fun r => fgt (cell r (sc_var s)) (sc_val s)) (mx_rows (cm_X c)))
  | OpOther => Raise ETypeError
  end.
Definition update_mask (c : covmat) (s : scond) : res (list bool) :=
  match sc_op s with
  | OpOther => Raise ETypeError
  | _ => let! cm := column_mask c s in
         if negb (length (cm_mask c) =? length cm) then Raise EValueError   (* numpy broadcasting *)
         else Ok (map2 orb (cm_mask c) cm)
  end.

(** data.py:212-231 Target.  [t_y = None] models the attribute _y being None (see model.py:47);
    [t_range] is (original_y_min, original_y_max), absent when normalize=False (data.py:216-220). *)
Record target := Tg {
  t_y : option (list R);
  t_mask : list bool;
  t_fresh : bool;               (* y_sum_cache_up_to_date *)
  t_sum : option R;             (* _summed_y *)
  t_range : option (R * R) }.

Definition vmin (y : list R) : R := match y with [] => 0%R | a :: l => fold_left Rmin l a end.
Definition vmax (y : list R) : R := match y with [] => 0%R | a :: l => fold_left Rmax l a end.

(** data.py:233-253 normalize_y, with extended-real division *)
Definition normalize_y (y : list R) : list ext :=
  map (fun v => xadd (XFin (-/2)%R)
                     (xdiv (XFin (v - vmin y)%R) (XFin (vmax y - vmin y)%R))) y.
Fixpoint finite_vec (v : list ext) : option (list R) :=
  match v with
  | [] => Some []
  | x :: v' => match xfin x, finite_vec v' with
               | Some r, Some rs => Some (r :: rs)
               | _, _ => None
               end
  end.

(** data.py:214-231 Target.__init__.  An empty array has no minimum (ValueError); a constant
    target normalises to NaN everywhere, which the finite model marks with XNonFinite. *)
Definition make_target (y : list R) (mask : list bool) (normalize : bool) (y_sum : option R)
  : res target :=
  let fresh := match y_sum with None => false | Some _ => true end in
  if normalize then
    match y with
    | [] => Raise EValueError
    | _ => match finite_vec (normalize_y y) with
           | None => Raise XNonFinite
           | Some ny => Ok (Tg (Some ny) mask fresh y_sum (Some (vmin y, vmax y)))
           end
    end
  else Ok (Tg (Some y) mask fresh y_sum None).

(** data.py:255-258 unnormalize_y: AttributeError when original_y_min was never set *)
Definition unnormalize_with (lo hi : R) (y : list R) : list R :=
  map (fun v => (lo + (v - (-/2)) * (hi - lo))%R) y.
Definition unnormalize_y (t : target) (y : list R) : res (list R) :=
  match t_range t with
  | None => Raise EAttributeError
  | Some (lo, hi) => Ok (unnormalize_with lo hi y)
  end.
(** data.py:260-262 *)
Definition unnormalized_y (t : target) : res (list R) :=
  match t_y t with None => Raise ETypeError | Some y => unnormalize_y t y end.
(** data.py:264-266 *)
Definition normalizing_scale (t : target) : res R :=
  match t_range t with None => Raise EAttributeError | Some (lo, hi) => Ok (hi - lo)%R end.

(** data.py:223 _inverse_mask_int and data.py:272 np.sum(y * inverse_mask_int) *)
Definition rsum (l : list R) : R := fold_right Rplus 0%R l.
Definition masked_sum (y : list R) (mask : list bool) : R :=
  rsum (map2 Rmult y (map (fun m : bool => if m then 0%R else 1%R) mask)).

(** data.py:268-274 summed_y.  With _y = None the product raises TypeError; arrays of different
    lengths raise ValueError (broadcasting of length-1 arrays is not modelled). *)
Definition summed_y (t : target) : res (R * target) :=
  if t_fresh t
  then match t_sum t with
       | Some s => Ok (s, t)
       | None => Raise ETypeError   (* unreachable: the flag is only set together with a sum *)
       end
  else match t_y t with
       | None => Raise ETypeError
       | Some y => let s := masked_sum y (t_mask t) in
                   if negb (length y =? length (t_mask t)) then Raise EValueError else
                   Ok (s, Tg (t_y t) (t_mask t) true (Some s) (t_range t))
       end.

(** data.py:276-278 update_y *)
Definition target_update_y (t : target) (y : option (list R)) : target :=
  Tg y (t_mask t) false (t_sum t) (t_range t).

(** data.py:284-349 Data: the mask and n_obsv fields are the same objects as in its parts *)
Record data := Dt { d_X : covmat; d_y : target }.
Definition d_mask (d : data) : list bool := cm_mask (d_X d).

(** data.py:302-322 Data.__init__ *)
Definition make_data (X : matrix) (y : list R) (mask : option (list bool)) (normalize : bool)
    (unique : option (list (option pybool))) (spl : option (list (option bool)))
    (y_sum : option R) (n : option pint) : res data :=
  let mask := match mask with None => repeat false (length y) | Some m => m end in
  let n := match n with None => PI (Z.of_nat (count_false mask)) true | Some n => n end in
  let! t := make_target y mask normalize y_sum in
  Ok (Dt (make_covmat X mask n unique spl) t).

(** data.py:336-337 *)
Definition data_update_y (d : data) (y : option (list R)) : data :=
  Dt (d_X d) (target_update_y (d_y d) y).

(** data.py:339-349 Data.__add__.  self.y.values may be None (after model.py:47): the child then
    also holds None; Data.__init__ with y=None and mask given works as normalize is False. *)
Definition data_add (d : data) (s : scond) : res data :=
  let! m := update_mask (d_X d) s in
  let n := match sc_n s with None => PI (Z.of_nat (count_false m)) true | Some n => n end in
  let fresh := match sc_ysum s with None => false | Some _ => true end in
  Ok (Dt (make_covmat (cm_X (d_X d)) m n (Some (cm_unique (d_X d))) (Some (cm_split (d_X d))))
         (Tg (t_y (d_y d)) m fresh (sc_ysum s) None)).
