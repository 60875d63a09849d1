(** Model of what fit and make_bartpy_data do to the values of an array or of a DataFrame before the sampler sees them
    (data.py:37-57, sklearnmodel.py:155-161).  The rest of the model starts from the matrix this gives. *)
From Coq Require Import ZArith QArith Qcanon Reals List.
From Flocq Require Import Core.Core IEEE754.BinarySingleNaN.
From Verif Require Import Base Fl MFloat MData MSklearn.
Import ListNotations.
Local Open Scope nat_scope.

(** The dtypes modelled: int64, bool, float64, object.  Strings, dates, float32, unsigned and shorter integers are not modelled. *)
Inductive kind := KInt | KBool | KFloat | KObject.
(** one entry; an object array holds entries of several kinds *)
Inductive entry := VInt (z : Z) | VBool (b : bool) | VFloat (x : b64).
(** a two-dimensional numpy array *)
Record arr := Ar { ar_kind : kind; ar_ncols : nat; ar_rows : list (list entry) }.
(** a pandas DataFrame: every column has its own dtype *)
Record frame := Df { df_kinds : list kind; df_rows : list (list entry) }.
(** the argument X.  A subclass of DataFrame, which sklearnmodel.py:158 and data.py:38 treat differently, is not modelled. *)
Inductive input := InArr (a : arr) | InFrame (f : frame).

(** pandas: the dtype of DataFrame.values for two column dtypes; bool is not mixed with numbers *)
Definition common (a b : kind) : kind :=
  match a, b with
  | KInt, KInt => KInt
  | KBool, KBool => KBool
  | KFloat, KFloat | KInt, KFloat | KFloat, KInt => KFloat
  | _, _ => KObject
  end.
Definition common_kind (l : list kind) : kind := match l with [] => KObject | k :: r => fold_left common r k end.

(** conversion to float64: an integer is rounded to the nearest double, ties to even *)
Definition z_to_f (z : Z) : b64 := @binary_normalize 53 1024 prec64 emax64 mode_NE z 0 false.
Definition to_float (e : entry) : b64 :=
  match e with VInt z => z_to_f z | VBool b => z_to_f (if b then 1 else 0)%Z | VFloat x => x end.
Definition cast (k : kind) (e : entry) : entry := match k with KFloat => VFloat (to_float e) | _ => e end.
(** X.values of a DataFrame (pandas) *)
Definition frame_values (f : frame) : arr :=
  let k := common_kind (df_kinds f) in Ar k (length (df_kinds f)) (map (map (cast k)) (df_rows f)).

(** data.py:37-41 ensure_numpy_array *)
Definition ensure_numpy_array (X : input) : arr := match X with InArr a => a | InFrame f => frame_values f end.
(** data.py:44-45 ensure_float_array *)
Definition ensure_float_array (a : arr) : arr := Ar KFloat (ar_ncols a) (map (map (cast KFloat)) (ar_rows a)).
(** data.py:48-50 format_covariate_matrix *)
Definition format_covariate_matrix (X : input) : arr := ensure_float_array (ensure_numpy_array X).
(** sklearnmodel.py:157-161, the matrix that fit hands to Data: the values of a DataFrame, without conversion to float *)
Definition fit_array (X : input) : arr := match X with InFrame f => frame_values f | InArr a => a end.

(** the value of an entry, as far as comparisons can see it.  An int64 array is compared with a value taken from itself, exactly. *)
Definition fl_of (x : b64) : fl :=
  match x with
  | B754_zero _ => FFin (Q2Qc 0)
  | B754_infinity s => if s then FNInf else FPInf
  | B754_nan => FNaN
  | B754_finite s m e _ => FFin (Q2Qc (inject_Z (cond_Zopp s (Zpos m)) * Qpower (2 # 1) e)%Q)
  end.
Definition as_fl (e : entry) : fl :=
  match e with VInt z => FFin (Q2Qc (inject_Z z)) | VBool b => FFin (Q2Qc (inject_Z (if b then 1 else 0)%Z)) | VFloat x => fl_of x end.
Definition arr_matrix (a : arr) : matrix := Mx (ar_ncols a) (map (map as_fl) (ar_rows a)).

(** data.py:53-58 make_bartpy_data; the targets are finite *)
Definition make_bartpy_data (X : input) (y : list entry) (norm : bool) : res data :=
  make_data (arr_matrix (format_covariate_matrix X)) (map (fun e => @B2R 53 1024 (to_float e)) y) None norm None None None None.
(** sklearnmodel.py:155-161 on any X; [y] is a float array *)
Definition fit_data (X : input) (y : list R) : res data := convert_to_data (arr_matrix (fit_array X)) y.

(** data.py:11-34 is_not_constant with its dtype: series.data is a memoryview, and Python's memoryview cannot read an element of an
    object array (line 31, reached for the second entry) *)
Definition not_constant (k : kind) (s : list fl) : res bool :=
  if length s <=? 1 then Ok false
  else match k with KObject => Raise ENotImplementedError | _ => Ok (is_not_constant s) end.
(** data.py:115-119 splittable_variables on fresh caches; [mask] marks the rows left out *)
Fixpoint splittable_loop (k : kind) (cols : list nat) (rows : list (list entry)) : res (list nat) :=
  match cols with
  | [] => Ok []
  | i :: l =>
      let! b := not_constant k (map (fun r => cell (map as_fl r) i) rows) in
      let! t := splittable_loop k l rows in
      Ok (if b then i :: t else t)
  end.
Definition arr_splittable (a : arr) (mask : list bool) : res (list nat) :=
  splittable_loop (ar_kind a) (seq 0 (ar_ncols a)) (select mask (ar_rows a)).
