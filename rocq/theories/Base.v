(** Shared vocabulary of the model: exceptions as values, list helpers.
    Nothing here models a particular function of /repo; it models Python/numpy itself. *)
From Coq Require Export List Arith ZArith Lia Bool.
Export ListNotations.

(** Python exceptions that the modelled code can raise.
    [XNonFinite] is not a Python exception: it marks the points where the real program goes on
    computing with NaN/inf in a place the model represents by finite reals. *)
Inductive exn : Type :=
| ENoSplittableVariable   (* bartpy/errors.py:2 *)
| ENoPrunableNode         (* bartpy/errors.py:6 *)
| ETypeError | EValueError | EIndexError | EKeyError | EAttributeError
| EZeroDivisionError | ENotImplementedError | ERecursionError
| XNonFinite.

(** Result of running a piece of code.  [NoDraws]: the supplied stream of random draws ended
    before the code returned, i.e. the real program would still be running. *)
Inductive res (A : Type) : Type :=
| Ok (a : A)
| Raise (e : exn)
| NoDraws.
Arguments Ok {A} a.
Arguments Raise {A} e.
Arguments NoDraws {A}.

Definition rbind {A B} (m : res A) (f : A -> res B) : res B :=
  match m with
  | Ok a => f a
  | Raise e => Raise e
  | NoDraws => NoDraws
  end.
Notation "'let!' x ':=' m 'in' k" := (rbind m (fun x => k))
  (at level 200, x pattern, m at level 100, k at level 200, right associativity).

Definition is_ok {A} (m : res A) : bool := match m with Ok _ => true | _ => false end.

(** elementwise binary operation of two arrays of equal length *)
Fixpoint map2 {A B C} (f : A -> B -> C) (xs : list A) (ys : list B) : list C :=
  match xs, ys with
  | x :: xs', y :: ys' => f x y :: map2 f xs' ys'
  | _, _ => []
  end.

(** [values[~mask]]: the entries whose mask entry is [false] (numpy boolean indexing) *)
Fixpoint select {A} (mask : list bool) (xs : list A) : list A :=
  match mask, xs with
  | m :: mask', x :: xs' => if m then select mask' xs' else x :: select mask' xs'
  | _, _ => []
  end.

(** number of [false] entries: [(~mask).astype(int).sum()] *)
Fixpoint count_false (mask : list bool) : nat :=
  match mask with
  | [] => 0
  | m :: mask' => (if m then 0 else 1) + count_false mask'
  end.

(** [np.random.choice(xs)] with [d] the raw random draw: every element can be chosen and every
    draw chooses an element of a non-empty list. *)
Definition choose {A} (default : A) (xs : list A) (d : nat) : A :=
  nth (d mod length xs) xs default.

(** [list.remove(x)] on a list of object identities: removes the first occurrence,
    [None] when absent (Python raises ValueError). *)
Fixpoint remove_first (x : nat) (l : list nat) : option (list nat) :=
  match l with
  | [] => None
  | y :: l' => if Nat.eqb x y then Some l'
               else match remove_first x l' with Some r => Some (y :: r) | None => None end
  end.

Fixpoint set_nth {A} (i : nat) (x : A) (l : list A) : list A :=
  match l, i with
  | [], _ => []
  | _ :: l', O => x :: l'
  | y :: l', S i' => y :: set_nth i' x l'
  end.

Definition last_opt {A} (l : list A) : option A :=
  match rev l with [] => None | x :: _ => Some x end.
