(** Model of bartpy/samplers/scalar.py.  The three samplers differ only in the source of a batch. *)
From Verif Require Import Base.

(** scalar.py:8-11 / 24-27 / 40-49: state is the cache; [size] is cache_size.
    The random source is the infinite sequence of future draws [src] with a position [pos]:
    one refresh takes the next [size] draws (scalar.py:18-19, 34-35, 56-57). *)
Section Scalar.
  Context {A : Type}.
  Record scalar := Sca { sca_cache : list A; sca_pos : nat }.
  Definition scalar_init : scalar := Sca [] 0.
  Definition refresh_cache (src : nat -> A) (size : nat) (s : scalar) : scalar :=
    Sca (map src (seq (sca_pos s) size)) (sca_pos s + size).
  (** [list.pop()]: last element; IndexError on an empty list *)
  Definition pop (s : scalar) : res (A * scalar) :=
    match rev (sca_cache s) with
    | [] => Raise EIndexError
    | x :: xs => Ok (x, Sca (rev xs) (sca_pos s))
    end.
  (** scalar.py:13-16 / 29-32 / 51-54 sample *)
  Definition scalar_sample (src : nat -> A) (size : nat) (s : scalar) : res (A * scalar) :=
    let s1 := match sca_cache s with [] => refresh_cache src size s | _ => s end in
    pop s1.
  (** [k] consecutive calls of sample() *)
  Fixpoint scalar_samples (src : nat -> A) (size : nat) (k : nat) (s : scalar) : res (list A * scalar) :=
    match k with
    | O => Ok ([], s)
    | S k' => let! (x, s1) := scalar_sample src size s in
              let! (xs, s2) := scalar_samples src size k' s1 in
              Ok (x :: xs, s2)
    end.
End Scalar.
