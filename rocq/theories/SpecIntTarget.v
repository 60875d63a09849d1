(** Integer targets. *)
From Coq Require Import ZArith List.
Import ListNotations.
Local Open Scope Z_scope.

(** an array of a signed integer dtype of [w] bits, at most int64 *)
Definition ints (w : Z) (y : list Z) : Prop := 2 <= w <= 64 /\ Forall (fun v => - 2 ^ (w - 1) <= v < 2 ^ (w - 1)) y.
(** an array of an unsigned integer dtype of [w] bits, below uint64 *)
Definition uints (w : Z) (y : list Z) : Prop := 1 <= w <= 63 /\ Forall (fun v => 0 <= v < 2 ^ w) y.
(** the smallest and the largest target *)
Definition least (lo : Z) (y : list Z) : Prop := In lo y /\ Forall (fun v => lo <= v) y.
Definition greatest (hi : Z) (y : list Z) : Prop := In hi y /\ Forall (fun v => v <= hi) y.
