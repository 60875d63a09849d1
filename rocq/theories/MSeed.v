(** Model of the random state of a process that uses bartpy: NumPy's global generator, which np.random.seed sets, and
    the caches of the scalar samplers (bartpy/samplers/scalar.py), which it does not touch.  The uniform
    sampler of the tree samplers (unconstrainedtree/treemutation.py:34) and the normal sampler of the leaf samplers (leafnode.py:18)
    are default arguments, so one object of each serves all estimators of the process; the sampler of the kinds of
    mutation belongs to the proposer (unconstrainedtree/proposer.py:37-39), which is part of the default tree sampler
    (sklearnmodel.py:99), again one object for all. *)
From Verif Require Import Base.

Section Seed.
  (** [batch i g n]: n numbers drawn from a generator in state [g] for the sampler number [i] and the state after it;
      [seeded s]: the state after np.random.seed(s); [size i]: the cache_size of sampler [i] *)
  Context {G A : Type} (batch : nat -> G -> nat -> list A * G) (seeded : nat -> G) (size : nat -> nat).
  Record world := Wo { wo_gen : G; wo_cache : nat -> list A }.
  (** a new process: every cache is empty (scalar.py:11, 27, 49) *)
  Definition new_process (g : G) : world := Wo g (fun _ => []).
  Definition put_cache (w : world) (g : G) (i : nat) (c : list A) : world := Wo g (fun j => if Nat.eqb j i then c else wo_cache w j).
  (** scalar.py:13-19 / 29-35 / 51-57 sample and refresh_cache of sampler [i]; pop takes the last element *)
  Definition world_sample (w : world) (i : nat) : res (A * world) :=
    let (c, g) := match wo_cache w i with [] => batch i (wo_gen w) (size i) | c => (c, wo_gen w) end in
    match rev c with
    | [] => Raise EIndexError
    | x :: xs => Ok (x, put_cache w g i (rev xs))
    end.
  (** what a program does: sample() of a scalar sampler; a direct use of np.random (sigma.py:19, data.py:182, proposer.py:62, 73 and 86);
      np.random.seed *)
  Inductive world_op := Sample (i : nat) | Direct (i n : nat) | Seed (s : nat).
  Definition world_do (w : world) (o : world_op) : res (list A * world) :=
    match o with
    | Sample i => let! (x, w1) := world_sample w i in Ok ([x], w1)
    | Direct i n => let (xs, g) := batch i (wo_gen w) n in Ok (xs, Wo g (wo_cache w))
    | Seed s => Ok ([], Wo (seeded s) (wo_cache w))
    end.
  (** the numbers the program gets to see, in order *)
  Fixpoint world_run (w : world) (os : list world_op) : res (list A * world) :=
    match os with
    | [] => Ok ([], w)
    | o :: os' => let! (xs, w1) := world_do w o in let! (ys, w2) := world_run w1 os' in Ok (xs ++ ys, w2)
    end.
End Seed.
Arguments world : clear implicits.
