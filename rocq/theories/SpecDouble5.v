(** What the double precision acceptance ratio is compared with. *)
From Coq Require Import ZArith Reals List.
From Flocq Require Import Core.Core IEEE754.BinarySingleNaN.
From Verif Require Import MFloat SpecDouble SpecDouble3 SpecDouble4 SpecSampler.
Local Open Scope R_scope.

(** the exact log ratio of growing a node at depth [d], when the log likelihood ratio is [x] and there are [np] prunable nodes
    (the probability of the chosen cut cancels, C36) *)
Definition exact_grow (pgrow pprune alpha beta : R) (np d : nat) (x : R) : R :=
  ln (pprune / pgrow) - ln (INR (S np)) + x + log_structure_odds alpha beta d.
(** the exact log ratio of undoing a split at depth [d], when the log likelihood ratio of the split is [x] and there are [np]
    prunable nodes and [S ns] splittable leaves *)
Definition exact_prune (pgrow pprune alpha beta : R) (ns np d : nat) (x : R) : R :=
  ln (pgrow / pprune) - ln (INR ns) + ln (INR np) - x - log_structure_odds alpha beta d.
(** settings: alpha between 2^-50 and 1 - 2^-40, beta between 0 and 40, probabilities of growing and pruning between 2^-25 and 1 *)
Definition usual_settings (alpha beta pgrow pprune : b64) : Prop :=
  finite alpha /\ bpow radix2 (-50) <= val alpha <= 1 - bpow radix2 (-40) /\ finite beta /\ 0 <= val beta <= 40 /\
  finite pgrow /\ bpow radix2 (-25) <= val pgrow <= 1 /\ finite pprune /\ bpow radix2 (-25) <= val pprune <= 1.
(** the numbers of a split: [k] rows in the node, [kl] and [kr] below it *)
Definition usual_split (sigma tau n nl nr s sl sr : b64) (k kl kr : nat) : Prop :=
  moderate sigma /\ moderate tau /\ counts n k /\ counts nl kl /\ counts nr kr /\ finite s /\ finite sl /\ finite sr /\
  Rabs (val s) <= bpow radix2 100 /\ Rabs (val sl) <= bpow radix2 100 /\ Rabs (val sr) <= bpow radix2 100.
(** the bound on the error *)
Definition ratio_error (alpha sigma tau n nl nr s sl sr : R) : R :=
  bpow radix2 (-46) * ratio_size sigma tau n nl nr s sl sr + bpow radix2 (-45) / (1 - alpha) + bpow radix2 (-36).
