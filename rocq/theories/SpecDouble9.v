(** What the double precision acceptance ratio of the oblivious sampler is compared with. *)
From Coq Require Import ZArith Reals List.
From Flocq Require Import Core.Core IEEE754.BinarySingleNaN.
From Verif Require Import MFloat MFloat9 SpecDouble SpecDouble3 SpecDouble4 SpecDouble5 SpecSampler.
Local Open Scope R_scope.

(** a number of rows, possibly 0: one side of a cut of the oblivious sampler can be empty *)
Definition counts0 (x : b64) (k : nat) : Prop := finite x /\ val x = INR k /\ INR k <= bpow radix2 52.
(** the exact log ratio of splitting (or, for a prune, of undoing the split of) one node at depth [d], when the log likelihood ratio
    of the split is [x]: the probability of the chosen cut cancels (C63) *)
Definition exact_level (grow : bool) (pgrow pprune alpha beta : R) (d : nat) (x : R) : R :=
  if grow then ln (pprune / pgrow) + x + log_structure_odds alpha beta d else ln (pgrow / pprune) - x - log_structure_odds alpha beta d.
(** the exact log likelihood ratio of a cut *)
Definition exact_cut (sigma tau : b64) (q : fcut) : R :=
  exact_ratio (val sigma) (val tau) (val (fc_n q)) (val (fc_nl q)) (val (fc_nr q)) (val (fc_s q)) (val (fc_sl q)) (val (fc_sr q)).
(** usual numbers of a cut: at least one row in the node, possibly none on one side; at least one row has the value of the cut *)
Definition usual_cut (sigma tau : b64) (q : fcut) : Prop :=
  moderate sigma /\ moderate tau /\ (exists k, counts (fc_n q) k) /\ (exists k, counts0 (fc_nl q) k) /\ (exists k, counts0 (fc_nr q) k) /\ (exists k, counts (fc_cnt q) k) /\
  finite (fc_s q) /\ finite (fc_sl q) /\ finite (fc_sr q) /\
  Rabs (val (fc_s q)) <= bpow radix2 100 /\ Rabs (val (fc_sl q)) <= bpow radix2 100 /\ Rabs (val (fc_sr q)) <= bpow radix2 100.
(** the bound on the error of the ratio of one cut *)
Definition cut_error (alpha sigma tau : b64) (q : fcut) : R :=
  ratio_error (val alpha) (val sigma) (val tau) (val (fc_n q)) (val (fc_nl q)) (val (fc_nr q)) (val (fc_s q)) (val (fc_sl q)) (val (fc_sr q)).
Definition rtotal (l : list R) : R := fold_right Rplus 0 l.
