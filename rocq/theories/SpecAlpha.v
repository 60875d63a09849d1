(** Settings of the prior and of the proposals under which no tree can ever grow. *)
From Coq Require Import Reals.
From Verif Require Import Base MSampler.
Local Open Scope R_scope.
(** A node at depth d splits with prior probability alpha (1 + d)^-beta (Tree.alpha, Tree.beta): the root with probability
    alpha, its children with probability alpha / 2^beta.
    - alpha is not in (0, 1]: that of the root is no probability, or zero;
    - alpha / 2^beta is one or more: the children would always split;
    - p_prune = 0: a growth is never taken back. *)
Definition forbids_growth (p : params) : Prop :=
  ~ (0 < pa_alpha p <= 1) \/ 1 <= pa_alpha p * Rpower 2 (- pa_beta p) \/ pa_pprune p = 0.
