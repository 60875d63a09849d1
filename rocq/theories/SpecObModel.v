(** The vocabulary in which the properties of models sampled with the oblivious tree sampler are stated. *)
From Coq Require Import Reals.
From Verif Require Import Base Fl Ext MData MSplit MTree MSampler MHist MTreeHist MModel MModelHist MOblivious MObModel Spec SpecTree SpecModel SpecOblivious.

(** uniform draws are not negative *)
Definition nonneg_draws (r : rng) : Prop := Forall (fun u => 0 <= u)%R (rg_unif r).
Definition sane_ob_model_op (o : ob_model_op) : Prop := match o with BStep r | BHalf _ _ r => nonneg_draws r | _ => True end.
(** every Gibbs step was run to its end *)
Definition ob_completes (o : ob_model_op) : Prop := match o with BHalf _ _ _ => False | _ => True end.
Definition ob_model_reached (X : matrix) (y : list R) (normalize : bool) (h0 : heap) (sigma : R) (p : params)
  (os : list ob_model_op) (m : model) : Prop :=
  length y = length (mx_rows X) /\ Forall sane_ob_model_op os /\
  exists m0, start_model X y normalize h0 sigma p = Ok m0 /\ ob_model_run m0 os = Ok m.

(** the tree assigns to every training row the value of the last leaf in its leaf list that holds the row *)
Definition otree_says (h : heap) (X : matrix) (t : tree) (v : list R) : Prop :=
  length v = length (mx_rows X) /\
  forall i, i < length (mx_rows X) -> exists j, last_holder h t i j /\ leaf_value h j = Some (nth i v 0%R).
Definition otrees_say (m : model) (X : matrix) (vs : list (list R)) : Prop :=
  Forall2 (otree_says (m_heap m) X) (m_trees m) vs.
(** [d] is what is missing from the running prediction, row by row *)
Definition odrift (m : model) (X : matrix) (d : nat -> R) : Prop :=
  match m_pred m with
  | None => forall i, i < length (mx_rows X) -> d i = 0%R
  | Some pr => length pr = length (mx_rows X) /\
      forall vs, otrees_say m X vs -> forall i, i < length (mx_rows X) -> nth i pr 0%R = (total vs i - d i)%R
  end.
(** tree number [j] has as its target the residual of all other trees, plus [d] *)
Definition ofits_residual (m : model) (X : matrix) (y : list R) (j : nat) (d : nat -> R) : Prop :=
  exists t target, nth_error (m_trees m) j = Some t /\ has_target (m_heap m) t target /\ length target = length (mx_rows X) /\
    forall vs, otrees_say m X vs -> forall i, i < length (mx_rows X) ->
      nth i target 0%R = (nth i y 0 - total (others j vs) i + d i)%R.
(** all trees have one node only *)
Definition all_single (m : model) : Prop := forall t, In t (m_trees m) -> exists i, tr_nodes t = [i].
(** [ob_sampling stores i m r l m' r']: one Gibbs step for each entry of [l], the first of them being number [i];
    after step number [k] the calls [stores k] are made.  An entry of [l] is what the step reported and the state
    right after it. *)
Inductive ob_sampling (stores : nat -> list ob_model_op) : nat -> model -> rng -> list (list (skey * R) * model) -> model -> rng -> Prop :=
| ob_sampling_end i m r : ob_sampling stores i m r [] m r
| ob_sampling_step i m r d acts m1 r1 m2 l m' r' :
    ob_gibbs_step m r = Ok (d, acts, m1, r1) -> ob_model_run m1 (stores i) = Ok m2 ->
    ob_sampling stores (S i) m2 r1 l m' r' -> ob_sampling stores i m r ((d, m1) :: l) m' r'.
Definition ob_stores_every (n_burn q : nat) (in_sample : bool) (i : nat) : list ob_model_op :=
  if i <? n_burn then [] else
  if (i - n_burn) mod q =? 0 then (if in_sample then [BPredict; BStore] else [BStore]) else [].
