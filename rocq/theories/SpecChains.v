(** Several chains are several estimators of one chain each. *)
From Coq Require Import Reals.
From Verif Require Import Base Fl Ext MData MSplit MTree MSampler MModel MSklearn Spec SpecSklearn.
Local Open Scope R_scope.

(** the same estimator, asked for one chain *)
Definition one_chain (s : sklearn) : sklearn :=
  Sk (sk_par s) 1 (sk_nsamples s) (sk_nburn s) (sk_thin s) (sk_store_preds s) (sk_store_accept s)
     (sk_data s) (sk_model s) (sk_samples s) (sk_preds s) (sk_accept s).
(** the results of several calls made one after the other; the first that fails ends it *)
Fixpoint each {A} (calls : list (res A)) : res (list A) :=
  match calls with [] => Ok [] | c :: calls' => let! a := c in let! l := each calls' in Ok (a :: l) end.
(** [v] is, entry by entry, the average of the vectors [vs] *)
Definition average_of (vs : list (list R)) (v : list R) : Prop :=
  Forall (fun u => length u = length v) vs /\ forall i, (i < length v)%nat -> nth i v 0 = mean (map (fun u => nth i u 0) vs).
Definition listed {A} (o : option (list A)) : list A := match o with Some l => l | None => [] end.
Definition sigmas (s : sklearn) : list R := map (fun hs => sm_sigma (snd hs)) (listed (sk_samples s)).
(** [f] is made of [fs]: it predicts the average of what they predict (and fails if one of them does), its sampled
    sigmas and its acceptance trace are theirs, one after the other *)
Definition made_of (fs : list sklearn) (f : sklearn) : Prop :=
  (forall X, match each (map (fun g => sk_predict g (Some X)) fs) with
             | Ok vs => exists v, sk_predict f (Some X) = Ok v /\ length v = length (mx_rows X) /\ average_of vs v
             | Raise e => sk_predict f (Some X) = Raise e
             | NoDraws => sk_predict f (Some X) = NoDraws
             end) /\
  sigmas f = flat_map sigmas fs /\ listed (sk_accept f) = flat_map (fun g => listed (sk_accept g)) fs.
