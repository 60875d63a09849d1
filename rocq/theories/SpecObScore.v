(** The vocabulary in which the long-run behaviour of the oblivious tree sampler at a fixed target and noise level is stated. *)
From Coq Require Import Reals Permutation.
From Verif Require Import Base Fl Ext MData MSplit MTree MSampler MTreeHist MOblivious Spec SpecTree SpecSampler SpecScore SpecOblivious.
Local Open Scope R_scope.

(** the training rows a node holds *)
Definition held_rows (h : heap) (j : nat) : list nat :=
  match node_split h j with Some s => filter (in_nodeb s) (seq 0 (length (d_mask (sp_data s)))) | None => [] end.
(** What a node counts for: nothing if it is a leaf; log(p_prune / p_grow) plus the log prior odds of a split at its depth plus
    the log likelihood the code takes to be gained by the split (see [split_gain] in SpecScore.v) if it is a decision node. *)
Definition decision_score (Y : list R) (sigma : R) (p : params) (h : heap) (j : nat) : R :=
  match h_get h j with
  | Some (Nd (KDec l r) _ d) =>
      ln (pa_pprune p / pa_pgrow p) + log_structure_odds (pa_alpha p) (pa_beta p) d
      + split_gain Y sigma (tau_of (pa_k p) (pa_ntrees p)) (held_rows h j) (held_rows h l) (held_rows h r)
  | _ => 0
  end.
(** the score of a tree *)
Definition ob_score (Y : list R) (sigma : R) (p : params) (h : heap) (t : tree) : R := rsum (map (decision_score Y sigma p h) (tr_nodes t)).
(** what of a node the score looks at: its depth, its rows and the rows of its children *)
Definition cut_of (h : heap) (j : nat) : option (nat * list nat * list nat * list nat) :=
  match h_get h j with
  | Some (Nd (KDec l r) _ d) => Some (d, held_rows h j, held_rows h l, held_rows h r)
  | _ => None
  end.
(** two trees that divide the rows in the same way at every level *)
Definition same_cuts (h : heap) (t : tree) (h2 : heap) (t2 : tree) : Prop :=
  Permutation (map (cut_of h) (tr_nodes t)) (map (cut_of h2) (tr_nodes t2)).

(** the target the tree was last given *)
Fixpoint last_ob_target (y0 : list R) (os : list ob_op) : list R :=
  match os with
  | [] => y0
  | OUpdateY y :: os' => last_ob_target y os'
  | _ :: os' => last_ob_target y0 os'
  end.
(** a history in which every grow was accepted by the sampler *)
Definition sampled_op (o : ob_op) : Prop := match o with OGrow _ => False | _ => True end.
(** calls that neither edit the tree nor replace its target *)
Definition quiet_op (o : ob_op) : Prop := match o with ODiscard _ _ | OSetValue _ _ | OPredict => True | _ => False end.

(** A stretch of the life of a tree during which the target, [sigma] and the parameters stay the same: sampler steps with draws
    that are not negative, and quiet calls. [n] counts the accepted moves. *)
Inductive ob_stretch (sigma : R) (p : params) : heap -> tree -> nat -> heap -> tree -> Prop :=
| os_done h t : ob_stretch sigma p h t 0 h t
| os_call h t o h1 t1 n h2 t2 : quiet_op o -> ob_do h t o = Ok (h1, t1) -> ob_stretch sigma p h1 t1 n h2 t2 -> ob_stretch sigma p h t n h2 t2
| os_reject h t r h1 t1 r1 n h2 t2 : Forall (fun u => 0 <= u) (rg_unif r) -> ob_step h t sigma p r = Ok (None, h1, t1, r1) ->
    ob_stretch sigma p h1 t1 n h2 t2 -> ob_stretch sigma p h t n h2 t2
| os_accept h t r ms h1 t1 r1 n h2 t2 : Forall (fun u => 0 <= u) (rg_unif r) -> ob_step h t sigma p r = Ok (Some ms, h1, t1, r1) ->
    ob_stretch sigma p h1 t1 n h2 t2 -> ob_stretch sigma p h t (S n) h2 t2.
