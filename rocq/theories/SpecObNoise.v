(** What a cut of the rows tells about the target: the vocabulary of C110. *)
From Coq Require Import Reals.
From Verif Require Import Base Fl Ext MData MSplit MTree MSampler Spec SpecTree SpecSampler SpecScore SpecObScore.
Local Open Scope R_scope.

(** mean of the target over some rows *)
Definition target_mean (Y : list R) (rows : list nat) : R := target_sum Y rows / INR (length rows).
(** A decision node tells something about the target: its children divide its rows and have different mean targets, or both
    hold the same rows (as the children of an unsplittable node do) and the targets of these do not add up to 0. *)
Definition tells (Y : list R) (h : heap) (j : nat) : Prop :=
  match h_get h j with
  | Some (Nd (KDec l r) _ _) =>
      let a := held_rows h l in let b := held_rows h r in
      (a <> b /\ target_mean Y a <> target_mean Y b) \/ (a = b /\ target_sum Y a <> 0)
  | _ => False
  end.
