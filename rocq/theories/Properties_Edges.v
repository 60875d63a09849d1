(** Extreme settings and calls out of order: parts of C43, C58 and C89. *)
From Coq Require Import Reals ZArith.
From Verif Require Import Base Fl Ext MData MSplit MTree MSampler MModel MSklearn MOblivious MObModel MObSklearn MEstimator Spec SpecModel SpecSklearn Properties_Model Properties_Model2 Properties_Sklearn Properties_ObModel.

(** ** thin = inf (1./thin is 0) *)
(** ZeroDivisionError after the first step behind burn-in; failures of burn-in and of that step come first.  Asking
    for no samples succeeds. *)
Theorem C43_infinite : forall m n nb den sp sa r,
  samples m n nb (TInv 0 den) sp sa r =
  match burn nb m r with
  | Ok (m1, r1) =>
      match n with
      | 0 => Ok (Ch [] [] [], m1, r1)
      | S _ => match gibbs_step m1 r1 with Ok _ => Raise EZeroDivisionError | Raise e => Raise e | NoDraws => NoDraws end
      end
  | Raise e => Raise e
  | NoDraws => NoDraws
  end.
Proof.
  intros. unfold samples. destruct (burn nb m r) as [[m1 r1]| |]; cbn [rbind]; auto. destruct n; auto. cbn [sample_loop]. unfold sample_iter.
  destruct (gibbs_step m1 r1) as [[[[d acts] m2] r2]| |]; reflexivity.
Qed.
Print Assumptions C43_infinite.
(** the same two failures with the oblivious tree sampler *)
Theorem C89_thin_zero : forall m n nb sp sa r,
  ob_samples m n nb TZero sp sa r =
  match ob_burn nb m r with Ok _ => Raise EZeroDivisionError | Raise e => Raise e | NoDraws => NoDraws end.
Proof. intros. unfold ob_samples. now destruct (ob_burn nb m r) as [[? ?]| |]. Qed.
Print Assumptions C89_thin_zero.
Theorem C89_thin_infinite : forall m n nb den sp sa r,
  ob_samples m n nb (TInv 0 den) sp sa r =
  match ob_burn nb m r with
  | Ok (m1, r1) =>
      match n with
      | 0 => Ok (Ch [] [] [], m1, r1)
      | S _ => match ob_gibbs_step m1 r1 with Ok _ => Raise EZeroDivisionError | Raise e => Raise e | NoDraws => NoDraws end
      end
  | Raise e => Raise e
  | NoDraws => NoDraws
  end.
Proof.
  intros. unfold ob_samples. destruct (ob_burn nb m r) as [[m1 r1]| |]; cbn [rbind]; auto. destruct n; auto. cbn [ob_sample_loop]. unfold ob_sample_iter.
  destruct (ob_gibbs_step m1 r1) as [[[[d acts] m2] r2]| |]; reflexivity.
Qed.
Print Assumptions C89_thin_infinite.
(** a fresh model, no burn-in, one sample asked for: burn-in succeeds and the failure is reached *)
Example C43_infinite_case : exists m r, mx_fresh m /\ samples m 1 0 (TInv 0 1) true true r = Raise EZeroDivisionError /\ samples m 0 0 (TInv 0 1) true true r = Ok (Ch [] [] [], m, r) /\
  ob_samples m 1 0 TZero true true r = Raise EZeroDivisionError.
Proof.
  destruct mx_fresh_exists as (m&Hm). destruct (mx_samples m 1 0 2 1 true true Hm ltac:(discriminate)) as (r&c&m'&_&E). exists m, r. split; auto.
  rewrite !C43_infinite, C89_thin_zero. cbn [burn ob_burn]. split; [|split; reflexivity].
  unfold samples in E. cbn [burn rbind sample_loop] in E. unfold sample_iter in E. destruct (gibbs_step m r); try discriminate. reflexivity.
Qed.

(** ** a residual model whose base estimator has not been fitted *)
(** predict, and the residuals and errors computed from it, fail, whatever the trees are *)
Theorem C58_unfitted : forall s X y, rb_base s = None -> rb_predict s X = Raise EAttributeError /\ rb_residuals s X (Some y) = Raise EAttributeError.
Proof.
  intros [f s] X y. cbn [rb_base]. intros ->. split; reflexivity.
Qed.
Print Assumptions C58_unfitted.
Example C58_unfitted_case : rb_base (Rb None ex_sk) = None.
Proof. reflexivity. Qed.
