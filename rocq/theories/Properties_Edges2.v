(** Data that fit refuses, names of parameters, calls out of order: parts of C66, C81 and C83. *)
From Coq Require Import Reals ZArith Lra.
From Verif Require Import Base Fl Ext MData MSplit MTree MSampler MModel MSklearn MOblivious MObModel MObSklearn MEstimator Spec SpecModel SpecSklearn Properties_Data Properties_Model Properties_Model2 Properties_Sklearn.

(** ** C66: data that fit refuses before anything is drawn *)
Lemma construct_empty s h X y : mx_rows X = [] \/ mx_ncols X = 0 \/ y = [] -> construct_model s h X y = Raise EValueError.
Proof.
  intros H. unfold construct_model. destruct H as [-> | [-> | ->]]; cbn [length Nat.eqb orb]; auto.
  - now rewrite Bool.orb_true_r.
  - now destruct (_ || _)%bool.
Qed.
Lemma construct_constant s h X y k : mx_rows X <> [] -> mx_ncols X <> 0 -> y <> [] -> (forall v, In v y -> v = k) -> construct_model s h X y = Raise XNonFinite.
Proof.
  intros Hr Hc Hy Hk. unfold construct_model. destruct (mx_rows X) as [|r0 rs0] eqn:Er; [congruence|]. destruct (mx_ncols X) as [|c] eqn:Ec; [congruence|]. cbn [length Nat.eqb orb].
  unfold convert_to_data, make_data, make_target. rewrite (C11_constant_target_nan y k Hk). destruct y as [|a l]; [congruence|]. reflexivity.
Qed.
(** A table without rows or columns and an empty target raise ValueError; a constant target has no finite normalisation.
    This is so for both tree samplers, every number of chains and every way of running them, and also when an earlier fit
    succeeded. *)
Theorem C66_refused : forall b s h X y rs,
  (mx_rows X = [] \/ mx_ncols X = 0 \/ y = [] -> fit b s h X y rs = Raise EValueError /\ ob_fit b s h X y rs = Raise EValueError) /\
  (mx_rows X <> [] -> mx_ncols X <> 0 -> y <> [] -> (forall u v, In u y -> In v y -> u = v) ->
   fit b s h X y rs = Raise XNonFinite /\ ob_fit b s h X y rs = Raise XNonFinite).
Proof.
  intros. split.
  - intros H. unfold fit, ob_fit. now rewrite construct_empty.
  - intros Hr Hc Hy Hk. unfold fit, ob_fit. destruct y as [|a l]; [congruence|].
    rewrite (construct_constant s h X (a :: l) a); auto. intros v Hv. apply Hk; simpl; auto.
Qed.
Print Assumptions C66_refused.
Example C66_refused_case : forall b rs, fit b ex_sk ex_empty mx_X [5; 5; 5]%R rs = Raise XNonFinite /\ fit b ex_sk ex_empty mx_X [] rs = Raise EValueError.
Proof.
  intros. split; [|apply C66_refused; auto]. apply C66_refused; try discriminate. intros u v. simpl. intuition congruence.
Qed.

(** ** C81: the names of the parameters *)
(** every argument of the estimator's constructor is a parameter; of an extension only the base estimator is: the **
    argument is none, and none of the settings handed on by it *)
Theorem C81_parameters : forall name,
  (In name (param_names sklearn_signature) <-> name <> NBase /\ name <> NKwargs) /\
  (In name (param_names extension_signature) <-> name = NBase).
Proof. intros []; simpl; intuition congruence. Qed.
Print Assumptions C81_parameters.

(** ** C83: predict() without X of an extension that has not been fitted *)
Theorem C83_unfitted : forall B (base : B) kwargs limit f, ext_predict_training f (as_sklearn limit (ex_bart (ext_construct base kwargs))) = Raise EAttributeError.
Proof. reflexivity. Qed.
Print Assumptions C83_unfitted.
