(** Oblivious trees and the training values: lemmas for C97. *)
From Coq Require Import Reals Lra Lia Permutation.
From Verif Require Import Base Fl Ext MData MSplit MTree MSampler MHist MTreeHist MModel MModelHist MSklearn MOblivious MObModel MObSklearn Spec SpecTree SpecSampler SpecModel SpecSklearn SpecOblivious SpecObModel SpecObSklearn SpecFeatures SpecGrown LFl LList
  PData PSplit PDataProps PCond PTree PPred PTreeHist PTreeProps PTreeProps2 PModel POblivious POblivious2 POblivious3 POblivious4 PObModel PObModel4 PObSklearn PObSklearn2.

(** the thresholds on the paths of an oblivious tree *)
Definition inside (X : matrix) (q : rule) : Prop :=
  rl_var q < mx_ncols X /\ training_value X (rl_var q) (rl_val q) /\ exists p, In p (mx_rows X) /\ flt (rl_val q) (cell p (rl_var q)) = true.
Lemma rule_inside X cs v x b : no_nan X -> rule_ok X cs (Some (v, x)) -> inside X (Rl v x b).
Proof.
  intros Hn ((Hv&(r&Hr&_&Ex)&_)&Hx&_&r2&Hr2&K). unfold inside. simpl. split; auto. split; [exists r; auto|]. exists r2. split; auto.
  rewrite kept_snoc in K. apply andb_true_iff in K as [_ K]. unfold excluded in K. simpl in K. apply negb_true_iff in K.
  assert (N : is_nan (cell r2 v) = false) by (specialize (Hn r2 v Hr2 Hv); destruct (cell r2 v); auto; congruence).
  assert (Nx : is_nan x = false) by (destruct x; auto; congruence).
  rewrite fle_negb in K by auto. now apply negb_false_iff in K.
Qed.
Lemma ogr_inside h X oy o : no_nan X -> forall cs d j cj dj, ook h X oy cs d o -> Forall (inside X) cs -> In (j, (cj, dj)) (ogr cs d o) -> Forall (inside X) cj.
Proof.
  intros Hn. induction o as [i|i q l IHl r IHr]; intros cs d j cj dj H Hc Hj.
  - simpl in Hj. destruct Hj as [E|[]]. now injection E as <- <- <-.
  - destruct H as (_&Hq&Hl&Hr). simpl in Hj.
    assert (G : forall b, Forall (inside X) (under cs q b)).
    { intros b. destruct q as [[v x]|]; simpl; auto. apply Forall_app. split; auto. constructor; [|constructor]. eapply rule_inside; eauto. }
    apply in_app_iff in Hj as [Hj|Hj]; eauto.
Qed.
(** rows on the same sides are kept alike *)
Lemma kept_same X cs r1 r2 : no_nan X -> row_clean (mx_ncols X) r1 = true -> row_clean (mx_ncols X) r2 = true -> Forall (inside X) cs ->
  (forall v, v < mx_ncols X -> same_side X v (cell r1 v) (cell r2 v)) -> kept cs r1 = kept cs r2.
Proof.
  intros Hn C1 C2 Hc Hs. unfold kept. f_equal. induction Hc as [|[v x b] cs (Hv&(p&Hp&Ep)&p'&Hp'&Hlt) _ IH]; [reflexivity|]. simpl in *. rewrite IH. f_equal.
  specialize (Hs v Hv p p' Hp Hp'). rewrite Ep in Hs. specialize (Hs Hlt). unfold excluded. simpl.
  assert (N1 : is_nan (cell r1 v) = false) by (destruct (proj1 (row_clean_iff _ _) C1 v Hv) as [A _]; destruct (cell r1 v); auto; congruence).
  assert (N2 : is_nan (cell r2 v) = false) by (destruct (proj1 (row_clean_iff _ _) C2 v Hv) as [A _]; destruct (cell r2 v); auto; congruence).
  assert (Nx : is_nan x = false) by (rewrite <- Ep; specialize (Hn p v Hp Hv); destruct (cell p v); auto; congruence).
  destruct b.
  - rewrite !fgt_negb by auto. destruct (fle (cell r1 v) x), (fle (cell r2 v) x); intuition congruence.
  - destruct (fle (cell r1 v) x), (fle (cell r2 v) x); intuition congruence.
Qed.
Lemma gives_same h X oy t k o r1 r2 x : no_nan X -> oinv h X oy t k o -> row_clean (mx_ncols X) r1 = true -> row_clean (mx_ncols X) r2 = true ->
  (forall v, v < mx_ncols X -> same_side X v (cell r1 v) (cell r2 v)) -> otree_gives h r1 t x -> otree_gives h r2 t x.
Proof.
  intros Hn H C1 C2 Hs (L1&j&L2&EL&A&B&V).
  assert (G : forall j', In j' (leaf_nodes h t) -> accepts h j' r1 <-> accepts h j' r2).
  { intros j' Hj. apply (leaf_ogr _ _ _ _ _ _ _ H) in Hj as (cj&dj&Hj).
    rewrite (accepts_kept _ _ _ _ _ _ _ _ _ _ H Hj C1), (accepts_kept _ _ _ _ _ _ _ _ _ _ H Hj C2).
    rewrite (kept_same X cj r1 r2 Hn C1 C2 (ogr_inside _ _ _ _ Hn _ _ _ _ _ (oi_ok _ _ _ _ _ _ H) (Forall_nil _) Hj) Hs). tauto. }
  exists L1, j, L2. split; auto. split; [apply G; auto; rewrite EL; apply in_elt|]. split; auto.
  intros j' Hj' F. apply (B j' Hj'), G; auto. rewrite EL. apply in_app_iff. simpl. auto.
Qed.
