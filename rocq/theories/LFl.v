(** Order facts about covariate values. *)
From Coq Require Import QArith Qcanon.
From Verif Require Import Base Fl.

Lemma qc_ltb_lt a b : qc_ltb a b = true <-> (a < b)%Qc.
Proof. unfold qc_ltb. rewrite Qclt_alt. destruct (Qccompare a b); split; congruence. Qed.
Lemma qc_eqb_eq a b : qc_eqb a b = true <-> a = b.
Proof. unfold qc_eqb. rewrite Qceq_alt. destruct (Qccompare a b); split; congruence. Qed.
Lemma qc_tricho a b : (qc_ltb a b = true /\ qc_eqb a b = false /\ qc_ltb b a = false) \/
                      (qc_ltb a b = false /\ qc_eqb a b = true /\ qc_ltb b a = false) \/
                      (qc_ltb a b = false /\ qc_eqb a b = false /\ qc_ltb b a = true).
Proof.
  destruct (qc_ltb a b) eqn:E1, (qc_eqb a b) eqn:E2, (qc_ltb b a) eqn:E3; auto; exfalso;
    rewrite ?qc_ltb_lt, ?qc_eqb_eq in *; subst;
    try (eapply Qclt_not_eq; eauto; fail); try (eapply Qcle_not_lt; [apply Qcle_refl|eauto]; fail).
  - eapply Qcle_not_lt; [|exact E1]. apply Qclt_le_weak; auto.
  - assert (~ (a < b)%Qc) by (rewrite <- qc_ltb_lt; congruence).
    assert (~ (b < a)%Qc) by (rewrite <- qc_ltb_lt; congruence).
    assert (a <> b) by (rewrite <- qc_eqb_eq; congruence).
    destruct (Qclt_le_dec a b); auto. apply Qcle_lt_or_eq in q. destruct q; auto; congruence.
Qed.

Lemma feqb_eq a b : feqb a b = true <-> a = b /\ a <> FNaN.
Proof.
  destruct a, b; simpl; split; intros H; try discriminate; try (destruct H; congruence);
    try (split; [reflexivity|discriminate]).
  - apply qc_eqb_eq in H; subst; split; congruence.
  - destruct H as [H _]; injection H as ->. now apply qc_eqb_eq.
Qed.
Lemma feqb_refl a : is_nan a = false -> feqb a a = true.
Proof. intros H; apply feqb_eq; split; auto; intros ->; discriminate. Qed.
Lemma feqb_neq a b : is_nan a = false -> feqb a b = false <-> a <> b.
Proof.
  intros Ha; split; intros H.
  - intros <-. rewrite feqb_refl in H; congruence.
  - destruct (feqb a b) eqn:E; auto. apply feqb_eq in E; tauto.
Qed.
Lemma feqb_sym a b : feqb a b = feqb b a.
Proof.
  apply eq_true_iff_eq. rewrite !feqb_eq. split; intros [-> H]; auto.
Qed.

Lemma flt_irrefl a : flt a a = false.
Proof. destruct a; simpl; auto. destruct (qc_tricho q q) as [H|[H|H]]; intuition congruence. Qed.
Lemma flt_asym a b : flt a b = true -> flt b a = false.
Proof. destruct a, b; simpl; auto; try discriminate. destruct (qc_tricho q q0) as [H|[H|H]]; intuition congruence. Qed.
Lemma flt_trans a b c : flt a b = true -> flt b c = true -> flt a c = true.
Proof.
  destruct a, b, c; simpl; auto; try discriminate. rewrite !qc_ltb_lt. apply Qclt_trans.
Qed.
(** trichotomy on non-NaN values *)
Lemma fle_negb a b : is_nan a = false -> is_nan b = false -> fle a b = negb (flt b a).
Proof.
  destruct a, b; simpl; try discriminate; intros _ _; unfold fle; simpl; auto.
  destruct (qc_tricho q q0) as [H|[H|H]]; destruct H as (->&->&->); reflexivity.
Qed.
Lemma fgt_negb a b : is_nan a = false -> is_nan b = false -> fgt a b = negb (fle a b).
Proof. intros. rewrite fle_negb by auto. unfold fgt. now rewrite negb_involutive. Qed.
Lemma fle_refl a : is_nan a = false -> fle a a = true.
Proof. intros; rewrite fle_negb, flt_irrefl by auto; reflexivity. Qed.
Lemma fle_not_nan a b : fle a b = true -> is_nan a = false /\ is_nan b = false.
Proof. unfold fle; destruct a, b; simpl; try discriminate; auto. Qed.
Lemma flt_not_nan a b : flt a b = true -> is_nan a = false /\ is_nan b = false.
Proof. destruct a, b; simpl; try discriminate; auto. Qed.
Lemma flt_fle a b : flt a b = true -> fle a b = true.
Proof. unfold fle; intros ->; reflexivity. Qed.
Lemma fle_trans a b c : fle a b = true -> fle b c = true -> fle a c = true.
Proof.
  intros H1 H2. pose proof H2 as H2'.
  unfold fle in H1, H2. apply orb_true_iff in H1, H2.
  destruct H1 as [H1|H1]; [|apply feqb_eq in H1 as [-> _]; exact H2'].
  destruct H2 as [H2|H2]; [|apply feqb_eq in H2 as [<- _]; now apply flt_fle].
  apply flt_fle. eapply flt_trans; eauto.
Qed.
Lemma flt_fle_trans a b c : flt a b = true -> fle b c = true -> flt a c = true.
Proof.
  intros H1 H2. unfold fle in H2. apply orb_true_iff in H2 as [H2|H2].
  - eapply flt_trans; eauto.
  - apply feqb_eq in H2 as [-> _]; auto.
Qed.
Lemma fle_flt_trans a b c : fle a b = true -> flt b c = true -> flt a c = true.
Proof.
  intros H1 H2. unfold fle in H1. apply orb_true_iff in H1 as [H1|H1].
  - eapply flt_trans; eauto.
  - apply feqb_eq in H1 as [-> _]; auto.
Qed.
Lemma fle_antisym a b : fle a b = true -> fle b a = true -> a = b.
Proof.
  intros H1 H2. unfold fle in *. apply orb_true_iff in H1, H2.
  destruct H1 as [H1|H1]; [|now apply feqb_eq in H1].
  destruct H2 as [H2|H2]; [|now apply feqb_eq in H2].
  apply flt_asym in H1; congruence.
Qed.
Lemma fle_flt_or_eq a b : fle a b = true -> a <> b -> flt a b = true.
Proof.
  unfold fle; intros H Hn. apply orb_true_iff in H as [H|H]; auto.
  apply feqb_eq in H; tauto.
Qed.
Lemma flt_neq a b : flt a b = true -> a <> b.
Proof. intros H <-. rewrite flt_irrefl in H; discriminate. Qed.

Lemma fmax_nan a b : is_nan a = false -> is_nan b = false -> is_nan (fmax a b) = false.
Proof. intros Ha Hb; unfold fmax; rewrite Ha, Hb; destruct (flt a b); auto. Qed.
Lemma fmax_ge_l a b : is_nan a = false -> is_nan b = false -> fle a (fmax a b) = true.
Proof.
  intros Ha Hb; unfold fmax; rewrite Ha, Hb; destruct (flt a b) eqn:E.
  - now apply flt_fle. - now apply fle_refl.
Qed.
Lemma fmax_ge_r a b : is_nan a = false -> is_nan b = false -> fle b (fmax a b) = true.
Proof.
  intros Ha Hb; unfold fmax; rewrite Ha, Hb; destruct (flt a b) eqn:E.
  - now apply fle_refl. - rewrite fle_negb, E by auto; reflexivity.
Qed.
Lemma fmax_in a b : fmax a b = a \/ fmax a b = b.
Proof. unfold fmax; destruct (is_nan a), (is_nan b), (flt a b); auto. Qed.

Lemma fold_fmax_spec l a :
  is_nan a = false -> Forall (fun x => is_nan x = false) l ->
  is_nan (fold_left fmax l a) = false /\ In (fold_left fmax l a) (a :: l) /\
  forall x, In x (a :: l) -> fle x (fold_left fmax l a) = true.
Proof.
  revert a; induction l as [|b l IH]; intros a Ha Hl; simpl.
  - split; [auto|split; [auto|]]. intros x [<-|[]]; now apply fle_refl.
  - inversion Hl as [|? ? Hb Hl']; subst.
    destruct (IH (fmax a b) (fmax_nan _ _ Ha Hb) Hl') as (H1&H2&H3).
    split; [auto|split].
    + destruct H2 as [H2|H2]; auto. rewrite <- H2. destruct (fmax_in a b) as [->| ->]; auto.
    + intros x [<-|[<-|Hx]].
      * eapply fle_trans; [apply (fmax_ge_l a b); auto|]. apply H3; left; auto.
      * eapply fle_trans; [apply (fmax_ge_r a b); auto|]. apply H3; left; auto.
      * apply H3; right; auto.
Qed.
