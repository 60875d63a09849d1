(** Fitted trees and the training data. *)
From Coq Require Import Reals Lra Lia Permutation.
From Verif Require Import Base Fl Ext MData MSplit MTree MSampler MHist MTreeHist MModel MModelHist MSklearn Spec SpecTree SpecSampler SpecModel SpecSklearn SpecFeatures SpecGrown.
From Verif Require Import LFl LList PData PSplit PTree PPred PTreeHist PModel PModel7 PModel11 PSklearn PSklearn2 PFeatures.

Lemma filter_twice {A} (f g : A -> bool) l : filter g (filter f l) = filter (fun x => f x && g x) l.
Proof. induction l as [|a l IH]; simpl; auto. destruct (f a); simpl; [destruct (g a)|]; congruence. Qed.
Lemma splits_some n t : forall rows, splits_rows n rows t -> rows <> [].
Proof. destruct t; simpl; auto. intros rows (_&(q&Hq&_)&_) ->. destruct Hq. Qed.
Lemma splits_in n t : forall rows, splits_rows n rows t -> forall v x, In (v, x) (splits_of t) ->
  v < n /\ exists q q', In q rows /\ In q' rows /\ cell q v = x /\ flt x (cell q' v) = true.
Proof.
  induction t as [w|v x l IHl r IHr]; intros rows; simpl; [tauto|]. intros (Hv&(q&Hq&Ex)&Hl&Hr) v' x' [E|Hin].
  - injection E as <- <-. split; auto. apply splits_some in Hr. destruct (filter (fun q => fgt (cell q v) x) rows) as [|q' rest] eqn:Ef; [now elim Hr|].
    exists q, q'. assert (Hq' : In q' (filter (fun q => fgt (cell q v) x) rows)) by (rewrite Ef; simpl; auto). apply filter_In in Hq' as [A B]. auto.
  - apply in_app_iff in Hin as [Hin|Hin]; [destruct (IHl _ Hl _ _ Hin) as (A&q1&q2&B&C&D&E)|destruct (IHr _ Hr _ _ Hin) as (A&q1&q2&B&C&D&E)];
      (split; [auto|]); exists q1, q2; apply filter_In in B, C; tauto.
Qed.
Lemma splits_vars_in t v : In v (split_vars t) <-> exists x, In (v, x) (splits_of t).
Proof.
  induction t as [w|u x l IHl r IHr]; simpl; [split; [tauto|intros (x&[])]|]. rewrite in_app_iff, IHl, IHr. split.
  - intros [->|[(z&Hz)|(z&Hz)]]; eauto; exists z; rewrite in_app_iff; auto.
  - intros (z&[E|Hz]); [injection E; auto|]. apply in_app_iff in Hz as [Hz|Hz]; eauto.
Qed.
Lemma walk_same t r1 r2 : (forall v x, In (v, x) (splits_of t) -> fle (cell r1 v) x = fle (cell r2 v) x) -> walk t r1 = walk t r2.
Proof.
  induction t as [w|v x l IHl r IHr]; simpl; auto. intros H. rewrite (H v x) by auto.
  rewrite IHl by (intros; apply H; right; apply in_app_iff; auto). rewrite IHr by (intros; apply H; right; apply in_app_iff; auto). auto.
Qed.
Lemma splits_search n t : forall rows, splits_rows n rows t -> search_tree t.
Proof.
  induction t as [w|v x l IHl r IHr]; intros rows; simpl; auto. intros (Hv&_&Hl&Hr).
  split; [|split; [|split; eauto]]; intros z Hz.
  - destruct (splits_in _ _ _ Hl _ _ Hz) as (_&q&q'&_&Hq'&_&H). apply filter_In in Hq' as [_ Hq']. eapply flt_fle_trans; eauto.
  - destruct (splits_in _ _ _ Hr _ _ Hz) as (_&q&q'&Hq&_&E&_). apply filter_In in Hq as [_ Hq]. rewrite E in Hq. exact Hq.
Qed.
Lemma fle_fgt a x : fgt a x = true -> fle a x = false.
Proof.
  unfold fgt. intros H. destruct (fle a x) eqn:E; auto. pose proof (fle_flt_trans _ _ _ E H) as F. now rewrite flt_irrefl in F.
Qed.
Lemma splits_leaves n t : forall rows reps, splits_rows n rows t ->
  (forall r, In r rows -> exists q, In q reps /\ forall v, v < n -> cell q v = cell r v) -> n_leaves t <= length reps.
Proof.
  induction t as [w|v x l IHl r IHr]; intros rows reps; simpl.
  - intros Hne H. destruct rows as [|q rows]; [congruence|]. destruct (H q (or_introl eq_refl)) as (p&Hp&_). destruct reps; [destruct Hp|simpl; lia].
  - intros (Hv&_&Hl&Hr) H.
    assert (A : n_leaves l <= length (filter (fun q => fle (cell q v) x) reps)).
    { eapply IHl; [exact Hl|]. intros r0 Hr0. apply filter_In in Hr0 as [Hr0 E]. destruct (H r0 Hr0) as (q&Hq&Eq). exists q. split; auto.
      apply filter_In. split; auto. now rewrite (Eq v Hv). }
    assert (B : n_leaves r <= length (filter (fun q => fgt (cell q v) x) reps)).
    { eapply IHr; [exact Hr|]. intros r0 Hr0. apply filter_In in Hr0 as [Hr0 E]. destruct (H r0 Hr0) as (q&Hq&Eq). exists q. split; auto.
      apply filter_In. split; auto. now rewrite (Eq v Hv). }
    assert (C : length (filter (fun q => fle (cell q v) x) reps) + length (filter (fun q => fgt (cell q v) x) reps) <= length reps).
    { clear. induction reps as [|q reps IH]; simpl; auto. destruct (fgt (cell q v) x) eqn:E; [rewrite (fle_fgt _ _ E); simpl; lia|].
      destruct (fle (cell q v) x); simpl; lia. }
    lia.
Qed.
Lemma nodes_leaves t : S (n_nodes t) = 2 * n_leaves t.
Proof. induction t; simpl; lia. Qed.
Lemma leaves_pos t : 1 <= n_leaves t.
Proof. induction t; simpl; lia. Qed.
Lemma height_leaves t : height t < n_leaves t.
Proof. induction t as [|v x l IHl r IHr]; simpl; [lia|]. pose proof (leaves_pos l). pose proof (leaves_pos r). lia. Qed.
Lemma paths_height t : forall cs p, In p (paths cs t) -> length p <= length cs + height t.
Proof.
  induction t as [w|v x l IHl r IHr]; intros cs p; cbn [paths In height].
  - intros [<-|[]]. lia.
  - intros [<-|H]; [lia|]. apply in_app_iff in H as [H|H]; [apply IHl in H|apply IHr in H]; rewrite app_length in H; simpl in H; lia.
Qed.

(** from the model's trees *)
Lemma filled_splits X h a : no_nan X -> forall cs, filled X cs a -> splits_rows (mx_ncols X) (filter (kept cs) (mx_rows X)) (astree h a).
Proof.
  intros Hn. induction a as [i|i v x l IHl r IHr]; intros cs; cbn [filled astree splits_rows].
  - intros (q&Hq&Hk) E. assert (Hin : In q (filter (kept cs) (mx_rows X))) by (apply filter_In; auto). rewrite E in Hin. destruct Hin.
  - intros ((Hv&(q&Hq&Hk&Ex)&_)&Hl&Hr). split; auto. split; [exists q; split; auto; apply filter_In; auto|].
    assert (Hx : is_nan x = false) by (specialize (Hn q v Hq Hv); rewrite Ex in Hn; destruct x; auto; congruence).
    apply IHl in Hl. apply IHr in Hr. rewrite !filter_twice. split.
    + erewrite filter_ext_in; [exact Hl|]. intros p Hp. cbv beta. rewrite kept_snoc. unfold excluded. cbn [rl_le rl_var rl_val].
      rewrite fgt_negb by (auto; specialize (Hn p v Hp Hv); destruct (cell p v); auto; congruence). now rewrite Bool.negb_involutive.
    + erewrite filter_ext_in; [exact Hr|]. intros p Hp. cbv beta. rewrite kept_snoc. unfold excluded. cbn [rl_le rl_var rl_val].
      rewrite fgt_negb by (auto; specialize (Hn p v Hp Hv); destruct (cell p v); auto; congruence). auto.
Qed.
Lemma filled_splits_all X h As : no_nan X -> Forall (filled X []) As -> Forall (splits_rows (mx_ncols X) (mx_rows X)) (map (astree h) As).
Proof.
  intros Hn H. apply Forall_map. eapply Forall_impl; [|exact H]. intros a Ha. apply (filled_splits X h a Hn) in Ha.
  replace (filter (kept []) (mx_rows X)) with (mx_rows X) in Ha; auto. clear. induction (mx_rows X) as [|q l IH]; [reflexivity|]. change (filter (kept []) (q :: l)) with (q :: filter (kept []) l). now f_equal.
Qed.
Lemma choose_trees_that n (P : list stree -> Prop) : forall ss, (forall e, In e ss -> exists ts, P ts /\ consists_of n e ts) ->
  exists tss, Forall2 (consists_of n) ss tss /\ Forall P tss.
Proof.
  induction ss as [|e ss IH]; intros H; [exists []; auto|]. destruct (H e (or_introl eq_refl)) as (ts&L&C).
  destruct IH as (tss&A&B); [intros; apply H; simpl; auto|]. exists (ts :: tss). auto.
Qed.
Lemma fit_grown b s h X y rs s' : no_nan X -> length y = length (mx_rows X) -> fit b s h X y rs = Ok s' ->
  exists tss, holds_trees (mx_ncols X) s' tss /\
    Forall (fun ts => length ts = pa_ntrees (sk_par s) /\ Forall (splits_rows (mx_ncols X) (mx_rows X)) ts) tss.
Proof.
  intros Hn Hl Hf. destruct (fit_spec _ _ _ _ _ _ _ Hn Hl Hf) as (d&m&es&_&_&_&_&_&_&_&_&HF&Es&_).
  destruct (choose_trees_that (mx_ncols X) (fun ts => length ts = pa_ntrees (sk_par s) /\ Forall (splits_rows (mx_ncols X) (mx_rows X)) ts) (all_samples es)) as (tss&A&B).
  - intros [he sm] Hin. unfold all_samples in Hin. apply in_flat_map in Hin as (e&He&Hin). apply in_map_iff in Hin as (sm'&[= <- <-]&Hsm).
    destruct (forall2_right _ _ _ HF e He) as (r&Hr). destruct Hr as (hs&m0&m'&r'&kept&_&_&_&(_&F2&_)&_&Fs).
    destruct (forall2_in_l _ _ _ F2 sm' Hsm) as (st&Hst&Hs). rewrite Forall_forall in Fs. destruct (Fs st Hst) as (As&ee&Hm&Hfl&_&Ln&_).
    exists (map (astree (m_heap (snd st))) As). split; [split; [|now apply filled_splits_all]|eapply minv_consists; eauto].
    rewrite map_length, <- Ln. apply (ms_len _ _ _ _ _ _ (mi_st _ _ _ _ _ _ Hm)).
  - exists tss. split; auto. exists (all_samples es). auto.
Qed.
