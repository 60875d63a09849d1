(** Property C105: see /verif/properties.jsonl. *)
From Coq Require Import Reals Lra Lia Permutation.
From Verif Require Import Base Fl Ext MData MSplit MTree MSampler MModel MModelHist MSklearn MFeatures MDiag MObSklearn Spec SpecModel SpecSklearn SpecInvariance SpecColumn SpecObSklearn SpecChains.
From Verif Require Import PRel PRel2 PRel3 PInvar PSklearn PDiag PChains Properties_Model Properties_Model2 Properties_Sklearn Properties_Invariance Properties_Column Properties_ObSklearn.
Local Open Scope R_scope.

Lemma each_same {A B} (P : A -> B -> Prop) l l' : Forall2 (same_outcome P) l l' -> same_outcome (Forall2 P) (each l) (each l').
Proof.
  induction 1 as [|m m' l l' H F IH]; [simpl; constructor|]. cbn [each]. destruct m, m'; cbn [same_outcome rbind] in *; try contradiction; auto. destruct (each l), (each l'); cbn [same_outcome rbind] in *; try contradiction; auto.
Qed.
Lemma follows_sigmas f tx s s' : follows f tx s s' -> sigmas s' = sigmas s.
Proof. intros (_&_&_&H&_). unfold sigmas. destruct (sk_samples s), (sk_samples s'); simpl in *; congruence. Qed.
Lemma made_follows fs fs' f f' : Forall2 (follows (fun v => v) (fun X => X)) fs fs' -> follows (fun v => v) (fun X => X) f' f -> made_of fs' f' -> made_of fs f.
Proof.
  intros F Ff (A&B&C). split; [|split].
  - intros X. specialize (A X). replace (each (map (fun g => sk_predict g (Some X)) fs)) with (each (map (fun g => sk_predict g (Some X)) fs')).
    + destruct Ff as (_&P&_). specialize (P X). apply same_eq in P. rewrite P. exact A.
    + apply each_ext. clear - F. induction F as [|g g' fs fs' H F IH]; constructor; auto. destruct H as (_&P&_). specialize (P X). now apply same_eq in P.
  - rewrite (follows_sigmas _ _ _ _ Ff), B. clear - F. induction F as [|g g' fs fs' H F IH]; auto. cbn [flat_map]. now rewrite (follows_sigmas _ _ _ _ H), IH.
  - destruct Ff as (_&_&P&_). rewrite P, C. clear - F. induction F as [|g g' fs fs' H F IH]; auto. cbn [flat_map]. destruct H as (_&_&P&_). now rewrite P, IH.
Qed.

(** ** C105: running k chains is running k estimators and averaging *)
(** The outcome of a fit with several chains is that of as many fits with one chain each, made one after the other with
    the same draws: the first that fails decides, and if none does, the fitted object is made of theirs. *)
Theorem C105_chains : forall bk s h X y rs, heap_ok h -> sk_nchains s = length rs -> rs <> [] ->
  match each (map (fun r => fit bk (one_chain s) h X y [r]) rs) with
  | Ok fs => exists f, fit bk s h X y rs = Ok f /\ made_of fs f
  | Raise e => fit bk s h X y rs = Raise e
  | NoDraws => fit bk s h X y rs = NoDraws
  end.
Proof.
  intros bk s h X y rs W N Hne. pose proof (fit_each s h_empty X y rs N Hne) as H.
  assert (E : same_outcome (Forall2 (follows (fun v => v) (fun X => X))) (each (map (fun r => fit bk (one_chain s) h X y [r]) rs)) (each (map (fun r => fit Processes (one_chain s) h_empty X y [r]) rs))).
  { apply each_same. clear - W. induction rs as [|r rs IH]; constructor; auto. apply follow_settings; auto using h_empty_ok. repeat split. }
  pose proof (follow_settings Processes bk s s h_empty h X y rs h_empty_ok W ltac:(repeat split)) as G.
  destruct (each (map (fun r => fit bk (one_chain s) h X y [r]) rs)) as [fs|e|], (each (map (fun r => fit Processes (one_chain s) h_empty X y [r]) rs)) as [fs'|e'|]; cbn [same_outcome] in E; try contradiction.
  - destruct H as (f'&Hf'&M). rewrite Hf' in G. destruct (fit bk s h X y rs) as [f| |]; try contradiction. exists f. split; auto. eapply made_follows; eauto.
  - subst e'. rewrite H in G. destruct (fit bk s h X y rs); try contradiction. cbn [same_outcome] in G. now subst.
  - rewrite H in G. destruct (fit bk s h X y rs); try contradiction. reflexivity.
Qed.
Print Assumptions C105_chains.
Theorem C105_chains_oblivious : forall bk s h X y rs, heap_ok h -> sk_nchains s = length rs -> rs <> [] ->
  match each (map (fun r => ob_fit bk (one_chain s) h X y [r]) rs) with
  | Ok fs => exists f, ob_fit bk s h X y rs = Ok f /\ made_of fs f
  | Raise e => ob_fit bk s h X y rs = Raise e
  | NoDraws => ob_fit bk s h X y rs = NoDraws
  end.
Proof.
  intros bk s h X y rs W N Hne. pose proof (ob_fit_each s h_empty X y rs N Hne) as H.
  assert (E : same_outcome (Forall2 (follows (fun v => v) (fun X => X))) (each (map (fun r => ob_fit bk (one_chain s) h X y [r]) rs)) (each (map (fun r => ob_fit Processes (one_chain s) h_empty X y [r]) rs))).
  { apply each_same. clear - W. induction rs as [|r rs IH]; constructor; auto. apply ob_follow_settings; auto using h_empty_ok. repeat split. }
  pose proof (ob_follow_settings Processes bk s s h_empty h X y rs h_empty_ok W ltac:(repeat split)) as G.
  destruct (each (map (fun r => ob_fit bk (one_chain s) h X y [r]) rs)) as [fs|e|], (each (map (fun r => ob_fit Processes (one_chain s) h_empty X y [r]) rs)) as [fs'|e'|]; cbn [same_outcome] in E; try contradiction.
  - destruct H as (f'&Hf'&M). rewrite Hf' in G. destruct (ob_fit bk s h X y rs) as [f| |]; try contradiction. exists f. split; auto. eapply made_follows; eauto.
  - subst e'. rewrite H in G. destruct (ob_fit bk s h X y rs); try contradiction. cbn [same_outcome] in G. now subst.
  - rewrite H in G. destruct (ob_fit bk s h X y rs); try contradiction. reflexivity.
Qed.
Print Assumptions C105_chains_oblivious.

(** predict() without X averages, too *)
Lemma each_in {A} : forall (l : list (res A)) xs, each l = Ok xs -> Forall2 (fun m x => m = Ok x) l xs.
Proof.
  induction l as [|m l IH]; intros xs; cbn [each]; [intros [= <-]; constructor|]. destruct m; try discriminate. cbn [rbind]. destruct (each l); try discriminate. intros [= <-]. constructor; auto.
Qed.
Theorem C105_in_sample : forall bk s h X y rs fs, heap_ok h -> sk_nchains s = length rs -> rs <> [] ->
  clean X -> length y = length (mx_rows X) -> sk_store_preds s = true ->
  each (map (fun r => fit bk (one_chain s) h X y [r]) rs) = Ok fs ->
  exists f, fit bk s h X y rs = Ok f /\
  match each (map (fun g => sk_predict g None) fs) with
  | Ok vs => exists v, sk_predict f None = Ok v /\ length v = length y /\ average_of vs v
  | Raise e => sk_predict f None = Raise e
  | NoDraws => sk_predict f None = NoDraws
  end.
Proof.
  intros bk s h X y rs fs W N Hne Hc Hl Hs E. pose proof (C105_chains bk s h X y rs W N Hne) as H. rewrite E in H. destruct H as (f&Hf&M&_). exists f. split; auto. specialize (M X).
  rewrite (C49_predict_is_predict_train bk s h X y rs f Hc Hl Hf Hs). replace (map (fun g => sk_predict g None) fs) with (map (fun g => sk_predict g (Some X)) fs); [now rewrite Hl|].
  apply each_in in E. apply map_ext_in. intros g I. assert (exists r, fit bk (one_chain s) h X y [r] = Ok g) as (r&Er).
  { clear - E I. remember (map (fun r => fit bk (one_chain s) h X y [r]) rs) as l eqn:El. revert rs El. induction E as [|m g' l fs Hm F IH]; intros rs El; [destruct I|]. destruct rs as [|r rs]; [discriminate|]. injection El as -> El. destruct I as [->|I]; eauto. }
  symmetry. exact (C49_predict_is_predict_train bk (one_chain s) h X y [r] g Hc Hl Er Hs).
Qed.
Print Assumptions C105_in_sample.

(** ** the order of the chains *)
Lemma each_perm {A} (l l' : list (res A)) : Permutation l l' -> forall xs, each l = Ok xs -> exists xs', each l' = Ok xs' /\ Permutation xs xs'.
Proof.
  induction 1 as [|m l l' P IH|m m' l|l l1 l2 P1 IH1 P2 IH2]; intros xs.
  - exists xs. auto.
  - cbn [each]. destruct m; try discriminate. cbn [rbind]. destruct (each l) as [ys| |]; try discriminate. intros [= <-]. destruct (IH ys eq_refl) as (ys'&->&Q). cbn [rbind]. eauto.
  - cbn [each]. destruct m, m'; cbn [rbind]; try discriminate; destruct (each l) as [ys| |]; cbn [rbind]; try discriminate. intros [= <-]. eexists. split; [reflexivity|constructor].
  - intros E. destruct (IH1 _ E) as (ys&E1&Q1). destruct (IH2 _ E1) as (zs&E2&Q2). exists zs. split; auto. etransitivity; eauto.
Qed.
Lemma mean_perm l l' : Permutation l l' -> mean l = mean l'.
Proof. intros P. unfold mean. now rewrite (rsum_perm _ _ P), (Permutation_length P). Qed.
Lemma flat_map_perm {A B} (f : A -> list B) l l' : Permutation l l' -> Permutation (flat_map f l) (flat_map f l').
Proof.
  induction 1; cbn [flat_map]; auto.
  - now apply Permutation_app_head.
  - rewrite !app_assoc. apply Permutation_app_tail, Permutation_app_comm.
  - etransitivity; eauto.
Qed.
Lemma made_perm fs fs' f f' : Permutation fs fs' -> made_of fs f -> made_of fs' f' ->
  (forall X v, sk_predict f (Some X) = Ok v -> sk_predict f' (Some X) = Ok v) /\ Permutation (sigmas f) (sigmas f') /\ Permutation (listed (sk_accept f)) (listed (sk_accept f')).
Proof.
  intros P (A&B&C) (A'&B'&C'). split; [|split].
  - intros X v E. specialize (A X). specialize (A' X). rewrite E in A. destruct (each (map (fun g => sk_predict g (Some X)) fs)) as [vs| |] eqn:Ev; try discriminate.
    destruct A as (v0&[= <-]&L&F&H). destruct (each_perm _ _ (Permutation_map (fun g => sk_predict g (Some X)) P) _ Ev) as (vs'&Ev'&Q). rewrite Ev' in A'. destruct A' as (v'&E'&L'&F'&H').
    rewrite E'. f_equal. apply (nth_ext _ _ 0 0); [congruence|]. intros i Hi. rewrite H' by auto. rewrite H by congruence. apply mean_perm, Permutation_map, Permutation_sym, Q.
  - rewrite B, B'. now apply flat_map_perm.
  - rewrite C, C'. now apply flat_map_perm.
Qed.
(** The order in which the chains' draws come changes no prediction, and only the order of the samples. *)
Theorem C105_chain_order : forall bk s h X y rs rs' f, heap_ok h -> sk_nchains s = length rs -> rs <> [] -> Permutation rs rs' -> fit bk s h X y rs = Ok f ->
  exists f', fit bk s h X y rs' = Ok f' /\ (forall X' v, sk_predict f (Some X') = Ok v -> sk_predict f' (Some X') = Ok v) /\
  Permutation (sigmas f) (sigmas f') /\ Permutation (listed (sk_accept f)) (listed (sk_accept f')).
Proof.
  intros bk s h X y rs rs' f W N Hne P E. pose proof (C105_chains bk s h X y rs W N Hne) as H.
  pose proof (C105_chains bk s h X y rs' W ltac:(now rewrite <- (Permutation_length P)) ltac:(intros ->; apply Permutation_sym, Permutation_nil in P; contradiction)) as H'.
  destruct (each (map (fun r => fit bk (one_chain s) h X y [r]) rs)) as [fs| |] eqn:Ef; [|rewrite E in H; discriminate..]. destruct H as (f0&Hf0&M). rewrite E in Hf0. injection Hf0 as <-.
  destruct (each_perm _ _ (Permutation_map (fun r => fit bk (one_chain s) h X y [r]) P) _ Ef) as (fs'&Ef'&Q). rewrite Ef' in H'. destruct H' as (f'&Hf'&M'). exists f'. split; auto. eapply made_perm; eauto.
Qed.
Print Assumptions C105_chain_order.
Theorem C105_chain_order_oblivious : forall bk s h X y rs rs' f, heap_ok h -> sk_nchains s = length rs -> rs <> [] -> Permutation rs rs' -> ob_fit bk s h X y rs = Ok f ->
  exists f', ob_fit bk s h X y rs' = Ok f' /\ (forall X' v, sk_predict f (Some X') = Ok v -> sk_predict f' (Some X') = Ok v) /\
  Permutation (sigmas f) (sigmas f') /\ Permutation (listed (sk_accept f)) (listed (sk_accept f')).
Proof.
  intros bk s h X y rs rs' f W N Hne P E. pose proof (C105_chains_oblivious bk s h X y rs W N Hne) as H.
  pose proof (C105_chains_oblivious bk s h X y rs' W ltac:(now rewrite <- (Permutation_length P)) ltac:(intros ->; apply Permutation_sym, Permutation_nil in P; contradiction)) as H'.
  destruct (each (map (fun r => ob_fit bk (one_chain s) h X y [r]) rs)) as [fs| |] eqn:Ef; [|rewrite E in H; discriminate..]. destruct H as (f0&Hf0&M). rewrite E in Hf0. injection Hf0 as <-.
  destruct (each_perm _ _ (Permutation_map (fun r => ob_fit bk (one_chain s) h X y [r]) P) _ Ef) as (fs'&Ef'&Q). rewrite Ef' in H'. destruct H' as (f'&Hf'&M'). exists f'. split; auto. eapply made_perm; eauto.
Qed.
Print Assumptions C105_chain_order_oblivious.

Lemma ex_predicts bk rs f : fit bk ex_sk ex_empty mx_X mx_y rs = Ok f -> exists v, sk_predict f (Some mx_X) = Ok v /\ length v = 3%nat.
Proof.
  intros Hf. destruct (C50_one_in_k bk ex_sk _ mx_X mx_y rs f 2 mx_no_nan eq_refl Hf eq_refl ltac:(lia)) as (ss&Hss&Hlen).
  destruct (C50_mean_of_samples bk ex_sk _ mx_X mx_y rs f mx_X mx_no_nan eq_refl Hf (le_n _)) as (lo&hi&ss'&ps&_&Hss'&_&_&_&H). rewrite Hss in Hss'. injection Hss' as <-.
  change (length ss = 6%nat) in Hlen. destruct H as (v&Hv&Hl&_); [intros ->; discriminate|]. eauto.
Qed.
(** two chains of three samples each: two estimators of one chain, averaged, in either order *)
Example C105_case : forall bk, exists r1 r2 f g1 g2 f' v v1 v2, fit bk ex_sk ex_empty mx_X mx_y [r1; r2] = Ok f /\
  fit bk (one_chain ex_sk) ex_empty mx_X mx_y [r1] = Ok g1 /\ fit bk (one_chain ex_sk) ex_empty mx_X mx_y [r2] = Ok g2 /\
  fit bk ex_sk ex_empty mx_X mx_y [r2; r1] = Ok f' /\
  sk_predict g1 (Some mx_X) = Ok v1 /\ sk_predict g2 (Some mx_X) = Ok v2 /\ sk_predict f (Some mx_X) = Ok v /\ sk_predict f' (Some mx_X) = Ok v /\
  length v = 3%nat /\ nth 0 v 0 = (nth 0 v1 0 + nth 0 v2 0) / 2.
Proof.
  intros bk. destruct (C66_fit_possible bk ex_sk ex_empty mx_X mx_y 2 1) as (rs&f&Lr&Hf); try reflexivity; try exact mx_sane; try discriminate; try (simpl; lia); try exact mx_no_nan.
  - exists 0%nat, 1%nat, 2%nat. repeat split; simpl; try lia; discriminate.
  - exists 1, 2. simpl. repeat split; auto. lra.
  - change (sk_nchains ex_sk) with 2%nat in Lr. destruct rs as [|r1 [|r2 [|r3 rs]]]; try discriminate. clear Lr.
    pose proof (C105_chains bk ex_sk ex_empty mx_X mx_y [r1; r2] ex_heap_ok eq_refl ltac:(discriminate)) as H.
    destruct (C105_chain_order bk ex_sk ex_empty mx_X mx_y [r1; r2] [r2; r1] f ex_heap_ok eq_refl ltac:(discriminate) (perm_swap _ _ _) Hf) as (f'&Hf'&O&_).
    cbn [map each] in H. destruct (fit bk (one_chain ex_sk) ex_empty mx_X mx_y [r1]) as [g1| |] eqn:E1; cbn [rbind] in H; [|rewrite Hf in H; discriminate..].
    destruct (fit bk (one_chain ex_sk) ex_empty mx_X mx_y [r2]) as [g2| |] eqn:E2; cbn [rbind] in H; [|rewrite Hf in H; discriminate..]. destruct H as (f0&Hf0&M&_). rewrite Hf in Hf0. injection Hf0 as <-.
    destruct (ex_predicts bk _ f Hf) as (v&Hv&Lv). specialize (M mx_X). cbn [map each] in M.
    destruct (sk_predict g1 (Some mx_X)) as [v1| |] eqn:P1; cbn [rbind] in M; [|rewrite Hv in M; discriminate..]. destruct (sk_predict g2 (Some mx_X)) as [v2| |] eqn:P2; cbn [rbind] in M; [|rewrite Hv in M; discriminate..].
    destruct M as (v0&Hv0&_&_&Nv). rewrite Hv in Hv0. injection Hv0 as <-. exists r1, r2, f, g1, g2, f', v, v1, v2. repeat (split; [solve [auto]|]). rewrite Nv by lia. unfold mean, rsum. simpl. lra.
Qed.
