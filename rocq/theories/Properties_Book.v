(** Property C79: see /verif/properties.jsonl. *)
From Coq Require Import Reals Lra Lia ZArith.
From Verif Require Import Base Fl Ext MData MSplit MTree MSampler MModel MModelHist MSklearn Spec SpecTree SpecModel SpecSklearn SpecInvariance SpecBook.
From Verif Require Import LList PHeap PClosed PRel PRel2 PRel3 PInvar PTree PModel PModel2 PModel7 PModel8 PModel12 PSklearn PBook.
From Verif Require Import Properties_Model Properties_Model2 Properties_Sklearn.
Local Open Scope R_scope.

(** ** C79 *)
Lemma tidy_iff m : addresses_ok (m_heap m) <-> tidy m.
Proof.
  unfold addresses_ok, tidy, heap_ok, closed, kids_below. split; intros [A B]; split; auto.
  - intros i n E. specialize (B i n). destruct (nd_kind n); auto.
  - intros i n l r E K. specialize (B i n E). now rewrite K in B.
Qed.
Lemma view_of h ts h' ts' : same_conditions h ts h' ts' -> trees_view h ts = trees_view h' ts'.
Proof.
  intros H. unfold trees_view. induction H as [|t t' ts ts' H _ IH]; auto. cbn [map]. f_equal; auto. clear IH.
  induction H as [|i i' l l' (n&n'&c&s&E1&E2&E3&E4&E5&E6&E7) _ IH]; auto. cbn [map]. f_equal; auto. unfold node_view. rewrite E1, E3, E2, E4, E6, E7. cbn [nsplit_cc]. now rewrite E5.
Qed.
Lemma sample_both h s m h' s' m' : sample_of h s m -> sample_of h' s' m' -> same_ensemble m m' -> same_sample h s h' s'.
Proof.
  intros (A&B&C) (A'&B'&C') (D&E&F). split; [congruence|]. apply view_of in B, B'. split; [congruence|]. intros X. rewrite C, C'. apply F.
Qed.
Lemma ens_sym m m' : same_ensemble m m' -> same_ensemble m' m.
Proof. intros (A&B&C). split; auto. Qed.
Lemma ens_trans m1 m2 m3 : same_ensemble m1 m2 -> same_ensemble m2 m3 -> same_ensemble m1 m3.
Proof. intros (A&B&C) (A'&B'&C'). split; [congruence|]. split; [congruence|]. intros X. now rewrite C. Qed.
Lemma stores_every_of nb q sp i : stores_of (stores_every nb q sp i).
Proof. unfold stores_every, stores_of. destruct (_ <? _); auto. destruct (_ =? _); auto. destruct sp; auto. Qed.
Lemma moved_preds m m' v v' m1 m1' : moved m m' -> model_predict m = Ok (v, m1) -> model_predict m' = Ok (v', m1') -> v' = v.
Proof. intros M E E'. pose proof (moved_predict _ _ M) as H. rewrite E, E' in H. exact H. Qed.
Lemma forall2_nth {A B} (P : A -> B -> Prop) l l' : Forall2 P l l' -> forall k, both P (nth_error l k) (nth_error l' k).
Proof. induction 1; intros [|k]; simpl; auto. Qed.
Lemma both_impl {A B} (P Q : A -> B -> Prop) a b : (forall x y, P x y -> Q x y) -> both P a b -> both Q a b.
Proof. intros H. destruct a, b; simpl; auto. Qed.

(** A run with n_burn burn-in steps, n_samples further steps, 1/thin = q/den' in lowest terms and any choice of what
    is recorded, against the run of n_burn + n_samples steps that starts from the same state with the same draws, has
    no burn-in, keeps every step and records everything.  Both raise the same exception or run out of draws at the
    same point, or both return; then they have used the same draws, hold the same ensemble, and entry number k of
    each trace of the first is entry number n_burn + k*q of that trace of the second, as long as there is one. *)
Theorem C79_selection : forall X y nrm h0 sigma p os m n nb num den q den' (sp sa : bool) r,
  no_nan X -> model_reached X y nrm h0 sigma p os m -> addresses_ok (m_heap m) ->
  (0 < q)%nat -> (0 < den')%nat -> Nat.gcd q den' = 1%nat -> (num * Z.of_nat den' = Z.of_nat q * Zpos den)%Z ->
  same_outcome (fun full part : chain * model * rng =>
      let '(c0, m0, r0) := full in let '(c1, m1, r1) := part in
      r1 = r0 /\ same_ensemble m0 m1 /\
      (forall k, both (fun s s0 => same_sample (m_heap m1) s (m_heap m0) s0) (nth_error (ch_models c1) k) (nth_error (ch_models c0) (nb + k * q))) /\
      (forall k, nth_error (ch_accept c1) k = if sa then nth_error (ch_accept c0) (nb + k * q) else None) /\
      (forall k, nth_error (ch_preds c1) k = if sp then nth_error (ch_preds c0) (nb + k * q) else None))
    (samples m (nb + n) 0 (TInv 1 1) true true r) (samples m n nb (TInv num den) sp sa r).
Proof.
  intros X y nrm h0 sigma p os m n nb num den q den' sp sa r Hn Hr Ha Hq Hd Hg Hqd. apply tidy_iff in Ha.
  destruct (model_reached_spec _ _ _ _ _ _ _ _ Hn Hr) as (As&e&H&_).
  assert (Hz : num <> 0%Z) by nia.
  pose proof (samples_outcome _ _ _ 1 1 true true (nb + n) 0 m As r Hn ltac:(lia) H Ha) as O0.
  pose proof (samples_outcome _ _ _ num den sp sa n nb m As r Hn Hz H Ha) as O1. cbn [Nat.add] in O0.
  destruct (burn (nb + n) m r) as [[mb rb]|eb|]; cbn [same_outcome] in O0, O1.
  2: { destruct (samples m (nb + n) 0 (TInv 1 1) true true r) as [|e0|]; try contradiction. destruct (samples m n nb (TInv num den) sp sa r) as [|e1|]; try contradiction. simpl. congruence. }
  2: { destruct (samples m (nb + n) 0 (TInv 1 1) true true r); try contradiction. destruct (samples m n nb (TInv num den) sp sa r); try contradiction. exact I. }
  destruct (samples m (nb + n) 0 (TInv 1 1) true true r) as [[[c0 m0] r0]| |] eqn:E0; try contradiction.
  destruct (samples m n nb (TInv num den) sp sa r) as [[[c1 m1] r1]| |] eqn:E1; try contradiction. cbn [same_outcome fst snd] in *.
  destruct O0 as [-> M0], O1 as [-> M1]. split; auto.
  split; [eapply ens_trans; [apply ens_sym, moved_ensemble; eauto|apply moved_ensemble; auto]|].
  destruct (C44_aligned _ _ _ _ _ _ _ _ _ _ 1%Z 1%positive 1%nat 1%nat _ _ _ _ _ _ Hn Hr ltac:(lia) ltac:(lia) eq_refl eq_refl E0) as (st0&k0&R0&L0&LK0&N0&F0&A0&P0).
  destruct (C44_aligned _ _ _ _ _ _ _ _ _ _ _ _ _ _ _ _ _ _ _ _ Hn Hr Hq Hd Hg Hqd E1) as (st1&k1&R1&L1&LK1&N1&F1&A1&P1).
  destruct (sampling_moved _ _ _ _ Hn (stores_every_of _ _ _) _ _ _ _ _ _ R0 m As (moved_refl m) H Ha) as (l0&ma&D0&_&G0).
  destruct (sampling_moved _ _ _ _ Hn (stores_every_of _ _ _) _ _ _ _ _ _ R1 m As (moved_refl m) H Ha) as (l1&mc&D1&_&G1).
  destruct (sampling_det _ _ _ _ _ _ D0 _ _ _ D1) as (->&_&_).
  { rewrite (PModel7.Forall2_length _ _ _ G0), (PModel7.Forall2_length _ _ _ G1). lia. }
  (* step number nb + k*q, as the two runs saw it *)
  assert (Lk0 : length k0 = (nb + n)%nat) by (rewrite LK0, Nat.div_1_r; lia).
  assert (Q : forall k, both (fun st st' => fst st = fst st' /\ same_ensemble (snd st) (snd st') /\
              (forall v v' m2 m2', model_predict (snd st) = Ok (v, m2) -> model_predict (snd st') = Ok (v', m2') -> v = v')) (nth_error k1 k) (nth_error k0 (nb + k * q))).
  { intros k. destruct (Nat.lt_ge_cases k (length k1)) as [Hk|Hk].
    - assert (Hk' : (nb + k * q < nb + n)%nat).
      { assert (k * q < n)%nat; [|lia]. rewrite LK1 in Hk. assert (k * q <= n - 1)%nat; [|destruct n; simpl in Hk; [rewrite Nat.div_small in Hk; lia|lia]].
        apply Nat.lt_succ_r. pose proof (Nat.mul_div_le (n + q - 1) q ltac:(lia)). nia. }
      rewrite <- N1 by auto. specialize (N0 (nb + k * q)%nat ltac:(lia)). rewrite Nat.mul_1_r in N0. simpl in N0. rewrite <- N0.
      pose proof (forall2_nth _ _ _ G0 (nb + k * q)%nat) as B0. pose proof (forall2_nth _ _ _ G1 (nb + k * q)%nat) as B1.
      destruct (nth_error l0 (nb + k * q)) as [st|], (nth_error st0 (nb + k * q)) as [s0|], (nth_error st1 (nb + k * q)) as [s1|]; simpl in *; try contradiction; auto.
      destruct B0 as [F0' V0], B1 as [F1' V1]. split; [congruence|]. split; [eapply ens_trans; [apply ens_sym, moved_ensemble; eauto|apply moved_ensemble; auto]|].
      intros v v' m2 m2' Ev Ev'. destruct (model_predict (snd st)) as [[w mw]|ew|] eqn:Ew.
      + rewrite (moved_preds _ _ _ _ _ _ V1 Ew Ev). symmetry. exact (moved_preds _ _ _ _ _ _ V0 Ew Ev').
      + pose proof (moved_predict _ _ V1) as Hm. rewrite Ew, Ev in Hm. contradiction.
      + pose proof (moved_predict _ _ V1) as Hm. rewrite Ew, Ev in Hm. contradiction.
    - rewrite (proj2 (nth_error_None k1 k)) by auto. rewrite (proj2 (nth_error_None k0 _)); [exact I|]. rewrite Lk0.
      assert (n <= k * q)%nat; [|lia]. rewrite LK1 in Hk. pose proof (Nat.mul_succ_div_gt (n + q - 1) q ltac:(lia)). nia. }
  split; [|split].
  - intros k. specialize (Q k). pose proof (forall2_nth _ _ _ F1 k) as B1. pose proof (forall2_nth _ _ _ F0 (nb + k * q)%nat) as B0.
    destruct (nth_error k1 k), (nth_error k0 (nb + k * q)%nat); simpl in Q; try contradiction;
      destruct (nth_error (ch_models c1) k), (nth_error (ch_models c0) (nb + k * q)%nat); simpl in *; try contradiction; auto.
    eapply sample_both; eauto. apply Q.
  - intros k. rewrite A0, A1. specialize (Q k). destruct sa; [|now destruct k]. rewrite !nth_error_map.
    destruct (nth_error k1 k), (nth_error k0 (nb + k * q)%nat); simpl in *; try contradiction; auto. f_equal. apply Q.
  - intros k. specialize (Q k). destruct sp; [|rewrite P1; now destruct k]. pose proof (forall2_nth _ _ _ P1 k) as B1. pose proof (forall2_nth _ _ _ P0 (nb + k * q)%nat) as B0.
    destruct (nth_error k1 k), (nth_error k0 (nb + k * q)%nat); simpl in Q; try contradiction;
      destruct (nth_error (ch_preds c1) k), (nth_error (ch_preds c0) (nb + k * q)%nat); simpl in *; try contradiction; auto.
    destruct Q as (_&_&Q). destruct B1 as (_&(m2&E2)&_), B0 as (_&(m2'&E2')&_). f_equal. eauto.
Qed.
Print Assumptions C79_selection.
(** the addresses are in order at the start of every Python program and stay so *)
Theorem C79_addresses : forall X y nrm h0 sigma p os m,
  addresses_ok h0 -> Forall (fun o => match o with GStep _ | GPredict | GStore => True | _ => False end) os ->
  model_reached X y nrm h0 sigma p os m -> addresses_ok (m_heap m).
Proof.
  intros X y nrm h0 sigma p os m Ha Ho (_&_&m0&E0&Er).
  assert (T0 : tidy m0).
  { unfold start_model in E0. destruct (make_data X y None nrm None None None None) as [d| |]; try discriminate. cbn [rbind] in E0.
    assert (Th : heap_ok h0 /\ closed h0) by (apply (tidy_iff (Md h0 [] d None 0 p)); exact Ha). destruct Th as [W C].
    pose proof (make_model_grows _ _ _ _ _ E0) as [_ G]. pose proof (make_model_tight _ _ _ _ _ E0) as [_ G']. split; auto. }
  apply tidy_iff. clear E0 Ha. revert m0 T0 Er. induction Ho as [|o os Ho _ IH]; intros m0 T0; cbn [model_run]; [now intros [= <-]|].
  destruct (model_do m0 o) as [m1| |] eqn:E; try discriminate. cbn [rbind]. apply IH. clear IH. destruct o; try contradiction; cbn [model_do] in E.
  - destruct (gibbs_step m0 r) as [[[[d acts] m2] r2]| |] eqn:Eg; try discriminate. cbn [rbind] in E. injection E as <-. eapply gibbs_tidy; eauto.
  - destruct (model_predict m0) as [[v m2]| |] eqn:Eg; try discriminate. cbn [rbind] in E. injection E as <-. unfold tidy. now rewrite (model_predict_heap _ _ _ Eg).
  - destruct (deep_copy_model m0) as [[s m2]| |] eqn:Eg; try discriminate. cbn [rbind] in E. injection E as <-. destruct T0 as [W C]. split.
    + unfold deep_copy_model in Eg. destruct (copy_trees (m_heap m0) (m_trees m0)) as [[ts h]| |] eqn:Ec; try discriminate. cbn [rbind] in Eg. injection Eg as _ <-. simpl.
      apply copy_trees_grows in Ec. destruct Ec as [[_ G] _]. auto.
    + apply deep_copy_model_tight in Eg. now apply Eg.
Qed.
Print Assumptions C79_addresses.

Lemma both_all {A B} (P : A -> B -> Prop) : forall l l', (forall k, both P (nth_error l k) (nth_error l' k)) -> Forall2 P l l'.
Proof.
  induction l as [|a l IH]; intros [|b l'] H.
  - constructor.
  - destruct (H 0%nat).
  - destruct (H 0%nat).
  - constructor; [exact (H 0%nat)|]. apply IH. intros k. exact (H (S k)).
Qed.
Lemma lowest num den : (0 < num)%Z -> exists q den', (0 < q)%nat /\ (0 < den')%nat /\ Nat.gcd q den' = 1%nat /\ (num * Z.of_nat den' = Z.of_nat q * Zpos den)%Z.
Proof.
  intros Hz. set (a := Z.to_nat num). set (b := Pos.to_nat den). set (g := Nat.gcd a b).
  assert (Ha : (0 < a)%nat) by (unfold a; lia). assert (Hb : (0 < b)%nat) by (unfold b; lia).
  assert (Hg : (g <> 0)%nat) by (unfold g; intros G; apply Nat.gcd_eq_0 in G; lia).
  destruct (Nat.gcd_divide_l a b) as (x&Hx). destruct (Nat.gcd_divide_r a b) as (w&Hw). fold g in Hx, Hw.
  exists x, w. split; [nia|]. split; [nia|]. split.
  - assert (Hm : (Nat.gcd (x * g) (w * g) = Nat.gcd x w * g)%nat) by apply Nat.gcd_mul_mono_r. rewrite <- Hx, <- Hw in Hm. fold g in Hm. nia.
  - unfold a in Hx. unfold b in Hw. nia.
Qed.
(** What is recorded of a run does not change the run: with other choices for the acceptance trace and the in-sample
    predictions, the same samples are stored. *)
Theorem C79_recording : forall X y nrm h0 sigma p os m n nb num den sp sa sp' sa' r,
  no_nan X -> model_reached X y nrm h0 sigma p os m -> addresses_ok (m_heap m) -> (0 < num)%Z ->
  same_outcome (fun a b : chain * model * rng =>
      let '(c1, m1, r1) := a in let '(c2, m2, r2) := b in
      r2 = r1 /\ same_ensemble m1 m2 /\ Forall2 (fun s1 s2 => same_sample (m_heap m1) s1 (m_heap m2) s2) (ch_models c1) (ch_models c2) /\
      (sa' = sa -> ch_accept c2 = ch_accept c1) /\ (sp' = sp -> ch_preds c2 = ch_preds c1))
    (samples m n nb (TInv num den) sp sa r) (samples m n nb (TInv num den) sp' sa' r).
Proof.
  intros X y nrm h0 sigma p os m n nb num den sp sa sp' sa' r Hn Hr Ha Hz. destruct (lowest num den Hz) as (q&den'&Hq&Hd&Hg&Hqd).
  pose proof (C79_selection _ _ _ _ _ _ _ _ n nb num den q den' sp sa r Hn Hr Ha Hq Hd Hg Hqd) as A.
  pose proof (C79_selection _ _ _ _ _ _ _ _ n nb num den q den' sp' sa' r Hn Hr Ha Hq Hd Hg Hqd) as B.
  destruct (samples m (nb + n) 0 (TInv 1 1) true true r) as [[[c0 m0] r0]|e0|];
    destruct (samples m n nb (TInv num den) sp sa r) as [[[c1 m1] r1]|e1|]; try contradiction;
    destruct (samples m n nb (TInv num den) sp' sa' r) as [[[c2 m2] r2]|e2|]; try contradiction; cbn [same_outcome] in *; try congruence; try exact I.
  destruct A as (->&EA&MA&AA&PA), B as (->&EB&MB&AB&PB). split; auto. split; [eapply ens_trans; [apply ens_sym|]; eauto|]. split; [|split].
  - apply both_all. intros k. specialize (MA k). specialize (MB k).
    destruct (nth_error (ch_models c1) k), (nth_error (ch_models c2) k), (nth_error (ch_models c0) (nb + k * q)); simpl in *; try contradiction; auto.
    destruct MA as (S1&S2&S3), MB as (T1&T2&T3). split; [congruence|]. split; [congruence|]. intros Y. now rewrite S3, T3.
  - intros ->. apply nth_error_ext. intros k. now rewrite AA, AB.
  - intros ->. apply nth_error_ext. intros k. now rewrite PA, PB.
Qed.
Print Assumptions C79_recording.

(** The same for fitted estimators: two estimators that differ only in store_in_sample_predictions and
    store_acceptance_trace, fitted to the same data with the same draws, predict the same for every matrix and have
    the same sigmas; what both record is the same. *)
Theorem C79_fit : forall bk bk' s s' h h' X y rs num den,
  heap_ok h -> heap_ok h' -> no_nan X -> length y = length (mx_rows X) ->
  sk_par s' = sk_par s -> sk_nchains s' = sk_nchains s -> sk_nsamples s' = sk_nsamples s -> sk_nburn s' = sk_nburn s -> sk_thin s' = sk_thin s ->
  sk_thin s = TInv num den -> (0 < num)%Z ->
  same_outcome (fun f f' =>
      (forall X', same_outcome eq (sk_predict f (Some X')) (sk_predict f' (Some X'))) /\
      option_map (map (fun hs => sm_sigma (snd hs))) (sk_samples f') = option_map (map (fun hs => sm_sigma (snd hs))) (sk_samples f) /\
      (sk_store_accept s' = sk_store_accept s -> sk_accept f' = sk_accept f) /\
      (sk_store_preds s' = sk_store_preds s -> same_outcome eq (sk_predict f None) (sk_predict f' None)))
    (fit bk s h X y rs) (fit bk' s' h' X y rs).
Proof.
  intros bk bk' s s' h h' X y rs num den W W' Hn Hl E1 E2 E3 E4 E5 Et Hz.
  pose proof (fit_canon idc ltac:(auto) ltac:(auto) ltac:(auto) ltac:(auto) ltac:(auto) idr eq_refl 1 ltac:(ring) X y y (convert_id X y) bk s h rs W) as L.
  pose proof (fit_canon idc ltac:(auto) ltac:(auto) ltac:(auto) ltac:(auto) ltac:(auto) idr eq_refl 1 ltac:(ring) X y y (convert_id X y) bk' s' h' rs W') as L'.
  rewrite trgs_1, tX_id in L, L'.
  set (rel := fun q q' : chain * data * model => snd (fst q') = snd (fst q) /\
    Forall2 (fun s1 s2 => same_sample (m_heap (snd q)) s1 (m_heap (snd q')) s2) (ch_models (fst (fst q))) (ch_models (fst (fst q'))) /\
    (sk_store_accept s' = sk_store_accept s -> ch_accept (fst (fst q')) = ch_accept (fst (fst q))) /\
    (sk_store_preds s' = sk_store_preds s -> ch_preds (fst (fst q')) = ch_preds (fst (fst q)))).
  assert (C : forall r, same_outcome rel
    (chain_run (sk_par s) (sk_nsamples s) (sk_nburn s) (TInv num den) (sk_store_preds s) (sk_store_accept s) h_empty X y r)
    (chain_run (sk_par s) (sk_nsamples s) (sk_nburn s) (TInv num den) (sk_store_preds s') (sk_store_accept s') h_empty X y r)).
  { intros r. unfold chain_run. destruct (_ || _); [reflexivity|]. destruct (convert_to_data X y) as [d| |] eqn:Ed; cbn [rbind]; try (simpl; auto; fail).
    destruct (make_model h_empty d 1 (sk_par s)) as [m| |] eqn:Em; cbn [rbind]; try (simpl; auto; fail).
    assert (Hr : model_reached X y true h_empty 1 (sk_par s) [] m).
    { split; [auto|]. split; [constructor|]. exists m. split; [|reflexivity]. unfold start_model. unfold convert_to_data in Ed. now rewrite Ed. }
    assert (Ha : addresses_ok (m_heap m)).
    { refine (C79_addresses _ _ _ _ _ _ _ _ _ (Forall_nil _) Hr). split; [intros; reflexivity|intros i n l r0 Hg; discriminate]. }
    pose proof (C79_recording _ _ _ _ _ _ _ _ (sk_nsamples s) (sk_nburn s) num den (sk_store_preds s) (sk_store_accept s) (sk_store_preds s') (sk_store_accept s') r Hn Hr Ha Hz) as Q.
    destruct (samples m _ _ _ (sk_store_preds s) _ r) as [[[c1 m1] r1]| |], (samples m _ _ _ (sk_store_preds s') _ r) as [[[c2 m2] r2]| |]; cbn [same_outcome rbind] in *; auto; try contradiction.
    destruct Q as (_&_&Q1&Q2&Q3). unfold rel. cbn [fst snd]. auto. }
  assert (CL : forall n rs, same_outcome (Forall2 rel)
    (canon_list (sk_par s) (sk_nsamples s) (sk_nburn s) (TInv num den) (sk_store_preds s) (sk_store_accept s) n X y rs)
    (canon_list (sk_par s) (sk_nsamples s) (sk_nburn s) (TInv num den) (sk_store_preds s') (sk_store_accept s') n X y rs)).
  { induction n as [|n IH]; intros rs0; cbn [canon_list]; [simpl; auto|]. destruct rs0 as [|r rs0]; [exact I|]. specialize (C r). specialize (IH rs0).
    destruct (chain_run _ _ _ _ (sk_store_preds s) _ _ _ _ _) as [q| |], (chain_run _ _ _ _ (sk_store_preds s') _ _ _ _ _) as [q'| |]; cbn [same_outcome rbind] in *; auto; try contradiction.
    destruct (canon_list _ _ _ _ (sk_store_preds s) _ _ _ _ _) as [l| |], (canon_list _ _ _ _ (sk_store_preds s') _ _ _ _ _) as [l'| |]; cbn [same_outcome rbind] in *; auto; contradiction. }
  assert (F : same_outcome (fun a b => fst b = fst a /\ Forall2 rel (snd a) (snd b)) (canon_fit_s s X y rs) (canon_fit_s s' X y rs)).
  { unfold canon_fit_s, canon_fit. rewrite E1, E2, E3, E4, E5, Et. destruct (_ || _); [reflexivity|].
    destruct (convert_to_data X y) as [d| |]; cbn [rbind]; try (simpl; auto; fail). destruct (make_model h_empty d 1 (sk_par s)) as [m| |]; cbn [rbind]; try (simpl; auto; fail).
    specialize (CL (sk_nchains s) rs).
    destruct (canon_list _ _ _ _ (sk_store_preds s) _ _ _ _ _) as [l| |], (canon_list _ _ _ _ (sk_store_preds s') _ _ _ _ _) as [l'| |]; cbn [same_outcome rbind] in *; auto; try contradiction.
    inversion CL; subst; simpl; auto. }
  destruct (canon_fit_s s X y rs) as [[d l]|e|], (canon_fit_s s' X y rs) as [[d' l']|e'|]; cbn [same_outcome] in F; try contradiction;
    destruct (fit bk s h X y rs) as [f|e1|]; cbn [same_outcome] in L; try contradiction;
    destruct (fit bk' s' h' X y rs) as [f'|e1'|]; cbn [same_outcome] in L'; try contradiction; cbn [same_outcome]; try congruence; try exact I.
  cbn [fst snd] in F. destruct F as [-> F]. destruct L as (S1&D1&es1&F1&M1&P1&A1), L' as (S2&D2&es2&F2&M2&P2&A2). cbn [fst snd] in *. rewrite tdt_id in D1, D2.
  assert (G : Forall2 (fun e1 e2 : extract => 
     Forall2 (fun s1 s2 => sm_sigma s1 = sm_sigma s2 /\ forall X', sample_predict (fst e1) s1 X' = sample_predict (fst e2) s2 X') (ch_models (snd e1)) (ch_models (snd e2)) /\
    (sk_store_accept s' = sk_store_accept s -> ch_accept (snd e2) = ch_accept (snd e1)) /\
    (sk_store_preds s' = sk_store_preds s -> ch_preds (snd e2) = ch_preds (snd e1))) es1 es2).
  { clear - F F1 F2. revert es1 es2 F1 F2. induction F as [|q q' l l' Q _ IH]; intros es1 es2 F1 F2;
      [inversion F1; inversion F2; constructor|]. inversion F1 as [|? ? ? ? K1 K2]. inversion F2 as [|? ? ? ? K3 K4]. subst. constructor; [|auto]. clear IH.
    destruct Q as (_&Q1&Q2&Q3). destruct K1 as (R1&R2&R3&R4&_), K3 as (T1&T2&T3&T4&_). rewrite sv_1 in R1, R3, T1, T3. unfold ext_of in *. cbn [fst snd] in *.
    split; [|split; [intros; rewrite T2, R2; auto|intros E; rewrite T3, R3, Q3; auto]].
    assert (I : forall l1 l2 l3 l4 : list sample, forall ha hb hc hd, Forall2 (fun s1 s2 => same_sample ha s1 hb s2) l1 l2 -> 
      (forall X, map (fun sm => sample_predict hc sm X) l3 = map (fun sm => sample_predict ha sm X) l1) -> map sm_sigma l3 = map sm_sigma l1 ->
      (forall X, map (fun sm => sample_predict hd sm X) l4 = map (fun sm => sample_predict hb sm X) l2) -> map sm_sigma l4 = map sm_sigma l2 ->
      Forall2 (fun s1 s2 => sm_sigma s1 = sm_sigma s2 /\ forall X', sample_predict hc s1 X' = sample_predict hd s2 X') l3 l4).
    { clear. induction l1 as [|a l1 IH]; intros l2 l3 l4 ha hb hc hd H A B A' B'; inversion H; subst; cbn [map] in *.
      - destruct l3; [|discriminate]. destruct l4; [constructor|discriminate].
      - destruct l3 as [|c l3]; [discriminate|]. destruct l4 as [|d l4]; [discriminate|]. cbn [map] in *. injection B as B0 B. injection B' as B0' B'. destruct H2 as (U1&_&U3). constructor.
        + split; [congruence|]. intros X'. specialize (A X'). specialize (A' X'). injection A as A _. injection A' as A' _. rewrite A, A'. apply U3.
        + eapply IH; eauto; intros X0; [specialize (A X0)|specialize (A' X0)]; [now injection A|now injection A']. }
    refine (I _ _ _ _ _ _ _ _ Q1 _ R4 _ T4).
    - intros X. specialize (R1 X). rewrite tX_id in R1. rewrite R1. apply map_ext. intros sm. apply rmap_id. intros. apply map_id.
    - intros X. specialize (T1 X). rewrite tX_id in T1. rewrite T1. apply map_ext. intros sm. apply rmap_id. intros. apply map_id. }
  apply settings_fields in S1, S2. destruct S1 as (_&_&_&_&_&Z1&_), S2 as (_&_&_&_&_&Z2&_).
  split; [|split; [|split]].
  - intros X'. unfold sk_predict, out_of_sample_predict. rewrite D1, D2, M1, M2. fold (all_of es1). fold (all_of es2).
    replace (predict_samples (all_of es2) X') with (predict_samples (all_of es1) X'); [apply so_refl; auto|].
    rewrite !predict_samples_seq. f_equal. clear - G. induction G as [|e1 e2 es1 es2 (Q&_) _ IH]; auto. unfold all_of in *. cbn [flat_map]. rewrite !map_app, !map_map. cbn [fst snd].
    f_equal; auto. induction Q as [|a b l l' (_&Q) _ IHQ]; auto. cbn [map]. f_equal; auto.
  - rewrite M1, M2. cbn [option_map]. f_equal. clear - G. induction G as [|e1 e2 es1 es2 (Q&_) _ IH]; auto. cbn [flat_map]. rewrite !map_app, !map_map. cbn [snd]. f_equal; auto.
    induction Q as [|a b l l' (Q&_) _ IHQ]; auto. cbn [map]. f_equal; auto.
  - intros E. rewrite A1, A2. f_equal. clear - G E. induction G as [|e1 e2 es1 es2 (_&Q&_) _ IH]; auto. cbn [flat_map]. f_equal; auto.
  - intros E. unfold sk_predict. rewrite Z1, Z2, E, D1, D2, P1, P2.
    replace (flat_map (fun e : extract => ch_preds (snd e)) es2) with (flat_map (fun e : extract => ch_preds (snd e)) es1); [apply so_refl; auto|].
    clear - G E. induction G as [|e1 e2 es1 es2 (_&_&Q) _ IH]; auto. cbn [flat_map]. f_equal; auto. symmetry. auto.
Qed.
Print Assumptions C79_fit.

(** a run of 7 steps after 2 of burn-in, every second kept *)
Example C79_case : exists m r c m' r', mx_fresh m /\ addresses_ok (m_heap m) /\ samples m 7 2 (TInv 2 1) false true r = Ok (c, m', r') /\ length (ch_models c) = 4%nat.
Proof.
  destruct mx_fresh_exists as (m&Hm).
  destruct (mx_samples m 7 2 2 1 false true Hm ltac:(discriminate)) as (r&c&m'&_&E). exists m, r, c, m', (Rng [] [] [] [] []). split; [exact Hm|]. split; [|split; [exact E|]].
  - refine (C79_addresses _ _ _ _ _ _ _ _ _ (Forall_nil _) Hm). split; [intros; reflexivity|intros i n l r0 Hg; discriminate].
  - exact (C43_count _ _ _ _ _ _ _ _ _ _ 2%Z 1%positive 2%nat 1%nat _ _ _ _ _ _ mx_no_nan Hm (Nat.lt_0_succ _) (Nat.lt_0_succ _) eq_refl eq_refl E).
Qed.
Print Assumptions C79_case.

(** ** C80: sampling in several calls *)
Lemma loop_app num den sp sa : forall a b ss m r, sample_loop ss (a + b) num den sp sa m r =
  let! (c1, m1, r1) := sample_loop ss a num den sp sa m r in
  let! (c2, m2, r2) := sample_loop (ss + a) b num den sp sa m1 r1 in Ok (ch_app c1 c2, m2, r2).
Proof.
  induction a as [|a IH]; intros b ss m r; cbn [Nat.add sample_loop rbind].
  - rewrite Nat.add_0_r. destruct (sample_loop ss b num den sp sa m r) as [[[[cm ca cp] m2] r2]| |]; reflexivity.
  - destruct (sample_iter ss num den sp sa m r) as [[[c m1] r1]| |]; cbn [rbind]; auto. rewrite IH.
    destruct (sample_loop (S ss) a num den sp sa m1 r1) as [[[c1 m2] r2]| |]; cbn [rbind]; auto. rewrite Nat.add_succ_r. cbn [Nat.add].
    destruct (sample_loop (S (ss + a)) b num den sp sa m2 r2) as [[[c2 m3] r3]| |]; cbn [rbind]; auto. unfold ch_app. simpl. now rewrite !app_assoc.
Qed.
Lemma loop_phase num den sp sa ss' : (forall k, keeps_sample (ss' + k) num den = keeps_sample k num den) -> forall n k m r,
  sample_loop (ss' + k) n num den sp sa m r = sample_loop k n num den sp sa m r.
Proof.
  intros H. induction n as [|n IH]; intros k m r; auto. cbn [sample_loop]. replace (sample_iter (ss' + k) num den sp sa m r) with (sample_iter k num den sp sa m r).
  - rewrite <- Nat.add_succ_r. destruct (sample_iter k num den sp sa m r) as [[[c m1] r1]| |]; cbn [rbind]; auto. now rewrite IH.
  - unfold sample_iter. now rewrite H.
Qed.
(** Burn-in can be split over two calls, and so can the sampling proper when the first call ends on a multiple of
    1/thin = num/den: the second call, made on the model object the first one worked on, continues as if the first had
    not stopped, and together they return what one call returns. *)
Theorem C80_burn_in : forall m n nb1 nb2 thin sp sa r,
  samples m n (nb1 + nb2) thin sp sa r =
  let! (_, m1, r1) := samples m 0 nb1 (TInv 1 1) sp sa r in samples m1 n nb2 thin sp sa r1.
Proof.
  intros m n nb1 nb2 thin sp sa r. unfold samples. rewrite burn_app. destruct (burn nb1 m r) as [[m1 r1]| |]; cbn [rbind sample_loop fst snd]; auto.
Qed.
Print Assumptions C80_burn_in.
Theorem C80_resumed : forall m a b nb num den sp sa r, (0 < num)%Z -> ((Z.of_nat a * Zpos den) mod num = 0)%Z ->
  samples m (a + b) nb (TInv num den) sp sa r =
  let! (c1, m1, r1) := samples m a nb (TInv num den) sp sa r in
  let! (c2, m2, r2) := samples m1 b 0 (TInv num den) sp sa r1 in
  Ok (Ch (ch_models c1 ++ ch_models c2) (ch_accept c1 ++ ch_accept c2) (ch_preds c1 ++ ch_preds c2), m2, r2).
Proof.
  intros m a b nb num den sp sa r Hz Hm. unfold samples. destruct (burn nb m r) as [[m0 r0]| |]; cbn [rbind]; auto. rewrite loop_app. cbn [Nat.add].
  destruct (sample_loop 0 a num den sp sa m0 r0) as [[[c1 m1] r1]| |]; cbn [rbind burn]; auto.
  replace (sample_loop a b num den sp sa m1 r1) with (sample_loop 0 b num den sp sa m1 r1); [reflexivity|].
  rewrite <- (Nat.add_0_r a) at 1. symmetry. apply loop_phase. intros k. unfold keeps_sample. rewrite Nat2Z.inj_add, Z.mul_add_distr_r.
  apply Zmod_divides in Hm; [|lia]. destruct Hm as (w&->). rewrite Z.add_comm, (Z.mul_comm num w), Z_mod_plus_full. reflexivity.
Qed.
Print Assumptions C80_resumed.
(** otherwise the phase of the thinning starts afresh: with thin = 1/2, two calls of one step keep two samples, one
    call of two steps keeps one *)
Theorem C80_phase_refuted : exists m r c m' r' c1 m1 r1 c2 m2 r2, mx_fresh m /\
  samples m 2 0 (TInv 2 1) true true r = Ok (c, m', r') /\
  samples m 1 0 (TInv 2 1) true true r = Ok (c1, m1, r1) /\ samples m1 1 0 (TInv 2 1) true true r1 = Ok (c2, m2, r2) /\
  length (ch_models c) = 1%nat /\ length (ch_models c1 ++ ch_models c2) = 2%nat.
Proof.
  destruct mx_fresh_exists as (m&Hm).
  destruct (mx_samples m 2 0 2 1 true true Hm ltac:(discriminate)) as (r&c&m'&_&E).
  pose proof E as E0. unfold samples in E0. cbn [burn rbind] in E0. rewrite (loop_app 2 1 true true 1 1) in E0.
  destruct (sample_loop 0 1 2 1 true true m r) as [[[c1 m1] r1]| |] eqn:E1; try discriminate. cbn [rbind] in E0.
  (* the second call differs from the continued one only in what it stores *)
  destruct (gibbs_step m1 r1) as [[[[d acts] m2] r2]| |] eqn:Eg.
  2, 3: cbn [Nat.add sample_loop] in E0; unfold sample_iter in E0; rewrite Eg in E0; discriminate.
  assert (E1' : samples m 1 0 (TInv 2 1) true true r = Ok (c1, m1, r1)) by exact E1.
  destruct (model_reached_spec _ _ _ _ _ _ _ _ mx_no_nan Hm) as (As&e&H&_).
  destruct (samples_spec _ _ e 2 1 2 1 0 true true m As r c1 m1 r1 mx_no_nan H ltac:(discriminate)
    (fun ss => keeps_multiple 2 1 2 1 ss (Nat.lt_0_succ _) (Nat.lt_0_succ _) eq_refl eq_refl) E1') as (_&_&_&_&_&(As1&H1)&_).
  destruct (same_gibbs _ _ _ _ _ _ _ _ _ _ mx_no_nan H1 Eg) as (As2&H2&_).
  destruct (model_predict_spec _ _ _ _ _ mx_no_nan H2) as (v&m3&Ep&_&_&H3&_).
  destruct (deep_copy_model_spec _ _ _ _ _ _ H3) as (s&m4&Ec&_).
  assert (E2 : samples m1 1 0 (TInv 2 1) true true r1 = Ok (Ch [s] [d] [v], m4, r2)).
  { unfold samples. cbn [burn rbind sample_loop]. unfold sample_iter. rewrite Eg. cbn [rbind]. change (2 =? 0)%Z with false. cbn iota.
    change (keeps_sample 0 2 1) with true. cbn iota. rewrite Ep. cbn [rbind]. rewrite Ec. reflexivity. }
  exists m, r, c, m', (Rng [] [] [] [] []), c1, m1, r1, (Ch [s] [d] [v]), m4, r2. split; [exact Hm|]. split; [exact E|]. split; [exact E1'|]. split; [exact E2|].
  rewrite app_length.
  rewrite (C43_count _ _ _ _ _ _ _ _ _ _ 2%Z 1%positive 2%nat 1%nat _ _ _ _ _ _ mx_no_nan Hm (Nat.lt_0_succ _) (Nat.lt_0_succ _) eq_refl eq_refl E).
  rewrite (C43_count _ _ _ _ _ _ _ _ _ _ 2%Z 1%positive 2%nat 1%nat _ _ _ _ _ _ mx_no_nan Hm (Nat.lt_0_succ _) (Nat.lt_0_succ _) eq_refl eq_refl E1').
  split; reflexivity.
Qed.
Print Assumptions C80_phase_refuted.
Example C80_case : exists m r c m' r', mx_fresh m /\ samples m (4 + 3) 2 (TInv 2 1) true true r = Ok (c, m', r').
Proof.
  destruct mx_fresh_exists as (m&Hm). destruct (mx_samples m 7 2 2 1 true true Hm ltac:(discriminate)) as (r&c&m'&_&E). exists m, r, c, m'. eexists. split; [exact Hm|exact E].
Qed.
Print Assumptions C80_case.
