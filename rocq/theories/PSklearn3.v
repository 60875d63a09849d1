(** Fits that succeed, and identities of the methods of a fitted estimator. *)
From Coq Require Import Reals Lra Lia.
From Verif Require Import Base Fl Ext MData MSplit MTree MSampler MHist MTreeHist MModel MModelHist MSklearn Spec SpecTree SpecSampler SpecModel SpecSklearn.
From Verif Require Import LFl LList PData PSplit PDataProps PCond PTree PPred PTreeHist PModel PModel2 PModel7 PModel8 PModel12 PSklearn PSklearn2 Properties_Model Properties_Model2.
Local Open Scope R_scope.

Lemma start_model_ok X y h p a b : length y = length (mx_rows X) -> In a y -> In b y -> a <> b ->
  exists d m, convert_to_data X y = Ok d /\ normalizing_scale (d_y d) <> Raise EAttributeError /\ (exists sc, normalizing_scale (d_y d) = Ok sc) /\
    make_model h d 1 p = Ok m /\ start_model X y true h 1 p = Ok m.
Proof.
  intros Hl Ha Hb Hab. destruct (normalised_range y (repeat false (length y)) a b Ha Hb Hab) as (t&ny&lo&hi&Ht&Hny&Hlen&_&_&_&_&_&_&_&_&_&Hn).
  assert (Hd : exists d, convert_to_data X y = Ok d /\ d_y d = t). { unfold convert_to_data, make_data. rewrite Ht. cbn [rbind]. eexists. split; reflexivity. }
  destruct Hd as (d&Hd&Hdt). assert (Hm : exists m, make_model h d 1 p = Ok m).
  { destruct (start_data _ _ _ _ Hl Hd) as (s&Es&Hs&Esd). unfold make_model, initialize_trees.
    destruct (new_trees_spec X _ d s Es Hs (pa_ntrees p) h) as (h1&->&Hn1&Hold1&Hnew1). cbn [rbind].
    destruct (map (fun q => make_tree [q]) (seq (h_next h) (pa_ntrees p))) as [|t0 ts0] eqn:Ets; [cbn [rbind]; eauto|]. rewrite <- Ets. clear t0 ts0 Ets.
    unfold data_values. rewrite Hdt, Hny. cbn [rbind].
    destruct (init_targets_spec X (map (fun v => v / INR (pa_ntrees p)) ny) ltac:(rewrite map_length; congruence) _ h1 (seq_NoDup (pa_ntrees p) (h_next h))) as (h2&->&_).
    { intros q Hq. apply in_seq in Hq. split; [lia|]. eexists s, _. split; [apply Hnew1; lia|exact Hs]. }
    cbn [rbind]. eauto. }
  destruct Hm as (m&Hm). exists d, m. split; auto. rewrite Hdt, Hn. split; [discriminate|]. split; [eauto|]. split; auto.
  unfold start_model. unfold convert_to_data in Hd. rewrite Hd. exact Hm.
Qed.
Lemma construct_ok s h X y a b : length y = length (mx_rows X) -> mx_rows X <> [] -> mx_ncols X <> 0%nat -> In a y -> In b y -> a <> b ->
  exists d m, construct_model s h X y = Ok (sk_set_model s d m) /\ start_model X y true h 1 (sk_par s) = Ok m.
Proof.
  intros Hl Hx Hc Ha Hb Hab. destruct (start_model_ok X y h (sk_par s) a b Hl Ha Hb Hab) as (d&m&Hd&_&(sc&Hsc)&Hm&Hs). exists d, m. split; auto.
  unfold construct_model. destruct (mx_rows X) as [|r0 rs0] eqn:E; [congruence|]. destruct (mx_ncols X) as [|c] eqn:Ec; [congruence|]. cbn [length Nat.eqb orb].
  now rewrite Hd, <- ?E; cbn [rbind]; rewrite Hsc; cbn [rbind]; rewrite Hm.
Qed.
(** what is needed for a fit that can succeed *)
Definition can_fit (s : sklearn) (X : matrix) (y : list R) : Prop :=
  no_nan X /\ length y = length (mx_rows X) /\ varies X /\ (exists a b, In a y /\ In b y /\ a <> b) /\ sane_params (sk_par s) /\ (0 < pa_limit (sk_par s))%nat /\
  exists num den, sk_thin s = TInv num den /\ num <> 0%Z.
Lemma can_fit_settings s s' X y : settings s' = settings s -> can_fit s X y -> can_fit s' X y.
Proof. intros H. unfold can_fit. destruct (settings_fields _ _ H) as (->&_&_&_&->&_). auto. Qed.
Lemma run_chain_ok s h X y : can_fit s X y -> exists r c s' h', run_chain s h X y r = Ok (c, s', h') /\ settings s' = settings s.
Proof.
  intros (Hn&Hl&Hv&(a&b&Ha&Hb&Hab)&Hp&Hlim&num&den&Ht&Hz).
  assert (Hx : mx_rows X <> [] /\ mx_ncols X <> 0%nat) by (destruct Hv as (v&i&j&H1&H2&_); split; [intros E; rewrite E in H2; simpl in H2; lia|lia]).
  destruct (construct_ok s h X y a b Hl (proj1 Hx) (proj2 Hx) Ha Hb Hab) as (d&m&Ec&Hm).
  assert (Hr : model_reached X y true h 1 (sk_par s) [] m). { split; auto. split; [constructor|]. exists m. split; auto. }
  destruct (C66_samples_possible X y true h 1 (sk_par s) [] m (sk_nsamples s) (sk_nburn s) num den (sk_store_preds s) (sk_store_accept s) Hn Rlt_0_1 Hp Hlim (Forall_nil _) Hr Hv Hz)
    as (r&c&m'&_&Es).
  exists r, c. unfold run_chain. rewrite Ec. cbn [rbind]. cbn [sk_set_model sk_model sk_data]. rewrite Ht. cbn [sk_set_model sk_model sk_data].
  rewrite Es. cbn [rbind]. eexists; eexists. split; [reflexivity|]. reflexivity.
Qed.
Lemma fit_ok b s h X y : can_fit s X y -> sk_nchains s <> 0%nat -> exists rs s', length rs = sk_nchains s /\ fit b s h X y rs = Ok s'.
Proof.
  intros Hc Hk. pose proof Hc as (Hn&Hl&Hv&(a&b'&Ha&Hb&Hab)&_).
  assert (Hx : mx_rows X <> [] /\ mx_ncols X <> 0%nat) by (destruct Hv as (v&i&j&H1&H2&_); split; [intros E; rewrite E in H2; simpl in H2; lia|lia]).
  destruct (construct_ok s h X y a b' Hl (proj1 Hx) (proj2 Hx) Ha Hb Hab) as (d&m&Ec&Hm). unfold fit. rewrite Ec. cbn [rbind].
  set (s1 := sk_set_model s d m) in *. assert (H1 : can_fit s1 X y) by (apply can_fit_settings with s; auto).
  change (sk_model s1) with (Some m). cbv iota. change (sk_nchains s1) with (sk_nchains s).
  assert (G1 : forall n h1 s1, can_fit s1 X y -> exists rs es, length rs = n /\ run_processes (repeat (s1, h1, X, y) n) rs = Ok es /\ length es = n).
  { clear. induction n as [|n IH]; intros h1 s1 H1; [exists [], []; auto|]. destruct (run_chain_ok s1 h1 X y H1) as (r&c&s'&h'&E&_).
    destruct (IH h1 s1 H1) as (rs&es&L&E2&L2). exists (r :: rs), ((h', c) :: es). simpl. rewrite E. cbn [rbind]. rewrite E2. auto. }
  assert (G2 : forall n h1 s1, can_fit s1 X y -> exists rs cs s2 h2, length rs = n /\ run_here n s1 h1 X y rs = Ok (cs, s2, h2) /\ length cs = n).
  { clear. induction n as [|n IH]; intros h1 s1 H1; [exists [], [], s1, h1; auto|]. destruct (run_chain_ok s1 h1 X y H1) as (r&c&s'&h'&E&Hs').
    destruct (IH h' s' (can_fit_settings _ _ _ _ Hs' H1)) as (rs&cs&s2&h2&L&E2&L2). exists (r :: rs), (c :: cs), s2, h2. simpl. rewrite E. cbn [rbind]. rewrite E2. auto. }
  destruct b.
  - destruct (G1 (sk_nchains s) (m_heap m) s1 H1) as (rs&es&L&E&L2). exists rs. rewrite E. cbn [rbind]. unfold store_chains, combine_chains.
    destruct es as [|e es]; [simpl in L2; congruence|]. cbn [rbind]. eauto.
  - destruct (G2 (sk_nchains s) (m_heap m) s1 H1) as (rs&cs&s2&h2&L&E&L2). exists rs. rewrite E. cbn [rbind]. unfold store_chains, combine_chains.
    destruct cs as [|e es]; [simpl in L2; congruence|]. cbn [map rbind]. eauto.
Qed.
