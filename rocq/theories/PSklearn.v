(** Facts about fitted SklearnModel objects. *)
From Coq Require Import Reals Lra Permutation ZArith.
From Verif Require Import Base Fl Ext MData MSplit MTree MSampler MHist MTreeHist MModel MModelHist MSklearn Spec SpecTree SpecSampler SpecModel LFl LList
  PData PSplit PDataProps PCond PTree PPred PTreeHist PTreeProps PTreeProps2 PSampler PSampler2 PSampler3
  PModel PModel2 PModel3 PModel4 PModel5 PModel6 PModel7 PModel8 PModel9 PModel10 PModel11 PModel12.

(** ** any 1/thin keeps the multiples of some number *)
Lemma keeps_some num den : num <> 0%Z -> exists q, 0 < q /\ forall ss, keeps_sample ss num den = (ss mod q =? 0).
Proof.
  intros Hz. set (g := Z.gcd num (Zpos den)).
  assert (Hg : (0 < g)%Z) by (unfold g; pose proof (Z.gcd_nonneg num (Zpos den)); destruct (Z.eq_dec (Z.gcd num (Zpos den)) 0) as [E|]; [apply Z.gcd_eq_0_l in E|]; lia).
  destruct (Z.gcd_divide_l num (Zpos den)) as (a&Ha). destruct (Z.gcd_divide_r num (Zpos den)) as (b&Hb). fold g in Ha, Hb.
  assert (Hb0 : (0 < b)%Z) by nia. assert (Ha0 : a <> 0%Z) by nia.
  assert (Hab : Z.gcd a b = 1%Z).
  { pose proof (Z.gcd_mul_mono_r_nonneg a b g ltac:(lia)) as E. rewrite <- Ha, <- Hb in E. fold g in E. apply (Z.mul_reg_r _ _ g); lia. }
  exists (Z.to_nat (Z.abs a)). split; [lia|]. intros ss. unfold keeps_sample.
  apply eq_true_iff_eq. rewrite Z.eqb_eq, Nat.eqb_eq.
  assert (H1 : ((Z.of_nat ss * Zpos den) mod num = 0 <-> (a | Z.of_nat ss))%Z).
  { rewrite Z.mod_divide by auto. rewrite Ha, Hb. split.
    - intros (k&Hk). apply Z.gauss with b; [|auto]. exists k. nia.
    - intros (k&Hk). exists (k * b)%Z. rewrite Hk. ring. }
  rewrite H1. rewrite Nat.mod_divide by lia. split.
  - intros H. apply Z.divide_abs_l in H. destruct H as (k&Hk). exists (Z.to_nat k). nia.
  - intros (k&Hk). apply Z.divide_abs_l. exists (Z.of_nat k). subst ss. rewrite Nat2Z.inj_mul, Z2Nat.id by lia. reflexivity.
Qed.

(** ** where new objects are *)
Lemma node_update_next : forall fuel h i y h', node_update_y fuel h i y = Ok h' -> h_next h' = h_next h.
Proof.
  induction fuel as [|f IH]; intros h i y h'; cbn [node_update_y]; [discriminate|].
  destruct (h_get h i) as [n|]; [|discriminate]. destruct (set_node_y n y) as [n'|]; [|discriminate].
  destruct (nd_kind n) as [v|l r]; [now intros [= <-]|].
  destruct (node_update_y f (h_set h i n') l y) as [h2| |] eqn:E; try discriminate. cbn [rbind]. intros E2.
  apply IH in E. apply IH in E2. simpl in E. congruence.
Qed.
Lemma tree_update_next h t y h' t' : tree_update_y h t y = Ok (h', t') -> h_next h' = h_next h.
Proof.
  unfold tree_update_y. generalize (S (length (tr_nodes t))). intros f. destruct (nodes_update_y f h (tr_nodes t) y) as [h1| |] eqn:E; try discriminate. cbn [rbind].
  intros [= <- _]. revert h h1 E. generalize (tr_nodes t). induction l as [|i l IH]; intros h h1; cbn [nodes_update_y]; [now intros [= <-]|].
  destruct (node_update_y f h i y) as [h2| |] eqn:E1; try discriminate. cbn [rbind]. intros E. apply IH in E. apply node_update_next in E1. congruence.
Qed.
Lemma init_targets_next y : forall ts h h' ts', init_targets h ts y = Ok (h', ts') -> h_next h' = h_next h.
Proof.
  induction ts as [|t ts IH]; intros h h' ts'; cbn [init_targets]; [now intros [= <- _]|].
  destruct (tree_update_y h t (Some y)) as [[h1 t1]| |] eqn:E1; try discriminate. cbn [rbind].
  destruct (tree_update_y h1 t1 None) as [[h2 t2]| |] eqn:E2; try discriminate. cbn [rbind].
  destruct (init_targets h2 ts y) as [[h3 ts3]| |] eqn:E3; try discriminate. cbn [rbind]. intros [= <- _].
  apply tree_update_next in E1. apply tree_update_next in E2. apply IH in E3. congruence.
Qed.
Lemma new_trees_next d : forall n h h' ts, new_trees n h d = Ok (h', ts) -> h_next h <= h_next h'.
Proof.
  induction n as [|n IH]; intros h h' ts; cbn [new_trees]; [intros [= <- _]; lia|].
  destruct (make_split d) as [s| |]; try discriminate. cbn [rbind]. unfold h_alloc. cbv iota beta.
  match goal with |- context [new_trees n ?h1 d] => destruct (new_trees n h1 d) as [[h2 ts2]| |] eqn:E end; try discriminate.
  cbn [rbind]. intros [= <- _]. apply IH in E. simpl in E. lia.
Qed.
Lemma start_model_next X y nrm h0 sigma p m : start_model X y nrm h0 sigma p = Ok m -> h_next h0 <= h_next (m_heap m).
Proof.
  unfold start_model. destruct (make_data X y None nrm None None None None) as [d| |]; try discriminate. cbn [rbind]. unfold make_model, initialize_trees.
  destruct (new_trees (pa_ntrees p) h0 d) as [[h1 ts]| |] eqn:E; try discriminate. cbn [rbind]. apply new_trees_next in E.
  destruct ts as [|t ts]; [cbn [rbind]; intros [= <-]; auto|]. destruct (data_values d) as [ys| |]; try discriminate. cbn [rbind].
  match goal with |- context [init_targets h1 ?l ?v] => destruct (init_targets h1 l v) as [[h2 ts2]| |] eqn:E2 end; try discriminate. cbn [rbind].
  intros [= <-]. simpl. apply init_targets_next in E2. lia.
Qed.

(** ** states along a sampling run *)
Definition ok_state (X : matrix) (y : list R) (p : params) (m : model) : Prop :=
  exists As e, minv X y None e m As /\ m_par m = p /\ length (m_trees m) = pa_ntrees p.
Lemma sampling_states X y p stores : no_nan X -> (forall i, Forall (sane_model_op (pa_ntrees p)) (stores i)) ->
  forall i m r l m' r', sampling stores i m r l m' r' -> ok_state X y p m -> Forall (fun st => ok_state X y p (snd st)) l.
Proof.
  intros Hn Hs. induction 1 as [|i m r d acts m1 r1 m2 l m' r' Hg Hm H IH]; intros (As&e&Hi&Hp&Hl); constructor; auto.
  - destruct (same_gibbs _ _ _ _ _ _ _ _ _ _ Hn Hi Hg) as (As1&H1&S1). exists As1, e. simpl. split; auto. split; [transitivity (m_par m); auto; apply S1|].
    rewrite <- Hl. apply S1.
  - apply IH. destruct (same_gibbs _ _ _ _ _ _ _ _ _ _ Hn Hi Hg) as (As1&H1&S1).
    assert (Hl1 : length (m_trees m1) = pa_ntrees p) by (rewrite <- Hl; apply S1).
    specialize (Hs i). rewrite <- Hl1 in Hs. destruct (model_run_spec _ _ Hn _ _ _ _ _ H1 Hs Hm) as (As2&e2&H2&S2&_).
    exists As2, e2. split; auto. split; [|rewrite <- Hl1; apply S2]. transitivity (m_par m1); [apply S2|]. transitivity (m_par m); auto. apply S1.
Qed.
Lemma sampling_sampled X y p stores : no_nan X -> (forall i, Forall sampler_op (stores i)) ->
  forall i m r l m' r', sampling stores i m r l m' r' -> sampled_model X y p m -> Forall (fun st => sampled_model X y p (snd st)) l.
Proof.
  intros Hn Hs. induction 1 as [|i m r d acts m1 r1 m2 l m' r' Hg Hm H IH]; intros Hi; constructor.
  - simpl. apply (sampled_model_do X y p m (GStep r) m1 Hn Hi I). cbn [model_do]. rewrite Hg. reflexivity.
  - apply IH. eapply sampled_model_run; [exact Hn| |apply (Hs i)|exact Hm]. apply (sampled_model_do X y p m (GStep r) m1 Hn Hi I). cbn [model_do]. rewrite Hg. reflexivity.
Qed.
Lemma stores_sampler nb q sp i : Forall sampler_op (stores_every nb q sp i).
Proof. unfold stores_every. destruct (i <? nb); auto. destruct (_ =? _); auto. destruct sp; repeat constructor. Qed.
Lemma stores_sane n nb q sp i : Forall (sane_model_op n) (stores_every nb q sp i).
Proof. unfold stores_every. destruct (i <? nb); auto. destruct (_ =? _); auto. destruct sp; repeat constructor. Qed.

(** ** what one chain stores *)
Lemma every_in {A} q (l : list A) : forall i x, In x (every_from q i l) -> In x l.
Proof. induction l as [|a l IH]; intros i x; simpl; auto. destruct (i mod q =? 0); simpl; [intros [<-|H]|intros H]; eauto. Qed.
Definition chain_facts (X : matrix) (ys : list R) (p : params) (sp sa : bool) (h : heap) (c : chain) (kept : list (list (skey * R) * model)) : Prop :=
  Forall (fun st => ok_state X ys p (snd st)) kept /\
  Forall2 (fun s st => sample_of h s (snd st)) (ch_models c) kept /\
  ch_accept c = (if sa then map fst kept else []) /\
  (if sp then Forall2 (preds_of X) (ch_preds c) kept else ch_preds c = []).
Lemma samples_facts X y h0 sigma p n nb th sp sa m r c m' r' : no_nan X -> length y = length (mx_rows X) ->
  start_model X y true h0 sigma p = Ok m -> samples m n nb th sp sa r = Ok (c, m', r') ->
  exists kept, chain_facts X (start_target y true) p sp sa (m_heap m') c kept /\
    (forall num den q, th = TInv num den -> num <> 0%Z -> 0 < q -> (forall ss, keeps_sample ss num den = (ss mod q =? 0)) ->
       length kept = (n + q - 1) / q) /\
    Forall (PModel7.stored m') (ch_models c) /\ same m m' /\
    ((0 < sigma)%R -> mx_rows X <> [] -> Forall (fun st => sampled_model X (start_target y true) p (snd st)) kept).
Proof.
  intros Hn Hl Hm Hs. destruct (start_model_spec _ _ _ _ _ _ _ Hl Hm) as (H&Ht&_&_&_&Hp&_).
  assert (Hok : ok_state X (start_target y true) p m).
  { eexists; eexists; split; [exact H|]. split; auto. rewrite Ht, map_length. apply seq_length. }
  destruct th as [|num den].
  { unfold samples in Hs. destruct (burn nb m r) as [[m1 r1]| |]; discriminate. }
  destruct (Z.eq_dec num 0) as [->|Hz].
  - exists []. unfold samples in Hs. destruct (burn nb m r) as [[m1 r1]| |] eqn:Eb; try discriminate. cbn [rbind] in Hs.
    destruct (burn_same _ _ _ Hn _ _ _ _ _ _ H Eb) as (As1&H1&S1). destruct n as [|n]; cbn [sample_loop] in Hs.
    + injection Hs as <- <- <-. split; [|split; [congruence|split; [constructor|split; [auto|constructor]]]]. repeat split; try constructor; [now destruct sa|destruct sp; [constructor|auto]].
    + exfalso. unfold sample_iter in Hs. destruct (gibbs_step m1 r1) as [[[[? ?] ?] ?]| |]; cbn [rbind] in Hs; try discriminate.
  - destruct (keeps_some num den Hz) as (q&Hq&Hk).
    destruct (samples_spec X _ _ num den q n nb sp sa m _ r c m' r' Hn H Hz Hk Hs) as (l&lb&Hsm&Llb&Ll&_&Same&Hmod&Ha&Hpr).
    exists (every_from q 0 l). split; [|split; [|split; [|split; [exact Same|]]]].
    + split; [|split; [|split; auto]].
      * assert (HF := sampling_states X _ p _ Hn (stores_sane _ _ _ _) _ _ _ _ _ _ Hsm Hok). rewrite Forall_forall in *. intros st Hst.
        apply HF. apply in_app_iff. right. eapply every_in; eauto.
      * eapply Forall2_impl_in; [|exact Hmod]. intros a b _ _ [Hab _]. exact Hab.
    + intros num' den' q' [= <- <-] _ Hq' Hk'.
      assert (q' = q) as ->.
      { pose proof (Hk q) as E1. rewrite Hk', Nat.mod_same in E1 by lia. pose proof (Hk' q') as E2. rewrite Hk, Nat.mod_same in E2 by lia.
        simpl in E1, E2. apply Nat.eqb_eq in E1, E2. apply Nat.mod_divide in E1; [|lia]. apply Nat.mod_divide in E2; [|lia]. now apply Nat.divide_antisym. }
      rewrite every_length by auto. now rewrite Ll.
    + apply Forall_forall. intros s Hs'. clear - Hs' Hmod. induction Hmod as [|a b la lb [_ Hab] _ IH]; [destruct Hs'|]. destruct Hs' as [<-|Hs']; auto.
    + intros Hsg Hx. pose proof (sampled_model_start _ _ _ _ _ _ _ Hl Hx Hsg Hm) as Hm0.
      assert (HF := sampling_sampled X _ p _ Hn (stores_sampler _ _ _) _ _ _ _ _ _ Hsm Hm0). rewrite Forall_forall in *. intros st Hst.
      apply HF. apply in_app_iff. right. eapply every_in; eauto.
Qed.

(** ** what fit stores *)
Definition chain_ran (s : sklearn) (X : matrix) (y : list R) (e : extract) (r : rng) : Prop :=
  exists hs m m' r' kept, start_model X y true hs 1%R (sk_par s) = Ok m /\
    samples m (sk_nsamples s) (sk_nburn s) (sk_thin s) (sk_store_preds s) (sk_store_accept s) r = Ok (snd e, m', r') /\
    (forall sm, In sm (ch_models (snd e)) -> forall X', sample_predict (fst e) sm X' = sample_predict (m_heap m') sm X') /\
    chain_facts X (start_target y true) (sk_par s) (sk_store_preds s) (sk_store_accept s) (fst e) (snd e) kept /\
    (forall num den q, sk_thin s = TInv num den -> num <> 0%Z -> 0 < q -> (forall ss, keeps_sample ss num den = (ss mod q =? 0)) ->
       length kept = (sk_nsamples s + q - 1) / q) /\
    Forall (fun st => sampled_model X (start_target y true) (sk_par s) (snd st)) kept.
(** the settings of an estimator *)
Definition settings (s : sklearn) := (sk_par s, sk_nchains s, sk_nsamples s, sk_nburn s, sk_thin s, sk_store_preds s, sk_store_accept s).
Lemma construct_spec s h X y s' : construct_model s h X y = Ok s' ->
  mx_rows X <> [] /\ mx_ncols X <> 0 /\ settings s' = settings s /\ exists d m, convert_to_data X y = Ok d /\ start_model X y true h 1%R (sk_par s) = Ok m /\ m_data m = d /\
    sk_data s' = Some d /\ sk_model s' = Some m /\ sk_samples s' = sk_samples s /\ sk_preds s' = sk_preds s /\ sk_accept s' = sk_accept s.
Proof.
  unfold construct_model. destruct (length (mx_rows X) =? 0) eqn:E1; [discriminate|]. destruct (mx_ncols X =? 0) eqn:E2; [discriminate|]. simpl orb. cbv iota.
  apply Nat.eqb_neq in E1, E2. destruct (convert_to_data X y) as [d| |] eqn:Ed; try discriminate. cbn [rbind].
  destruct (normalizing_scale (d_y d)) as [sc| |] eqn:En; try discriminate. cbn [rbind].
  destruct (make_model h d 1%R (sk_par s)) as [m| |] eqn:Em; try discriminate. cbn [rbind]. intros [= <-].
  split; [intros E; rewrite E in E1; auto|]. split; auto. split; [reflexivity|]. exists d, m. split; auto.
  split; [unfold start_model; unfold convert_to_data in Ed; rewrite Ed; exact Em|]. split; [|repeat split; auto].
  unfold make_model in Em. destruct (initialize_trees h d _) as [[h1 ts]| |]; try discriminate. now injection Em as <-.
Qed.
(** old objects are left alone by a whole chain *)
Lemma chain_frame X y h0 p n nb th sp sa m r c m' r' : no_nan X -> length y = length (mx_rows X) ->
  start_model X y true h0 1%R p = Ok m -> samples m n nb th sp sa r = Ok (c, m', r') ->
  h_next h0 <= h_next (m_heap m') /\ forall q, q < h_next h0 -> h_get (m_heap m') q = h_get h0 q.
Proof.
  intros Hn Hl Hm Hs. destruct (samples_facts _ _ _ _ _ _ _ _ _ _ _ _ _ _ _ Hn Hl Hm Hs) as (kept&_&_&_&(_&_&_&Hk&Hk')&_).
  pose proof (start_model_next _ _ _ _ _ _ _ Hm). destruct (start_model_spec _ _ _ _ _ _ _ Hl Hm) as (_&Ht&_&Hold&_).
  split; [lia|]. intros q Hq. rewrite <- Hold by auto. apply Hk'; [lia|]. intros (t&Hin&Hq'). rewrite Ht in Hin. apply in_map_iff in Hin as (k&<-&Hk0).
  apply in_seq in Hk0. destruct Hq' as [<-|[]]. lia.
Qed.
Lemma sample_frame h h' s : (forall q, owns s q -> h_get h' q = h_get h q) -> forall X, sample_predict h' s X = sample_predict h s X.
Proof. intros H X. apply trees_predict_out_ext. apply Forall2_refl_in. intros t Ht. apply tree_predict_out_frame. intros q Hq. apply H. exists t. auto. Qed.
Lemma settings_fields s s' : settings s' = settings s -> sk_par s' = sk_par s /\ sk_nchains s' = sk_nchains s /\ sk_nsamples s' = sk_nsamples s /\
  sk_nburn s' = sk_nburn s /\ sk_thin s' = sk_thin s /\ sk_store_preds s' = sk_store_preds s /\ sk_store_accept s' = sk_store_accept s.
Proof. unfold settings. intros [= H1 H2 H3 H4 H5 H6 H7]. repeat split; auto. Qed.
Lemma run_chain_spec s h X y r c s' h' : no_nan X -> length y = length (mx_rows X) -> run_chain s h X y r = Ok (c, s', h') ->
  settings s' = settings s /\ chain_ran s X y (h', c) r /\ (exists d m, convert_to_data X y = Ok d /\ sk_data s' = Some d /\ sk_model s' = Some m /\ m_data m = d) /\
  (h_next h <= h_next h' /\ forall q, q < h_next h -> h_get h' q = h_get h q) /\ (forall sm q, In sm (ch_models c) -> owns sm q -> q < h_next h').
Proof.
  intros Hn Hl. unfold run_chain. destruct (construct_model s h X y) as [s1| |] eqn:Ec; try discriminate. cbn [rbind].
  destruct (construct_spec _ _ _ _ _ Ec) as (Hx&_&Hset&d&m&Hd&Hm&Hmd&Hsd&Hsm&_). rewrite Hsm, Hsd.
  destruct (samples m _ _ _ _ _ r) as [[[c1 m1] r1]| |] eqn:Es; try discriminate. cbn [rbind]. intros [= <- <- <-].
  destruct (samples_facts _ _ _ _ _ _ _ _ _ _ _ _ _ _ _ Hn Hl Hm Es) as (kept&Hf&Hcount&Hst&Same&Hsam).
  split; [exact Hset|]. split; [|split; [|split]].
  - exists h, m, m1, r1, kept. split; auto. split; auto. split; auto. split; auto. split; auto. apply Hsam; auto. lra.
  - exists d, m1. split; auto. split; [reflexivity|]. split; [reflexivity|]. rewrite <- Hmd. apply Same.
  - eapply chain_frame; eauto.
  - intros sm q Hin Hq. rewrite Forall_forall in Hst. apply (Hst sm Hin q Hq).
Qed.
Lemma chain_ran_later s X y h c h' r : chain_ran s X y (h, c) r -> (forall sm q, In sm (ch_models c) -> owns sm q -> h_get h' q = h_get h q) ->
  chain_ran s X y (h', c) r.
Proof.
  intros (hs&m&m'&r'&kept&H1&H2&H3&(F1&F2&F3&F4)&H5) Hh. exists hs, m, m', r', kept. simpl in *.
  assert (Hp : forall sm, In sm (ch_models c) -> forall X', sample_predict h' sm X' = sample_predict h sm X').
  { intros sm Hin. apply sample_frame. intros q Hq. eapply Hh; eauto. }
  split; auto. split; auto. split; [intros sm Hin X'; rewrite Hp by auto; auto|]. split; auto.
  split; auto. split; [|split; auto]. simpl. eapply Forall2_impl_in; [|exact F2]. intros sm st Hin _ (A&B&C). split; auto. split; [|intros X'; simpl; now rewrite Hp].
  eapply Forall2_impl_in; [|exact B]. intros t t' Ht _ Hc. eapply Forall2_impl_in; [|exact Hc]. intros i i' Hi _ (n&n'&cc&s'&E).
  exists n, n', cc, s'. rewrite (Hh sm i); auto. exists t. auto.
Qed.
Lemma chain_ran_settings s s' X y e r : settings s' = settings s -> chain_ran s' X y e r -> chain_ran s X y e r.
Proof. intros H. unfold chain_ran. destruct (settings_fields _ _ H) as (->&_&->&->&->&->&->). auto. Qed.
Lemma run_processes_spec X y s h : no_nan X -> length y = length (mx_rows X) -> forall n rs es,
  run_processes (repeat (s, h, X, y) n) rs = Ok es -> length es = n /\ n <= length rs /\ Forall2 (chain_ran s X y) es (firstn n rs).
Proof.
  intros Hn Hl. induction n as [|n IH]; intros rs es; cbn [repeat run_processes]; [intros [= <-]; simpl; split; auto; split; [lia|constructor]|].
  destruct rs as [|r rs]; [discriminate|]. destruct (run_chain s h X y r) as [[[c s1] h1]| |] eqn:E; try discriminate. cbn [rbind].
  destruct (run_processes (repeat (s, h, X, y) n) rs) as [es'| |] eqn:E'; try discriminate. cbn [rbind]. intros [= <-].
  destruct (IH _ _ E') as (L&Lr&HF). simpl. split; [congruence|]. split; [lia|]. constructor; auto. now apply run_chain_spec in E as (_&H&_).
Qed.
Lemma run_here_spec X y : no_nan X -> length y = length (mx_rows X) -> forall n s h rs cs s' h',
  run_here n s h X y rs = Ok (cs, s', h') -> length cs = n /\ n <= length rs /\ settings s' = settings s /\
  Forall2 (fun c r => chain_ran s X y (h', c) r) cs (firstn n rs) /\
  (h_next h <= h_next h' /\ forall q, q < h_next h -> h_get h' q = h_get h q) /\
  (n = 0 /\ s' = s \/ exists d m, convert_to_data X y = Ok d /\ sk_data s' = Some d /\ sk_model s' = Some m /\ m_data m = d).
Proof.
  intros Hn Hl. induction n as [|n IH]; intros s h rs cs s' h'; cbn [run_here].
  { intros E; injection E as <- <- <-. simpl. split; [auto|]. split; [lia|]. split; [auto|]. split; [constructor|]. split; [split; auto|]. left; auto. }
  destruct rs as [|r rs]; [discriminate|]. destruct (run_chain s h X y r) as [[[c s1] h1]| |] eqn:E; try discriminate. cbn [rbind].
  destruct (run_here n s1 h1 X y rs) as [[[cs2 s2] h2]| |] eqn:E'; try discriminate. cbn [rbind]. intros [= <- <- <-].
  destruct (run_chain_spec _ _ _ _ _ _ _ _ Hn Hl E) as (Hset&Hran&Hdat&(Hnx&Hold)&Hown).
  destruct (IH _ _ _ _ _ _ E') as (L&Lr&Hset2&HF&(Hnx2&Hold2)&Hdat2). simpl.
  split; [congruence|]. split; [lia|]. split; [congruence|]. split; [|split].
  - constructor.
    + eapply chain_ran_later; [exact Hran|]. intros sm q Hin Hq. apply Hold2. eapply Hown; eauto.
    + eapply Forall2_impl_in; [|exact HF]. intros a b _ _ H. eapply chain_ran_settings; eauto.
  - split; [lia|]. intros q Hq. rewrite Hold2, Hold; auto; lia.
  - right. destruct Hdat2 as [[-> ->]|H]; auto.
Qed.
Lemma fit_spec b s h X y rs s' : no_nan X -> length y = length (mx_rows X) -> fit b s h X y rs = Ok s' ->
  exists d m es, convert_to_data X y = Ok d /\ sk_data s' = Some d /\ sk_model s' = Some m /\ m_data m = d /\
    settings s' = settings s /\ length es = sk_nchains s /\ es <> [] /\ sk_nchains s <= length rs /\
    Forall2 (chain_ran s X y) es (firstn (sk_nchains s) rs) /\
    sk_samples s' = Some (flat_map (fun e : extract => map (fun sm => (fst e, sm)) (ch_models (snd e))) es) /\
    sk_preds s' = Some (flat_map (fun e : extract => ch_preds (snd e)) es) /\ sk_accept s' = Some (flat_map (fun e : extract => ch_accept (snd e)) es).
Proof.
  intros Hn Hl. unfold fit. destruct (construct_model s h X y) as [s1| |] eqn:Ec; try discriminate. cbn [rbind].
  destruct (construct_spec _ _ _ _ _ Ec) as (_&_&Hset&d&m&Hd&Hm&Hmd&Hsd&Hsm&_). rewrite Hsm.
  destruct (settings_fields _ _ Hset) as (_&Hnc&_). rewrite Hnc.
  assert (Hstore : forall s2 es, store_chains s2 es = Ok s' -> es <> [] /\ settings s' = settings s2 /\ sk_data s' = sk_data s2 /\ sk_model s' = sk_model s2 /\
    sk_samples s' = Some (flat_map (fun e : extract => map (fun sm => (fst e, sm)) (ch_models (snd e))) es) /\
    sk_preds s' = Some (flat_map (fun e : extract => ch_preds (snd e)) es) /\ sk_accept s' = Some (flat_map (fun e : extract => ch_accept (snd e)) es)).
  { intros s2 es. unfold store_chains, combine_chains. destruct es as [|e es]; [discriminate|]. cbn [rbind]. intros [= <-].
    split; [discriminate|]. repeat (split; [reflexivity|]). reflexivity. }
  destruct b.
  - destruct (run_processes _ rs) as [es| |] eqn:E; try discriminate. cbn [rbind]. intros Hs. destruct (Hstore _ _ Hs) as (Hne&Hset'&Hda&Hmo&H1&H2&H3).
    destruct (run_processes_spec X y s1 _ Hn Hl _ _ _ E) as (L&Lr&HF). exists d, m, es. split; auto. split; [congruence|]. split; [congruence|]. split; auto.
    split; [congruence|]. split; auto. split; auto. split; auto. split; auto. eapply Forall2_impl_in; [|exact HF]. intros a r _ _ H. eapply chain_ran_settings; eauto.
  - destruct (run_here _ s1 _ X y rs) as [[[cs s2] h2]| |] eqn:E; try discriminate. cbn [rbind]. intros Hs. destruct (Hstore _ _ Hs) as (Hne&Hset'&Hda&Hmo&H1&H2&H3).
    destruct (run_here_spec X y Hn Hl _ _ _ _ _ _ _ E) as (L&Lr&Hset2&HF&_&Hdat).
    destruct Hdat as [[Hz _]|(d2&m2&Hd2&Hsd2&Hsm2&Hmd2)]; [exfalso; destruct cs; [apply Hne; reflexivity|simpl in L; lia]|].
    exists d2, m2, (map (fun c => (h2, c)) cs). split; auto. split; [congruence|]. split; [congruence|]. split; auto.
    split; [congruence|]. split; [now rewrite map_length|]. split; auto. split; auto. split; auto.
    assert (HF' : Forall2 (fun c r => chain_ran s X y (h2, c) r) cs (firstn (sk_nchains s) rs))
      by (eapply Forall2_impl_in; [|exact HF]; intros a r _ _ H; eapply chain_ran_settings; eauto).
    clear - HF'. induction HF'; simpl; constructor; auto.
Qed.
