(** Estimators fitted with the oblivious tree sampler: what a fit stores, what it predicts, fits that succeed. *)
From Coq Require Import Reals Lra Permutation ZArith Lia.
From Verif Require Import Base Fl Ext MData MSplit MTree MSampler MHist MTreeHist MModel MModelHist MSklearn MOblivious MObModel MObSklearn Spec SpecTree SpecSampler SpecModel SpecSklearn SpecOblivious SpecObModel LFl LList
  PData PSplit PDataProps PCond PTree PPred PTreeHist PTreeProps PTreeProps2 PSampler PSampler2 PSampler3 PModel PModel2 PModel3 PModel4 PModel5 PModel6 PModel7 PModel8 PModel9 PModel10 PModel11 PModel12
  PSklearn PSklearn2 PSklearn3 POblivious POblivious2 POblivious3 POblivious4 POblivious5 PObModel PObModel2 PObModel3 PObModel4 PObModel5 Properties_Oblivious Properties_ObModel.

Definition ob_stable (X : matrix) (y : list R) (p : params) (m : model) : Prop :=
  exists e, einv X y None e m /\ m_par m = p /\ length (m_trees m) = pa_ntrees p.
Lemma ob_sampling_states X y p stores : no_nan X -> (forall i, Forall sane_ob_model_op (stores i)) ->
  forall i m r l m' r', ob_sampling stores i m r l m' r' -> udraws r -> ob_stable X y p m -> Forall (fun st => ob_stable X y p (snd st)) l.
Proof.
  intros Hn Hs. induction 1 as [|i m r d acts m1 r1 m2 l m' r' Hg Hm H IH]; intros Hu (e&Hi&Hp&Hl); constructor; auto.
  - destruct (ob_same_gibbs _ _ _ _ _ _ _ _ _ Hn Hi Hu Hg) as (H1&S1&_). exists e. simpl. split; auto. split; [transitivity (m_par m); auto; apply S1|].
    rewrite <- Hl. apply S1.
  - destruct (ob_same_gibbs _ _ _ _ _ _ _ _ _ Hn Hi Hu Hg) as (H1&S1&Hu1). apply IH; auto.
    destruct (ob_run_spec _ _ Hn _ _ _ _ H1 (sane_ok _ (Hs i)) Hm) as (e2&H2&S2&_).
    assert (Hl1 : length (m_trees m1) = pa_ntrees p) by (rewrite <- Hl; apply S1).
    exists e2. split; auto. split; [|rewrite <- Hl1; apply S2]. transitivity (m_par m1); [apply S2|]. transitivity (m_par m); auto. apply S1.
Qed.
Lemma ob_stores_sane nb q sp i : Forall sane_ob_model_op (ob_stores_every nb q sp i).
Proof. unfold ob_stores_every. destruct (i <? nb); auto. destruct (_ =? _); auto. destruct sp; repeat constructor. Qed.
Definition ob_chain_facts (X : matrix) (ys : list R) (p : params) (sp sa : bool) (h : heap) (c : chain) (kept : list (list (skey * R) * model)) : Prop :=
  Forall (fun st => ob_stable X ys p (snd st)) kept /\
  Forall2 (fun s st => sample_of h s (snd st)) (ch_models c) kept /\
  ch_accept c = (if sa then map fst kept else []) /\
  (if sp then Forall2 (opreds_of X) (ch_preds c) kept else ch_preds c = []).
Lemma ob_samples_facts X y h0 sigma p n nb th sp sa m r c m' r' : no_nan X -> length y = length (mx_rows X) -> udraws r ->
  start_model X y true h0 sigma p = Ok m -> ob_samples m n nb th sp sa r = Ok (c, m', r') ->
  exists kept, ob_chain_facts X (start_target y true) p sp sa (m_heap m') c kept /\
    (forall num den q, th = TInv num den -> num <> 0%Z -> 0 < q -> (forall ss, keeps_sample ss num den = (ss mod q =? 0)) ->
       length kept = (n + q - 1) / q) /\
    Forall (PModel7.stored m') (ch_models c) /\ same m m'.
Proof.
  intros Hn Hl Hu Hm Hs. destruct (estart _ _ _ _ _ _ _ Hl Hm) as (H&Ht&Hp&_).
  assert (Hok : ob_stable X (start_target y true) p m).
  { eexists; split; [exact H|]. auto. }
  destruct th as [|num den].
  { unfold ob_samples in Hs. destruct (ob_burn nb m r) as [[m1 r1]| |]; discriminate. }
  destruct (Z.eq_dec num 0) as [->|Hz].
  - exists []. unfold ob_samples in Hs. destruct (ob_burn nb m r) as [[m1 r1]| |] eqn:Eb; try discriminate. cbn [rbind] in Hs.
    destruct (ob_burn_same _ _ _ Hn _ _ _ _ _ H Hu Eb) as (H1&S1&_). destruct n as [|n]; cbn [ob_sample_loop] in Hs.
    + injection Hs as <- <- <-. split; [|split; [congruence|split; [constructor|auto]]]. repeat split; try constructor; [now destruct sa|destruct sp; [constructor|auto]].
    + exfalso. unfold ob_sample_iter in Hs. destruct (ob_gibbs_step m1 r1) as [[[[? ?] ?] ?]| |]; cbn [rbind] in Hs; try discriminate.
  - destruct (keeps_some num den Hz) as (q&Hq&Hk).
    destruct (ob_samples_spec X _ _ num den q n nb sp sa m r c m' r' Hn H Hu Hz Hk Hs) as (l&lb&Hsm&Llb&Ll&_&Same&Hmod&Ha&Hpr).
    exists (every_from q 0 l). split; [|split; [|split; auto]].
    + split; [|split; [|split; auto]].
      * assert (HF := ob_sampling_states X _ p _ Hn (ob_stores_sane _ _ _) _ _ _ _ _ _ Hsm Hu Hok). rewrite Forall_forall in *. intros st Hst.
        apply HF. apply in_app_iff. right. eapply every_in; eauto.
      * eapply Forall2_impl_in; [|exact Hmod]. intros a b _ _ [Hab _]. exact Hab.
    + intros num' den' q' [= <- <-] _ Hq' Hk'.
      assert (q' = q) as ->.
      { pose proof (Hk q) as E1. rewrite Hk', Nat.mod_same in E1 by lia. pose proof (Hk' q') as E2. rewrite Hk, Nat.mod_same in E2 by lia.
        simpl in E1, E2. apply Nat.eqb_eq in E1, E2. apply Nat.mod_divide in E1; [|lia]. apply Nat.mod_divide in E2; [|lia]. now apply Nat.divide_antisym. }
      rewrite every_length by auto. now rewrite Ll.
    + apply Forall_forall. intros s Hs'. clear - Hs' Hmod. induction Hmod as [|a b la lb [_ Hab] _ IH]; [destruct Hs'|]. destruct Hs' as [<-|Hs']; auto.
Qed.

(** ** what fit stores *)
Definition ob_chain_ran (s : sklearn) (X : matrix) (y : list R) (e : extract) (r : rng) : Prop :=
  exists hs m m' r' kept, start_model X y true hs 1%R (sk_par s) = Ok m /\
    ob_samples m (sk_nsamples s) (sk_nburn s) (sk_thin s) (sk_store_preds s) (sk_store_accept s) r = Ok (snd e, m', r') /\
    (forall sm, In sm (ch_models (snd e)) -> forall X', sample_predict (fst e) sm X' = sample_predict (m_heap m') sm X') /\
    ob_chain_facts X (start_target y true) (sk_par s) (sk_store_preds s) (sk_store_accept s) (fst e) (snd e) kept /\
    (forall num den q, sk_thin s = TInv num den -> num <> 0%Z -> 0 < q -> (forall ss, keeps_sample ss num den = (ss mod q =? 0)) ->
       length kept = (sk_nsamples s + q - 1) / q).
(** old objects are left alone by a whole chain *)
Lemma ob_chain_frame X y h0 p n nb th sp sa m r c m' r' : no_nan X -> length y = length (mx_rows X) -> udraws r ->
  start_model X y true h0 1%R p = Ok m -> ob_samples m n nb th sp sa r = Ok (c, m', r') ->
  h_next h0 <= h_next (m_heap m') /\ forall q, q < h_next h0 -> h_get (m_heap m') q = h_get h0 q.
Proof.
  intros Hn Hl Hu Hm Hs. destruct (ob_samples_facts _ _ _ _ _ _ _ _ _ _ _ _ _ _ _ Hn Hl Hu Hm Hs) as (kept&_&_&_&(_&_&_&Hk&Hk')).
  pose proof (start_model_next _ _ _ _ _ _ _ Hm). destruct (start_model_spec _ _ _ _ _ _ _ Hl Hm) as (_&Ht&_&Hold&_).
  split; [lia|]. intros q Hq. rewrite <- Hold by auto. apply Hk'; [lia|]. intros (t&Hin&Hq'). rewrite Ht in Hin. apply in_map_iff in Hin as (k&<-&Hk0).
  apply in_seq in Hk0. destruct Hq' as [<-|[]]. lia.
Qed.
Lemma ob_run_chain_spec s h X y r c s' h' : no_nan X -> length y = length (mx_rows X) -> udraws r -> ob_run_chain s h X y r = Ok (c, s', h') ->
  settings s' = settings s /\ ob_chain_ran s X y (h', c) r /\ (exists d m, convert_to_data X y = Ok d /\ sk_data s' = Some d /\ sk_model s' = Some m /\ m_data m = d) /\
  (h_next h <= h_next h' /\ forall q, q < h_next h -> h_get h' q = h_get h q) /\ (forall sm q, In sm (ch_models c) -> owns sm q -> q < h_next h').
Proof.
  intros Hn Hl Hu. unfold ob_run_chain. destruct (construct_model s h X y) as [s1| |] eqn:Ec; try discriminate. cbn [rbind].
  destruct (construct_spec _ _ _ _ _ Ec) as (_&_&Hset&d&m&Hd&Hm&Hmd&Hsd&Hsm&_). rewrite Hsm, Hsd.
  destruct (ob_samples m _ _ _ _ _ r) as [[[c1 m1] r1]| |] eqn:Es; try discriminate. cbn [rbind]. intros [= <- <- <-].
  destruct (ob_samples_facts _ _ _ _ _ _ _ _ _ _ _ _ _ _ _ Hn Hl Hu Hm Es) as (kept&Hf&Hcount&Hst&Same).
  split; [exact Hset|]. split; [|split; [|split]].
  - exists h, m, m1, r1, kept. split; auto.
  - exists d, m1. split; auto. split; [reflexivity|]. split; [reflexivity|]. rewrite <- Hmd. apply Same.
  - eapply ob_chain_frame; eauto.
  - intros sm q Hin Hq. rewrite Forall_forall in Hst. apply (Hst sm Hin q Hq).
Qed.
Lemma ob_chain_later s X y h c h' r : ob_chain_ran s X y (h, c) r -> (forall sm q, In sm (ch_models c) -> owns sm q -> h_get h' q = h_get h q) ->
  ob_chain_ran s X y (h', c) r.
Proof.
  intros (hs&m&m'&r'&kept&H1&H2&H3&(F1&F2&F3&F4)&H5) Hh. exists hs, m, m', r', kept. simpl in *.
  assert (Hp : forall sm, In sm (ch_models c) -> forall X', sample_predict h' sm X' = sample_predict h sm X').
  { intros sm Hin. apply sample_frame. intros q Hq. eapply Hh; eauto. }
  split; auto. split; auto. split; [intros sm Hin X'; rewrite Hp by auto; auto|]. split; auto.
  split; auto. split; [|split; auto]. simpl. eapply Forall2_impl_in; [|exact F2]. intros sm st Hin _ (A&B&C). split; auto. split; [|intros X'; simpl; now rewrite Hp].
  eapply Forall2_impl_in; [|exact B]. intros t t' Ht _ Hc. eapply Forall2_impl_in; [|exact Hc]. intros i i' Hi _ (n&n'&cc&s'&E).
  exists n, n', cc, s'. rewrite (Hh sm i); auto. exists t. auto.
Qed.
Lemma ob_chain_ran_settings s s' X y e r : settings s' = settings s -> ob_chain_ran s' X y e r -> ob_chain_ran s X y e r.
Proof. intros H. unfold ob_chain_ran. destruct (settings_fields _ _ H) as (->&_&->&->&->&->&->). auto. Qed.
Lemma ob_run_processes_spec X y s h : no_nan X -> length y = length (mx_rows X) -> forall n rs es, Forall udraws rs ->
  ob_run_processes (repeat (s, h, X, y) n) rs = Ok es -> length es = n /\ n <= length rs /\ Forall2 (ob_chain_ran s X y) es (firstn n rs).
Proof.
  intros Hn Hl. induction n as [|n IH]; intros rs es Hu; cbn [repeat ob_run_processes]; [intros [= <-]; simpl; split; auto; split; [lia|constructor]|].
  destruct rs as [|r rs]; [discriminate|]. inversion Hu as [|? ? Hu1 Hu2]; subst. destruct (ob_run_chain s h X y r) as [[[c s1] h1]| |] eqn:E; try discriminate. cbn [rbind].
  destruct (ob_run_processes (repeat (s, h, X, y) n) rs) as [es'| |] eqn:E'; try discriminate. cbn [rbind]. intros [= <-].
  destruct (IH _ _ Hu2 E') as (L&Lr&HF). simpl. split; [congruence|]. split; [lia|]. constructor; auto. now apply (ob_run_chain_spec _ _ _ _ _ _ _ _ Hn Hl Hu1) in E as (_&H&_).
Qed.
Lemma ob_run_here_spec X y : no_nan X -> length y = length (mx_rows X) -> forall n s h rs cs s' h', Forall udraws rs ->
  ob_run_here n s h X y rs = Ok (cs, s', h') -> length cs = n /\ n <= length rs /\ settings s' = settings s /\
  Forall2 (fun c r => ob_chain_ran s X y (h', c) r) cs (firstn n rs) /\
  (h_next h <= h_next h' /\ forall q, q < h_next h -> h_get h' q = h_get h q) /\
  (n = 0 /\ s' = s \/ exists d m, convert_to_data X y = Ok d /\ sk_data s' = Some d /\ sk_model s' = Some m /\ m_data m = d).
Proof.
  intros Hn Hl. induction n as [|n IH]; intros s h rs cs s' h' Hu; cbn [ob_run_here].
  { intros E; injection E as <- <- <-. simpl. split; [auto|]. split; [lia|]. split; [auto|]. split; [constructor|]. split; [split; auto|]. left; auto. }
  destruct rs as [|r rs]; [discriminate|]. inversion Hu as [|? ? Hu1 Hu2]; subst. destruct (ob_run_chain s h X y r) as [[[c s1] h1]| |] eqn:E; try discriminate. cbn [rbind].
  destruct (ob_run_here n s1 h1 X y rs) as [[[cs2 s2] h2]| |] eqn:E'; try discriminate. cbn [rbind]. intros [= <- <- <-].
  destruct (ob_run_chain_spec _ _ _ _ _ _ _ _ Hn Hl Hu1 E) as (Hset&Hran&Hdat&(Hnx&Hold)&Hown).
  destruct (IH _ _ _ _ _ _ Hu2 E') as (L&Lr&Hset2&HF&(Hnx2&Hold2)&Hdat2). simpl.
  split; [congruence|]. split; [lia|]. split; [congruence|]. split; [|split].
  - constructor.
    + eapply ob_chain_later; [exact Hran|]. intros sm q Hin Hq. apply Hold2. eapply Hown; eauto.
    + eapply Forall2_impl_in; [|exact HF]. intros a b _ _ H. eapply ob_chain_ran_settings; eauto.
  - split; [lia|]. intros q Hq. rewrite Hold2, Hold; auto; lia.
  - right. destruct Hdat2 as [[-> ->]|H]; auto.
Qed.
Lemma ob_fit_spec b s h X y rs s' : no_nan X -> length y = length (mx_rows X) -> Forall udraws rs -> ob_fit b s h X y rs = Ok s' ->
  exists d m es, convert_to_data X y = Ok d /\ sk_data s' = Some d /\ sk_model s' = Some m /\ m_data m = d /\
    settings s' = settings s /\ length es = sk_nchains s /\ es <> [] /\ sk_nchains s <= length rs /\
    Forall2 (ob_chain_ran s X y) es (firstn (sk_nchains s) rs) /\
    sk_samples s' = Some (flat_map (fun e : extract => map (fun sm => (fst e, sm)) (ch_models (snd e))) es) /\
    sk_preds s' = Some (flat_map (fun e : extract => ch_preds (snd e)) es) /\ sk_accept s' = Some (flat_map (fun e : extract => ch_accept (snd e)) es).
Proof.
  intros Hn Hl Hu. unfold ob_fit. destruct (construct_model s h X y) as [s1| |] eqn:Ec; try discriminate. cbn [rbind].
  destruct (construct_spec _ _ _ _ _ Ec) as (_&_&Hset&d&m&Hd&Hm&Hmd&Hsd&Hsm&_). rewrite Hsm.
  destruct (settings_fields _ _ Hset) as (_&Hnc&_). rewrite Hnc.
  assert (Hstore : forall s2 es, store_chains s2 es = Ok s' -> es <> [] /\ settings s' = settings s2 /\ sk_data s' = sk_data s2 /\ sk_model s' = sk_model s2 /\
    sk_samples s' = Some (flat_map (fun e : extract => map (fun sm => (fst e, sm)) (ch_models (snd e))) es) /\
    sk_preds s' = Some (flat_map (fun e : extract => ch_preds (snd e)) es) /\ sk_accept s' = Some (flat_map (fun e : extract => ch_accept (snd e)) es)).
  { intros s2 es. unfold store_chains, combine_chains. destruct es as [|e es]; [discriminate|]. cbn [rbind]. intros [= <-].
    split; [discriminate|]. repeat (split; [reflexivity|]). reflexivity. }
  destruct b.
  - destruct (ob_run_processes _ rs) as [es| |] eqn:E; try discriminate. cbn [rbind]. intros Hs. destruct (Hstore _ _ Hs) as (Hne&Hset'&Hda&Hmo&H1&H2&H3).
    destruct (ob_run_processes_spec X y s1 _ Hn Hl _ _ _ Hu E) as (L&Lr&HF). exists d, m, es. split; auto. split; [congruence|]. split; [congruence|]. split; auto.
    split; [congruence|]. split; auto. split; auto. split; auto. split; auto. eapply Forall2_impl_in; [|exact HF]. intros a r _ _ H. eapply ob_chain_ran_settings; eauto.
  - destruct (ob_run_here _ s1 _ X y rs) as [[[cs s2] h2]| |] eqn:E; try discriminate. cbn [rbind]. intros Hs. destruct (Hstore _ _ Hs) as (Hne&Hset'&Hda&Hmo&H1&H2&H3).
    destruct (ob_run_here_spec X y Hn Hl _ _ _ _ _ _ _ Hu E) as (L&Lr&Hset2&HF&_&Hdat).
    destruct Hdat as [[Hz _]|(d2&m2&Hd2&Hsd2&Hsm2&Hmd2)]; [exfalso; destruct cs; [apply Hne; reflexivity|simpl in L; lia]|].
    exists d2, m2, (map (fun c => (h2, c)) cs). split; auto. split; [congruence|]. split; [congruence|]. split; auto.
    split; [congruence|]. split; [now rewrite map_length|]. split; auto. split; auto. split; auto.
    assert (HF' : Forall2 (fun c r => ob_chain_ran s X y (h2, c) r) cs (firstn (sk_nchains s) rs))
      by (eapply Forall2_impl_in; [|exact HF]; intros a r _ _ H; eapply ob_chain_ran_settings; eauto).
    clear - HF'. induction HF'; simpl; constructor; auto.
Qed.
