(** What a sampling run with the tree sampler of bartpy/samplers/oblivioustrees keeps of its steps (as PBook.v). *)
From Coq Require Import Reals Lra FunctionalExtensionality ZArith.
From Verif Require Import Base Fl Ext MData MSplit MTree MSampler MModel MModelHist MSklearn MOblivious MObModel Spec SpecModel SpecInvariance SpecBook SpecObModel.
From Verif Require Import LList PHeap PClosed PRel PRel2 PRel3 PInvar PObRel PTree PModel PModel2 PModel7 PModel8 PModel12 POblivious PObModel PObModel2 PObModel3 PObModel4 PObModel5 PBook.
#[local] Hint Resolve tight_refl : core.

(** ** child links lead to allocated addresses *)
Lemma kids_later h h' n : kids_below h n -> h_next h <= h_next h' -> kids_below h' n.
Proof. unfold kids_below. destruct (nd_kind n); auto. lia. Qed.
Lemma ob_split_node_tight h i idx p h' idx' : ob_split_node h i idx = Ok (p, h', idx') -> tight h h' /\ p < h_next h'.
Proof.
  unfold ob_split_node. destruct (is_splittable h i).
  - destruct (node_data h i) as [d|]; [|discriminate]. destruct (ob_sample_split_condition _ _) as [[[c0 c1] i1]| |]; try discriminate. cbn [rbind].
    destruct (split_node h i c0 c1) as [[q h1]| |] eqn:E; try discriminate. cbn [rbind]. intros [= <- <- <-]. eapply split_node_tight; eauto.
  - destruct (h_get h i) as [[k s d]|]; [|discriminate].
    destruct (h_alloc h _) as [l h1] eqn:E1. destruct (h_alloc h1 _) as [r h2] eqn:E2. destruct (h_alloc h2 _) as [q h3] eqn:E3. intros [= <- <- <-].
    split.
    + pose proof (f_equal fst E1) as L1. pose proof (f_equal fst E2) as L2. apply (f_equal snd) in E1, E2, E3. cbn [snd] in E1, E2, E3. simpl in L1, L2.
      apply tight_trans with h1; [|apply tight_trans with h2; [|rewrite <- E3; apply tight_alloc]].
      * rewrite <- E1. apply tight_alloc. intros _. exact I.
      * rewrite <- E2. apply tight_alloc. intros _. exact I.
      * intros _. unfold kids_below. cbn [nd_kind]. subst l r. rewrite <- E2, <- E1. simpl. lia.
    + injection E3 as <- <-. simpl. lia.
Qed.
Lemma ob_grows_tight : forall ids h idx ms h' idx', ob_grows h ids idx = Ok (ms, h', idx') -> tight h h' /\ Forall (fun m => mu_updated m < h_next h') ms.
Proof.
  induction ids as [|i ids IH]; intros h idx ms h' idx'; cbn [ob_grows]; [intros [= <- <- <-]; auto|].
  destruct (ob_split_node h i idx) as [[[p h1] idx1]| |] eqn:E; try discriminate. cbn [rbind]. destruct (grow_mutation h1 i p) as [mu| |] eqn:Eg; try discriminate. cbn [rbind].
  destruct (ob_grows h1 ids idx1) as [[[ms1 h2] idx2]| |] eqn:E2; try discriminate. cbn [rbind]. intros [= <- <- <-].
  apply ob_split_node_tight in E. apply IH in E2. apply grow_updated in Eg. destruct E as [T1 L], E2 as [T2 F]. split; [eauto using tight_trans|].
  constructor; auto. rewrite Eg. destruct T2. lia.
Qed.
Lemma ob_prunes_tight : forall ids h ms h', ob_prunes h ids = Ok (ms, h') -> tight h h' /\ Forall (fun m => mu_updated m < h_next h') ms.
Proof.
  induction ids as [|i ids IH]; intros h ms h'; cbn [ob_prunes]; [intros [= <- <-]; auto|].
  destruct (h_get h i) as [n|]; [|discriminate]. destruct (h_alloc h _) as [u h1] eqn:E. destruct (prune_mutation h1 i u) as [mu| |] eqn:Eg; try discriminate. cbn [rbind].
  destruct (ob_prunes h1 ids) as [[ms1 h2]| |] eqn:E2; try discriminate. cbn [rbind]. intros [= <- <-]. apply IH in E2. apply prune_updated in Eg. destruct E2 as [T2 F].
  assert (L : u < h_next h1) by (injection E as <- <-; simpl; lia).
  apply (f_equal snd) in E. cbn [snd] in E. split.
  - eapply tight_trans; [|exact T2]. rewrite <- E. apply tight_alloc. intros _. exact I.
  - constructor; auto. rewrite Eg. destruct T2. lia.
Qed.
Lemma ob_propose_tight h t : forall k r ms h' r', ob_propose k h t r = Ok (ms, h', r') -> tight h h' /\ Forall (fun m => mu_updated m < h_next h') ms.
Proof.
  induction k as [|k IH]; intros r ms h' r'; cbn [ob_propose]; [discriminate|]. destruct (rg_method r) as [|b bs]; [discriminate|].
  destruct (if b then _ else _) as [[[ms1 h1] idx]|e|] eqn:E; [|destruct e; try discriminate; apply IH|discriminate].
  intros [= <- <- <-]. destruct b.
  - eapply ob_grows_tight; eauto.
  - destruct (ob_prune_mutations h t) as [[ms2 h2]| |] eqn:E2; try discriminate. cbn [rbind] in E. injection E as <- <- <-. eapply ob_prunes_tight; eauto.
Qed.
Lemma mutate_all_tight : forall ms h t h' t', Forall (fun m => mu_updated m < h_next h) ms -> mutate_all h t ms = Ok (h', t') -> tight h h'.
Proof.
  induction ms as [|m ms IH]; intros h t h' t' F; cbn [mutate_all]; [now intros [= <- <-]|].
  destruct (mutate h t m) as [[h1 t1] [e|]] eqn:E; [discriminate|]. intros E2. inversion F; subst. apply mutate_tight in E; auto.
  apply IH in E2; [eauto using tight_trans|]. eapply Forall_impl; [|eassumption]. cbv beta. intros a La. destruct E. lia.
Qed.
Lemma ob_step_tight h t s p r om h' t' r' : ob_step h t s p r = Ok (om, h', t', r') -> tight h h'.
Proof.
  unfold ob_step, ob_sample. destruct (ob_propose _ h t r) as [[[ms h1] r1]| |] eqn:E; try discriminate. cbn [rbind]. apply ob_propose_tight in E. destruct E as [E F].
  destruct (ob_ratio h1 ms s p) as [q| |]; try discriminate. cbn [rbind]. destruct (rg_unif r1) as [|u us]; try discriminate. cbn [rbind].
  destruct (accepts u q); [|now intros [= _ <- _ _]]. destruct (mutate_all h1 t ms) as [[h2 t2]| |] eqn:E2; try discriminate. cbn [rbind].
  intros [= _ <- _ _]. apply mutate_all_tight in E2; eauto using tight_trans.
Qed.
Lemma ob_call_tight m fr k r b a m' r' : ob_call m fr k r = Ok (b, a, m', r') -> tight (m_heap m) (m_heap m').
Proof.
  destruct k; cbn [ob_call]; try apply call_tight. destruct (fr_tree fr) as [j|]; [|discriminate]. destruct (nth_error (m_trees m) j); [|discriminate].
  destruct (ob_step _ _ _ _ _) as [[[[om h1] t1] r1]| |] eqn:E; try discriminate. cbn [rbind]. intros [= _ _ <- _]. eapply ob_step_tight; eauto.
Qed.
Lemma ob_drive_tight : forall f m fr pc r log acts m' r', ob_drive f m fr pc r = Ok (log, acts, m', r') -> tight (m_heap m) (m_heap m').
Proof.
  induction f as [|f IH]; intros m fr pc r log acts m' r'; cbn [ob_drive]; [discriminate|].
  destruct (gen_next m fr pc) as [[[[y pc1] fr1] m1]| |] eqn:E; try discriminate. cbn [rbind]. apply gen_next_tight in E.
  destruct y as [[k th]|]; [|now intros [= _ _ <- _]].
  destruct (ob_call m1 fr1 th r) as [[[[b a] m2] r1]| |] eqn:E2; try discriminate. cbn [rbind]. apply ob_call_tight in E2.
  destruct (ob_drive f m2 fr1 pc1 r1) as [[[[log1 acts1] m3] r2]| |] eqn:E3; try discriminate. cbn [rbind]. apply IH in E3. intros [= _ _ <- _]. eauto using tight_trans.
Qed.
Lemma ob_gibbs_tight m r d acts m' r' : ob_gibbs_step m r = Ok (d, acts, m', r') -> tight (m_heap m) (m_heap m').
Proof.
  unfold ob_gibbs_step. destruct (ob_drive _ _ _ _ _) as [[[[log acts1] m3] r2]| |] eqn:E; try discriminate. cbn [rbind]. intros [= _ _ <- _]. eapply ob_drive_tight; eauto.
Qed.
Lemma ob_gibbs_tidy m r d acts m' r' : ob_gibbs_step m r = Ok (d, acts, m', r') -> tidy m -> tidy m'.
Proof. intros E [W C]. pose proof (ob_gibbs_grows _ _ _ _ _ _ E) as [_ G]. pose proof (ob_gibbs_tight _ _ _ _ _ _ E) as [_ G']. split; auto. Qed.

(** ** caches are full after a step *)
Lemma ob_drive_warm : forall f m fr pc r log acts m' r', pc <> GSigma \/ warm m -> ob_drive f m fr pc r = Ok (log, acts, m', r') -> warm m'.
Proof.
  induction f as [|f IH]; intros m fr pc r log acts m' r' Hw; cbn [ob_drive]; [discriminate|].
  destruct (gen_next m fr pc) as [[[[y pc1] fr1] m1]| |] eqn:E; try discriminate. cbn [rbind].
  assert (Hp : pc = GSigma \/ pc <> GSigma) by (destruct pc; auto; right; discriminate). destruct Hp as [->|Hp].
  - cbn [gen_next] in E. injection E as <- <- <- <-. intros [= _ _ <- _]. destruct Hw as [Hw|Hw]; [now destruct Hw|auto].
  - destruct (gen_next_pc _ _ _ _ _ _ _ Hp E) as [Hs Hy]. destruct y as [[k th]|]; [|now destruct Hy].
    destruct (ob_call m1 fr1 th r) as [[[[b a] m2] r1]| |] eqn:E2; try discriminate; cbn [rbind].
    destruct (ob_drive f m2 fr1 pc1 r1) as [[[[log1 acts1] m3] r2]| |] eqn:E3; try discriminate; cbn [rbind]; intros [= _ _ <- _].
    refine (IH _ _ _ _ _ _ _ _ _ E3). destruct pc1; try (left; discriminate). right.
    specialize (Hs eq_refl). injection Hs as -> ->. cbn [ob_call call] in E2.
    destruct (sigma_step m1 r) as [[m4 r4]| |] eqn:E4; try discriminate; cbn [rbind] in E2. injection E2 as _ _ <- _. eapply sigma_step_warm; eauto.
Qed.
Lemma ob_gibbs_warm m r d acts m' r' : ob_gibbs_step m r = Ok (d, acts, m', r') -> warm m'.
Proof.
  unfold ob_gibbs_step. destruct (ob_drive _ _ _ _ _) as [[[[log acts1] m3] r2]| |] eqn:E; try discriminate. cbn [rbind]. intros [= _ _ <- _].
  eapply ob_drive_warm; [|exact E]. left. discriminate.
Qed.

(** ** objects at other addresses *)
Notation mv n0 dl g := (tmd idc idr 1 n0 dl g).
Lemma ob_mv_gibbs n0 dl g m r : n0 <= h_next (m_heap m) -> ob_gibbs_step (mv n0 dl g m) r = rmap (tdrive idc idr 1 n0 dl g) (ob_gibbs_step m r).
Proof.
  intros L. rewrite <- (trg_1 r) at 1. apply ob_gibbs_step_tr; auto; try (intros; reflexivity). ring.
Qed.
Lemma ob_moved_gibbs m m' r : moved m m' ->
  same_outcome (fun q q' => fst (fst (fst q')) = fst (fst (fst q)) /\ snd q' = snd q /\ moved (snd (fst q)) (snd (fst q'))) (ob_gibbs_step m r) (ob_gibbs_step m' r).
Proof.
  induction 1 as [|m1 n0 dl g H IH L].
  - apply so_refl. intros x. repeat split; auto. constructor.
  - rewrite ob_mv_gibbs by auto. destruct (ob_gibbs_step m1 r) as [[[[d a] m2] r2]| |] eqn:E1; cbn [rmap].
    + destruct (ob_gibbs_step m r) as [[[[d0 a0] m0] r0]| |]; simpl in IH; try contradiction. simpl. destruct IH as (->&->&M).
      split; auto. split; [apply trg_1|]. constructor; auto. apply ob_gibbs_grows in E1. destruct E1. lia.
    + destruct (ob_gibbs_step m r); simpl in *; auto.
    + destruct (ob_gibbs_step m r); simpl in *; auto.
Qed.

(** ** storing a sample *)
Lemma ob_store_moved X y e m s m' : einv X y None e m -> tidy m -> deep_copy_model m = Ok (s, m') ->
  moved m m' /\ tidy m' /\ einv X y None e m'.
Proof.
  intros H [W C] E. destruct (edeep_copy _ _ _ _ _ H) as (s0&m0&E0&H'&_&_&Ep&Es&Et&_&_&_&_&Hg). rewrite E in E0. injection E0 as <- <-.
  assert (T' : tidy m' /\ h_next (m_heap m) <= h_next (m_heap m')).
  { split; [split|].
    - unfold deep_copy_model in E. destruct (copy_trees (m_heap m) (m_trees m)) as [[ts h]| |] eqn:Ec; try discriminate. cbn [rbind] in E. injection E as _ <-. simpl.
      apply copy_trees_grows in Ec. destruct Ec as [[_ G] _]. auto.
    - apply deep_copy_model_tight in E. apply E. exact C.
    - apply deep_copy_model_tight in E. apply E. }
  destruct T' as [T' L]. split; [|eauto].
  assert (Em : m' = mv (h_next (m_heap m)) (h_next (m_heap m') - h_next (m_heap m)) (h_get (m_heap m')) m).
  { assert (Eq : m' = Md (m_heap m') (m_trees m) (m_data m) (m_pred m) (m_sigma m) (m_par m)).
    { unfold deep_copy_model in E. destruct (copy_trees (m_heap m) (m_trees m)) as [[ts h]| |]; try discriminate. cbn [rbind] in E. injection E as _ <-. reflexivity. }
    rewrite Eq at 1. unfold tmd. f_equal.
    - destruct T' as [W' _]. destruct (m_heap m') as [n' g'] eqn:E'. unfold th. cbn [h_next h_get] in *. f_equal; [lia|]. extensionality j.
      destruct (Nat.ltb_spec j (h_next (m_heap m))) as [Hj|Hj].
      + rewrite Hg by auto. destruct (h_get (m_heap m) j) as [n|] eqn:En; auto. cbn [option_map]. f_equal. symmetry. apply tnd_id. exact (C _ _ En).
      + destruct (Nat.ltb_spec j (h_next (m_heap m) + (n' - h_next (m_heap m)))) as [Hj'|Hj']; auto.
        rewrite (W (j - (n' - h_next (m_heap m)))) by lia. apply (W' j). cbn [h_next]. lia.
    - rewrite <- (map_id (m_trees m)) at 1. apply map_ext_in. intros t Ht. destruct t as [ns f p] eqn:Ed. unfold ttr. cbn [tr_nodes tr_fresh tr_pred]. f_equal.
      + rewrite <- (map_id ns) at 1. apply map_ext_in. intros i Hi. destruct (einv_nodes _ _ _ _ _ t i H) as [B _]; subst; auto.
        unfold ti. destruct (Nat.ltb_spec i (h_next (m_heap m))); auto. lia.
      + destruct p; simpl; now rewrite ?sv1_map.
    - symmetry. apply tdt_id.
    - destruct (m_pred m); unfold ty; simpl; now rewrite ?sv1_map. }
  rewrite Em. constructor; [constructor|auto].
Qed.
Definition ob_stores_of (os : list ob_model_op) : Prop := os = [] \/ os = [BStore] \/ os = [BPredict; BStore].
Lemma ob_stores_moved X y e m os m' : no_nan X -> einv X y None e m -> tidy m -> warm m -> ob_stores_of os -> ob_model_run m os = Ok m' ->
  moved m m' /\ tidy m' /\ einv X y None e m'.
Proof.
  intros Hn H T W [E|[E|E]]; subst os; cbn [ob_model_run ob_model_do].
  - intros [= <-]. split; [constructor|eauto].
  - destruct (deep_copy_model m) as [[s m1]| |] eqn:E; try discriminate. cbn [rbind]. intros [= <-]. eapply ob_store_moved; eauto.
  - destruct (model_predict m) as [[v m1]| |] eqn:Ep; try discriminate. cbn [rbind]. apply model_predict_id in Ep; auto. subst m1.
    destruct (deep_copy_model m) as [[s m1]| |] eqn:E; try discriminate. cbn [rbind]. intros [= <-]. eapply ob_store_moved; eauto.
Qed.

(** ** the runs *)
Lemma ob_sampling_moved X y e stores : no_nan X -> (forall i, ob_stores_of (stores i)) -> forall i m' r l' m2' r', ob_sampling stores i m' r l' m2' r' ->
  udraws r -> forall m, moved m m' -> einv X y None e m' -> tidy m' ->
  exists l m2, ob_sampling (fun _ => []) i m r l m2 r' /\ moved m2 m2' /\ Forall2 (fun st st' => fst st' = fst st /\ moved (snd st) (snd st')) l l'.
Proof.
  intros Hn Hs. induction 1 as [i m' r|i m' r d acts m1' r1 m2' l' m3' r' Eg Er Hl IH]; intros U m M H T.
  - exists [], m. split; [constructor|]. split; auto.
  - pose proof (ob_moved_gibbs m m' r M) as G. rewrite Eg in G. destruct (ob_gibbs_step m r) as [[[[d0 acts0] m1] r0]| |] eqn:E0; simpl in G; try contradiction.
    destruct G as (<-&<-&M1). destruct (ob_same_gibbs _ _ _ _ _ _ _ _ _ Hn H U Eg) as (H1&_&U1). pose proof (ob_gibbs_tidy _ _ _ _ _ _ Eg T) as T1.
    destruct (ob_stores_moved _ _ _ _ _ _ Hn H1 T1 (ob_gibbs_warm _ _ _ _ _ _ Eg) (Hs i) Er) as (M2&T2&H2).
    destruct (IH U1 m1 (moved_trans _ _ _ M1 M2) H2 T2) as (l&m2&Hl2&Mf&F).
    exists ((d, m1) :: l), m2. split; [econstructor; eauto; reflexivity|]. split; auto.
Qed.
Lemma ob_sampling_det : forall i m r l m2 r2, ob_sampling (fun _ => []) i m r l m2 r2 -> forall l' m2' r2', ob_sampling (fun _ => []) i m r l' m2' r2' ->
  length l' = length l -> l' = l /\ m2' = m2 /\ r2' = r2.
Proof.
  induction 1 as [i m r|i m r d acts m1 r1 m2 l m3 r3 Eg Er Hl IH]; intros l' m2' r2' H' Hlen; inversion H'; subst; try discriminate; auto.
  rewrite H in Eg. injection Eg as <- <- <- <-. simpl in Er, H0. injection Er as <-. injection H0 as <-.
  destruct (IH _ _ _ H1) as (->&->&->); [simpl in Hlen; lia|auto].
Qed.
Lemma ob_loop_outcome X y e num den sp sa : no_nan X -> num <> 0%Z -> forall n ss m m' r, udraws r -> moved m m' -> einv X y None e m' -> tidy m' ->
  same_outcome (fun q q' => snd q' = snd q /\ moved (fst q) (snd (fst q'))) (ob_burn n m r) (ob_sample_loop ss n num den sp sa m' r).
Proof.
  intros Hn Hz. induction n as [|n IH]; intros ss m m' r U M H T; cbn [ob_burn ob_sample_loop]; [simpl; auto|].
  unfold ob_sample_iter. pose proof (ob_moved_gibbs m m' r M) as G.
  destruct (ob_gibbs_step m r) as [[[[d acts] m1] r1]|ex|], (ob_gibbs_step m' r) as [[[[d' acts'] m1'] r1']|ex'|] eqn:Eg; simpl in G; try contradiction; auto.
  cbn [rbind]. destruct G as (->&->&M1). rewrite (proj2 (Z.eqb_neq num 0) Hz). destruct (ob_same_gibbs _ _ _ _ _ _ _ _ _ Hn H U Eg) as (H1&_&U1).
  pose proof (ob_gibbs_tidy _ _ _ _ _ _ Eg T) as T1. pose proof (ob_gibbs_warm _ _ _ _ _ _ Eg) as W1.
  assert (K : exists c m3, (if keeps_sample ss num den then
      let! (ps, m2) := (if sp then let! (v, m2) := model_predict m1' in Ok ([v], m2) else Ok ([], m1')) in
      let! (s, m3) := deep_copy_model m2 in Ok (Ch [s] (if sa then [d] else []) ps, m3, r1)
    else Ok (Ch [] [] [], m1', r1)) = Ok (c, m3, r1) /\ moved m1' m3 /\ tidy m3 /\ einv X y None e m3).
  { destruct (keeps_sample ss num den); [|eexists _, m1'; split; [reflexivity|]; split; [constructor|auto]].
    destruct (edeep_copy _ _ _ _ _ H1) as (s&m3&Ec&_). destruct (ob_store_moved _ _ _ _ _ _ H1 T1 Ec) as (M3&T3&H3).
    destruct sp; cbn [rbind].
    - destruct (emodel_predict _ _ _ _ Hn H1) as (v&m2&Ep&_). rewrite Ep. cbn [rbind]. apply model_predict_id in Ep; auto. subst m2.
      rewrite Ec. cbn [rbind]. eauto 8.
    - rewrite Ec. cbn [rbind]. eauto 8. }
  destruct K as (c&m3&->&M3&T3&H3). cbn [rbind]. specialize (IH (S ss) m1 m3 r1 U1 (moved_trans _ _ _ M1 M3) H3 T3).
  destruct (ob_burn n m1 r1) as [[mb rb]|eb|], (ob_sample_loop (S ss) n num den sp sa m3 r1) as [[[c2 m4] r4]|el|]; simpl in *; auto.
Qed.
Lemma ob_burn_app : forall a b m r, ob_burn (a + b) m r = rbind (ob_burn a m r) (fun q => ob_burn b (fst q) (snd q)).
Proof.
  induction a as [|a IH]; intros b m r; auto. cbn [Nat.add ob_burn]. destruct (ob_gibbs_step m r) as [[[[d acts] m1] r1]| |]; cbn [rbind]; auto.
Qed.
Lemma ob_burn_tidy : forall n m r m' r', ob_burn n m r = Ok (m', r') -> tidy m -> tidy m'.
Proof.
  induction n as [|n IH]; intros m r m' r'; cbn [ob_burn]; [now intros [= <- _]|]. destruct (ob_gibbs_step m r) as [[[[d acts] m1] r1]| |] eqn:E; try discriminate.
  cbn [rbind]. intros E2 T. eapply IH; eauto. eapply ob_gibbs_tidy; eauto.
Qed.
Lemma ob_samples_outcome X y e num den sp sa n nb m r : no_nan X -> num <> 0%Z -> udraws r -> einv X y None e m -> tidy m ->
  same_outcome (fun q q' => snd q' = snd q /\ moved (fst q) (snd (fst q'))) (ob_burn (nb + n) m r) (ob_samples m n nb (TInv num den) sp sa r).
Proof.
  intros Hn Hz U H T. rewrite ob_burn_app. unfold ob_samples. destruct (ob_burn nb m r) as [[m1 r1]| |] eqn:E; cbn [rbind]; try (simpl; auto; fail).
  destruct (ob_burn_same _ _ _ Hn _ _ _ _ _ H U E) as (H1&_&U1). cbn [fst snd].
  eapply ob_loop_outcome; eauto; [constructor|]. eapply ob_burn_tidy; eauto.
Qed.
