(** Models sampled with the oblivious tree sampler: what ModelSampler.samples does. *)
From Coq Require Import Reals Lra Permutation ZArith.
From Verif Require Import Base Fl Ext MData MSplit MTree MSampler MHist MTreeHist MModel MModelHist MOblivious MObModel Spec SpecTree SpecSampler SpecModel SpecOblivious SpecObModel LFl LList
  PData PSplit PDataProps PCond PTree PPred PTreeHist PTreeProps PTreeProps2 PSampler PSampler2 PSampler3 PModel PModel2 PModel3 PModel4 PModel5 PModel6 PModel7 PModel8 PModel9 PModel10 PModel11 PModel12
  POblivious POblivious2 POblivious3 POblivious4 POblivious5 PObModel PObModel2 PObModel3 PObModel4.

Lemma ob_sampling_app stores : forall i m r l m1 r1, ob_sampling stores i m r l m1 r1 -> forall l' m' r',
  ob_sampling stores (i + length l) m1 r1 l' m' r' -> ob_sampling stores i m r (l ++ l') m' r'.
Proof.
  induction 1; intros l'' m'' r'' H'; simpl in *; [now rewrite Nat.add_0_r in H'|].
  econstructor; eauto. apply IHob_sampling. now rewrite Nat.add_succ_r in H'.
Qed.
Lemma ob_burn_run nb q sp : forall n i m r m' r', i + n <= nb -> ob_burn n m r = Ok (m', r') ->
  exists l, ob_sampling (ob_stores_every nb q sp) i m r l m' r' /\ length l = n.
Proof.
  induction n as [|n IH]; intros i m r m' r' Hi; cbn [ob_burn].
  - intros E; injection E as <- <-. exists []. split; auto. constructor.
  - destruct (ob_gibbs_step m r) as [[[[d acts] m1] r1]| |] eqn:Eg; try discriminate. cbn [rbind]. intros E.
    destruct (IH (S i) m1 r1 m' r') as (l&Hl&Hn); [lia|auto|]. exists ((d, m1) :: l). split; [|simpl; auto].
    econstructor; eauto. unfold ob_stores_every. destruct (Nat.ltb_spec i nb); [|lia]. reflexivity.
Qed.
Lemma ob_same_gibbs X y e m r d acts m' r' : no_nan X -> einv X y None e m -> udraws r -> ob_gibbs_step m r = Ok (d, acts, m', r') ->
  einv X y None e m' /\ same m m' /\ udraws r'.
Proof.
  intros Hn H Hu. unfold ob_gibbs_step. destruct (ob_drive _ m _ GStart r) as [[[[log a] m1] r1]| |] eqn:Ed; try discriminate.
  cbn [rbind]. intros E; injection E as <- <- <- <-.
  destruct (edrive X y e Hn _ m (Fr None None) GStart r _ _ _ _ H Hu Ed) as (H'&_&Hsm&Hu'&_). auto.
Qed.
Lemma ob_burn_same X y e : no_nan X -> forall n m r m' r', einv X y None e m -> udraws r -> ob_burn n m r = Ok (m', r') ->
  einv X y None e m' /\ same m m' /\ udraws r'.
Proof.
  intros Hn. induction n as [|n IH]; intros m r m' r' H Hu; cbn [ob_burn].
  - intros E; injection E as <- <-. auto using same_refl.
  - destruct (ob_gibbs_step m r) as [[[[d acts] m1] r1]| |] eqn:Eg; try discriminate. cbn [rbind]. intros E.
    destruct (ob_same_gibbs _ _ _ _ _ _ _ _ _ Hn H Hu Eg) as (H1&S1&Hu1). destruct (IH _ _ _ _ H1 Hu1 E) as (H'&S'&Hu').
    split; auto. split; auto. eapply same_trans; eauto.
Qed.
Definition opreds_of (X : matrix) (v : list R) (st : list (skey * R) * model) : Prop :=
  length v = length (mx_rows X) /\ (exists m1, model_predict (snd st) = Ok (v, m1)) /\
  forall vs, otrees_say (snd st) X vs -> forall i, i < length (mx_rows X) -> nth i v 0%R = total vs i.
Lemma ocached_nodes h n ts : map tr_nodes (map (ocached h n) ts) = map tr_nodes ts.
Proof. rewrite map_map. reflexivity. Qed.
Lemma ob_sample_iter_spec X y e nb q ss num den sp sa m r c m' r' : no_nan X -> einv X y None e m -> udraws r ->
  num <> 0%Z -> keeps_sample ss num den = (ss mod q =? 0) ->
  ob_sample_iter ss num den sp sa m r = Ok (c, m', r') ->
  exists d acts m1, ob_gibbs_step m r = Ok (d, acts, m1, r') /\ ob_model_run m1 (ob_stores_every nb q sp (nb + ss)) = Ok m' /\
    einv X y None e m' /\ same m m' /\ udraws r' /\
    if ss mod q =? 0
    then exists s, ch_models c = [s] /\ sample_of (m_heap m') s m1 /\ stored m' s /\ ch_accept c = (if sa then [d] else []) /\
         (if sp then exists v, ch_preds c = [v] /\ opreds_of X v (d, m1) else ch_preds c = [])
    else c = Ch [] [] [].
Proof.
  intros Hn H Hu Hz Hk. unfold ob_sample_iter. destruct (ob_gibbs_step m r) as [[[[d acts] m1] r1]| |] eqn:Eg; try discriminate. cbn [rbind].
  destruct (ob_same_gibbs _ _ _ _ _ _ _ _ _ Hn H Hu Eg) as (H1&S1&Hu1).
  rewrite (proj2 (Z.eqb_neq num 0) Hz), Hk. unfold ob_stores_every.
  destruct (Nat.ltb_spec (nb + ss) nb) as [Hb|_]; [lia|]. replace (nb + ss - nb) with ss by lia.
  destruct (ss mod q =? 0).
  - destruct sp; cbn [rbind].
    + destruct (emodel_predict _ _ _ _ Hn H1) as (v&m2&Ep&Lv&Nv&H2&S2&_&_&Es2&Eh2&Et2). rewrite Ep. cbn [rbind].
      destruct (edeep_copy _ _ _ _ _ H2) as (s&m3&Ec&H3&S3&_&_&Es3&Et3&Ess&Els&Hst&Hsp&_). rewrite Ec. cbn [rbind].
      intros E; injection E as <- <- <-. exists d, acts, m1. split; auto. cbn [ob_model_run ob_model_do]. rewrite Ep. cbn [rbind]. rewrite Ec. cbn [rbind].
      split; auto. split; [auto|]. split; [eapply same_trans; [eauto|eapply same_trans; eauto]|]. split; [exact Hu1|].
      exists s. split; auto. split; [|split; [auto|split; [auto|]]].
      * split; [congruence|]. split.
        { rewrite Et2, Eh2 in Els. eapply same_conditions_nodes; [|exact Els]. apply ocached_nodes. }
        intros X'. rewrite Hsp, Eh2, Et2. apply predict_out_trees. apply ocached_nodes.
      * exists v. split; auto. split; auto. split; [simpl; eauto|]. intros vs Hvs i Hi. simpl in Hvs.
        rewrite (otrees_say_unique _ _ _ _ _ _ Hn H1 Hvs), total_ecol. auto.
    + destruct (edeep_copy _ _ _ _ _ H1) as (s&m3&Ec&H3&S3&_&_&Es3&Et3&Ess&Els&Hst&Hsp&_). rewrite Ec. cbn [rbind].
      intros E; injection E as <- <- <-. exists d, acts, m1. split; auto. cbn [ob_model_run ob_model_do]. rewrite Ec. cbn [rbind].
      split; auto. split; [auto|]. split; [eapply same_trans; eauto|]. split; [exact Hu1|].
      exists s. split; auto. split; [split; auto|]. split; auto.
  - intros E; injection E as <- <- <-. exists d, acts, m1. simpl. split; auto.
Qed.
Lemma ob_sample_loop_spec X y e nb q num den sp sa : no_nan X -> num <> 0%Z -> (forall ss, keeps_sample ss num den = (ss mod q =? 0)) ->
  forall todo ss m r c m' r', einv X y None e m -> udraws r -> ob_sample_loop ss todo num den sp sa m r = Ok (c, m', r') ->
  exists l, ob_sampling (ob_stores_every nb q sp) (nb + ss) m r l m' r' /\ length l = todo /\ einv X y None e m' /\ same m m' /\ udraws r' /\
    Forall2 (fun s st => sample_of (m_heap m') s (snd st) /\ stored m' s) (ch_models c) (every_from q ss l) /\
    ch_accept c = (if sa then map fst (every_from q ss l) else []) /\
    (if sp then Forall2 (opreds_of X) (ch_preds c) (every_from q ss l) else ch_preds c = []).
Proof.
  intros Hn Hz Hk. induction todo as [|todo IH]; intros ss m r c m' r' H Hu; cbn [ob_sample_loop].
  - intros E; injection E as <- <- <-. exists []. split; [constructor|]. split; auto. split; [auto|]. split; [apply same_refl|]. split; [auto|].
    simpl. split; [constructor|]. split; [now destruct sa|]. destruct sp; auto.
  - destruct (ob_sample_iter ss num den sp sa m r) as [[[c1 m1] r1]| |] eqn:Ei; try discriminate. cbn [rbind].
    destruct (ob_sample_loop (S ss) todo num den sp sa m1 r1) as [[[c2 m2] r2]| |] eqn:El; try discriminate. cbn [rbind].
    intros E; injection E as <- <- <-.
    destruct (ob_sample_iter_spec _ _ _ nb q _ _ _ _ _ _ _ _ _ _ Hn H Hu Hz (Hk ss) Ei) as (d&acts&mg&Eg&Er&H1&S1&Hu1&Hc).
    destruct (IH (S ss) m1 r1 c2 m2 r2 H1 Hu1 El) as (l&Hl&Hlen&H2&S2&Hu2&Hm&Ha&Hp).
    exists ((d, mg) :: l). rewrite Nat.add_succ_r in Hl. split; [econstructor; eauto|]. split; [simpl; auto|]. split; [eauto|].
    split; [eapply same_trans; eauto|]. split; [auto|]. cbn [every_from]. unfold ch_app; cbn [ch_models ch_accept ch_preds].
    destruct (ss mod q =? 0).
    + destruct Hc as (s&->&Hs&Hst&->&Hpr). destruct S2 as (_&_&_&K2). split; [|split].
      * simpl. constructor; auto. split; [eapply sample_of_later; eauto|]. destruct (stored_later _ _ _ K2 Hst); auto.
      * rewrite Ha. destruct sa; auto.
      * destruct sp; [|now rewrite Hpr, Hp]. destruct Hpr as (v&->&Hv). simpl. constructor; auto.
    + subst c1. simpl. auto.
Qed.
Lemma ob_samples_spec X y e num den q n nb sp sa m r c m' r' : no_nan X -> einv X y None e m -> udraws r ->
  num <> 0%Z -> (forall ss, keeps_sample ss num den = (ss mod q =? 0)) ->
  ob_samples m n nb (TInv num den) sp sa r = Ok (c, m', r') ->
  exists l lb, ob_sampling (ob_stores_every nb q sp) 0 m r (lb ++ l) m' r' /\ length lb = nb /\ length l = n /\ einv X y None e m' /\ same m m' /\
    Forall2 (fun s st => sample_of (m_heap m') s (snd st) /\ stored m' s) (ch_models c) (every_from q 0 l) /\
    ch_accept c = (if sa then map fst (every_from q 0 l) else []) /\
    (if sp then Forall2 (opreds_of X) (ch_preds c) (every_from q 0 l) else ch_preds c = []).
Proof.
  intros Hn H Hu Hz Hk. unfold ob_samples. destruct (ob_burn nb m r) as [[m1 r1]| |] eqn:Eb; try discriminate. cbn [rbind]. intros El.
  destruct (ob_burn_same _ _ _ Hn _ _ _ _ _ H Hu Eb) as (H1&S1&Hu1).
  destruct (ob_burn_run nb q sp nb 0 m r m1 r1 ltac:(lia) Eb) as (lb&Hlb&Lb).
  destruct (ob_sample_loop_spec X y e nb q num den sp sa Hn Hz Hk n 0 m1 r1 c m' r' H1 Hu1 El) as (l&Hl&Ll&HA&S2&_&Hrest).
  exists l, lb. split; [eapply ob_sampling_app; eauto; simpl; rewrite Lb; now rewrite Nat.add_0_r in Hl|]. split; auto. split; auto. split; auto.
  split; auto. eapply same_trans; eauto.
Qed.
