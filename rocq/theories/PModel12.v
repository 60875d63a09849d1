(** What ModelSampler.samples does. *)
From Coq Require Import Reals Lra Permutation ZArith.
From Verif Require Import Base Fl Ext MData MSplit MTree MSampler MHist MTreeHist MModel MModelHist Spec SpecTree SpecSampler SpecModel LFl LList
  PData PSplit PDataProps PCond PTree PPred PTreeHist PTreeProps PTreeProps2 PSampler PSampler2 PSampler3
  PModel PModel2 PModel3 PModel4 PModel5 PModel6 PModel7 PModel8 PModel9 PModel10 PModel11.

(** ** which steps are kept *)
Lemma keeps_multiple num den q p ss : 0 < q -> 0 < p -> Nat.gcd q p = 1 ->
  (num * Z.of_nat p = Z.of_nat q * Zpos den)%Z -> keeps_sample ss num den = (ss mod q =? 0).
Proof.
  intros Hq Hp Hg E. unfold keeps_sample.
  assert (Hnum : (0 < num)%Z) by nia.
  apply eq_true_iff_eq. rewrite Z.eqb_eq, Nat.eqb_eq, Z.mod_divide by lia. rewrite Nat.mod_divide by lia.
  split.
  - intros (z&Hz). apply (Nat.gauss q p ss); auto. exists (Z.to_nat z).
    assert (Hz0 : (0 <= z)%Z) by nia.
    apply Nat2Z.inj. rewrite !Nat2Z.inj_mul, Z2Nat.id by auto.
    apply (Z.mul_reg_r _ _ (Zpos den)); [lia|]. 
    replace (Z.of_nat p * Z.of_nat ss * Z.pos den)%Z with (Z.of_nat p * (Z.of_nat ss * Z.pos den))%Z by ring. rewrite Hz.
    replace (z * Z.of_nat q * Z.pos den)%Z with (z * (Z.of_nat q * Z.pos den))%Z by ring. rewrite <- E. ring.
  - intros (k&->). exists (Z.of_nat k * Z.of_nat p)%Z. rewrite Nat2Z.inj_mul.
    replace (Z.of_nat k * Z.of_nat p * num)%Z with (Z.of_nat k * (num * Z.of_nat p))%Z by ring. rewrite E. ring.
Qed.

(** every [q]th element *)
Fixpoint every_from {A} (q i : nat) (l : list A) : list A :=
  match l with [] => [] | x :: l' => if i mod q =? 0 then x :: every_from q (S i) l' else every_from q (S i) l' end.
Lemma mod_S_wrap q i : 0 < q -> i mod q = q - 1 -> S i mod q = 0.
Proof.
  intros Hq H. apply Nat.mod_divide; [lia|]. exists (S (i / q)). pose proof (Nat.div_mod i q ltac:(lia)). simpl. nia.
Qed.
Lemma mod_S_step q i : 0 < q -> i mod q <> q - 1 -> S i mod q = S (i mod q).
Proof.
  intros Hq H. pose proof (Nat.div_mod i q ltac:(lia)). pose proof (Nat.mod_upper_bound i q ltac:(lia)).
  symmetry. apply (Nat.mod_unique (S i) q (i / q)); lia.
Qed.
(** distance to the next multiple *)
Definition gap (q i : nat) : nat := if i mod q =? 0 then 0 else q - i mod q.
Lemma gap_S q i : 0 < q -> i mod q <> 0 -> gap q i = S (gap q (S i)).
Proof.
  intros Hq H. unfold gap. rewrite (proj2 (Nat.eqb_neq _ _) H). pose proof (Nat.mod_upper_bound i q ltac:(lia)).
  destruct (Nat.eq_dec (i mod q) (q - 1)) as [E|E].
  - rewrite (mod_S_wrap q i Hq E). simpl. lia.
  - rewrite (mod_S_step q i Hq E). simpl. lia.
Qed.
Lemma gap_0 q i : 0 < q -> i mod q = 0 -> q = S (gap q (S i)).
Proof.
  intros Hq H. unfold gap. destruct (Nat.eq_dec (i mod q) (q - 1)) as [E|E].
  - rewrite (mod_S_wrap q i Hq E). simpl. lia.
  - rewrite (mod_S_step q i Hq E), H. simpl. lia.
Qed.
Lemma every_from_nth {A} q : 0 < q -> forall (l : list A) i k, nth_error (every_from q i l) k = nth_error l (gap q i + k * q).
Proof.
  intros Hq. induction l as [|x l IH]; intros i k; simpl.
  - now destruct k, (gap q i + _)%nat.
  - destruct (Nat.eqb_spec (i mod q) 0) as [E|E].
    + assert (Hg : gap q i = 0) by (unfold gap; rewrite E; reflexivity). rewrite Hg. destruct k as [|k]; simpl; auto.
      rewrite IH. pose proof (gap_0 q i Hq E). replace (q + k * q) with (S (gap q (S i) + k * q)) by lia. reflexivity.
    + rewrite (gap_S q i Hq E). simpl. apply IH.
Qed.
Lemma every_from_length {A} q : 0 < q -> forall (l : list A) i, length (every_from q i l) = (length l + q - 1 - gap q i) / q.
Proof.
  intros Hq. induction l as [|x l IH]; intros i; simpl.
  - symmetry. apply Nat.div_small. lia.
  - destruct (Nat.eqb_spec (i mod q) 0) as [E|E].
    + simpl. rewrite IH. assert (Hg : gap q i = 0) by (unfold gap; rewrite E; reflexivity). rewrite Hg.
      pose proof (gap_0 q i Hq E).
      transitivity ((length l + 1 * q) / q); [|f_equal; lia]. rewrite Nat.div_add by lia.
      replace (length l + q - 1 - gap q (S i)) with (length l) by lia. lia.
    + rewrite IH. rewrite (gap_S q i Hq E). f_equal. lia.
Qed.
Lemma every_length {A} q (l : list A) : 0 < q -> length (every_from q 0 l) = (length l + q - 1) / q.
Proof. intros Hq. rewrite every_from_length by auto. unfold gap. rewrite Nat.mod_0_l by lia. simpl. f_equal. lia. Qed.
Lemma every_nth {A} q (l : list A) k : 0 < q -> nth_error (every_from q 0 l) k = nth_error l (k * q).
Proof. intros Hq. rewrite every_from_nth by auto. unfold gap. rewrite Nat.mod_0_l by lia. reflexivity. Qed.

(** ** the run behind [samples] *)
Lemma sampling_app stores : forall i m r l m1 r1, sampling stores i m r l m1 r1 -> forall l' m' r',
  sampling stores (i + length l) m1 r1 l' m' r' -> sampling stores i m r (l ++ l') m' r'.
Proof.
  induction 1; intros l'' m'' r'' H'; simpl in *; [now rewrite Nat.add_0_r in H'|].
  econstructor; eauto. apply IHsampling. now rewrite Nat.add_succ_r in H'.
Qed.
Lemma burn_run nb q sp : forall n i m r m' r', i + n <= nb -> burn n m r = Ok (m', r') ->
  exists l, sampling (stores_every nb q sp) i m r l m' r' /\ length l = n.
Proof.
  induction n as [|n IH]; intros i m r m' r' Hi; cbn [burn].
  - intros E; injection E as <- <-. exists []. split; auto. constructor.
  - destruct (gibbs_step m r) as [[[[d acts] m1] r1]| |] eqn:Eg; try discriminate. cbn [rbind]. intros E.
    destruct (IH (S i) m1 r1 m' r') as (l&Hl&Hn); [lia|auto|]. exists ((d, m1) :: l). split; [|simpl; auto].
    econstructor; eauto. unfold stores_every. destruct (Nat.ltb_spec i nb); [|lia]. reflexivity.
Qed.
Lemma same_gibbs X y e m As r d acts m' r' : no_nan X -> minv X y None e m As -> gibbs_step m r = Ok (d, acts, m', r') ->
  exists As', minv X y None e m' As' /\ same m m'.
Proof.
  intros Hn H. unfold gibbs_step. destruct (drive _ m _ GStart r) as [[[[log a] m1] r1]| |] eqn:Ed; try discriminate.
  cbn [rbind]. intros E; injection E as <- <- <- <-.
  destruct (drive_spec X y e Hn _ m (Fr None None) GStart As r _ _ _ _ H Ed) as (As'&H'&_&Hsm&_). eauto.
Qed.
Lemma burn_same X y e : no_nan X -> forall n m As r m' r', minv X y None e m As -> burn n m r = Ok (m', r') ->
  exists As', minv X y None e m' As' /\ same m m'.
Proof.
  intros Hn. induction n as [|n IH]; intros m As r m' r' H; cbn [burn].
  - intros E; injection E as <- <-. eauto using same_refl.
  - destruct (gibbs_step m r) as [[[[d acts] m1] r1]| |] eqn:Eg; try discriminate. cbn [rbind]. intros E.
    destruct (same_gibbs _ _ _ _ _ _ _ _ _ _ Hn H Eg) as (As1&H1&S1). destruct (IH _ _ _ _ _ H1 E) as (As'&H'&S').
    exists As'. split; auto. eapply same_trans; eauto.
Qed.
(** one iteration *)
Definition preds_of (X : matrix) (v : list R) (st : list (skey * R) * model) : Prop :=
  length v = length (mx_rows X) /\ (exists m1, model_predict (snd st) = Ok (v, m1)) /\
  forall vs, trees_say (snd st) X vs -> forall i, i < length (mx_rows X) -> nth i v 0%R = total vs i.
Lemma predict_out_trees h ts ts' X : map tr_nodes ts = map tr_nodes ts' -> trees_predict_out h ts X = trees_predict_out h ts' X.
Proof.
  intros E. apply trees_predict_out_ext. revert ts' E. induction ts as [|t ts IH]; intros [|t' ts'] E; try discriminate; constructor.
  - injection E as E _. unfold tree_predict_out, leaf_nodes. now rewrite E.
  - apply IH. now injection E.
Qed.
Lemma cached_nodes h X : forall ts As, length As = length ts -> map tr_nodes (map2 (cached h X) ts As) = map tr_nodes ts.
Proof.
  induction ts as [|t ts IH]; intros [|a As] E; try discriminate; simpl; auto. f_equal; auto.
Qed.
Lemma same_len m m' : same m m' -> length (m_trees m') = length (m_trees m).
Proof. now intros (H&_). Qed.
Lemma same_conditions_nodes h ts h' : forall us us', map tr_nodes us = map tr_nodes us' ->
  same_conditions h ts h' us -> same_conditions h ts h' us'.
Proof.
  intros us us' E H. revert us' E. induction H as [|t u ts us H _ IH]; intros [|u' us'] E; try discriminate; constructor; injection E; intros E2 E1.
  - now rewrite <- E1.
  - now apply IH.
Qed.
Lemma stored_conditions m m' s h ts : mkeeps m m' -> stored m s -> same_conditions (m_heap m) (sm_trees s) h ts ->
  same_conditions (m_heap m') (sm_trees s) h ts.
Proof.
  intros (_&Hk) Hs H. eapply Forall2_impl_in; [|exact H]. intros t t' Ht _ Hc. eapply Forall2_impl_in; [|exact Hc]. intros i i' Hi _ (n&n'&c&s'&E).
  exists n, n', c, s'. destruct (Hs i) as [H1 H2]; [exists t; auto|]. now rewrite (proj1 (Hk _ H1 H2)).
Qed.
Lemma sample_iter_spec X y e nb q ss num den sp sa m As r c m' r' : no_nan X -> minv X y None e m As ->
  num <> 0%Z -> keeps_sample ss num den = (ss mod q =? 0) ->
  sample_iter ss num den sp sa m r = Ok (c, m', r') ->
  exists d acts m1, gibbs_step m r = Ok (d, acts, m1, r') /\ model_run m1 (stores_every nb q sp (nb + ss)) = Ok m' /\
    (exists As', minv X y None e m' As') /\ same m m' /\
    if ss mod q =? 0
    then exists s, ch_models c = [s] /\ sample_of (m_heap m') s m1 /\ stored m' s /\ ch_accept c = (if sa then [d] else []) /\
         (if sp then exists v, ch_preds c = [v] /\ preds_of X v (d, m1) else ch_preds c = [])
    else c = Ch [] [] [].
Proof.
  intros Hn H Hz Hk. unfold sample_iter. destruct (gibbs_step m r) as [[[[d acts] m1] r1]| |] eqn:Eg; try discriminate. cbn [rbind].
  destruct (same_gibbs _ _ _ _ _ _ _ _ _ _ Hn H Eg) as (As1&H1&S1).
  rewrite (proj2 (Z.eqb_neq num 0) Hz), Hk. unfold stores_every.
  destruct (Nat.ltb_spec (nb + ss) nb) as [Hb|_]; [lia|]. replace (nb + ss - nb) with ss by lia.
  destruct (ss mod q =? 0).
  - destruct sp; cbn [rbind].
    + destruct (model_predict_spec _ _ _ _ _ Hn H1) as (v&m2&Ep&Lv&Nv&H2&S2&_&_&Es2&Eh2&Et2). rewrite Ep. cbn [rbind].
      destruct (deep_copy_model_spec _ _ _ _ _ _ H2) as (s&m3&Ec&H3&S3&_&_&Es3&Et3&Ess&Els&Hst&Hsp&_). rewrite Ec. cbn [rbind].
      intros E; injection E as <- <- <-. exists d, acts, m1. split; auto. cbn [model_run model_do]. rewrite Ep. cbn [rbind]. rewrite Ec. cbn [rbind].
      split; auto. split; [eauto|]. split; [eapply same_trans; [eauto|eapply same_trans; eauto]|].
      exists s. split; auto. split; [|split; [auto|split; [auto|]]].
      * split; [congruence|]. split.
        { rewrite Et2, Eh2 in Els. eapply same_conditions_nodes; [|exact Els]. apply cached_nodes.
          apply (ms_len _ _ _ _ _ _ (mi_st _ _ _ _ _ _ H1)). }
        intros X'. rewrite Hsp, Eh2, Et2. apply predict_out_trees.
        apply cached_nodes. apply (ms_len _ _ _ _ _ _ (mi_st _ _ _ _ _ _ H1)).
      * exists v. split; auto. split; auto. split; [simpl; eauto|]. intros vs Hvs i Hi. simpl in Hvs.
        rewrite (trees_say_unique _ _ _ _ _ _ _ H1 Hvs), total_col. auto.
    + destruct (deep_copy_model_spec _ _ _ _ _ _ H1) as (s&m3&Ec&H3&S3&_&_&Es3&Et3&Ess&Els&Hst&Hsp&_). rewrite Ec. cbn [rbind].
      intros E; injection E as <- <- <-. exists d, acts, m1. split; auto. cbn [model_run model_do]. rewrite Ec. cbn [rbind].
      split; auto. split; [eauto|]. split; [eapply same_trans; eauto|].
      exists s. split; auto. split; auto. split; auto.
  - intros E; injection E as <- <- <-. exists d, acts, m1. simpl. split; auto. split; auto. eauto.
Qed.
Lemma sample_of_later m m' s st : mkeeps m m' -> stored m s -> sample_of (m_heap m) s st -> sample_of (m_heap m') s st.
Proof.
  intros Hk Hs (H1&H2&H3). destruct (stored_later _ _ _ Hk Hs) as [_ E]. split; auto. split; [|intros X; now rewrite E].
  eapply stored_conditions; eauto.
Qed.
Lemma sample_loop_spec X y e nb q num den sp sa : no_nan X -> num <> 0%Z -> (forall ss, keeps_sample ss num den = (ss mod q =? 0)) ->
  forall todo ss m As r c m' r', minv X y None e m As -> sample_loop ss todo num den sp sa m r = Ok (c, m', r') ->
  exists l, sampling (stores_every nb q sp) (nb + ss) m r l m' r' /\ length l = todo /\ (exists As', minv X y None e m' As') /\ same m m' /\
    Forall2 (fun s st => sample_of (m_heap m') s (snd st) /\ stored m' s) (ch_models c) (every_from q ss l) /\
    ch_accept c = (if sa then map fst (every_from q ss l) else []) /\
    (if sp then Forall2 (preds_of X) (ch_preds c) (every_from q ss l) else ch_preds c = []).
Proof.
  intros Hn Hz Hk. induction todo as [|todo IH]; intros ss m As r c m' r' H; cbn [sample_loop].
  - intros E; injection E as <- <- <-. exists []. split; [constructor|]. split; auto. split; [eauto|]. split; [apply same_refl|].
    simpl. split; [constructor|]. split; [now destruct sa|]. destruct sp; auto.
  - destruct (sample_iter ss num den sp sa m r) as [[[c1 m1] r1]| |] eqn:Ei; try discriminate. cbn [rbind].
    destruct (sample_loop (S ss) todo num den sp sa m1 r1) as [[[c2 m2] r2]| |] eqn:El; try discriminate. cbn [rbind].
    intros E; injection E as <- <- <-.
    destruct (sample_iter_spec _ _ _ nb q _ _ _ _ _ _ _ _ _ _ _ Hn H Hz (Hk ss) Ei) as (d&acts&mg&Eg&Er&(As1&H1)&S1&Hc).
    destruct (IH (S ss) m1 As1 r1 c2 m2 r2 H1 El) as (l&Hl&Hlen&(As2&H2)&S2&Hm&Ha&Hp).
    exists ((d, mg) :: l). rewrite Nat.add_succ_r in Hl. split; [econstructor; eauto|]. split; [simpl; auto|]. split; [eauto|].
    split; [eapply same_trans; eauto|]. cbn [every_from]. unfold ch_app; cbn [ch_models ch_accept ch_preds].
    destruct (ss mod q =? 0).
    + destruct Hc as (s&->&Hs&Hst&->&Hpr). destruct S2 as (_&_&_&K2). split; [|split].
      * simpl. constructor; auto. split; [eapply sample_of_later; eauto|]. destruct (stored_later _ _ _ K2 Hst); auto.
      * rewrite Ha. destruct sa; auto.
      * destruct sp; [|now rewrite Hpr, Hp]. destruct Hpr as (v&->&Hv). simpl. constructor; auto.
    + subst c1. simpl. auto.
Qed.
Lemma samples_spec X y e num den q n nb sp sa m As r c m' r' : no_nan X -> minv X y None e m As ->
  num <> 0%Z -> (forall ss, keeps_sample ss num den = (ss mod q =? 0)) ->
  samples m n nb (TInv num den) sp sa r = Ok (c, m', r') ->
  exists l lb, sampling (stores_every nb q sp) 0 m r (lb ++ l) m' r' /\ length lb = nb /\ length l = n /\ (exists As', minv X y None e m' As') /\ same m m' /\
    Forall2 (fun s st => sample_of (m_heap m') s (snd st) /\ stored m' s) (ch_models c) (every_from q 0 l) /\
    ch_accept c = (if sa then map fst (every_from q 0 l) else []) /\
    (if sp then Forall2 (preds_of X) (ch_preds c) (every_from q 0 l) else ch_preds c = []).
Proof.
  intros Hn H Hz Hk. unfold samples. destruct (burn nb m r) as [[m1 r1]| |] eqn:Eb; try discriminate. cbn [rbind]. intros El.
  destruct (burn_same _ _ _ Hn _ _ _ _ _ _ H Eb) as (As1&H1&S1).
  destruct (burn_run nb q sp nb 0 m r m1 r1 ltac:(lia) Eb) as (lb&Hlb&Lb).
  destruct (sample_loop_spec X y e nb q num den sp sa Hn Hz Hk n 0 m1 As1 r1 c m' r' H1 El) as (l&Hl&Ll&HA&S2&Hrest).
  exists l, lb. split; [eapply sampling_app; eauto; simpl; rewrite Lb; now rewrite Nat.add_0_r in Hl|]. split; auto. split; auto. split; auto.
  split; auto. eapply same_trans; eauto.
Qed.

(** ** safety and liveness *)
Lemma offers_varies X : offers X <-> varies X.
Proof.
  unfold offers, varies, chosen. split.
  - intros (v&x&Hv&_&k&i&j&Hki&Hkj&[Hk _]&[Hi _]&[Hj _]&Hd). exists v, i, j. repeat (split; auto); lia.
  - intros (v&i&j&Hv&Hi&Hj&Hd). exists v, (value_in X i v). split; auto. split.
    + exists (nth i (mx_rows X) []). split; [apply nth_In; lia|]. split; reflexivity.
    + exists 0, i, j. repeat (split; auto; try lia).
Qed.
Lemma stuck_tree h X y t q sigma p r : no_nan X -> ~ offers X -> tree_inv h X (Some y) t (ALeaf q) ->
  tree_step h t sigma p r = Raise ERecursionError \/ tree_step h t sigma p r = NoDraws.
Proof.
  intros Hn Ho H.
  assert (Hs : splittable_leaf_nodes h t = []).
  { destruct (splittable_leaf_nodes h t) as [|i l] eqn:E; auto. exfalso.
    destruct (splittable_leaf _ _ _ _ _ i H) as (w&s&d&ci&_&_&Hf&_&Hs&Hsp); [rewrite E; simpl; auto|].
    simpl in Hf. destruct (q =? i); [|discriminate Hf]. injection Hf as <- <- _.
    apply (any_meaning X _ [] s Hs) in Hsp as (v&Hv).
    apply (offered_iff X _ [] s Hn Hs) in Hv as (Hv&k&i'&j'&Hki&Hkj&Hk&Hi&Hj&Hd).
    apply (in_node_kept _ _ _ _ _ Hs) in Hi. apply (in_node_kept _ _ _ _ _ Hs) in Hj. apply Ho. apply offers_varies. exists v, i', j'.
    destruct Hi, Hj. repeat (split; auto); lia. }
  assert (Hp : prunable_decision_nodes h t = []).
  { unfold prunable_decision_nodes. destruct (filter _ (decision_nodes h t)) as [|i l] eqn:E; auto. exfalso.
    assert (Hi : In i (decision_nodes h t)) by (apply (filter_In (is_prunable h)); rewrite E; simpl; auto).
    unfold decision_nodes in Hi. apply filter_In in Hi as [Hi Hd]. apply (ti_in _ _ _ _ _ _ H) in Hi. destruct Hi as [<-|[]].
    destruct (ti_ok _ _ _ _ _ H) as (w&s&E'&_). unfold is_dec in Hd. rewrite E' in Hd. discriminate. }
  unfold tree_step, tree_sample. 
  assert (E : propose (pa_limit p) h t r = if pa_limit p <=? length (rg_method r) then Raise ERecursionError else NoDraws).
  { generalize (pa_limit p). intros limit. revert r. induction limit as [|limit IH]; intros r; simpl; auto.
    destruct (rg_method r) as [|b bs] eqn:Em; auto.
    assert (E : (if b then sample_grow_mutation h t (rg_index r) else sample_prune_mutation h t (rg_index r)) =
       if b then Raise ENoSplittableVariable else Raise ENoPrunableNode).
    { unfold sample_grow_mutation, random_splittable_leaf_node, sample_prune_mutation, random_prunable_decision_node.
      rewrite Hs, Hp. destruct b; reflexivity. }
    rewrite E. destruct b; rewrite IH; auto. }
  rewrite E. destruct (_ <=? _); auto.
Qed.
Lemma gibbs_stuck X y p m r : no_nan X -> sampled_model X y p m -> well p -> ~ offers X ->
  gibbs_step m r = Raise ERecursionError \/ gibbs_step m r = NoDraws.
Proof.
  intros Hn (As&e&H&Hf&Ep&Hl&Hs) Hp Ho. unfold gibbs_step, drive_fuel. cbn [Nat.add drive].
  destruct (gen_next_spec X y e m (Fr None None) GStart As Hn H ltac:(discriminate)) as (fr1&m1&->&_&Hg1&Hsm1&_). cbn [rbind].
  assert (Hpc : pc_next m GStart = GTree 0).
  { simpl. unfold succ_pc. destruct (Nat.ltb_spec 0 (length (m_trees m))) as [_|Hb]; auto. destruct Hp as ((_&?)&_). lia. }
  rewrite Hpc in *. simpl yields. cbv iota beta. destruct Hg1 as [H1 Hfr]. unfold call. rewrite Hfr.
  destruct (mi_target _ _ _ _ _ _ H1 0 eq_refl) as (t&a&ty&Et&Ea&Hi&_). rewrite Et.
  assert (Hfa : filled X [] a) by (eapply Forall_forall; [exact Hf|eapply nth_error_In; eauto]).
  destruct a as [q|q v x l rr]; [|exfalso; apply Ho; exists v, x; apply Hfa].
  destruct (stuck_tree _ _ _ _ _ (m_sigma m1) (m_par m1) r Hn Ho Hi) as [-> | ->]; auto.
Qed.
Lemma burn_live X y p : no_nan X -> well p -> offers X -> 0 < pa_limit p -> forall n m, sampled_model X y p m ->
  exists r0 m', fit_rng r0 /\ sampled_model X y p m' /\ forall s, burn n m (radd r0 s) = Ok (m', s).
Proof.
  intros Hn Hp Ho Hl. induction n as [|n IH]; intros m Hm.
  - exists rnil, m. split; [constructor|]. split; auto. intros s. cbn [burn]. now rewrite radd_nil.
  - destruct (gibbs_live _ _ _ _ Hn Hm Hp Ho Hl) as (r1&d&acts&m1&Hr1&E1).
    assert (Hm1 : sampled_model X y p m1).
    { pose proof (gibbs_safe X y p m (radd r1 rnil) Hn Hm Hp) as Hg. rewrite E1 in Hg. apply Hg. rewrite radd_nil_r. auto. }
    destruct (IH m1 Hm1) as (r2&m2&Hr2&Hm2&E2). exists (radd r1 r2), m2. split; [|split; auto].
    + unfold fit_rng, radd in *. simpl. apply Forall_app; auto.
    + intros s. cbn [burn]. rewrite radd_assoc, E1. cbn [rbind]. apply E2.
Qed.
Lemma iter_live X y p ss num den sp sa m : no_nan X -> well p -> offers X -> 0 < pa_limit p -> num <> 0%Z -> sampled_model X y p m ->
  exists r0 c m', fit_rng r0 /\ sampled_model X y p m' /\ forall s, sample_iter ss num den sp sa m (radd r0 s) = Ok (c, m', s).
Proof.
  intros Hn Hp Ho Hl Hz Hm. destruct (gibbs_live _ _ _ _ Hn Hm Hp Ho Hl) as (r1&d&acts&m1&Hr1&E1).
  assert (Hm1 : sampled_model X y p m1).
  { pose proof (gibbs_safe X y p m (radd r1 rnil) Hn Hm Hp) as Hg. rewrite E1 in Hg. apply Hg. rewrite radd_nil_r. auto. }
  assert (Hpred : exists v m2, model_predict m1 = Ok (v, m2) /\ sampled_model X y p m2).
  { pose proof Hm1 as (As&e&H&_). destruct (model_predict_spec _ _ _ _ _ Hn H) as (v&m2&Ep&_). exists v, m2. split; auto.
    apply (sampled_model_do X y p m1 GPredict m2 Hn Hm1 I). cbn [model_do]. rewrite Ep. reflexivity. }
  assert (Hcopy : forall m2, sampled_model X y p m2 -> exists s m3, deep_copy_model m2 = Ok (s, m3) /\ sampled_model X y p m3).
  { intros m2 Hm2. pose proof Hm2 as (As&e&H&_). destruct (deep_copy_model_spec _ _ _ _ _ _ H) as (s&m3&Ec&_). exists s, m3. split; auto.
    apply (sampled_model_do X y p m2 GStore m3 Hn Hm2 I). cbn [model_do]. rewrite Ec. reflexivity. }
  destruct Hpred as (v&m2&Ep&Hm2). exists r1. unfold sample_iter.
  destruct (keeps_sample ss num den) eqn:Ek.
  - destruct sp.
    + destruct (Hcopy m2 Hm2) as (sm&m3&Ec&Hm3). eexists. exists m3. split; auto. split; auto. intros s. rewrite E1. cbn [rbind].
      rewrite (proj2 (Z.eqb_neq num 0) Hz), Ep. cbn [rbind]. rewrite Ec. reflexivity.
    + destruct (Hcopy m1 Hm1) as (sm&m3&Ec&Hm3). eexists. exists m3. split; auto. split; auto. intros s. rewrite E1. cbn [rbind].
      rewrite (proj2 (Z.eqb_neq num 0) Hz). cbn [rbind]. rewrite Ec. reflexivity.
  - eexists. exists m1. split; auto. split; auto. intros s. rewrite E1. cbn [rbind].
    rewrite (proj2 (Z.eqb_neq num 0) Hz). reflexivity.
Qed.
Lemma loop_live X y p num den sp sa : no_nan X -> well p -> offers X -> 0 < pa_limit p -> num <> 0%Z -> forall n ss m, sampled_model X y p m ->
  exists r0 c m', fit_rng r0 /\ sampled_model X y p m' /\ forall s, sample_loop ss n num den sp sa m (radd r0 s) = Ok (c, m', s).
Proof.
  intros Hn Hp Ho Hl Hz. induction n as [|n IH]; intros ss m Hm.
  - exists rnil, (Ch [] [] []), m. split; [constructor|]. split; auto. intros s. cbn [sample_loop]. now rewrite radd_nil.
  - destruct (iter_live X y p ss num den sp sa m Hn Hp Ho Hl Hz Hm) as (r1&c1&m1&Hr1&Hm1&E1).
    destruct (IH (S ss) m1 Hm1) as (r2&c2&m2&Hr2&Hm2&E2). exists (radd r1 r2), (ch_app c1 c2), m2. split; [|split; auto].
    + unfold fit_rng, radd in *. simpl. apply Forall_app; auto.
    + intros s. cbn [sample_loop]. rewrite radd_assoc, E1. cbn [rbind]. rewrite E2. reflexivity.
Qed.
Lemma samples_live X y p num den sp sa n nb m : no_nan X -> well p -> offers X -> 0 < pa_limit p -> num <> 0%Z -> sampled_model X y p m ->
  exists r0 c m', fit_rng r0 /\ sampled_model X y p m' /\ forall s, samples m n nb (TInv num den) sp sa (radd r0 s) = Ok (c, m', s).
Proof.
  intros Hn Hp Ho Hl Hz Hm. destruct (burn_live X y p Hn Hp Ho Hl nb m Hm) as (r1&m1&Hr1&Hm1&E1).
  destruct (loop_live X y p num den sp sa Hn Hp Ho Hl Hz n 0 m1 Hm1) as (r2&c&m2&Hr2&Hm2&E2).
  exists (radd r1 r2), c, m2. split; [|split; auto].
  - unfold fit_rng, radd in *. simpl. apply Forall_app; auto.
  - intros s. unfold samples. rewrite radd_assoc, E1. cbn [rbind]. apply E2.
Qed.
Definition safe {A} (P : A -> Prop) (r : res A) : Prop :=
  match r with Ok a => P a | Raise e => e = ERecursionError | NoDraws => True end.
Lemma burn_safe X y p : no_nan X -> well p -> forall n m r, sampled_model X y p m -> fit_rng r ->
  safe (fun a => sampled_model X y p (fst a) /\ fit_rng (snd a)) (burn n m r).
Proof.
  intros Hn Hp. induction n as [|n IH]; intros m r Hm Hr; cbn [burn]; [simpl; auto|].
  pose proof (gibbs_safe X y p m r Hn Hm Hp Hr) as Hg. destruct (gibbs_step m r) as [[[[d acts] m1] r1]| |]; cbn [rbind]; auto.
  apply IH; apply Hg.
Qed.
Lemma loop_safe X y p num den sp sa : no_nan X -> well p -> num <> 0%Z -> forall n ss m r, sampled_model X y p m -> fit_rng r ->
  safe (fun a => sampled_model X y p (snd (fst a)) /\ fit_rng (snd a)) (sample_loop ss n num den sp sa m r).
Proof.
  intros Hn Hp Hz. induction n as [|n IH]; intros ss m r Hm Hr; cbn [sample_loop]; [simpl; auto|].
  assert (Hi : safe (fun a => sampled_model X y p (snd (fst a)) /\ fit_rng (snd a)) (sample_iter ss num den sp sa m r)).
  { unfold sample_iter. pose proof (gibbs_safe X y p m r Hn Hm Hp Hr) as Hg. destruct (gibbs_step m r) as [[[[d acts] m1] r1]| |]; cbn [rbind]; auto.
    destruct Hg as [Hm1 Hr1]. rewrite (proj2 (Z.eqb_neq num 0) Hz).
    assert (Hcopy : forall m2, sampled_model X y p m2 -> exists s m3, deep_copy_model m2 = Ok (s, m3) /\ sampled_model X y p m3).
    { intros m2 Hm2. pose proof Hm2 as (As&e&H&_). destruct (deep_copy_model_spec _ _ _ _ _ _ H) as (s&m3&Ec&_). exists s, m3. split; auto.
      apply (sampled_model_do X y p m2 GStore m3 Hn Hm2 I). cbn [model_do]. rewrite Ec. reflexivity. }
    destruct (keeps_sample ss num den); [|simpl; auto]. destruct sp.
    - pose proof Hm1 as (As&e&H&_). destruct (model_predict_spec _ _ _ _ _ Hn H) as (v&m2&Ep&_). rewrite Ep. cbn [rbind].
      destruct (Hcopy m2) as (s&m3&->&H3); [|cbn [rbind]; simpl; auto].
      apply (sampled_model_do X y p m1 GPredict m2 Hn Hm1 I). cbn [model_do]. rewrite Ep. reflexivity.
    - cbn [rbind]. destruct (Hcopy m1 Hm1) as (s&m3&->&H3). cbn [rbind]. simpl. auto. }
  destruct (sample_iter ss num den sp sa m r) as [[[c m1] r1]| |]; cbn [rbind]; auto. simpl in Hi. destruct Hi as [Hm1 Hr1].
  pose proof (IH (S ss) m1 r1 Hm1 Hr1) as Hs. destruct (sample_loop (S ss) n num den sp sa m1 r1) as [[[c2 m2] r2]| |]; cbn [rbind]; auto.
Qed.
Lemma samples_safe X y p num den sp sa n nb m r : no_nan X -> well p -> num <> 0%Z -> sampled_model X y p m -> fit_rng r ->
  safe (fun a => sampled_model X y p (snd (fst a)) /\ fit_rng (snd a)) (samples m n nb (TInv num den) sp sa r).
Proof.
  intros Hn Hp Hz Hm Hr. unfold samples. pose proof (burn_safe X y p Hn Hp nb m r Hm Hr) as Hb.
  destruct (burn nb m r) as [[m1 r1]| |]; cbn [rbind]; auto. apply loop_safe; auto; apply Hb.
Qed.
