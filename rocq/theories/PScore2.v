(** Lemmas behind Properties_Score.v: stretches *)
From Coq Require Import Reals Lra Permutation.
From Verif Require Import Base Fl Ext MData MSplit MTree MSampler MHist MTreeHist Spec SpecTree SpecSampler SpecScore LFl LList
  PData PSplit PDataProps PCond PTree PPred PTreeHist PTreeProps PTreeProps2 PSampler PSampler2 PSampler3 PCounts PScore.

Lemma filled_shape X a : forall cs a', ashape a = ashape a' -> filled X cs a -> filled X cs a'.
Proof.
  induction a as [i|i v x l IHl r IHr]; intros cs [i'|i' v' x' l' r']; simpl; try discriminate; auto.
  intros E; injection E as <- <- El Er. intros (A&B&C). eauto.
Qed.
Lemma same_target h X Y Y' t a a' : tree_inv h X (Some Y) t a -> tree_inv h X (Some Y') t a' -> Y = Y'.
Proof.
  intros H H'. pose proof (aroot_in a) as Hr. pose proof (ti_node _ _ _ _ _ _ _ (ti_ok _ _ _ _ _ H) Hr) as (k&s&d&cs&E&Hs).
  apply (ti_in _ _ _ _ _ _ H) in Hr. apply (ti_in _ _ _ _ _ _ H') in Hr.
  pose proof (ti_node _ _ _ _ _ _ _ (ti_ok _ _ _ _ _ H') Hr) as (k'&s'&d'&cs'&E'&Hs'). rewrite E in E'. injection E' as <- <- <-.
  pose proof (tv_y _ _ _ (si_t _ _ _ _ Hs)) as A. pose proof (tv_y _ _ _ (si_t _ _ _ _ Hs')) as B. congruence.
Qed.
Lemma quiet_score h X Y t a o h1 t1 : no_nan X -> tree_inv h X (Some Y) t a -> sane_tree_op (length (mx_rows X)) o -> ~ invalidates o ->
  tree_do h t o = Ok (h1, t1) -> tree_inv h1 X (Some Y) t1 a.
Proof.
  intros Hn H Hs Hi Hd. assert (Hm : ~ mutates o) by (destruct o; simpl in *; tauto).
  destruct (quiet_keeps _ _ _ _ _ _ _ _ H Hs Hm Hd) as (_&_&y'&H'). destruct (tree_do_inv _ _ _ _ _ _ _ _ Hn H Hs Hd) as (a'&H2&_).
  assert (Ey : y_after Y o = Y) by (destruct o; simpl in *; tauto). rewrite Ey in H2. now rewrite (same_target _ _ _ _ _ _ _ H2 H').
Qed.
Lemma propose_unif n : forall h t r m h1 r1, propose n h t r = Ok (m, h1, r1) -> rg_unif r1 = rg_unif r.
Proof.
  induction n as [|n IH]; intros h t r m h1 r1; simpl; [discriminate|]. destruct (rg_method r) as [|b bs]; [discriminate|]. destruct b.
  - destruct (sample_grow_mutation h t (rg_index r)) as [[[m' h'] idx]|e|]; try discriminate; [intros E; injection E as <- <- <-; reflexivity|].
    destruct e; try discriminate; intros E; apply IH in E; exact E.
  - destruct (sample_prune_mutation h t (rg_index r)) as [[[m' h'] idx]|e|]; try discriminate; [intros E; injection E as <- <- <-; reflexivity|].
    destruct e; try discriminate; intros E; apply IH in E; exact E.
Qed.
Definition np (h : heap) (t : tree) : nat := length (prunable_decision_nodes h t).
Definition ns (h : heap) (t : tree) : nat := length (splittable_leaf_nodes h t).
Lemma step_score h X Y t a sigma p r om h1 t1 r1 : no_nan X -> tree_inv h X (Some Y) t a -> filled X [] a -> (0 < sigma)%R -> good p ->
  Forall (fun u => 0 <= u)%R (rg_unif r) -> tree_step h t sigma p r = Ok (om, h1, t1, r1) ->
  match om with
  | None => tree_inv h1 X (Some Y) t1 a
  | Some m => exists a1, tree_inv h1 X (Some Y) t1 a1 /\ filled X [] a1 /\
      ((mu_kind m = MGrow /\ (sc X Y sigma p a1 - sc X Y sigma p a > ln (INR (np h t) + 1))%R /\ np h1 t1 <= S (np h t)) \/
       (mu_kind m = MPrune /\ (sc X Y sigma p a1 - sc X Y sigma p a > ln (INR (ns h t) - 1) - ln (INR (np h t)))%R /\ 2 <= ns h t /\
        1 <= np h t <= S (np h1 t1)))
  end.
Proof.
  intros Hn H Hfil Hs Hp Hu. unfold tree_step, tree_sample.
  destruct (propose (pa_limit p) h t r) as [[[m h'] r']| |] eqn:Ep; try discriminate. cbn [rbind].
  pose proof (propose_unif _ _ _ _ _ _ _ Ep) as Eu. apply propose_cases in Ep.
  destruct (log_probability_ratio h' t m sigma p) as [L| |] eqn:EL; try discriminate. cbn [rbind].
  destruct (rg_unif r') as [|u us]; [discriminate|]. cbn [rbind]. rewrite <- Eu in Hu. inversion Hu as [|? ? Hu0 _]; subst.
  destruct (accepts u L) eqn:Ea.
  - destruct (mutate h' t m) as [[h2 t2] [e|]] eqn:Em; [discriminate|]. intros E; injection E as <- <- <- <-.
    assert (Hl : forall l, L = XFin l -> (0 < l)%R).
    { intros l ->. unfold accepts, xltb in Ea. match type of Ea with context [Rlt_dec ?a ?b] => destruct (Rlt_dec a b) end; [lra|discriminate]. }
    destruct Ep as [(idx'&E&_)|(idx'&E&_)].
    + destruct (grow_score _ _ _ _ _ _ _ _ _ _ _ sigma p Hn H E Em Hs Hp) as (a1&H1&Hk&Er&Hc). exists a1. split; auto. split.
      * assert (Hd : tree_do h t (TSampleGrow (rg_index r)) = Ok (h2, t2)) by (cbn [tree_do]; rewrite E; cbn [rbind]; rewrite Em; reflexivity).
        assert (Hso : sane_tree_op (length (mx_rows X)) (TSampleGrow (rg_index r))) by exact I.
        destruct (tree_do_inv _ _ _ _ _ _ _ _ Hn H Hso Hd) as (a'&H'&_&Hf). eapply filled_shape; [|apply Hf; simpl; auto].
        rewrite <- (reads_shape _ _ _ _ _ _ H1 (reads_inv _ _ _ _ _ H1)). symmetry. exact (reads_shape _ _ _ _ _ _ H' (reads_inv _ _ _ _ _ H1)).
      * left. split; auto. split; auto. rewrite EL in Er. injection Er as ->. specialize (Hl _ eq_refl). unfold np. lra.
    + assert (Hns : 2 <= ns h t).
      { destruct (le_lt_dec 2 (ns h t)); auto. exfalso.
        destruct (prune_view _ _ _ _ _ _ _ _ _ H E) as (i&l0&r0&cs&d&v&x&->&_&_&_&_&Hfr&_).
        apply prune_low in EL; [rewrite (low_accept u _ EL) in Ea; discriminate|].
        unfold n_splittable_leaf_nodes. destruct (frame_lists _ _ _ _ _ _ H Hfr) as (_&->&_). unfold ns in *. lia. }
      destruct (prune_score _ _ _ _ _ _ _ _ _ _ _ sigma p Hn H Hfil E Em Hs Hp Hns) as (a1&H1&Hk&Er&Hc). exists a1. split; auto. split.
      * assert (Hd : tree_do h t (TSamplePrune (rg_index r)) = Ok (h2, t2)) by (cbn [tree_do]; rewrite E; cbn [rbind]; rewrite Em; reflexivity).
        assert (Hso : sane_tree_op (length (mx_rows X)) (TSamplePrune (rg_index r))) by exact I.
        destruct (tree_do_inv _ _ _ _ _ _ _ _ Hn H Hso Hd) as (a'&H'&_&Hf). eapply filled_shape; [|apply Hf; simpl; auto].
        rewrite <- (reads_shape _ _ _ _ _ _ H1 (reads_inv _ _ _ _ _ H1)). symmetry. exact (reads_shape _ _ _ _ _ _ H' (reads_inv _ _ _ _ _ H1)).
      * right. split; auto. split; auto. rewrite EL in Er. injection Er as ->. specialize (Hl _ eq_refl). unfold np, ns. lra.
  - intros E; injection E as <- <- <- <-.
    assert (Hfr : hframe h h').
    { destruct Ep as [(idx'&E&_)|(idx'&E&_)]; [eapply sample_grow_frame|eapply sample_prune_frame]; eauto. }
    destruct Hfr as [Hnx Hold]. eapply tree_inv_heap; eauto. intros j Hj. apply Hold. eapply nodes_below; eauto.
Qed.
Lemma ln_pos_ge n : 1 <= n -> (0 <= ln (INR n))%R.
Proof. intros H. rewrite <- ln_1. destruct (Nat.eq_dec n 1) as [->|]; [simpl; lra|]. left. apply ln_increasing; [lra|]. change 1%R with (INR 1). apply lt_INR. lia. Qed.
Lemma ln_le_nat a b : 1 <= a -> a <= b -> (ln (INR a) <= ln (INR b))%R.
Proof.
  intros Ha Hb. destruct (Nat.eq_dec a b) as [->|]; [lra|]. left. apply ln_increasing; [apply lt_0_INR; lia|]. apply lt_INR. lia.
Qed.
Lemma rises h X Y t a sigma p r m h1 t1 r1 : no_nan X -> tree_inv h X (Some Y) t a -> filled X [] a -> (0 < sigma)%R -> good p ->
  Forall (fun u => 0 <= u)%R (rg_unif r) -> tree_step h t sigma p r = Ok (Some m, h1, t1, r1) -> (mu_kind m = MPrune -> np h t < ns h t) ->
  exists a1, tree_inv h1 X (Some Y) t1 a1 /\ filled X [] a1 /\ (sc X Y sigma p a < sc X Y sigma p a1)%R.
Proof.
  intros Hn H Hfil Hs Hp Hu E Hc. destruct (step_score _ _ _ _ _ _ _ _ _ _ _ _ Hn H Hfil Hs Hp Hu E) as (a1&H1&Hf1&Hcase).
  exists a1. split; auto. split; auto. destruct Hcase as [(_&Hd&_)|(Hk&Hd&Hns&Hnp&_)].
  - pose proof (ln_pos_ge (S (np h t)) ltac:(lia)) as Hl. rewrite S_INR in Hl. lra.
  - specialize (Hc Hk). pose proof (ln_le_nat (np h t) (ns h t - 1) ltac:(lia) ltac:(lia)) as Hl. rewrite minus_INR in Hl by lia. simpl in Hl. lra.
Qed.

(** ** the finitely many trees *)
Definition cuts (X : matrix) : list (nat * fl) := flat_map (fun v => map (fun r => (v, cell r v)) (mx_rows X)) (seq 0 (mx_ncols X)).
Fixpoint enum (c : list (nat * fl)) (k : nat) : list stree :=
  match k with
  | O => []
  | S k => SLeaf 0%R :: flat_map (fun vx => flat_map (fun l => map (SNode (fst vx) (snd vx) l) (enum c k)) (enum c k)) c
  end.
Lemma enum_in X a : forall cs k, filled X cs a -> aheight a <= k -> In (ashape a) (enum (cuts X) k).
Proof.
  induction a as [i|i v x l IHl r IHr]; intros cs [|k]; simpl; try lia; auto.
  intros (Hc&Hl&Hr) Hh. right. apply in_flat_map. exists (v, x). split.
  - destruct Hc as (Hv&(r0&Hr0&_&Ex)&_). unfold cuts. apply in_flat_map. exists v. split; [apply in_seq; lia|]. apply in_map_iff. exists r0. now rewrite Ex.
  - apply in_flat_map. exists (ashape l). split; [eapply IHl; eauto; lia|]. simpl. apply in_map. eapply IHr; eauto. lia.
Qed.
Lemma filter_parts {A} (f : A -> bool) l : length (filter f l) + length (filter (fun x => negb (f x)) l) = length l.
Proof. induction l as [|z l IH]; simpl; auto. destruct (f z); simpl; lia. Qed.
Lemma some_rws X cs : (exists r, In r (mx_rows X) /\ kept cs r = true) -> 1 <= length (rws X cs).
Proof.
  intros (r&Hr&Hk). apply (In_nth _ _ []) in Hr as (i&Hi&Ei). assert (Hin : In i (rws X cs)) by (apply filter_In; rewrite in_seq, Ei; split; auto; lia).
  destruct (rws X cs); [destruct Hin|simpl; lia].
Qed.
Lemma filled_height X a : no_nan X -> forall cs, filled X cs a -> aheight a <= length (rws X cs).
Proof.
  intros Hn. induction a as [i|i v x l IHl r IHr]; intros cs; cbn [filled aheight].
  - intros H. now apply some_rws.
  - intros (Hc&Hl&Hr). destruct Hc as (Hv&(r0&Hr0&_&Ex)&_). assert (Hx : x <> FNaN) by (rewrite <- Ex; now apply Hn).
    pose proof (some_rws _ _ (filled_some _ _ _ Hl)) as A. pose proof (some_rws _ _ (filled_some _ _ _ Hr)) as B. apply IHl in Hl. apply IHr in Hr.
    rewrite rws_left in Hl, A by auto. rewrite rws_right in Hr, B. pose proof (filter_parts (fun i => fle (value_in X i v) x) (rws X cs)). lia.
Qed.
Definition all_shapes (X : matrix) : list stree := enum (cuts X) (length (mx_rows X)).
Lemma shape_listed X a : no_nan X -> filled X [] a -> In (ashape a) (all_shapes X).
Proof. intros Hn Hf. eapply enum_in; eauto. apply filled_height in Hf; auto. now rewrite rws_nil, seq_length in Hf. Qed.

Lemma stretch_spec X Y sigma p h t n h2 t2 : no_nan X -> (0 < sigma)%R -> good p -> stretch X sigma p h t n h2 t2 ->
  forall a, tree_inv h X (Some Y) t a -> filled X [] a ->
  exists a2, tree_inv h2 X (Some Y) t2 a2 /\ filled X [] a2 /\
    (sc X Y sigma p a <= sc X Y sigma p a2)%R /\ (0 < n -> (sc X Y sigma p a < sc X Y sigma p a2)%R) /\ (n = 0 -> a2 = a) /\
    exists L, length L = S n /\ NoDup L /\ incl L (all_shapes X) /\ forall s, In s L -> (sc X Y sigma p a <= tree_score X Y sigma p s)%R.
Proof.
  intros Hn Hs Hp Hst. induction Hst; intros a Ha Hf.
  - exists a. split; auto. split; auto. split; [lra|]. split; [lia|]. split; auto. exists [ashape a]. split; auto.
    split; [repeat constructor; simpl; tauto|]. split; [intros s [<-|[]]; now apply shape_listed|]. intros s [<-|[]]. unfold sc. lra.
  - eapply quiet_score in Ha; eauto.
  - pose proof (step_score _ _ _ _ _ _ _ _ _ _ _ _ Hn Ha Hf Hs Hp H H0). eauto.
  - destruct (rises _ _ _ _ _ _ _ _ _ _ _ _ Hn Ha Hf Hs Hp H H0 H1) as (a1&Ha1&Hf1&Hlt).
    destruct (IHHst _ Ha1 Hf1) as (a2&Ha2&Hf2&Hle&_&_&L&HL&HN&HI&HS). exists a2. split; auto. split; auto.
    split; [lra|]. split; [lra|]. split; [lia|]. exists (ashape a :: L). split; [simpl; lia|]. split; [|split].
    + constructor; auto. intros Hin. apply HS in Hin. unfold sc in *. lra.
    + intros s [<-|Hin]; [now apply shape_listed|auto].
    + intros s [<-|Hin]; [unfold sc; lra|]. apply HS in Hin. lra.
Qed.
