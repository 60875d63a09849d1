(** The size of oblivious trees: lemmas for C97. *)
From Coq Require Import Reals Lra Lia Permutation.
From Verif Require Import Base Fl Ext MData MSplit MTree MSampler MHist MTreeHist MModel MModelHist MSklearn MOblivious MObModel MObSklearn Spec SpecTree SpecSampler SpecModel SpecSklearn SpecOblivious SpecObModel SpecObSklearn SpecFeatures SpecGrown SpecObFlat LFl LList
  PData PSplit PDataProps PCond PTree PPred PTreeHist PTreeProps PTreeProps2 PSampler PSampler2 PModel POblivious POblivious2 POblivious3 POblivious4 PObModel PObModel4 PObSklearn PObSklearn2 PObFlat.

(** ** growing a tree none of whose leaves can be split *)
Lemma stuck_grows L : forall h idx, (forall i, In i L -> i < h_next h /\ is_splittable h i = false /\ is_leaf h i = true) ->
  exists ms h1, ob_grows h L idx = Ok (ms, h1, idx).
Proof.
  induction L as [|i L IH]; intros h idx HL; simpl; [eexists; eexists; reflexivity|]. destruct (HL i (or_introl eq_refl)) as (Hlt&Hs&Hl).
  unfold ob_split_node. rewrite Hs. unfold is_leaf in Hl. destruct (h_get h i) as [[k s d]|] eqn:E; [|discriminate].
  destruct (h_alloc h (Nd (KLeaf 0%R) s (d + 1))) as [a ha] eqn:E1.
  destruct (h_alloc ha (Nd (KLeaf 0%R) s (d + 1))) as [b hb] eqn:E2.
  destruct (h_alloc hb (Nd (KDec a b) s d)) as [c hc] eqn:E3.
  destruct (alloc3 _ _ _ _ _ _ _ _ _ _ E1 E2 E3) as (_&_&_&Hn&Hold&_). cbn [rbind].
  unfold grow_mutation, is_leaf. rewrite Hold, E by auto. destruct k; [|discriminate]. cbn [rbind].
  destruct (IH hc idx) as (ms&h1&E').
  { intros j Hj. destruct (HL j (or_intror Hj)) as (A&B&C). split; [lia|].
    unfold is_splittable, node_data, node_split, is_leaf in *. rewrite Hold by auto. auto. }
  rewrite E'. cbn [rbind]. eexists. eexists. reflexivity.
Qed.
(** the conditions of a leaf that cannot be split and whose duplication can be accepted *)
Definition stuck_conds (X : matrix) (cj : list rule) : Prop :=
  ~ open X cj /\ exists cs q, cj = cs ++ [q] /\
    (rl_le q = true \/ forall a b, a < length (mx_rows X) -> b < length (mx_rows X) -> kept cj (nth a (mx_rows X) []) = true -> kept cj (nth b (mx_rows X) []) = true ->
       value_in X a (rl_var q) = value_in X b (rl_var q) -> a = b).
Definition stuck (X : matrix) (o : otree) : Prop := forall j cj dj, In (j, (cj, dj)) (ogr [] 0 o) -> stuck_conds X cj.
Lemma stuck_scorable h X oy t k o j : no_nan X -> oinv h X oy t k o -> stuck X o -> In j (leaf_nodes h t) -> scorable X h j.
Proof.
  intros Hn H Hs Hj. apply (leaf_ogr _ _ _ _ _ _ _ H) in Hj as (cj&dj&Hj). destruct (Hs _ _ _ Hj) as (_&cs&q&E&Hq). right.
  destruct (ogr_ok _ _ _ _ _ _ _ _ _ (oi_ok _ _ _ _ _ _ H) Hj) as (w&s&Es&Hi). pose proof Hi as Hi'. rewrite E in Hi'. destruct (sinv_recent _ _ _ _ _ Hi') as (c&Ec&Er).
  exists c. unfold last_condition, node_split. rewrite Es. split; [exact Ec|].
  rewrite <- Er in Hq. unfold rule_of in Hq. simpl in Hq. destruct Hq as [Hq|Hq]; [left; destruct (sc_op c); auto; discriminate|right].
  intros a b Ha Hb Ev. apply (ogr_holds _ _ _ _ _ _ _ _ _ _ H Hj) in Ha as [A1 A2]. apply (ogr_holds _ _ _ _ _ _ _ _ _ _ H Hj) in Hb as [B1 B2]. apply Hq; auto.
Qed.
Lemma stuck_growth h X oy t k o idx : no_nan X -> oinv h X oy t k o -> stuck X o ->
  exists ms h1 h2 t2 o2, ob_grow_mutations h t idx = Ok (ms, h1, idx) /\ mutate_all h1 t ms = Ok (h2, t2) /\ oinv h2 X oy t2 (S k) o2 /\ stuck X o2.
Proof.
  intros Hn H Hs.
  destruct (stuck_grows (leaf_nodes h t) h idx) as (ms&h1&E).
  { intros i Hi. pose proof Hi as Hi0. unfold leaf_nodes in Hi0. apply filter_In in Hi0 as [_ Hl]. apply (leaf_ogr _ _ _ _ _ _ _ H) in Hi as (cj&dj&Hj).
    split; [|split; auto].
    - apply (oi_below _ _ _ _ _ _ H), oids_incl. left. rewrite <- (ogr_ids o [] 0). apply in_map_iff. exists (i, (cj, dj)). auto.
    - destruct (is_splittable h i) eqn:F; auto. apply (ogr_splittable _ _ _ _ _ _ _ _ _ Hn H Hj) in F. now apply Hs in Hj as [A _]. }
  change (ob_grow_mutations h t idx = Ok (ms, h1, idx)) in E.
  destruct (ob_grow_ok _ _ _ _ _ _ _ _ _ _ Hn H E) as (_&_&_&ps&h2&t2&Ems&Hes&HA&HB&Em&H2&_). exists ms, h1, h2, t2, (ogrow (newtree ps) o).
  split; auto. split; auto. split; auto.
  assert (Hnd : NoDup (map en_e ps)) by (rewrite Hes; apply NoDup_filter, H).
  (* the leaves of the new tree carry the conditions of the old ones *)
  assert (G : forall cs d o', (forall j cj dj, In (j, (cj, dj)) (ogr cs d o') -> stuck_conds X cj /\ exists en, In en ps /\ en_e en = j /\ ook h1 X oy cj dj (onew en)) ->
    forall j cj dj, In (j, (cj, dj)) (ogr cs d (ogrow (newtree ps) o')) -> stuck_conds X cj).
  { intros cs d o'. revert cs d. induction o' as [i|i q l IHl r IHr]; intros cs d HH j cj dj Hj.
    - simpl in Hj. destruct (HH i cs d (or_introl eq_refl)) as (S&en&Hin&<-&Hok). rewrite newtree_in in Hj by auto.
      destruct Hok as (_&Hq&_). simpl in Hj. destruct (en_q en) as [[v x]|] eqn:Eq.
      + exfalso. destruct S as [S _]. apply S. exists v, x. apply Hq.
      + simpl in Hj. destruct Hj as [Q|[Q|[]]]; injection Q as <- <- <-; auto.
    - simpl in Hj. apply in_app_iff in Hj as [Hj|Hj]; [eapply IHl|eapply IHr]; try exact Hj; intros j' cj' dj' Hj'; apply (HH j' cj' dj'); simpl; apply in_app_iff; auto. }
  intros j cj dj Hj. refine (G [] 0 o _ j cj dj Hj). intros j' cj' dj' Hj'. split; [eapply Hs; eauto|eapply HA; eauto].
Qed.
Lemma stuck_forever X y sigma p : no_nan X -> mx_rows X <> [] -> good p -> (0 < sigma)%R -> 0 < pa_limit p ->
  forall n h t k o, oinv h X (Some y) t k o -> stuck X o ->
  exists M, forall g q, (0 < g)%R -> (0 < q)%R -> (M <= ln (q / g))%R ->
    exists h' t' o', ob_run h t (repeat (OStep sigma (with_moves p g q) (Rng [true] [] [0%R] [] [])) n) = Ok (h', t') /\ oinv h' X (Some y) t' (k + n) o'.
Proof.
  intros Hn Hne Hp Hs Hlim. induction n as [|n IH]; intros h t k o H St.
  - exists 0%R. intros g q _ _ _. exists h, t, o. split; [reflexivity|]. now rewrite Nat.add_0_r.
  - destruct (stuck_growth _ _ _ _ _ _ [] Hn H St) as (ms&h1&h2&t2&o2&E&Em&H2&St2).
    destruct (grow_accept _ _ _ _ _ _ _ _ _ _ sigma p _ _ Hn Hne H E Em (fun j => stuck_scorable _ _ _ _ _ _ j Hn H St) Hp Hs Hlim) as (M1&A1).
    destruct (IH _ _ _ _ H2 St2) as (M2&A2). exists (Rmax M1 M2). intros g q Hg Hq HM.
    pose proof (Rmax_l M1 M2). pose proof (Rmax_r M1 M2).
    destruct (A2 g q Hg Hq ltac:(lra)) as (h'&t'&o'&ER&H'). exists h', t', o'. split; [|now rewrite <- plus_n_Sm].
    cbn [repeat ob_run ob_do]. rewrite (A1 g q 0%R Hg Hq) by lra. cbn [rbind]. exact ER.
Qed.
(** ** three rows with the values 1, 2 and 3 *)
Notation three := three_rows (only parsing).
Lemma three_no_nan : no_nan three.
Proof. intros r v Hr Hv. simpl in Hv. assert (v = 0) as -> by lia. simpl in Hr. destruct Hr as [<-|[<-|[<-|[]]]]; discriminate. Qed.
Lemma three_open : open three [].
Proof.
  exists 0, (fz 1). split; [simpl; lia|]. split; [exists [fz 1]; simpl; auto|]. exists 0, 1, 2. simpl. repeat split; auto; try lia. unfold value_in, cell. simpl. discriminate.
Qed.
Lemma three_stuck v x b : rule_ok three [] (Some (v, x)) -> stuck_conds three [Rl v x b].
Proof.
  intros Hq. pose proof (rule_inside three [] v x b three_no_nan Hq) as (Hv&(p&Hp&Ep)&p'&Hp'&Hlt). simpl in Hv. assert (v = 0) as -> by lia. simpl rl_var in *. simpl rl_val in *.
  assert (Hx : x = fz 1 \/ x = fz 2).
  { simpl in Hp, Hp'. destruct Hp as [<-|[<-|[<-|[]]]]; auto. exfalso. unfold cell in Ep. simpl in Ep. subst x. destruct Hp' as [<-|[<-|[<-|[]]]]; vm_compute in Hlt; discriminate. }
  split.
  - intros (v'&x'&_&_&k&i&j&H1&H2&(K0&K)&(I0&I)&(J0&J)&Hd). simpl in K0, I0, J0.
    assert (Hij : i <> j) by (intros ->; apply Hd; reflexivity).
    assert (Hk : k = 0) by lia. subst k. assert (Hi : i = 1 \/ i = 2) by lia. assert (Hj : j = 1 \/ j = 2) by lia.
    destruct Hx as [-> | ->], b, Hi as [-> | ->], Hj as [-> | ->]; try congruence; vm_compute in K, I, J; discriminate.
  - exists [], (Rl 0 x b). split; [reflexivity|]. right. intros a c Ha Hc _ _ Ev. simpl in Ha, Hc. simpl in Ev.
    destruct a as [|[|[|a]]]; destruct c as [|[|[|c]]]; try lia; try reflexivity; unfold value_in, cell in Ev; simpl in Ev; discriminate.
Qed.
Lemma three_first h oy t o idx ms h1 idx1 : oinv h three oy t 0 o -> ob_grow_mutations h t idx = Ok (ms, h1, idx1) ->
  (forall j, In j (leaf_nodes h t) -> scorable three h j) /\ exists h2 t2 o2, mutate_all h1 t ms = Ok (h2, t2) /\ oinv h2 three oy t2 1 o2 /\ stuck three o2.
Proof.
  intros H E. pose proof (oi_full _ _ _ _ _ _ H) as F. destruct o as [i|]; [|destruct F]. clear F.
  assert (Hi : In (i, ([], 0)) (ogr [] 0 (OLeaf i))) by (simpl; auto). split.
  - intros j Hj. apply (leaf_ogr _ _ _ _ _ _ _ H) in Hj as (cj&dj&Hj). simpl in Hj. destruct Hj as [Q|[]]. injection Q as -> <- <-.
    left. apply (ogr_splittable _ _ _ _ _ _ _ _ _ three_no_nan H Hi). exact three_open.
  - destruct (ob_grow_ok _ _ _ _ _ _ _ _ _ _ three_no_nan H E) as (_&_&_&ps&h2&t2&Ems&Hes&HA&HB&Em&H2&_). exists h2, t2, (ogrow (newtree ps) (OLeaf i)).
    split; auto. split; auto. intros j cj dj Hj. simpl in Hj. destruct (HA i [] 0 Hi) as (en&Hin&<-&Hok).
    rewrite newtree_in in Hj by (auto; rewrite Hes; apply NoDup_filter, H).
    destruct Hok as (_&Hq&_). simpl in Hj. destruct (en_q en) as [[v x]|]; [|exfalso; apply Hq, three_open].
    simpl in Hj. destruct Hj as [Q|[Q|[]]]; injection Q as _ <- _; now apply three_stuck.
Qed.
