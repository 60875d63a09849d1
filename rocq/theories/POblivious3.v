(** Proofs about the oblivious tree sampler: which rows the leaves hold, and which proposals can be accepted. *)
From Coq Require Import Reals Lra Permutation.
From Verif Require Import Base Fl Ext MData MSplit MTree MSampler MHist MTreeHist MOblivious Spec SpecTree SpecOblivious LFl LList PData PSplit PDataProps PCond PTree PPred PTreeHist PTreeProps POblivious POblivious2.

Lemma ook_perfect h X oy k : forall o cs d, ook h X oy cs d o -> full k o -> perfect h (oroot o) d k (oids o).
Proof.
  induction k as [|k IH]; intros [i|i q l r] cs d H F; simpl in F; try tauto.
  - destruct H as (w&s&E&_). econstructor; eauto.
  - destruct H as ((s&E&_)&_&Hl&Hr). destruct F as [Fl Fr]. simpl. econstructor; eauto.
Qed.
Lemma ob_reached_oinv X y nrm h0 os h t : no_nan X -> ob_reached X y nrm h0 os h t -> exists y' k o, oinv h X (Some y') t k o.
Proof.
  intros Hn (Hl&Hs&s&E&R). rewrite Hl in Hs. eapply ob_run_oinv; [exact Hn|apply start_oinv; eauto|exact Hs|exact R].
Qed.
Lemma oinv_perfect h X oy t k o : oinv h X oy t k o -> perfect_tree h t k.
Proof.
  intros H. exists (oroot o), (oids o). split; [eapply ook_perfect; apply H|]. split; [apply H|]. split; [apply H|apply H].
Qed.
Lemma perfect_fun h : forall k i d ids, perfect h i d k ids -> forall k' d' ids', perfect h i d' k' ids' -> k' = k /\ d' = d /\ ids' = ids.
Proof.
  induction k as [|k IH]; intros i d ids H k' d' ids' H'.
  - inversion H; subst. inversion H'; subst; [|congruence]. rewrite H0 in H1. injection H1 as _ _ ->. auto.
  - inversion H as [|? ? ? l r s il ir E Hl Hr]; subst. inversion H' as [? ? ? ? E'|? ? k2 l2 r2 s2 il2 ir2 E' Hl2 Hr2]; subst; [congruence|].
    rewrite E in E'. injection E' as <- <- _ <-. destruct (IH _ _ _ Hl _ _ _ Hl2) as (->&_&->), (IH _ _ _ Hr _ _ _ Hr2) as (_&_&->). auto.
Qed.

(** ** subtrees and their regions *)
Fixpoint oreg (cs : list rule) (d : nat) (o : otree) : list (otree * (list rule * nat)) :=
  (o, (cs, d)) :: match o with OLeaf _ => [] | ONode _ q l r => oreg (under cs q true) (S d) l ++ oreg (under cs q false) (S d) r end.
Lemma oreg_ok h X oy o : forall cs d o' cs' d', ook h X oy cs d o -> In (o', (cs', d')) (oreg cs d o) -> ook h X oy cs' d' o'.
Proof.
  induction o as [i|i q l IHl r IHr]; intros cs d o' cs' d' H Hi.
  - destruct Hi as [E|[]]. injection E as <- <- <-. auto.
  - destruct Hi as [E|Hi]; [injection E as <- <- <-; auto|]. destruct H as (_&_&Hl&Hr). apply in_app_iff in Hi as [Hi|Hi]; eauto.
Qed.
Lemma oreg_ogr o : forall cs d o' cs' d', In (o', (cs', d')) (oreg cs d o) -> incl (ogr cs' d' o') (ogr cs d o).
Proof.
  induction o as [i|i q l IHl r IHr]; intros cs d o' cs' d' Hi.
  - destruct Hi as [E|[]]. injection E as <- <- <-. apply incl_refl.
  - destruct Hi as [E|Hi]; [injection E as <- <- <-; apply incl_refl|]. simpl. apply in_app_iff in Hi as [Hi|Hi]; [apply IHl in Hi|apply IHr in Hi]; intros z Hz; apply in_app_iff; auto.
Qed.
Lemma oreg_ids o : forall cs d o' cs' d', In (o', (cs', d')) (oreg cs d o) -> NoDup (oids o) -> NoDup (oids o').
Proof.
  induction o as [i|i q l IHl r IHr]; intros cs d o' cs' d' Hi Hn.
  - destruct Hi as [E|[]]. injection E as <- <- <-. auto.
  - destruct Hi as [E|Hi]; [injection E as <- <- <-; auto|]. inversion Hn; subst. apply NoDup_app_disj in H2 as (A&B&_). apply in_app_iff in Hi as [Hi|Hi]; eauto.
Qed.
Lemma odec_oreg o : forall cs d j, In j (odecids o) -> exists q l r cs' d', In (ONode j q l r, (cs', d')) (oreg cs d o).
Proof.
  induction o as [i|i q l IHl r IHr]; intros cs d j; [intros []|]. simpl. intros [<-|Hj]; [exists q, l, r, cs, d; auto|].
  apply in_app_iff in Hj as [Hj|Hj].
  - destruct (IHl (under cs q true) (S d) j Hj) as (q'&a&b&c'&d'&Hi). exists q', a, b, c', d'. right. apply in_app_iff. auto.
  - destruct (IHr (under cs q false) (S d) j Hj) as (q'&a&b&c'&d'&Hi). exists q', a, b, c', d'. right. apply in_app_iff. auto.
Qed.
Lemma under_kept cs q b r : kept (under cs q b) r = true -> kept cs r = true.
Proof. destruct q as [[v x]|]; simpl; auto. rewrite kept_snoc. intros H. apply andb_true_iff in H. tauto. Qed.
Lemma ogr_kept o : forall cs d j cj dj r, In (j, (cj, dj)) (ogr cs d o) -> kept cj r = true -> kept cs r = true.
Proof.
  induction o as [i|i q l IHl r0 IHr]; intros cs d j cj dj r Hi Hk.
  - destruct Hi as [E|[]]. injection E as <- <- <-. auto.
  - apply in_app_iff in Hi as [Hi|Hi]; [apply IHl with (r := r) in Hi|apply IHr with (r := r) in Hi]; auto; eapply under_kept; eauto.
Qed.
Lemma side_kept X cs v x r : no_nan X -> In r (mx_rows X) -> v < mx_ncols X -> x <> FNaN -> kept cs r = true ->
  kept (cs ++ [Rl v x (fle (cell r v) x)]) r = true /\ kept (cs ++ [Rl v x (negb (fle (cell r v) x))]) r = false.
Proof.
  intros Hn Hr Hv Hx Hk. rewrite !kept_snoc, Hk. unfold excluded. simpl.
  assert (Hc : is_nan (cell r v) = false) by (apply not_nan, Hn; auto). apply not_nan in Hx.
  destruct (fle (cell r v) x) eqn:E; simpl; rewrite ?fgt_negb, ?E by auto; auto.
Qed.

(** ** rows of leaves *)
Lemma ogr_cover h X oy o r : no_nan X -> In r (mx_rows X) -> forall cs d, ook h X oy cs d o -> kept cs r = true ->
  exists j cj dj, In (j, (cj, dj)) (ogr cs d o) /\ kept cj r = true.
Proof.
  intros Hn Hr. induction o as [i|i q l IHl r0 IHr]; intros cs d H Hk; [exists i, cs, d; simpl; auto|].
  destruct H as (_&Hq&Hl&Hrr). simpl ogr. destruct q as [[v x]|]; simpl in *.
  - destruct Hq as ((Hv&_)&Hx&_). destruct (side_kept X cs v x r Hn Hr Hv Hx Hk) as [A _]. destruct (fle (cell r v) x).
    + destruct (IHl _ _ Hl A) as (j&cj&dj&B&C). exists j, cj, dj. rewrite in_app_iff. auto.
    + destruct (IHr _ _ Hrr A) as (j&cj&dj&B&C). exists j, cj, dj. rewrite in_app_iff. auto.
  - destruct (IHl _ _ Hl Hk) as (j&cj&dj&B&C). exists j, cj, dj. rewrite in_app_iff. auto.
Qed.
Definition nonempty (X : matrix) (cs : list rule) : Prop := exists r, In r (mx_rows X) /\ kept cs r = true.
Lemma under_nonempty X cs q b : nonempty X cs -> rule_ok X cs q -> nonempty X (under cs q b).
Proof. destruct q as [[v x]|]; simpl; auto. intros _ (_&_&A&B). destruct b; auto. Qed.
Lemma oreg_nonempty h X oy o : forall cs d o' cs' d', ook h X oy cs d o -> nonempty X cs -> In (o', (cs', d')) (oreg cs d o) -> nonempty X cs'.
Proof.
  induction o as [i|i q l IHl r IHr]; intros cs d o' cs' d' H Hne Hi.
  - destruct Hi as [E|[]]. injection E as <- <- <-. auto.
  - destruct Hi as [E|Hi]; [injection E as <- <- <-; auto|]. destruct H as (_&Hq&Hl&Hr).
    apply in_app_iff in Hi as [Hi|Hi]; [eapply IHl|eapply IHr]; eauto using under_nonempty.
Qed.
Lemma ogr_oreg o : forall cs d j cj dj, In (j, (cj, dj)) (ogr cs d o) -> In (OLeaf j, (cj, dj)) (oreg cs d o).
Proof.
  induction o as [i|i q l IHl r IHr]; intros cs d j cj dj; simpl.
  - intros [E|[]]. injection E as <- <- <-. auto.
  - rewrite !in_app_iff. intros [H|H]; auto.
Qed.
(** below an unsplittable node nothing is split *)
Lemma closed_regions h X oy o : forall cs d, ook h X oy cs d o -> ~ open X cs -> forall o' cs' d', In (o', (cs', d')) (oreg cs d o) -> cs' = cs.
Proof.
  induction o as [i|i q l IHl r IHr]; intros cs d H Hc o' cs' d' Hi.
  - destruct Hi as [E|[]]. injection E as <- <- <-. auto.
  - destruct Hi as [E|Hi]; [injection E as <- <- <-; auto|]. destruct H as (_&Hq&Hl&Hr). destruct q as [[v x]|]; simpl in *.
    + exfalso. apply Hc. exists v, x. tauto.
    + apply in_app_iff in Hi as [Hi|Hi]; eauto.
Qed.
(** two leaves with a common row *)
Lemma common_row h X oy o r : no_nan X -> In r (mx_rows X) -> forall cs d, ook h X oy cs d o ->
  forall j cj dj j' cj' dj', In (j, (cj, dj)) (ogr cs d o) -> In (j', (cj', dj')) (ogr cs d o) -> kept cj r = true -> kept cj' r = true ->
  j = j' \/ (cj = cj' /\ ~ open X cj /\ exists i, In i (odecids o) /\ is_splittable h i = false).
Proof.
  intros Hn Hr. induction o as [i|i q l IHl r0 IHr]; intros cs d H j cj dj j' cj' dj' Hj Hj' K K'.
  - destruct Hj as [E|[]], Hj' as [E'|[]]. left. congruence.
  - destruct H as ((s&E&Hs)&Hq&Hl&Hrr). simpl in Hj, Hj'.
    assert (Cross : forall ja ca da jb cb db, In (ja, (ca, da)) (ogr (under cs q true) (S d) l) -> In (jb, (cb, db)) (ogr (under cs q false) (S d) r0) ->
      kept ca r = true -> kept cb r = true -> ca = cb /\ ~ open X ca /\ is_splittable h i = false).
    { intros ja ca da jb cb db Ha Hb Ka Kb. pose proof (ogr_kept _ _ _ _ _ _ _ Ha Ka) as Ua. pose proof (ogr_kept _ _ _ _ _ _ _ Hb Kb) as Ub.
      destruct q as [[v x]|]; simpl in *.
      - exfalso. destruct Hq as ((Hv&_)&Hx&_). assert (Kc : kept cs r = true) by (rewrite kept_snoc in Ua; apply andb_true_iff in Ua; tauto).
        destruct (side_kept X cs v x r Hn Hr Hv Hx Kc) as [_ A]. destruct (fle (cell r v) x); simpl in A; congruence.
      - apply ogr_oreg, (closed_regions _ _ _ _ _ _ Hl Hq) in Ha. apply ogr_oreg, (closed_regions _ _ _ _ _ _ Hrr Hq) in Hb. subst. split; auto. split; auto.
        unfold is_splittable, node_data, node_split. rewrite E. simpl. pose proof (splittable_open X oy cs s Hn Hs) as Ho.
        destruct (fst (is_at_least_one_splittable_variable (d_X (sp_data s)))); auto. exfalso. tauto. }
    apply in_app_iff in Hj as [Hj|Hj], Hj' as [Hj'|Hj'].
    + destruct (IHl _ _ Hl _ _ _ _ _ _ Hj Hj' K K') as [A|(A&B&z&C&D)]; auto. right. split; auto. split; auto. exists z. split; auto. simpl. right. apply in_app_iff. auto.
    + destruct (Cross _ _ _ _ _ _ Hj Hj' K K') as (A&B&C). right. split; auto. split; auto. exists i. simpl. auto.
    + destruct (Cross _ _ _ _ _ _ Hj' Hj K' K) as (A&B&C). right. subst cj'. split; auto. split; auto. exists i. simpl. auto.
    + destruct (IHr _ _ Hrr _ _ _ _ _ _ Hj Hj' K K') as [A|(A&B&z&C&D)]; auto. right. split; auto. split; auto. exists z. split; auto. simpl. right. apply in_app_iff. auto.
Qed.

(** ** statements about leaf objects *)
Lemma leaf_ogr h X oy t k o j : oinv h X oy t k o -> In j (leaf_nodes h t) <-> exists cj dj, In (j, (cj, dj)) (ogr [] 0 o).
Proof.
  intros H. rewrite (leaf_nodes_in _ _ _ _ _ _ H), <- (ogr_ids o [] 0), in_map_iff. split.
  - intros ([i [c d]]&<-&A). eauto.
  - intros (c&d&A). exists (j, (c, d)). auto.
Qed.
Lemma ogr_holds h X oy t k o j cj dj i : oinv h X oy t k o -> In (j, (cj, dj)) (ogr [] 0 o) ->
  (leaf_holds h j i <-> i < length (mx_rows X) /\ kept cj (nth i (mx_rows X) []) = true).
Proof.
  intros H Hj. destruct (ogr_ok _ _ _ _ _ _ _ _ _ (oi_ok _ _ _ _ _ _ H) Hj) as (w&s&E&Hs). unfold leaf_holds, node_split. rewrite E. split.
  - intros (s'&Q&A). injection Q as <-. now apply (in_node_kept _ _ _ _ _ Hs).
  - intros A. exists s. split; auto. now apply (in_node_kept _ _ _ _ _ Hs).
Qed.
Lemma ogr_splittable h X oy t k o j cj dj : no_nan X -> oinv h X oy t k o -> In (j, (cj, dj)) (ogr [] 0 o) -> (is_splittable h j = true <-> open X cj).
Proof.
  intros Hn H Hj. destruct (ogr_ok _ _ _ _ _ _ _ _ _ (oi_ok _ _ _ _ _ _ H) Hj) as (w&s&E&Hs). unfold is_splittable, node_data, node_split. rewrite E. simpl.
  eapply splittable_open; eauto.
Qed.
Lemma unsplittable_duplicates h X oy t k o i : no_nan X -> mx_rows X <> [] -> oinv h X oy t k o -> In i (odecids o) -> is_splittable h i = false ->
  exists j j' a, j <> j' /\ In j (leaf_nodes h t) /\ In j' (leaf_nodes h t) /\ a < length (mx_rows X) /\ leaf_holds h j a /\ leaf_holds h j' a.
Proof.
  intros Hn Hne H Hi Hsp. destruct (odec_oreg o [] 0 i Hi) as (q&l&r&cs&d&Hr).
  pose proof (oreg_ok _ _ _ _ _ _ _ _ _ (oi_ok _ _ _ _ _ _ H) Hr) as Hok. pose proof Hok as ((s&E&Hs)&Hq&Hl&Hrr).
  assert (Hc : ~ open X cs).
  { intros A. apply (splittable_open X oy cs s Hn Hs) in A. unfold is_splittable, node_data, node_split in Hsp. rewrite E in Hsp. simpl in Hsp. congruence. }
  assert (N0 : nonempty X []). { destruct (mx_rows X) as [|r0 rs] eqn:Er; [congruence|]. exists r0. rewrite Er. split; [simpl; auto|reflexivity]. }
  pose proof (oreg_nonempty _ _ _ _ _ _ _ _ _ (oi_ok _ _ _ _ _ _ H) N0 Hr) as (row&Hrow&Hk).
  destruct q as [[v x]|]; [exfalso; apply Hc; exists v, x; simpl in Hq; tauto|]. simpl in Hl, Hrr.
  destruct (ogr_cover _ _ _ _ _ Hn Hrow _ _ Hl Hk) as (j&cj&dj&A&B). destruct (ogr_cover _ _ _ _ _ Hn Hrow _ _ Hrr Hk) as (j'&cj'&dj'&A'&B').
  apply In_nth with (d := []) in Hrow as (a&Ha&Er).
  pose proof (oreg_ogr _ _ _ _ _ _ Hr) as I.
  assert (Hj : In (j, (cj, dj)) (ogr [] 0 o)) by (apply I; simpl; apply in_app_iff; auto).
  assert (Hj' : In (j', (cj', dj')) (ogr [] 0 o)) by (apply I; simpl; apply in_app_iff; auto).
  exists j, j', a. split.
  { intros <-. pose proof (oreg_ids _ _ _ _ _ _ Hr (oi_nodup _ _ _ _ _ _ H)) as Nd. simpl in Nd. inversion Nd as [|? ? _ Nd']; subst. apply NoDup_app_disj in Nd' as (_&_&D).
    apply (D j); apply oids_incl; left; [rewrite <- (ogr_ids l cs (S d))|rewrite <- (ogr_ids r cs (S d))]; apply in_map_iff; [exists (j, (cj, dj))|exists (j, (cj', dj'))]; auto. }
  split; [eapply leaf_ogr; eauto|]. split; [eapply leaf_ogr; eauto|]. split; auto.
  split; [eapply (ogr_holds h); eauto; rewrite Er; auto|eapply (ogr_holds h); eauto; rewrite Er; auto].
Qed.

(** ** which proposals can be accepted *)
Lemma ob_ratio_good h sigma p ms : forall acc x, ob_ratio_from acc h ms sigma p = Ok x -> x <> XNaN ->
  acc <> XNaN /\ forall m, In m ms -> exists y, ob_log_ratio h m sigma p = Ok y /\ y <> XNaN.
Proof.
  induction ms as [|m ms IH]; intros acc x; simpl.
  - intros Q Hx. injection Q as <-. split; auto. tauto.
  - destruct (ob_log_ratio h m sigma p) as [y| |] eqn:E; try discriminate. cbn [rbind]. intros Q Hx. destruct (IH _ _ Q Hx) as [A B]. split.
    + intros ->. apply A. reflexivity.
    + intros m' [<-|Hm]; auto. exists y. split; auto. intros ->. apply A. destruct acc; reflexivity.
Qed.
Lemma accepts_good u x : accepts u x = true -> x <> XNaN.
Proof. unfold accepts. intros H ->. discriminate. Qed.
Lemma ob_sample_accepts h t sigma p r ms h1 r1 : ob_sample h t sigma p r = Ok (Some ms, h1, r1) ->
  exists x u, ob_ratio h1 ms sigma p = Ok x /\ accepts u x = true /\ In u (rg_unif r).
Proof.
  assert (Hp : forall n r ms h1 r1, ob_propose n h t r = Ok (ms, h1, r1) -> rg_unif r1 = rg_unif r).
  { induction n as [|n IH]; intros r0 ms0 h0 r2; simpl; [discriminate|]. destruct (rg_method r0) as [|b bs]; [discriminate|].
    destruct (if b then _ else _) as [[[ms' h'] idx]|e|]; [|destruct e; try discriminate; intros Q; apply IH in Q; exact Q|discriminate].
    intros Q. injection Q as <- <- <-. reflexivity. }
  unfold ob_sample. destruct (ob_propose (pa_limit p) h t r) as [[[ms' h'] r']| |] eqn:E; try discriminate. cbn [rbind].
  destruct (ob_ratio h' ms' sigma p) as [x| |] eqn:Er; try discriminate. cbn [rbind]. destruct (rg_unif r') as [|u us] eqn:Eu; [discriminate|].
  destruct (accepts u x) eqn:Ea; [|discriminate]. intros Q; injection Q as <- <- <-. exists x, u. split; auto. split; auto. rewrite <- (Hp _ _ _ _ _ E), Eu. simpl. auto.
Qed.
Lemma xlog0 : xlog (XFin 0) = XNInf.
Proof. simpl. unfold rsign. destruct (Rlt_dec 0 0); [lra|]. reflexivity. Qed.
(** a chosen value of probability 0 makes the ratio NaN *)
Lemma no_chance h m sigma p y : mu_kind m = MGrow -> ob_log_split h (mu_existing m) (mu_updated m) = Ok XNInf -> ob_log_ratio h m sigma p = Ok y -> y = XNaN.
Proof.
  intros Hk E. unfold ob_log_ratio, ob_log_transition, ob_log_grow_transition, ob_log_tree, ob_log_tree_grow. rewrite Hk, E. cbn [rbind].
  destruct (py_div (pa_pprune p) (pa_pgrow p)) as [q| |]; try discriminate. cbn [rbind].
  destruct (log_likihood_ratio h m sigma p) as [b| |]; try discriminate. cbn [rbind].
  destruct (node_depth h (mu_existing m)) as [de| |]; try discriminate. cbn [rbind].
  destruct (get_children h (mu_updated m)) as [[l r]| |]; try discriminate. cbn [rbind].
  destruct (node_depth h l) as [dl| |]; try discriminate. cbn [rbind]. destruct (node_depth h r) as [dr| |]; try discriminate. cbn [rbind].
  destruct (node_depth h (mu_updated m)) as [du| |]; try discriminate. cbn [rbind]. intros Q; injection Q as <-.
  generalize (xlog q), (log_probability_node_not_split p dl), (log_probability_node_not_split p dr), (log_probability_node_split p du), (log_probability_node_not_split p de).
  intros [| | |] e1 e2 e3 e4; destruct b; simpl; auto; destruct (xadd (xadd e1 e2) e3); simpl; auto; destruct e4; reflexivity.
Qed.
Lemma accepted_leaf h X oy t k o sigma p r ms h1 r1 : no_nan X -> oinv h X oy t k o -> ob_sample h t sigma p r = Ok (Some ms, h1, r1) ->
  forall j m, In m ms -> grow_of j m -> In j (leaf_nodes h t) -> is_splittable h j = false ->
  exists c, last_condition h j = Some c /\
    (sc_op c = OpLe \/ forall a b, leaf_holds h j a -> leaf_holds h j b -> value_in X a (sc_var c) = value_in X b (sc_var c) -> a = b).
Proof.
  intros Hn H E j m Hm [Hk He] Hj Hsp. destruct (ob_sample_ok _ _ _ _ _ _ _ _ _ _ _ _ Hn H E) as (H1&Hle&Hold&Hms).
  destruct (ob_sample_accepts _ _ _ _ _ _ _ _ E) as (x&u&Er&Ea&_). apply accepts_good in Ea.
  destruct (ob_ratio_good _ _ _ _ _ _ Er Ea) as [_ Hall]. destruct (Hall m Hm) as (y&Ey&Hy).
  destruct (Hms ms eq_refl) as [(idx&idx'&Eg)|Ep].
  2:{ exfalso. destruct (ob_prune_ok _ _ _ _ _ _ H) as (ps&h2&h3&t3&E2&_). rewrite Ep in E2. injection E2 as -> _. apply in_map_iff in Hm as (en&<-&_). discriminate. }
  destruct (ob_grow_ok _ _ _ _ _ _ _ _ _ _ Hn H Eg) as (_&_&_&ps&h3&t3&Q1&_&_&HB&_). subst ms. apply in_map_iff in Hm as (en&<-&Hen).
  simpl in He. subst j. destruct (HB en Hen) as (ci&di&Hi&Hok).
  destruct (ogr_ok _ _ _ _ _ _ _ _ _ (oi_ok _ _ _ _ _ _ H) Hi) as (w&s&Es&Hs).
  assert (Hc : ~ open X ci). { intros A. apply (ogr_splittable _ _ _ _ _ _ _ _ _ Hn H Hi) in A. congruence. }
  destruct Hok as ((su&Eu&Hsu)&Hq&(wl&sl&El&Hsl)&_). destruct (en_q en) as [[v0 x0]|] eqn:Eq.
  { exfalso. apply Hc. exists v0, x0. simpl in Hq. tauto. } simpl in Eu, El, Hsl.
  assert (Hlt : en_e en < h_next h) by (apply (oi_below _ _ _ _ _ _ H), oids_incl; left; rewrite <- (ogr_ids o [] 0); apply in_map_iff; exists (en_e en, (ci, di)); auto).
  assert (Es1 : h_get h1 (en_e en) = Some (Nd (KLeaf w) (SFull s) di)) by (rewrite Hold by auto; auto).
  unfold last_condition, node_split. rewrite Es. unfold split_most_recent.
  assert (Eld : dec_most_recent h1 (en_u en) = cc_most_recent (sp_cc sl)) by (unfold dec_most_recent, left_child; rewrite Eu, El; reflexivity).
  destruct ci as [|q ci _] using rev_ind.
  - exfalso. pose proof (si_conds _ _ _ _ Hsl) as Hcl. destruct (cc_conds (sp_cc sl)) as [|c0 l0] eqn:Ecl; [|discriminate].
    unfold ob_log_ratio, ob_log_transition, ob_log_grow_transition, ob_log_split in Ey. cbn [g_mut mu_kind mu_existing mu_updated] in Ey.
    rewrite Eld in Ey. unfold cc_most_recent in Ey. rewrite Ecl in Ey. discriminate.
  - destruct (sinv_recent _ _ _ _ _ Hs) as (c&Ec&Hrc). destruct (sinv_recent _ _ _ _ _ Hsl) as (c'&Ec'&Hrc'). exists c. split; auto.
    destruct (sc_op c) eqn:Eop; [left; auto| |].
    all: right.
    all: assert (Hq' : q = Rl (sc_var c) (sc_val c) false) by (rewrite <- Hrc; unfold rule_of; rewrite Eop; reflexivity).
    all: assert (Hv' : sc_var c' = sc_var c /\ sc_val c' = sc_val c) by (rewrite Hq' in Hrc'; unfold rule_of in Hrc'; injection Hrc' as -> -> _; auto).
    all: destruct Hv' as [Hv1 Hv2].
    all: assert (Hcv : sc_var c < mx_ncols X) by (pose proof (sinv_rules_lt _ _ _ _ Hs) as A; rewrite Forall_forall in A; specialize (A q); rewrite Hq' in A; apply A; rewrite in_app_iff; simpl; rewrite <- Hq'; auto).
    all: intros a b Ha Hb Hab.
    all: pose proof (proj1 (ogr_holds _ _ _ _ _ _ _ _ _ a H Hi) Ha) as Ka; pose proof (proj1 (ogr_holds _ _ _ _ _ _ _ _ _ b H Hi) Hb) as Kb.
    all: apply (in_node_kept _ _ _ _ _ Hs) in Ka; apply (in_node_kept _ _ _ _ _ Hs) in Kb.
    all: assert (Habs : forall i, in_node s i -> value_in X i (sc_var c) <> sc_val c).
    1,3: intros i Hin Hval; apply (in_node_kept _ _ _ _ _ Hs) in Hin as [Hlti Hin]; rewrite kept_snoc, Hq' in Hin; apply andb_true_iff in Hin as [_ Hin];
         unfold excluded in Hin; simpl in Hin; unfold value_in in Hval; rewrite Hval in Hin;
         assert (Hnn : is_nan (sc_val c) = false) by (rewrite <- Hval; apply not_nan, Hn; [apply nth_In; auto|auto]); rewrite fle_refl in Hin by auto; discriminate.
    all: destruct (is_column_unique_total (d_X (sp_data s)) (sc_var c)) as (bb&c2&Eu2); [unfold cm_nfeat; rewrite (si_X _ _ _ _ Hs); auto|].
    all: destruct bb; [apply (unique_meaning X _ _ _ Hs) in Eu2 as (_&A); apply (proj1 A eq_refl); auto|exfalso; apply Hy].
    all: eapply (no_chance h1 (g_mut en) sigma p y); auto.
    all: unfold ob_log_split, node_data, node_split; cbn [g_mut mu_existing mu_updated]; rewrite Eld, Ec', Es1, Hv1, Hv2; simpl option_map; cbv beta iota.
    all: destruct (proportion_absent X _ _ s Hs (sc_var c) (sc_val c)) as (c3&Ep); auto.
    1,3: apply count_pos with (i := a); [apply (in_node_lt X _ _ _ Hs); auto|apply in_nodeb_iff; auto].
    all: cbn [option_map]; rewrite Ep, Eu2; cbn [rbind]; now rewrite xlog0.
Qed.
