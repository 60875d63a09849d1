(** Proofs about the oblivious tree sampler: the shape of the trees it makes. *)
From Coq Require Import Reals Lra Permutation.
From Verif Require Import Base Fl Ext MData MSplit MTree MSampler MHist MTreeHist MOblivious Spec SpecTree LFl LList PData PSplit PDataProps PCond PTree PPred PTreeHist PTreeProps.

(** ** trees with degenerate nodes *)
Inductive otree := OLeaf (i : nat) | ONode (i : nat) (q : option (nat * fl)) (l r : otree).
Definition oroot (o : otree) : nat := match o with OLeaf i => i | ONode i _ _ _ => i end.
Fixpoint oids (o : otree) : list nat := match o with OLeaf i => [i] | ONode i _ l r => i :: oids l ++ oids r end.
Fixpoint oleafids (o : otree) : list nat := match o with OLeaf i => [i] | ONode _ _ l r => oleafids l ++ oleafids r end.
Fixpoint odecids (o : otree) : list nat := match o with OLeaf _ => [] | ONode i _ l r => i :: odecids l ++ odecids r end.
Fixpoint oheight (o : otree) : nat := match o with OLeaf _ => 1 | ONode _ _ l r => S (Nat.max (oheight l) (oheight r)) end.
Fixpoint full (k : nat) (o : otree) : Prop :=
  match o, k with OLeaf _, 0 => True | ONode _ _ l r, S k' => full k' l /\ full k' r | _, _ => False end.
Lemma oroot_in o : In (oroot o) (oids o).
Proof. destruct o; simpl; auto. Qed.
Lemma oheight_le o : oheight o <= length (oids o).
Proof. induction o; simpl; auto. rewrite app_length. lia. Qed.
Lemma oids_perm o : Permutation (oids o) (oleafids o ++ odecids o).
Proof.
  induction o; simpl; auto. rewrite IHo1, IHo2. clear.
  rewrite <- Permutation_middle. constructor. rewrite <- !app_assoc. apply Permutation_app_head.
  rewrite !app_assoc. apply Permutation_app_tail. apply Permutation_app_comm.
Qed.
Lemma oids_incl o j : In j (oids o) <-> In j (oleafids o) \/ In j (odecids o).
Proof. rewrite <- in_app_iff. split; apply Permutation_in; [apply oids_perm|symmetry; apply oids_perm]. Qed.
Lemma NoDup_oleaf o : NoDup (oids o) -> NoDup (oleafids o) /\ NoDup (odecids o) /\ (forall j, In j (oleafids o) -> In j (odecids o) -> False).
Proof.
  intros H. assert (H' : NoDup (oleafids o ++ odecids o)) by (eapply Permutation_NoDup; [apply oids_perm|auto]).
  now apply NoDup_app_disj in H'.
Qed.
Lemma full_count k : forall o, full k o -> length (oleafids o) = 2 ^ k /\ S (length (odecids o)) = 2 ^ k.
Proof.
  induction k as [|k IH]; intros [i|i q l r]; simpl; try tauto; auto. intros [Hl Hr]. apply IH in Hl, Hr.
  rewrite !app_length. lia.
Qed.

(** some column can be offered in a node with these conditions *)
Definition open (X : matrix) (cs : list rule) : Prop := exists v x, chosen X cs v x.
Lemma splittable_open X oy cs s : no_nan X -> sinv X oy cs s -> fst (is_at_least_one_splittable_variable (d_X (sp_data s))) = true <-> open X cs.
Proof.
  intros Hn Hs. rewrite (any_meaning X oy cs s Hs). split.
  - intros (v&Hv). apply (offered_iff X oy cs s Hn Hs) in Hv as (Hv&k&i&j&H1&H2&Hk&Hi&Hj&Hd).
    apply (in_node_kept _ _ _ _ _ Hs) in Hk. apply (in_node_kept _ _ _ _ _ Hs) in Hi. apply (in_node_kept _ _ _ _ _ Hs) in Hj.
    exists v, (value_in X i v). split; auto. split.
    + exists (nth i (mx_rows X) []). split; [apply nth_In; tauto|]. split; [tauto|reflexivity].
    + exists k, i, j. tauto.
  - intros (v&x&Hv&_&k&i&j&H1&H2&Hk&Hi&Hj&Hd). exists v. apply (offered_iff X oy cs s Hn Hs). split; auto. exists k, i, j.
    rewrite !(in_node_kept _ _ _ _ _ Hs). tauto.
Qed.
Definition under (cs : list rule) (q : option (nat * fl)) (b : bool) : list rule :=
  match q with None => cs | Some (v, x) => cs ++ [Rl v x b] end.
Definition rule_ok (X : matrix) (cs : list rule) (q : option (nat * fl)) : Prop :=
  match q with
  | None => ~ open X cs
  | Some (v, x) => chosen X cs v x /\ x <> FNaN /\
      (exists r, In r (mx_rows X) /\ kept (cs ++ [Rl v x true]) r = true) /\ (exists r, In r (mx_rows X) /\ kept (cs ++ [Rl v x false]) r = true)
  end.
Fixpoint ook (h : heap) (X : matrix) (oy : option (list R)) (cs : list rule) (d : nat) (o : otree) : Prop :=
  match o with
  | OLeaf i => exists w s, h_get h i = Some (Nd (KLeaf w) (SFull s) d) /\ sinv X oy cs s
  | ONode i q l r =>
      (exists s, h_get h i = Some (Nd (KDec (oroot l) (oroot r)) (SFull s) d) /\ sinv X oy cs s) /\ rule_ok X cs q /\
      ook h X oy (under cs q true) (S d) l /\ ook h X oy (under cs q false) (S d) r
  end.
Lemma ook_ext h h' X oy o : forall cs d, (forall j, In j (oids o) -> h_get h' j = h_get h j) -> ook h X oy cs d o -> ook h' X oy cs d o.
Proof.
  induction o as [i|i q l IHl r IHr]; intros cs d He; simpl in *.
  - rewrite He by auto. auto.
  - rewrite He by auto. intros (H1&H2&H4&H5). split; [auto|]. split; [auto|]. split; [apply IHl|apply IHr]; auto; intros; apply He; rewrite in_app_iff; auto.
Qed.
Lemma ook_leaf_iff h X oy o : forall cs d j, ook h X oy cs d o -> In j (oids o) -> NoDup (oids o) ->
  (is_leaf h j = true <-> In j (oleafids o)) /\ (is_dec h j = true <-> In j (odecids o)).
Proof.
  induction o as [i|i q l IHl r IHr]; intros cs d j; simpl.
  - intros (w&s&E&_) [<-|[]] _. unfold is_leaf, is_dec. rewrite E. intuition discriminate.
  - intros ((s&E&_)&_&Hl&Hr) Hj Hn. inversion Hn as [|? ? Hi Hn']; subst. apply NoDup_app_disj in Hn' as (Hnl&Hnr&Hdis).
    rewrite !in_app_iff. destruct Hj as [<-|Hj].
    + unfold is_leaf, is_dec. rewrite E. split; [|intuition].
      split; [discriminate|]. intros [H|H]; exfalso; apply Hi, in_app_iff; [left|right]; apply oids_incl; auto.
    + assert (j <> i) by (intros ->; auto). apply in_app_iff in Hj as [Hj|Hj].
      * destruct (IHl _ _ j Hl Hj Hnl) as [A B]. rewrite A, B. split; split; auto.
        -- intros [?|Hr']; auto. exfalso. eapply Hdis; eauto. apply oids_incl; auto.
        -- intros [?|[?|Hr']]; auto; [congruence|]. exfalso. eapply Hdis; eauto. apply oids_incl; auto.
      * destruct (IHr _ _ j Hr Hj Hnr) as [A B]. rewrite A, B. split; split; auto.
        -- intros [Hl'|?]; auto. exfalso. eapply Hdis; eauto. apply oids_incl; auto.
        -- intros [?|[Hl'|?]]; auto; [congruence|]. exfalso. eapply Hdis; eauto. apply oids_incl; auto.
Qed.

(** ** the invariant *)
Record oinv (h : heap) (X : matrix) (oy : option (list R)) (t : tree) (k : nat) (o : otree) : Prop := {
  oi_ok : ook h X oy [] 0 o;
  oi_full : full k o;
  oi_nodup : NoDup (oids o);
  oi_tnodup : NoDup (tr_nodes t);
  oi_same : forall j, In j (tr_nodes t) <-> In j (oids o);
  oi_below : below (h_next h) (oids o) }.
Lemma leaf_nodes_in h X oy t k o : oinv h X oy t k o -> forall j, In j (leaf_nodes h t) <-> In j (oleafids o).
Proof.
  intros H j. unfold leaf_nodes. rewrite filter_In, (oi_same _ _ _ _ _ _ H). split.
  - intros [Hj Hl]. eapply ook_leaf_iff in Hj as [A _]; [|apply H|apply H]. tauto.
  - intros Hl. assert (Hj : In j (oids o)) by (apply oids_incl; auto). split; auto. eapply ook_leaf_iff in Hj as [A _]; [|apply H|apply H]. tauto.
Qed.
Lemma oleaf_nodes_perm h X oy t k o : oinv h X oy t k o -> Permutation (leaf_nodes h t) (oleafids o).
Proof.
  intros H. apply NoDup_Permutation; [apply NoDup_filter, H|apply NoDup_oleaf, H|]. eapply leaf_nodes_in; eauto.
Qed.
Lemma odec_nodes_perm h X oy t k o : oinv h X oy t k o -> Permutation (decision_nodes h t) (odecids o).
Proof.
  intros H. apply NoDup_Permutation; [apply NoDup_filter, H|apply NoDup_oleaf, H|]. intros j. unfold decision_nodes.
  rewrite filter_In, (oi_same _ _ _ _ _ _ H). split.
  - intros [Hj Hl]. eapply ook_leaf_iff in Hj as [_ A]; [|apply H|apply H]. tauto.
  - intros Hl. assert (Hj : In j (oids o)) by (apply oids_incl; auto). split; auto. eapply ook_leaf_iff in Hj as [_ A]; [|apply H|apply H]. tauto.
Qed.

(** ** applying many mutations *)
Definition redir (f : nat -> nat) (n : tnode) : tnode :=
  match nd_kind n with KLeaf _ => n | KDec l r => Nd (KDec (f l) (f r)) (nd_split n) (nd_depth n) end.
Definition redirs (f : nat -> nat) (x : option tnode) : option tnode := option_map (redir f) x.
Lemma remove_first_set x l : NoDup l -> In x l -> exists r, remove_first x l = Some r /\ NoDup r /\ forall j, In j r <-> In j l /\ j <> x.
Proof.
  intros Hn Hi. destruct (remove_first_perm x l Hi) as (r&E&P). exists r. split; auto.
  apply (Permutation_NoDup P) in Hn. inversion Hn; subst. split; auto. intros j. split.
  - intros Hj. split; [eapply Permutation_in; [symmetry; exact P|simpl; auto]|]. intros ->. auto.
  - intros [Hj Hne]. apply (Permutation_in _ P) in Hj. destruct Hj; congruence.
Qed.
Record entry := En { en_e : nat; en_u : nat; en_l : nat; en_r : nat; en_q : option (nat * fl) }.
Fixpoint target (ps : list entry) (x : nat) : nat :=
  match ps with [] => x | en :: ps' => if Nat.eqb x (en_e en) then en_u en else target ps' x end.
Lemma target_notin ps x : ~ In x (map en_e ps) -> target ps x = x.
Proof. induction ps as [|en ps IH]; simpl; auto. intros H. destruct (Nat.eqb_spec x (en_e en)); [exfalso; auto|auto]. Qed.
Lemma target_in ps en : NoDup (map en_e ps) -> In en ps -> target ps (en_e en) = en_u en.
Proof.
  induction ps as [|a ps IH]; simpl; [tauto|]. intros Hn [->|Hi]; [now rewrite Nat.eqb_refl|]. inversion Hn; subst.
  destruct (Nat.eqb_spec (en_e en) (en_e a)) as [E|]; auto. exfalso. apply H1. rewrite <- E. now apply in_map.
Qed.
Lemma redirs_relinked e u f x : f u = u -> redirs f (relinked e u x) = redirs (fun z => if Nat.eqb z e then u else f z) x.
Proof.
  intros Hu. destruct x as [[[w|l r] s d]|]; simpl; auto. unfold redir, relink_node; simpl.
  destruct (Nat.eqb l e), (Nat.eqb r e); rewrite ?Hu; reflexivity.
Qed.
Definition grown (en : entry) : list nat := [en_l en; en_r en; en_u en].
Definition g_mut (en : entry) : mutation := Mu MGrow (en_e en) (en_u en).
Definition p_mut (en : entry) : mutation := Mu MPrune (en_e en) (en_u en).
(** the new nodes of a grow mutation, outside the tree *)
Definition g_ready (h : heap) (es : list nat) (en : entry) : Prop :=
  (exists s d, h_get h (en_u en) = Some (Nd (KDec (en_l en) (en_r en)) s d)) /\ is_leaf h (en_l en) = true /\ is_leaf h (en_r en) = true /\
  ~ In (en_l en) es /\ ~ In (en_r en) es /\ ~ In (en_u en) es.
Lemma grow_all ps : forall h t, NoDup (tr_nodes t) -> NoDup (map en_e ps) -> incl (map en_e ps) (tr_nodes t) ->
  NoDup (flat_map grown ps) -> (forall j, In j (flat_map grown ps) -> ~ In j (tr_nodes t)) -> Forall (g_ready h (map en_e ps)) ps ->
  exists h' t', mutate_all h t (map g_mut ps) = Ok (h', t') /\ h_next h' = h_next h /\ NoDup (tr_nodes t') /\
    (forall j, In j (tr_nodes t') <-> (In j (tr_nodes t) /\ ~ In j (map en_e ps)) \/ In j (flat_map grown ps)) /\
    (forall j, In j (tr_nodes t') -> h_get h' j = redirs (target ps) (h_get h j)) /\
    (forall j, ~ In j (tr_nodes t) -> ~ In j (flat_map grown ps) -> h_get h' j = h_get h j) /\ (ps <> [] -> tr_fresh t' = false) /\ tr_pred t' = tr_pred t.
Proof.
  induction ps as [|[e u ul ur q] ps IH]; intros h t Ht He Hin Hg Hd Hr.
  - exists h, t. simpl. split; auto. split; auto. split; auto. split; [tauto|]. split.
    { intros j _. unfold redirs, redir. destruct (h_get h j) as [[[w|l r] s d]|]; auto. } split; auto. split; congruence || auto.
  - inversion He as [|? ? He1 He2]; subst. inversion Hr as [|? ? Hr1 Hr2]; subst. simpl in He1, Hin.
    change (flat_map grown (En e u ul ur q :: ps)) with ([ul; ur; u] ++ flat_map grown ps) in *. apply NoDup_app_disj in Hg as (Hg1&Hg2&Hg3).
    destruct Hr1 as ((s&d&Eu)&Ll&Lr&Nl&Nr&Nu). simpl in Eu, Ll, Lr, Nl, Nr, Nu.
    destruct (remove_first_set e (tr_nodes t) Ht) as (l1&E1&Hn1&Hl1). { apply Hin. left. auto. }
    assert (Em : mutate h t (Mu MGrow e u) = (relink h (l1 ++ [ul; ur; u]) e u, Tr (l1 ++ [ul; ur; u]) false (tr_pred t), None)).
    { unfold mutate, left_child, right_child. cbn [mu_kind mu_existing mu_updated]. rewrite E1, Eu. reflexivity. }
    cbn [map mutate_all]. change (g_mut (En e u ul ur q)) with (Mu MGrow e u). rewrite Em. clear Em. set (l4 := l1 ++ [ul; ur; u]). set (h1 := relink h l4 e u). set (t1 := Tr l4 false (tr_pred t)).
    assert (Hue : u <> e) by (intros ->; apply Nu; auto).
    assert (Hnew : forall j, In j ([ul; ur; u] ++ flat_map grown ps) -> ~ In j (tr_nodes t)) by exact Hd.
    assert (H4 : forall j, In j l4 <-> (In j (tr_nodes t) /\ j <> e) \/ In j [ul; ur; u]) by (intros j; unfold l4; rewrite in_app_iff, Hl1; tauto).
    assert (Hget : forall j, h_get h1 j = if mem j l4 then relinked e u (h_get h j) else h_get h j) by (intros j; apply relink_get; auto).
    assert (Hout : forall j, In j (flat_map grown ps) -> h_get h1 j = h_get h j).
    { intros j Hj. rewrite Hget. replace (mem j l4) with false; auto. symmetry. apply mem_not. rewrite H4. intros [[A _]|A].
      - apply (Hnew j); auto. apply in_app_iff; auto.
      - eapply Hg3; eauto. }
    destruct (IH h1 t1) as (h'&t'&E&N&ND&S&G&O&Fr&Pr).
    + unfold t1, l4. simpl. apply NoDup_app_disj. split; auto. split; auto. intros j A B. apply Hl1 in A as [A _]. apply (Hnew j); auto. apply in_app_iff; auto.
    + auto.
    + intros j Hj. simpl. apply H4. left. split; [apply Hin; right; auto|]. intros ->. auto.
    + auto.
    + intros j Hj. simpl. rewrite H4. intros [[A _]|A]; [|eapply Hg3; eauto]. apply (Hnew j); auto. apply in_app_iff; auto.
    + rewrite Forall_forall in Hr2 |- *. intros en Hen. specialize (Hr2 en Hen).
      assert (Hin3 : forall j, In j (grown en) -> In j (flat_map grown ps)) by (intros j Hj; apply in_flat_map; eauto).
      destruct Hr2 as ((s'&d'&Eu')&Ll'&Lr'&Nl'&Nr'&Nu'). unfold g_ready, is_leaf. rewrite !Hout by (apply Hin3; unfold grown; simpl; auto).
      split; [eauto|]. split; [exact Ll'|]. split; [exact Lr'|]. simpl in Nl', Nr', Nu'. tauto.
    + exists h', t'. split; auto. split; [rewrite N; apply relink_next|]. split; auto. split.
      { intros j. rewrite S. simpl tr_nodes. rewrite H4, in_app_iff. simpl map. simpl (In j (_ :: _)). split.
        - intros [[[[A B]|A] C]|A]; auto. left. split; auto. intros [D|D]; congruence.
        - intros [[A B]|[A|A]]; auto.
          + left. split; [left; split; auto; intros ->; apply B; auto|intros C; apply B; auto].
          + left. split; [right; exact A|]. intros B. apply (Hnew j); [apply in_app_iff; auto|]. apply Hin. right. auto. }
      split.
      { intros j Hj. rewrite G by auto. apply S in Hj. simpl tr_nodes in Hj. cbn [target en_e en_u]. destruct Hj as [[Hj _]|Hj].
        - rewrite Hget. replace (mem j l4) with true by (symmetry; now apply mem_in).
          rewrite redirs_relinked; [reflexivity|]. apply target_notin. simpl in Nu. tauto.
        - rewrite (Hout j Hj). apply in_flat_map in Hj as (en&Hen&Hj). rewrite Forall_forall in Hr2. destruct (Hr2 en Hen) as ((s'&d'&Eu')&Ll'&Lr'&Nl'&Nr'&Nu').
          simpl in Nl', Nr'. destruct Hj as [<-|[<-|[<-|[]]]].
          + unfold is_leaf in Ll'. destruct (h_get h (en_l en)) as [[[w|] ? ?]|]; try discriminate. reflexivity.
          + unfold is_leaf in Lr'. destruct (h_get h (en_r en)) as [[[w|] ? ?]|]; try discriminate. reflexivity.
          + rewrite Eu'. unfold redirs, redir. simpl. destruct (Nat.eqb_spec (en_l en) e) as [Q|_]; [exfalso; apply Nl'; left; auto|].
            destruct (Nat.eqb_spec (en_r en) e) as [Q|_]; [exfalso; apply Nr'; left; auto|]. reflexivity. }
      split.
      { intros j A B. rewrite in_app_iff in B. rewrite O; [|simpl; rewrite H4; tauto|tauto]. rewrite Hget.
        replace (mem j l4) with false; auto. symmetry. apply mem_not. rewrite H4. tauto. }
      split; [|rewrite Pr; reflexivity]. intros _. destruct ps as [|en ps]; [|apply Fr; discriminate]. simpl in E. injection E as <- <-. reflexivity.
Qed.
Definition gone (en : entry) : list nat := [en_e en; en_l en; en_r en].
Definition p_ready (h : heap) (en : entry) : Prop :=
  (exists s d, h_get h (en_e en) = Some (Nd (KDec (en_l en) (en_r en)) s d)) /\ is_leaf h (en_u en) = true.
Lemma gone_e ps j : In j (map en_e ps) -> In j (flat_map gone ps).
Proof. intros H. apply in_map_iff in H as (en&<-&H). apply in_flat_map. exists en. unfold gone. simpl. auto. Qed.
Lemma prune_all ps : forall h t, NoDup (tr_nodes t) -> NoDup (flat_map gone ps) -> incl (flat_map gone ps) (tr_nodes t) ->
  NoDup (map en_u ps) -> (forall j, In j (map en_u ps) -> ~ In j (tr_nodes t)) -> Forall (p_ready h) ps ->
  exists h' t', mutate_all h t (map p_mut ps) = Ok (h', t') /\ h_next h' = h_next h /\ NoDup (tr_nodes t') /\
    (forall j, In j (tr_nodes t') <-> (In j (tr_nodes t) /\ ~ In j (flat_map gone ps)) \/ In j (map en_u ps)) /\
    (forall j, In j (tr_nodes t') -> h_get h' j = redirs (target ps) (h_get h j)) /\
    (forall j, ~ In j (tr_nodes t) -> ~ In j (map en_u ps) -> h_get h' j = h_get h j) /\ (ps <> [] -> tr_fresh t' = false) /\ tr_pred t' = tr_pred t.
Proof.
  induction ps as [|[e u jl jr q] ps IH]; intros h t Ht He Hin Hu Hd Hr.
  - exists h, t. simpl. split; auto. split; auto. split; auto. split; [tauto|]. split.
    { intros j _. unfold redirs, redir. destruct (h_get h j) as [[[w|l r] s d]|]; auto. } split; auto. split; congruence || auto.
  - inversion Hr as [|? ? Hr1 Hr2]; subst. inversion Hu as [|? ? Hu1 Hu2]; subst. simpl in Hu1, Hd.
    change (flat_map gone (En e u jl jr q :: ps)) with ([e; jl; jr] ++ flat_map gone ps) in *. apply NoDup_app_disj in He as (He1&He2&He3).
    destruct Hr1 as ((s&d&Ee)&Lu). simpl in Ee, Lu.
    assert (Hne : e <> jl /\ e <> jr /\ jl <> jr).
    { inversion He1 as [|? ? A B]; subst. inversion B as [|? ? C _]; subst. simpl in A, C. repeat split; intros Q; subst; tauto. }
    destruct Hne as (Hn_l&Hn_r&Hn_lr).
    destruct (remove_first_set e (tr_nodes t) Ht) as (l1&E1&Hn1&Hl1). { apply Hin. left. auto. }
    destruct (remove_first_set jl l1 Hn1) as (l2&E2&Hn2&Hl2). { apply Hl1. split; [apply Hin; right; left; auto|congruence]. }
    destruct (remove_first_set jr l2 Hn2) as (l3&E3&Hn3&Hl3). { apply Hl2. rewrite Hl1. split; [split; [apply Hin; right; right; left; auto|]|]; congruence. }
    assert (Em : mutate h t (Mu MPrune e u) = (relink h (l3 ++ [u]) e u, Tr (l3 ++ [u]) false (tr_pred t), None)).
    { unfold mutate, left_child, right_child, remove_id. cbn [mu_kind mu_existing mu_updated]. rewrite E1, Ee, E2, E3. reflexivity. }
    cbn [map mutate_all]. change (p_mut (En e u jl jr q)) with (Mu MPrune e u). rewrite Em. clear Em. set (l4 := l3 ++ [u]). set (h1 := relink h l4 e u). set (t1 := Tr l4 false (tr_pred t)).
    assert (Hun : ~ In u (tr_nodes t)) by (apply Hd; auto).
    assert (Hue : u <> e) by (intros ->; apply Hun, Hin; left; auto).
    assert (H4 : forall j, In j l4 <-> (In j (tr_nodes t) /\ ~ In j [e; jl; jr]) \/ j = u).
    { intros j. unfold l4. rewrite in_app_iff, Hl3, Hl2, Hl1. simpl. intuition. }
    assert (Hget : forall j, h_get h1 j = if mem j l4 then relinked e u (h_get h j) else h_get h j) by (intros j; apply relink_get; auto).
    assert (Hgone : forall j, In j (flat_map gone ps) -> In j l4).
    { intros j Hj. apply H4. left. split; [apply Hin, in_app_iff; auto|]. intros A. eapply He3; eauto. }
    destruct (IH h1 t1) as (h'&t'&E&N&ND&S&G&O&Fr&Pr).
    + unfold t1, l4. simpl. apply NoDup_app_disj. split; auto. split; [repeat constructor; auto|]. intros j A [<-|[]]. apply Hun. apply Hl3 in A as [A _]. apply Hl2 in A as [A _]. apply Hl1 in A. tauto.
    + auto.
    + intros j Hj. simpl. auto.
    + auto.
    + intros j Hj. simpl. rewrite H4. intros [[A _]|A]; [eapply Hd; eauto|]. subst. auto.
    + rewrite Forall_forall in Hr2 |- *. intros en Hen. destruct (Hr2 en Hen) as ((s'&d'&Ee')&Lu'). split.
      * assert (Hg : forall j, In j (gone en) -> In j (flat_map gone ps)) by (intros j Hj; apply in_flat_map; eauto).
        rewrite Hget. replace (mem (en_e en) l4) with true by (symmetry; apply mem_in, Hgone, Hg; unfold gone; simpl; auto).
        rewrite Ee'. simpl. unfold relink_node. simpl.
        destruct (Nat.eqb_spec (en_l en) e) as [Q|_]; [exfalso; apply (He3 e); [simpl; auto|rewrite <- Q; apply Hg; unfold gone; simpl; auto]|].
        destruct (Nat.eqb_spec (en_r en) e) as [Q|_]; [exfalso; apply (He3 e); [simpl; auto|rewrite <- Q; apply Hg; unfold gone; simpl; auto]|]. eauto.
      * unfold is_leaf in *. rewrite Hget. destruct (mem (en_u en) l4); auto. destruct (h_get h (en_u en)) as [[[w|] ? ?]|]; try discriminate. reflexivity.
    + exists h', t'. split; auto. split; [rewrite N; apply relink_next|]. split; auto.
      assert (Hug : ~ In u (flat_map gone ps)) by (intros A; apply Hun, Hin, in_app_iff; auto). split.
      { intros j. rewrite S. simpl tr_nodes. rewrite H4, in_app_iff. change (In j (map en_u (En e u jl jr q :: ps))) with (u = j \/ In j (map en_u ps)). split.
        - intros [[[[A B]|A] C]|A]; [left; split; auto; tauto|right; left; auto|right; right; auto].
        - intros [[A B]|[A|A]]; auto.
          + left. split; [left; split; auto|]; intros C; apply B; auto.
          + left. split; [right; auto|]. now subst. }
      split.
      { intros j Hj. rewrite G by auto. apply S in Hj. simpl tr_nodes in Hj. cbn [target en_e en_u].
        assert (Htu : target ps u = u) by (apply target_notin; intros A; apply Hug, gone_e; auto).
        destruct Hj as [[Hj _]|Hj].
        - rewrite Hget. replace (mem j l4) with true by (symmetry; now apply mem_in). now rewrite redirs_relinked.
        - rewrite Hget. destruct (mem j l4); [now rewrite redirs_relinked|].
          apply in_map_iff in Hj as (en&<-&Hen). rewrite Forall_forall in Hr2. destruct (Hr2 en Hen) as (_&Lu').
          unfold is_leaf in Lu'. destruct (h_get h (en_u en)) as [[[w|] ? ?]|]; try discriminate. reflexivity. }
      split.
      { intros j A B. change (~ (u = j \/ In j (map en_u ps))) in B. rewrite O; [|simpl; rewrite H4; intros [C|C]; [tauto|subst; tauto]|tauto]. rewrite Hget.
        replace (mem j l4) with false; auto. symmetry. apply mem_not. rewrite H4. intros [C|C]; [tauto|subst; tauto]. }
      split; [|rewrite Pr; reflexivity]. intros _. destruct ps as [|en ps]; [|apply Fr; discriminate]. simpl in E. injection E as <- <-. reflexivity.
Qed.

(** ** trees after all leaves were split, and after all prunable nodes were pruned *)
Fixpoint oall (P : list rule -> nat -> nat -> Prop) (cs : list rule) (d : nat) (o : otree) : Prop :=
  match o with OLeaf i => P cs d i | ONode _ q l r => oall P (under cs q true) (S d) l /\ oall P (under cs q false) (S d) r end.
Fixpoint ogrow (f : nat -> otree) (o : otree) : otree :=
  match o with OLeaf i => f i | ONode i q l r => ONode i q (ogrow f l) (ogrow f r) end.
Lemma ogrow_full f k : (forall i, full 1 (f i)) -> forall o, full k o -> full (S k) (ogrow f o).
Proof.
  intros Hf. induction k as [|k IH]; intros [i|i q l r]; simpl; try tauto.
  - intros _. apply (Hf i).
  - intros [Hl Hr]. split; [apply (IH l Hl)|apply (IH r Hr)].
Qed.
Lemma ogrow_ids f o j : In j (oids (ogrow f o)) <-> In j (odecids o) \/ exists i, In i (oleafids o) /\ In j (oids (f i)).
Proof.
  induction o as [i|i q l IHl r IHr]; simpl.
  - split; [intros H; right; eauto|]. intros [[]|(k&[<-|[]]&H)]; auto.
  - rewrite !in_app_iff, IHl, IHr. split.
    + intros [A|[[A|(k&A&B)]|[A|(k&A&B)]]]; auto; right; exists k; rewrite in_app_iff; auto.
    + intros [[A|A]|(k&A&B)]; [auto|destruct A as [A|A]; auto|]. apply in_app_iff in A as [A|A]; right; [left|right]; right; eauto.
Qed.
Lemma ogrow_nodup f o : NoDup (oids o) -> (forall i, In i (oleafids o) -> NoDup (oids (f i))) ->
  (forall i j, In i (oleafids o) -> In j (oids (f i)) -> ~ In j (oids o)) ->
  (forall i i' j, In i (oleafids o) -> In i' (oleafids o) -> In j (oids (f i)) -> In j (oids (f i')) -> i = i') -> NoDup (oids (ogrow f o)).
Proof.
  induction o as [i|i q l IHl r IHr]; simpl; intros Hn Hf Ho Hd; [apply Hf; auto|].
  inversion Hn as [|? ? Hi Hn']; subst. apply NoDup_app_disj in Hn' as (Hl&Hr&Hlr).
  assert (Lin : forall k, In k (oleafids l) -> In k (oleafids l ++ oleafids r)) by (intros; apply in_app_iff; auto).
  assert (Rin : forall k, In k (oleafids r) -> In k (oleafids l ++ oleafids r)) by (intros; apply in_app_iff; auto).
  assert (Fresh : forall k j, In k (oleafids l ++ oleafids r) -> In j (oids (f k)) -> j <> i /\ ~ In j (oids l) /\ ~ In j (oids r)).
  { intros k j Hk Hj. specialize (Ho k j Hk Hj). rewrite in_app_iff in Ho. split; [intros ->; tauto|tauto]. }
  constructor.
  - rewrite in_app_iff, !ogrow_ids. intros [[A|(k&A&B)]|[A|(k&A&B)]].
    + apply Hi, in_app_iff. left. apply oids_incl. auto.
    + destruct (Fresh k i (Lin _ A) B). congruence.
    + apply Hi, in_app_iff. right. apply oids_incl. auto.
    + destruct (Fresh k i (Rin _ A) B). congruence.
  - apply NoDup_app_disj. split; [|split].
    + apply IHl; eauto. intros k j Hk Hj. now apply (Fresh k j (Lin _ Hk)).
    + apply IHr; eauto. intros k j Hk Hj. now apply (Fresh k j (Rin _ Hk)).
    + intros j. rewrite !ogrow_ids. intros [A|(k&A&B)] [A'|(k'&A'&B')].
      * apply (Hlr j); apply oids_incl; auto.
      * destruct (Fresh k' j (Rin _ A') B') as (_&Q&_). apply Q, oids_incl. auto.
      * destruct (Fresh k j (Lin _ A) B) as (_&_&Q). apply Q, oids_incl. auto.
      * assert (k = k') by (apply (Hd k k' j); auto). subst. apply (Hlr k'); apply oids_incl; auto.
Qed.
Lemma ook_redir h h' X oy sg o : (forall k, In k (oids o) -> sg k = k) -> forall cs d, (forall j, In j (oids o) -> h_get h' j = redirs sg (h_get h j)) ->
  ook h X oy cs d o -> ook h' X oy cs d o.
Proof.
  induction o as [i|i q l IHl r IHr]; intros Hs cs d He; simpl in *.
  - intros (w&s&E&H). rewrite He, E by auto. exists w, s. auto.
  - intros ((s&E&H)&Hq&Hl&Hr). split; [exists s; rewrite He, E by auto; unfold redirs, redir; simpl; rewrite !Hs by (right; apply in_app_iff; auto using oroot_in); auto|].
    split; auto. split; [apply IHl|apply IHr]; auto; intros; (apply Hs || apply He); right; apply in_app_iff; auto.
Qed.
Lemma ook_grow h h' X oy sg f o : forall cs d, ook h X oy cs d o -> oall (fun cs d i => ook h X oy cs d (f i)) cs d o ->
  (forall j, In j (oids (ogrow f o)) -> h_get h' j = redirs sg (h_get h j)) ->
  (forall i, In i (oleafids o) -> sg i = oroot (f i) /\ forall k, In k (oids (f i)) -> sg k = k) -> (forall j, In j (odecids o) -> sg j = j) ->
  ook h' X oy cs d (ogrow f o).
Proof.
  induction o as [i|i q l IHl r IHr]; intros cs d; simpl.
  - intros _ Hf He Hs _. eapply ook_redir; eauto. apply (Hs i); auto.
  - intros ((s&E&Hsi)&Hq&Hl&Hr) [Fl Fr] He Hs Hd. split.
    + exists s. rewrite He, E by auto. unfold redirs, redir. simpl.
      assert (Root : forall c, (forall i, In i (oleafids c) -> In i (oleafids l ++ oleafids r)) -> (forall i, In i (odecids c) -> In i (odecids l ++ odecids r)) -> sg (oroot c) = oroot (ogrow f c)).
      { intros [k|k q' a b] A B; simpl; [apply Hs, A; simpl; auto|]. apply Hd. right. apply B. simpl. auto. }
      rewrite !Root; auto; intros; apply in_app_iff; auto.
    + split; auto. split; [apply IHl|apply IHr]; auto; intros; (apply He || apply Hs || apply Hd); try right; apply in_app_iff; auto.
Qed.
