(** Proofs about the oblivious tree sampler: its proposals, and what applying them does to a tree. *)
From Coq Require Import Reals Lra Permutation.
From Verif Require Import Base Fl Ext MData MSplit MTree MSampler MHist MTreeHist MOblivious Spec SpecTree LFl LList PData PSplit PDataProps PCond PTree PPred PTreeHist PTreeProps POblivious.

(** ** leaves and prunable nodes with their conditions and depths *)
Fixpoint ogr (cs : list rule) (d : nat) (o : otree) : list (nat * (list rule * nat)) :=
  match o with OLeaf i => [(i, (cs, d))] | ONode _ q l r => ogr (under cs q true) (S d) l ++ ogr (under cs q false) (S d) r end.
Lemma ogr_ids o : forall cs d, map fst (ogr cs d o) = oleafids o.
Proof. induction o as [i|i q l IHl r IHr]; intros cs d; simpl; auto. now rewrite map_app, IHl, IHr. Qed.
Lemma ogr_all (P : list rule -> nat -> nat -> Prop) o : forall cs d, (forall i ci di, In (i, (ci, di)) (ogr cs d o) -> P ci di i) -> oall P cs d o.
Proof.
  induction o as [i|i q l IHl r IHr]; intros cs d H; simpl in *; [apply H; auto|].
  split; [apply IHl|apply IHr]; intros; apply H, in_app_iff; auto.
Qed.
Lemma ogr_ok h X oy o : forall cs d i ci di, ook h X oy cs d o -> In (i, (ci, di)) (ogr cs d o) ->
  exists w s, h_get h i = Some (Nd (KLeaf w) (SFull s) di) /\ sinv X oy ci s.
Proof.
  induction o as [i|i q l IHl r IHr]; intros cs d j ci di; simpl.
  - intros H [E|[]]. injection E as <- <- <-. exact H.
  - intros (_&_&Hl&Hr) Hj. apply in_app_iff in Hj as [Hj|Hj]; [eapply IHl|eapply IHr]; eauto.
Qed.
Lemma ogr_depth k o : forall cs d i ci di, full k o -> In (i, (ci, di)) (ogr cs d o) -> di = d + k.
Proof.
  revert o. induction k as [|k IH]; intros [j|j q l r] cs d i ci di; simpl; try tauto.
  - intros _ [E|[]]. injection E as _ _ <-. lia.
  - intros [Hl Hr] Hj. apply in_app_iff in Hj as [Hj|Hj]; [apply (IH l) in Hj|apply (IH r) in Hj]; auto; lia.
Qed.

(** ** proposing to split every leaf *)
Definition onew (en : entry) : otree := ONode (en_u en) (en_q en) (OLeaf (en_l en)) (OLeaf (en_r en)).
Lemma alloc3 h n1 n2 n3 h1 h2 h3 a b c : h_alloc h n1 = (a, h1) -> h_alloc h1 n2 = (b, h2) -> h_alloc h2 n3 = (c, h3) ->
  a = h_next h /\ b = S (h_next h) /\ c = S (S (h_next h)) /\ h_next h3 = S (S (S (h_next h))) /\
  (forall j, j < h_next h -> h_get h3 j = h_get h j) /\ h_get h3 a = Some n1 /\ h_get h3 b = Some n2 /\ h_get h3 c = Some n3.
Proof.
  unfold h_alloc. intros E1 E2 E3. injection E1 as <- <-. simpl in *. injection E2 as <- <-. simpl in *. injection E3 as <- <-. simpl.
  split; auto. split; auto. split; auto. split; auto. split.
  { intros j Hj. repeat match goal with |- context [Nat.eqb ?a ?b] => destruct (Nat.eqb_spec a b) end; auto; try lia. }
  split; [|split]; repeat match goal with |- context [Nat.eqb ?a ?b] => destruct (Nat.eqb_spec a b) end; auto; try lia.
Qed.
Lemma ob_split_node_ok h X oy i idx cs d w s p h1 idx1 : no_nan X -> h_get h i = Some (Nd (KLeaf w) (SFull s) d) -> sinv X oy cs s ->
  ob_split_node h i idx = Ok (p, h1, idx1) ->
  exists q, p = S (S (h_next h)) /\ h_next h1 = S (S (S (h_next h))) /\ (forall j, j < h_next h -> h_get h1 j = h_get h j) /\
    ook h1 X oy cs d (onew (En i p (h_next h) (S (h_next h)) q)).
Proof.
  intros Hnan E Hs. unfold ob_split_node, is_splittable, node_data, node_split. rewrite E. simpl option_map. cbv beta iota.
  pose proof (splittable_open X oy cs s Hnan Hs) as Ho.
  destruct (fst (is_at_least_one_splittable_variable (d_X (sp_data s)))) eqn:Esp.
  - unfold ob_sample_split_condition. destruct idx as [|k i2].
    { destruct (random_splittable_variable (d_X (sp_data s)) 0); discriminate. }
    destruct (random_splittable_variable (d_X (sp_data s)) k) as [v| |] eqn:E2; try discriminate. cbn [rbind].
    destruct (random_splittable_value (d_X (sp_data s)) v i2) as [[x i3]| |] eqn:E3; try discriminate. cbn [rbind].
    change (SC v x OpLe None None) with (fresh_le v x). change (SC v x OpGt None None) with (fresh_gt v x).
    destruct (split_node h i (fresh_le v x) (fresh_gt v x)) as [[p' h2]| |] eqn:E4; try discriminate. cbn [rbind].
    intros Q; injection Q as <- <- <-. apply split_node_spec in E4 as (k0&s0&d0&s'&sl&sr&E0&Es&->&Hn&Hold&Hgl&Hgr&Hgp).
    rewrite E in E0. injection E0 as <- <- <-. destruct (sampled_fills _ _ _ _ _ _ _ _ Hnan Hs E3) as (Hx&F1&F2).
    destruct (split_children_sinv _ _ _ _ _ _ _ _ _ Hnan Hx Hs Es) as (Hv&Hs'&Hsl&Hsr).
    exists (Some (v, x)). split; auto. split; auto. split; auto. simpl. split; [eauto|]. split.
    { split; [exact (sampled_chosen _ _ _ _ _ _ _ _ Hnan Hs E3)|]. split; [exact Hx|]. split; assumption. }
    split; [exists 0%R, sl|exists 0%R, sr]; auto.
  - destruct (h_alloc h (Nd (KLeaf 0%R) (SFull s) (d + 1))) as [a ha] eqn:E1.
    destruct (h_alloc ha (Nd (KLeaf 0%R) (SFull s) (d + 1))) as [b hb] eqn:E2.
    destruct (h_alloc hb (Nd (KDec a b) (SFull s) d)) as [c hc] eqn:E3. intros Q; injection Q as <- <- <-.
    destruct (alloc3 _ _ _ _ _ _ _ _ _ _ E1 E2 E3) as (->&->&->&Hn&Hold&G1&G2&G3). exists None.
    split; auto. split; auto. split; auto. simpl. split; [eauto|]. split; [intros A; apply Ho in A; congruence|].
    rewrite Nat.add_1_r in *. split; exists 0%R, s; auto.
Qed.
Definition fresh_entry (lo hi : nat) (en : entry) : Prop := forall j, In j (grown en) -> lo <= j < hi.
Lemma ob_grows_ok X oy L : no_nan X -> forall h idx ms h1 idx1,
  (forall i ci di, In (i, (ci, di)) L -> i < h_next h /\ exists w s, h_get h i = Some (Nd (KLeaf w) (SFull s) di) /\ sinv X oy ci s) ->
  ob_grows h (map fst L) idx = Ok (ms, h1, idx1) ->
  exists ps, ms = map g_mut ps /\ map en_e ps = map fst L /\
    Forall2 (fun x en => fst x = en_e en /\ ook h1 X oy (fst (snd x)) (snd (snd x)) (onew en)) L ps /\
    NoDup (flat_map grown ps) /\ Forall (fresh_entry (h_next h) (h_next h1)) ps /\
    h_next h <= h_next h1 /\ (forall j, j < h_next h -> h_get h1 j = h_get h j).
Proof.
  intros Hnan. induction L as [|[i [ci di]] L IH]; intros h idx ms h1 idx1 HL; simpl.
  - intros E; injection E as <- <- <-. exists []. simpl. repeat split; auto; constructor.
  - destruct (HL i ci di) as (Hlt&w&s&E&Hs); [simpl; auto|].
    destruct (ob_split_node h i idx) as [[[p h2] idx2]| |] eqn:E1; try discriminate. cbn [rbind].
    destruct (ob_split_node_ok _ _ _ _ _ _ _ _ _ _ _ _ Hnan E Hs E1) as (q&Hp&Hn2&Hold&Hok).
    assert (Eg : grow_mutation h2 i p = Ok (Mu MGrow i p)) by (unfold grow_mutation, is_leaf; rewrite Hold, E by auto; reflexivity).
    rewrite Eg. cbn [rbind].
    destruct (ob_grows h2 (map fst L) idx2) as [[[ms' h3] idx3]| |] eqn:E2; try discriminate. cbn [rbind].
    intros Q; injection Q as <- <- <-.
    destruct (IH h2 idx2 ms' h3 idx3) as (ps&->&Hes&Hf&Hnd&Hfr&Hle&Hold2); auto.
    { intros j cj dj Hj. destruct (HL j cj dj) as (A&w'&s'&B&C); [simpl; auto|]. split; [lia|]. exists w', s'. split; auto. now rewrite Hold. }
    set (en := En i p (h_next h) (S (h_next h)) q) in *.
    assert (Hfe : fresh_entry (h_next h) (h_next h2) en).
    { intros j [<-|[<-|[<-|[]]]]; simpl; lia. }
    exists (en :: ps). split; [reflexivity|]. split; [simpl; congruence|]. split.
    { constructor; auto. split; auto. simpl. change (ook h3 X oy ci di (onew en)). eapply ook_ext; [|exact Hok].
      intros j Hj. apply Hold2. simpl in Hj. destruct Hj as [<-|[<-|[<-|[]]]]; lia. }
    split.
    { cbn [flat_map]. apply NoDup_app_disj. split; [|split; auto].
      - unfold grown, en. simpl. subst p. repeat constructor; simpl; lia.
      - intros j A B. apply Hfe in A. apply in_flat_map in B as (en'&Hen'&B). rewrite Forall_forall in Hfr. apply (Hfr en' Hen') in B. lia. }
    split.
    { constructor.
      - intros j Hj. apply Hfe in Hj. lia.
      - rewrite Forall_forall in Hfr |- *. intros en' Hen' j Hj. apply (Hfr en' Hen') in Hj. lia. }
    split; [lia|]. intros j Hj. rewrite Hold2 by lia. auto.
Qed.
(** a description of what a successful grow proposal is *)
Lemma Forall2_in_l {A B} (P : A -> B -> Prop) l m a : Forall2 P l m -> In a l -> exists b, In b m /\ P a b.
Proof. induction 1; simpl; [tauto|]. intros [->|Hi]; [eauto|]. destruct (IHForall2 Hi) as (b&?&?). eauto. Qed.
Lemma Forall2_in_r {A B} (P : A -> B -> Prop) l m b : Forall2 P l m -> In b m -> exists a, In a l /\ P a b.
Proof. induction 1; simpl; [tauto|]. intros [->|Hi]; [eauto|]. destruct (IHForall2 Hi) as (a&?&?). eauto. Qed.
Fixpoint newtree (ps : list entry) (i : nat) : otree :=
  match ps with [] => ONode i None (OLeaf i) (OLeaf i) | en :: ps' => if Nat.eqb i (en_e en) then onew en else newtree ps' i end.
Lemma newtree_full ps i : full 1 (newtree ps i).
Proof. induction ps as [|en ps IH]; simpl; auto. destruct (Nat.eqb i (en_e en)); simpl; auto. Qed.
Lemma newtree_in ps en : NoDup (map en_e ps) -> In en ps -> newtree ps (en_e en) = onew en.
Proof.
  induction ps as [|a ps IH]; simpl; [tauto|]. intros Hn [->|Hi]; [now rewrite Nat.eqb_refl|]. inversion Hn; subst.
  destruct (Nat.eqb_spec (en_e en) (en_e a)) as [E|]; auto. exfalso. apply H1. rewrite <- E. now apply in_map.
Qed.
Lemma oinv_ext h h1 X oy t k o : oinv h X oy t k o -> h_next h <= h_next h1 -> (forall j, j < h_next h -> h_get h1 j = h_get h j) -> oinv h1 X oy t k o.
Proof.
  intros H Hle Ho. constructor; try apply H.
  - eapply ook_ext; [|apply H]. intros j Hj. apply Ho. now apply (oi_below _ _ _ _ _ _ H).
  - intros j Hj. apply (oi_below _ _ _ _ _ _ H) in Hj. lia.
Qed.
Lemma ob_grow_ok h X oy t k o idx ms h1 idx1 : no_nan X -> oinv h X oy t k o -> ob_grow_mutations h t idx = Ok (ms, h1, idx1) ->
  oinv h1 X oy t k o /\ h_next h <= h_next h1 /\ (forall j, j < h_next h -> h_get h1 j = h_get h j) /\
  exists ps h2 t2, ms = map g_mut ps /\ map en_e ps = leaf_nodes h t /\
    (forall i ci di, In (i, (ci, di)) (ogr [] 0 o) -> exists en, In en ps /\ en_e en = i /\ ook h1 X oy ci di (onew en)) /\
    (forall en, In en ps -> exists ci di, In (en_e en, (ci, di)) (ogr [] 0 o) /\ ook h1 X oy ci di (onew en)) /\
    mutate_all h1 t ms = Ok (h2, t2) /\ oinv h2 X oy t2 (S k) (ogrow (newtree ps) o) /\ tr_fresh t2 = false /\ tr_pred t2 = tr_pred t /\ stays h t h2 t2.
Proof.
  intros Hnan H E. unfold ob_grow_mutations in E.
  assert (P : Permutation (leaf_nodes h t) (map fst (ogr [] 0 o))) by (rewrite ogr_ids; eapply oleaf_nodes_perm; eauto).
  destruct (Permutation_map_inv _ _ P) as (L&EL&PL). rewrite EL in E.
  destruct (ob_grows_ok X oy L Hnan h idx ms h1 idx1) as (ps&Ems&Hes&Hf&Hnd&Hfr&Hle&Hold); auto.
  { intros i ci di Hi. apply (Permutation_in _ (Permutation_sym PL)) in Hi. split.
    - apply (oi_below _ _ _ _ _ _ H), oids_incl. left. rewrite <- (ogr_ids o [] 0). apply in_map_iff. exists (i, (ci, di)). auto.
    - eapply ogr_ok; eauto. apply H. }
  pose proof (oinv_ext _ _ _ _ _ _ _ H Hle Hold) as H1. split; auto. split; auto. split; auto.
  assert (Hleaf : forall j, In j (map en_e ps) <-> In j (oleafids o)).
  { intros j. rewrite Hes, <- EL. apply (leaf_nodes_in _ _ _ _ _ _ H). }
  assert (Hen : NoDup (map en_e ps)) by (rewrite Hes, <- EL; apply NoDup_filter, H).
  assert (HA : forall i ci di, In (i, (ci, di)) (ogr [] 0 o) -> exists en, In en ps /\ en_e en = i /\ ook h1 X oy ci di (onew en)).
  { intros i ci di Hi. apply (Permutation_in _ PL) in Hi. destruct (Forall2_in_l _ _ _ _ Hf Hi) as (en&Hi'&A&B). exists en. auto. }
  assert (HB : forall en, In en ps -> exists ci di, In (en_e en, (ci, di)) (ogr [] 0 o) /\ ook h1 X oy ci di (onew en)).
  { intros en Hin. destruct (Forall2_in_r _ _ _ _ Hf Hin) as ([i [ci di]]&Hi&A&B). simpl in A, B. exists ci, di. split; auto. rewrite <- A. apply (Permutation_in _ (Permutation_sym PL)). auto. }
  assert (Hlow : forall j, In j (tr_nodes t) -> j < h_next h) by (intros j Hj; apply (oi_same _ _ _ _ _ _ H), (oi_below _ _ _ _ _ _ H) in Hj; auto).
  assert (Hhigh : forall j, In j (flat_map grown ps) -> h_next h <= j < h_next h1).
  { intros j Hj. apply in_flat_map in Hj as (en&Hin&Hj). rewrite Forall_forall in Hfr. apply (Hfr en Hin j Hj). }
  assert (Hinc : incl (map en_e ps) (tr_nodes t)).
  { intros j Hj. apply (oi_same _ _ _ _ _ _ H), oids_incl. left. apply Hleaf. auto. }
  destruct (grow_all ps h1 t) as (h2&t2&Em&Hn2&Hnd2&Hs2&Hg2&Ho2&Hfr2&Hpr2); auto.
  - apply H.
  - intros j Hj A. apply Hhigh in Hj. apply Hlow in A. lia.
  - rewrite Forall_forall. intros en Hin. destruct (HB en Hin) as (ci&di&_&((s&Eu&_)&_&(w1&s1&E1&_)&(w2&s2&E2&_))).
    assert (Hno : forall j, In j (grown en) -> ~ In j (map en_e ps)).
    { intros j Hj A. assert (B : In j (flat_map grown ps)) by (apply in_flat_map; eauto). apply Hhigh in B. apply Hinc, Hlow in A. lia. }
    unfold g_ready, is_leaf. simpl in *. rewrite E1, E2. split; [eauto|]. split; auto. split; auto. split; [|split]; apply Hno; unfold grown; simpl; auto.
  - exists ps, h2, t2. split; auto. split; [congruence|]. split; auto. split; auto. split; [subst; auto|].
    assert (Hids : forall j, In j (oids (ogrow (newtree ps) o)) <-> In j (odecids o) \/ In j (flat_map grown ps)).
    { intros j. rewrite ogrow_ids, in_flat_map. split; (intros [A|A]; [auto|right]).
      - destruct A as (i&Hi&Hj). apply Hleaf, in_map_iff in Hi as (en&<-&Hin). rewrite newtree_in in Hj by auto. exists en. split; auto.
        unfold grown. simpl in *. tauto.
      - destruct A as (en&Hin&Hj). exists (en_e en). split; [apply Hleaf, in_map; auto|]. rewrite newtree_in by auto. unfold grown in Hj. simpl in *. tauto. }
    assert (Hsame : forall j, In j (tr_nodes t2) <-> In j (oids (ogrow (newtree ps) o))).
    { intros j. rewrite Hs2, Hids, (oi_same _ _ _ _ _ _ H), oids_incl, Hleaf. pose proof (NoDup_oleaf _ (oi_nodup _ _ _ _ _ _ H)) as (_&_&D).
      specialize (D j). tauto. }
    assert (Hdecl : forall j, In j (odecids o) -> target ps j = j).
    { intros j Hj. apply target_notin. rewrite Hleaf. intros A. eapply NoDup_oleaf; eauto. apply H. }
    split; [|split; [apply Hfr2; destruct ps; [|discriminate]; exfalso; assert (A : In (oroot o) (oids o)) by apply oroot_in;
                     pose proof (oi_full _ _ _ _ _ _ H) as F; apply full_count in F; destruct (oleafids o) as [|z ?] eqn:Ez; [simpl in F; pose proof (Nat.pow_nonzero 2 k); lia|];
                     assert (B : In z (map en_e [])) by (apply Hleaf; simpl; auto); destruct B|split; [auto|]]].
    2: { split; [lia|]. split.
         - intros j Hj Hnj. rewrite Ho2; auto. intros A. apply Hhigh in A. lia.
         - intros j Hj. apply Hs2 in Hj as [[Hj _]|Hj]; auto. apply Hhigh in Hj. right. lia. }
    constructor.
    + eapply (ook_grow h1); [apply H1| |intros j Hj; apply Hg2, Hsame; auto| |auto].
      * apply ogr_all. intros i ci di Hi. destruct (HA _ _ _ Hi) as (en&Hin&<-&Hok). rewrite newtree_in by auto. auto.
      * intros i Hi. apply Hleaf, in_map_iff in Hi as (en&<-&Hin). rewrite newtree_in, target_in by auto. split; auto.
        intros j Hj. apply target_notin. intros A. assert (B : In j (flat_map grown ps)). { apply in_flat_map. exists en. split; auto. simpl in Hj. unfold grown. simpl. tauto. }
        apply Hhigh in B. apply Hinc, Hlow in A. lia.
    + apply ogrow_full; [apply newtree_full|apply H].
    + apply ogrow_nodup; [apply H| | |].
      * intros i Hi. apply Hleaf, in_map_iff in Hi as (en&<-&Hin). rewrite newtree_in by auto.
        assert (Hg : NoDup (grown en)).
        { apply in_split in Hin as (l1&l2&->). rewrite flat_map_app in Hnd. apply NoDup_app_disj in Hnd as (_&Hnd&_). cbn [flat_map] in Hnd. apply NoDup_app_disj in Hnd. tauto. }
        simpl. unfold grown in Hg. eapply Permutation_NoDup; [|exact Hg]. transitivity (en_l en :: en_u en :: [en_r en]); [constructor; constructor|constructor].
      * intros i j Hi Hj A. apply Hleaf, in_map_iff in Hi as (en&<-&Hin). rewrite newtree_in in Hj by auto.
        assert (B : In j (flat_map grown ps)). { apply in_flat_map. exists en. split; auto. simpl in Hj. unfold grown. simpl. tauto. }
        apply Hhigh in B. apply (oi_below _ _ _ _ _ _ H) in A. lia.
      * intros i i' j Hi Hi' Hj Hj'. apply Hleaf, in_map_iff in Hi as (en&<-&Hin). apply Hleaf, in_map_iff in Hi' as (en'&<-&Hin').
        rewrite newtree_in in Hj, Hj' by auto. f_equal.
        assert (G : In j (grown en)) by (unfold grown; simpl in *; tauto). assert (G' : In j (grown en')) by (unfold grown; simpl in *; tauto).
        clear -Hnd Hin Hin' G G'. induction ps as [|a ps IH]; [destruct Hin|]. cbn [flat_map] in Hnd. apply NoDup_app_disj in Hnd as (_&N&D).
        destruct Hin as [->|Hin], Hin' as [->|Hin']; auto; exfalso; apply (D j); auto; apply in_flat_map; eauto.
    + auto.
    + auto.
    + intros j Hj. apply Hids in Hj as [Hj|Hj].
      * rewrite Hn2. apply (oi_below _ _ _ _ _ _ H1), oids_incl. auto.
      * apply Hhigh in Hj. lia.
Qed.

(** ** proposing to prune every prunable node *)
Definition leafid (o : otree) : option nat := match o with OLeaf i => Some i | _ => None end.
Fixpoint opr (cs : list rule) (d : nat) (o : otree) : list (nat * ((nat * nat) * (list rule * nat))) :=
  match o with
  | OLeaf _ => []
  | ONode i q l r => match leafid l, leafid r with
                     | Some a, Some b => [(i, ((a, b), (cs, d)))]
                     | _, _ => opr (under cs q true) (S d) l ++ opr (under cs q false) (S d) r end
  end.
Fixpoint oprune (f : nat -> nat) (o : otree) : otree :=
  match o with
  | OLeaf i => OLeaf i
  | ONode i q l r => match leafid l, leafid r with
                     | Some a, Some b => OLeaf (f i)
                     | _, _ => ONode i q (oprune f l) (oprune f r) end
  end.
Definition three (x : nat * ((nat * nat) * (list rule * nat))) : list nat := [fst x; fst (fst (snd x)); snd (fst (snd x))].
Definition ogone (o : otree) : list nat := flat_map three (opr [] 0 o).
Lemma two_leaves l r : (exists a b, l = OLeaf a /\ r = OLeaf b /\ leafid l = Some a /\ leafid r = Some b) \/ (leafid l = None \/ leafid r = None).
Proof. destruct l, r; simpl; eauto 10. Qed.
Lemma opr_node cs d i q l r : leafid l = None \/ leafid r = None ->
  opr cs d (ONode i q l r) = opr (under cs q true) (S d) l ++ opr (under cs q false) (S d) r.
Proof. simpl. destruct (leafid l), (leafid r); auto. intros [|]; discriminate. Qed.
Lemma oprune_node f i q l r : leafid l = None \/ leafid r = None -> oprune f (ONode i q l r) = ONode i q (oprune f l) (oprune f r).
Proof. simpl. destruct (leafid l), (leafid r); auto. intros [|]; discriminate. Qed.
Lemma oprune_full f : forall k o, full k o -> full (pred k) (oprune f o).
Proof.
  induction k as [|k IH]; intros [i|i q l r]; try (simpl; tauto). intros H. destruct (two_leaves l r) as [(a&b&->&->&_)|Hn].
  - destruct H as [H _]. simpl in H. destruct k; [exact I|destruct H].
  - rewrite oprune_node by auto. destruct H as [Hl Hr]. destruct k as [|k].
    + destruct l, r; simpl in *; try tauto. destruct Hn; discriminate.
    + simpl in *. split; [apply (IH l Hl)|apply (IH r Hr)].
Qed.
Lemma opr_shape o : forall cs d cs' d', map (fun x => (fst x, fst (snd x))) (opr cs d o) = map (fun x => (fst x, fst (snd x))) (opr cs' d' o).
Proof.
  induction o as [i|i q l IHl r IHr]; intros cs d cs' d'; simpl; auto. destruct (leafid l), (leafid r); simpl; auto; rewrite !map_app; f_equal; auto.
Qed.
Lemma three_shape L : flat_map three L = flat_map (fun x => [fst x; fst (snd x); snd (snd x)]) (map (fun x => (fst x, fst (snd x))) L).
Proof. induction L as [|x L IH]; simpl; auto. now rewrite IH. Qed.
Lemma three_opr cs d cs' d' o : flat_map three (opr cs d o) = flat_map three (opr cs' d' o).
Proof. rewrite !three_shape. f_equal. apply opr_shape. Qed.
Lemma opr_fst cs d cs' d' o : map fst (opr cs d o) = map fst (opr cs' d' o).
Proof. pose proof (f_equal (map fst) (opr_shape o cs d cs' d')) as H. rewrite !map_map in H. exact H. Qed.
Lemma opr_ok h X oy o : forall cs d i a b ci di, ook h X oy cs d o -> In (i, ((a, b), (ci, di))) (opr cs d o) ->
  (exists s, h_get h i = Some (Nd (KDec a b) (SFull s) di) /\ sinv X oy ci s) /\ In i (odecids o) /\ In a (oleafids o) /\ In b (oleafids o).
Proof.
  induction o as [i|i q l IHl r IHr]; intros cs d j a b ci di H; [simpl; tauto|].
  destruct (two_leaves l r) as [(x&y&->&->&_)|Hn].
  - simpl. intros [E|[]]. injection E as <- <- <- <- <-. destruct H as (H&_). simpl in H. auto 10.
  - rewrite opr_node, in_app_iff by auto. destruct H as (_&_&Hl&Hr). simpl. rewrite !in_app_iff.
    intros [Hj|Hj]; [destruct (IHl _ _ _ _ _ _ _ Hl Hj) as (A&B&C&D)|destruct (IHr _ _ _ _ _ _ _ Hr Hj) as (A&B&C&D)]; auto 10.
Qed.
Lemma three_incl o : forall cs d j, In j (flat_map three (opr cs d o)) -> In j (oids o).
Proof.
  induction o as [i|i q l IHl r IHr]; intros cs d j; [simpl; tauto|].
  destruct (two_leaves l r) as [(x&y&->&->&_)|Hn]; [simpl; tauto|].
  rewrite opr_node, flat_map_app, in_app_iff by auto. simpl. rewrite in_app_iff. intros [H|H]; [apply IHl in H|apply IHr in H]; auto.
Qed.
Lemma three_nodup o : forall cs d, NoDup (oids o) -> NoDup (flat_map three (opr cs d o)).
Proof.
  induction o as [i|i q l IHl r IHr]; intros cs d H; [constructor|].
  destruct (two_leaves l r) as [(x&y&->&->&_)|Hn]; [exact H|].
  rewrite opr_node, flat_map_app by auto. simpl in H. inversion H as [|? ? Hi Hn']; subst. apply NoDup_app_disj in Hn' as (Hl&Hr&D).
  apply NoDup_app_disj. split; [auto|]. split; [auto|]. intros j A B. apply (D j); eapply three_incl; eauto.
Qed.
Lemma fst_three L j : In j (map fst L) -> In j (flat_map three L).
Proof. intros H. apply in_map_iff in H as (x&<-&H). apply in_flat_map. exists x. unfold three. simpl. auto. Qed.
Lemma fst_nodup L : NoDup (flat_map three L) -> NoDup (map fst L).
Proof.
  induction L as [|x L IH]; [constructor|]. cbn [flat_map map]. intros H. apply NoDup_app_disj in H as (_&H&D). constructor; auto.
  intros A. apply (D (fst x)); [unfold three; simpl; auto|apply fst_three; auto].
Qed.
Lemma prunable_opr h X oy o : forall cs d j, ook h X oy cs d o -> NoDup (oids o) -> In j (odecids o) ->
  (is_prunable h j = true <-> In j (map fst (opr cs d o))).
Proof.
  assert (Leafy : forall h X oy o cs d, ook h X oy cs d o -> is_leaf h (oroot o) = match leafid o with Some _ => true | None => false end).
  { intros h' X' oy' [i|i q l r] cs d; simpl; unfold is_leaf; [intros (w&s&->&_)|intros ((s&->&_)&_)]; reflexivity. }
  induction o as [i|i q l IHl r IHr]; intros cs d j H Hn Hj; [destruct Hj|].
  inversion Hn as [|? ? Hi Hn']; subst. apply NoDup_app_disj in Hn' as (Hnl&Hnr&Dis).
  pose proof H as ((s&E&_)&_&Hl&Hr). simpl in Hj. destruct Hj as [<-|Hj].
  - assert (is_prunable h i = is_leaf h (oroot l) && is_leaf h (oroot r))%bool as -> by (unfold is_prunable, left_child, right_child; rewrite E; reflexivity).
    rewrite (Leafy _ _ _ _ _ _ Hl), (Leafy _ _ _ _ _ _ Hr). destruct (two_leaves l r) as [(x&y&->&->&_)|Hq].
    + simpl. tauto.
    + rewrite opr_node by auto. split.
      * destruct (leafid l), (leafid r); try discriminate. destruct Hq; discriminate.
      * intros A. exfalso. rewrite map_app in A. apply Hi, in_app_iff. apply in_app_iff in A as [A|A]; [left|right]; apply fst_three, three_incl in A; auto.
  - destruct (two_leaves l r) as [(x&y&->&->&_)|Hq]; [simpl in Hj; tauto|]. rewrite opr_node, map_app, in_app_iff by auto.
    apply in_app_iff in Hj as [Hj|Hj].
    + rewrite (IHl _ _ j Hl Hnl Hj). split; auto. intros [A|A]; auto. exfalso. apply (Dis j); [apply oids_incl; auto|]. apply fst_three, three_incl in A. auto.
    + rewrite (IHr _ _ j Hr Hnr Hj). split; auto. intros [A|A]; auto. exfalso. apply (Dis j); [|apply oids_incl; auto]. apply fst_three, three_incl in A. auto.
Qed.
Lemma prunable_perm h X oy t k o : oinv h X oy t k o -> Permutation (prunable_decision_nodes h t) (map fst (opr [] 0 o)).
Proof.
  intros H. apply NoDup_Permutation; [apply NoDup_filter, NoDup_filter, H|apply fst_nodup, three_nodup, H|].
  intros j. unfold prunable_decision_nodes. rewrite filter_In.
  assert (D : In j (decision_nodes h t) <-> In j (odecids o)) by (split; apply Permutation_in; [|symmetry]; eapply odec_nodes_perm; eauto).
  rewrite D. split.
  - intros [A B]. eapply prunable_opr; eauto; apply H.
  - intros A. assert (B : In j (odecids o)). { apply in_map_iff in A as ([i [[a b] [ci di]]]&<-&A). apply (opr_ok _ _ _ _ _ _ _ _ _ _ _ (oi_ok _ _ _ _ _ _ H)) in A. tauto. }
    split; auto. eapply prunable_opr; eauto; apply H.
Qed.
Lemma oprune_ids f o : forall cs d j, NoDup (oids o) -> (In j (oids (oprune f o)) <->
  (In j (oids o) /\ ~ In j (flat_map three (opr cs d o))) \/ exists i, In i (map fst (opr cs d o)) /\ j = f i).
Proof.
  induction o as [i|i q l IHl r IHr]; intros cs d j Hn.
  - simpl. split; [intros H; left; tauto|]. intros [[H _]|(k&[]&_)]. auto.
  - destruct (two_leaves l r) as [(x&y&->&->&_)|Hq].
    + simpl. split; [intros [H|[]]; right; eauto|]. intros [[A B]|(k&[<-|[]]&->)]; tauto || auto.
    + rewrite oprune_node, opr_node by auto. inversion Hn as [|? ? Hi Hn']; subst. apply NoDup_app_disj in Hn' as (Hnl&Hnr&Dis).
      simpl. rewrite !in_app_iff, (IHl (under cs q true) (S d) j Hnl), (IHr (under cs q false) (S d) j Hnr), flat_map_app, map_app, in_app_iff.
      assert (Il : In j (flat_map three (opr (under cs q true) (S d) l)) -> In j (oids l)) by apply three_incl.
      assert (Ir : In j (flat_map three (opr (under cs q false) (S d) r)) -> In j (oids r)) by apply three_incl.
      split.
      * intros [<-|[[[A B]|(k&A&B)]|[[A B]|(k&A&B)]]].
        -- left. split; auto. rewrite in_app_iff in Hi. tauto.
        -- left. split; auto. specialize (Dis j). tauto.
        -- right. exists k. rewrite in_app_iff. auto.
        -- left. split; auto. specialize (Dis j). tauto.
        -- right. exists k. rewrite in_app_iff. auto.
      * intros [[[A|[A|A]] B]|(k&A&B)]; [auto|tauto|tauto|]. apply in_app_iff in A as [A|A]; right; [left|right]; right; eauto.
Qed.
Lemma oprune_nodup f o : forall cs d, NoDup (oids o) -> (forall i, In i (map fst (opr cs d o)) -> ~ In (f i) (oids o)) ->
  (forall i i', In i (map fst (opr cs d o)) -> In i' (map fst (opr cs d o)) -> f i = f i' -> i = i') -> NoDup (oids (oprune f o)).
Proof.
  induction o as [i|i q l IHl r IHr]; intros cs d Hn Ho Hf; [exact Hn|].
  destruct (two_leaves l r) as [(x&y&->&->&_)|Hq]; [simpl; repeat constructor; auto|].
  rewrite oprune_node by auto. rewrite opr_node, map_app in Ho, Hf by auto. inversion Hn as [|? ? Hi Hn']; subst. apply NoDup_app_disj in Hn' as (Hnl&Hnr&Dis).
  set (L := map fst (opr (under cs q true) (S d) l)) in *. set (R := map fst (opr (under cs q false) (S d) r)) in *.
  assert (Out : forall k, In k L \/ In k R -> f k <> i /\ ~ In (f k) (oids l) /\ ~ In (f k) (oids r)).
  { intros k Hk. apply in_app_iff in Hk. specialize (Ho k Hk). simpl in Ho. rewrite in_app_iff in Ho. split; [intros E; apply Ho; left; auto|]. tauto. }
  simpl. constructor.
  - rewrite in_app_iff, (oprune_ids f l (under cs q true) (S d)), (oprune_ids f r (under cs q false) (S d)) by auto. rewrite in_app_iff in Hi.
    intros [[[A _]|(k&A&B)]|[[A _]|(k&A&B)]]; try tauto; (destruct (Out k) as (Q&_); [auto|congruence]).
  - apply NoDup_app_disj. split; [|split].
    + apply (IHl (under cs q true) (S d)); auto; fold L.
      * intros k Hk. apply Out. auto.
      * intros k k' Hk Hk'. apply Hf; apply in_app_iff; auto.
    + apply (IHr (under cs q false) (S d)); auto; fold R.
      * intros k Hk. apply Out. auto.
      * intros k k' Hk Hk'. apply Hf; apply in_app_iff; auto.
    + intros j. rewrite (oprune_ids f l (under cs q true) (S d)), (oprune_ids f r (under cs q false) (S d)) by auto. fold L R.
      intros [[A _]|(k&A&->)] [[A' _]|(k'&A'&B')].
      * eapply Dis; eauto.
      * subst j. destruct (Out k') as (_&Q&_); auto.
      * destruct (Out k) as (_&_&Q); auto.
      * apply Hf in B'; [|apply in_app_iff; auto|apply in_app_iff; auto]. subst k'. apply (Dis k); eapply three_incl, fst_three; eauto.
Qed.
Lemma oprune_root f sg c cs d : NoDup (oids c) -> (forall i, In i (map fst (opr cs d c)) -> sg i = f i) ->
  (forall j, In j (oids c) -> ~ In j (map fst (opr cs d c)) -> sg j = j) -> sg (oroot c) = oroot (oprune f c).
Proof.
  intros Hn Hf Hs. destruct c as [z|z q a b]; [simpl; apply Hs; simpl; auto|]. destruct (two_leaves a b) as [(x&y&->&->&_)|Hq].
  - simpl. apply Hf. simpl. auto.
  - rewrite oprune_node by auto. simpl. apply Hs; [simpl; auto|]. rewrite opr_node by auto. intros D.
    inversion Hn as [|? ? Hz _]; subst. apply Hz, in_app_iff. rewrite map_app in D. apply in_app_iff in D as [D|D]; [left|right]; eapply three_incl, fst_three; eauto.
Qed.
Lemma ook_prune h h' X oy sg f o : forall cs d, ook h X oy cs d o -> NoDup (oids o) ->
  (forall i a b ci di, In (i, ((a, b), (ci, di))) (opr cs d o) -> sg i = f i /\ exists w s, h_get h (f i) = Some (Nd (KLeaf w) (SFull s) di) /\ sinv X oy ci s) ->
  (forall j, In j (oids (oprune f o)) -> h_get h' j = redirs sg (h_get h j)) ->
  (forall j, In j (oids o) -> ~ In j (map fst (opr cs d o)) -> sg j = j) -> ook h' X oy cs d (oprune f o).
Proof.
  induction o as [i|i q l IHl r IHr]; intros cs d H Hn Hf He Hs.
  - simpl in *. destruct H as (w&s&E&H). rewrite He, E by auto. exists w, s. auto.
  - destruct (two_leaves l r) as [(x&y&->&->&_)|Hq].
    + destruct (Hf i x y cs d) as (_&w&s&E&A); [simpl; auto|]. simpl in *. rewrite He, E by auto. exists w, s. auto.
    + rewrite oprune_node in * by auto. rewrite opr_node in Hf, Hs by auto. rewrite map_app in Hs. pose proof H as ((s&E&Hsi)&Hrl&Hl&Hr).
      inversion Hn as [|? ? Hi Hn']; subst. apply NoDup_app_disj in Hn' as (Hnl&Hnr&Dis).
      assert (Sl : forall j, In j (oids l) -> ~ In j (map fst (opr (under cs q true) (S d) l)) -> sg j = j).
      { intros j A B. apply Hs; [right; apply in_app_iff; auto|]. rewrite in_app_iff. intros [C|C]; auto. apply (Dis j); auto. eapply three_incl, fst_three; eauto. }
      assert (Sr : forall j, In j (oids r) -> ~ In j (map fst (opr (under cs q false) (S d) r)) -> sg j = j).
      { intros j A B. apply Hs; [right; apply in_app_iff; auto|]. rewrite in_app_iff. intros [C|C]; auto. apply (Dis j); auto. eapply three_incl, fst_three; eauto. }
      assert (Ff : forall c cs' d', incl (opr cs' d' c) (opr (under cs q true) (S d) l ++ opr (under cs q false) (S d) r) -> forall i, In i (map fst (opr cs' d' c)) -> sg i = f i).
      { intros c cs' d' I k Hk. apply in_map_iff in Hk as ([k' [[a b] [ci di]]]&<-&Hk). apply I, Hf in Hk. tauto. }
      simpl. split.
      * exists s. rewrite He, E by (simpl; auto). unfold redirs, redir. simpl.
        rewrite (oprune_root f sg l (under cs q true) (S d)), (oprune_root f sg r (under cs q false) (S d)); auto; eapply Ff; intros z; apply in_app_iff || (intros; apply in_app_iff; auto).
      * split; auto. split; [apply IHl|apply IHr]; auto; intros; (eapply Hf || apply He); try right; apply in_app_iff; eauto.
Qed.
Lemma alloc1 h n u h1 : h_alloc h n = (u, h1) -> u = h_next h /\ h_next h1 = S (h_next h) /\ (forall j, j < h_next h -> h_get h1 j = h_get h j) /\ h_get h1 u = Some n.
Proof.
  unfold h_alloc. intros E. injection E as <- <-. simpl. rewrite Nat.eqb_refl. split; auto. split; auto. split; auto.
  intros j Hj. destruct (Nat.eqb_spec j (h_next h)); auto; lia.
Qed.
Definition ptake (x : nat * ((nat * nat) * (list rule * nat))) (en : entry) : Prop := three x = gone en.
Lemma ob_prunes_ok X oy L : forall h,
  (forall i a b ci di, In (i, ((a, b), (ci, di))) L -> (i < h_next h /\ a < h_next h /\ b < h_next h) /\ is_leaf h a = true /\ is_leaf h b = true /\
     exists s, h_get h i = Some (Nd (KDec a b) (SFull s) di) /\ sinv X oy ci s) ->
  exists ps h1, ob_prunes h (map fst L) = Ok (map p_mut ps, h1) /\
    Forall2 (fun x en => three x = gone en /\ exists s, h_get h1 (en_u en) = Some (Nd (KLeaf 0%R) (SFull s) (snd (snd (snd x)))) /\ sinv X oy (fst (snd (snd x))) s) L ps /\
    NoDup (map en_u ps) /\ (forall j, In j (map en_u ps) -> h_next h <= j < h_next h1) /\
    h_next h <= h_next h1 /\ (forall j, j < h_next h -> h_get h1 j = h_get h j).
Proof.
  induction L as [|[i [[a b] [ci di]]] L IH]; intros h HL.
  - exists [], h. simpl. split; auto. split; [constructor|]. split; [constructor|]. split; [tauto|]. auto.
  - destruct (HL i a b ci di) as ((Hi&Ha&Hb)&La&Lb&s&E&Hs); [simpl; auto|]. cbn [map fst ob_prunes]. rewrite E.
    destruct (h_alloc h (Nd (KLeaf 0%R) (nd_split (Nd (KDec a b) (SFull s) di)) (nd_depth (Nd (KDec a b) (SFull s) di)))) as [u h2] eqn:Ea.
    apply alloc1 in Ea as (Hu&Hn2&Hold&Hgu). simpl in Hgu.
    assert (Ep : prune_mutation h2 i u = Ok (Mu MPrune i u)).
    { unfold prune_mutation, is_dec, is_prunable, left_child, right_child, is_leaf in *. rewrite (Hold i), E by auto. simpl. rewrite (Hold a), (Hold b) by auto.
      rewrite La, Lb. reflexivity. }
    rewrite Ep. cbn [rbind].
    destruct (IH h2) as (ps&h1&E2&Hf&Hnd&Hfr&Hle&Hold2).
    { intros j a' b' cj dj Hj. destruct (HL j a' b' cj dj) as ((A1&A2&A3)&B&C&s'&D&F); [simpl; auto|]. split; [lia|].
      unfold is_leaf in *. rewrite !Hold by auto. eauto. }
    rewrite E2. cbn [rbind]. exists (En i u a b None :: ps), h1. split; [reflexivity|]. split.
    { constructor; auto. split; [reflexivity|]. simpl. exists s. split; auto. rewrite Hold2 by lia. auto. }
    split. { simpl. constructor; auto. intros A. apply Hfr in A. lia. }
    split. { simpl. intros j [<-|A]; [lia|]. apply Hfr in A. lia. }
    split; [lia|]. intros j Hj. rewrite Hold2 by lia. auto.
Qed.
Lemma Forall2_flat_map {A B C} (f : A -> list C) (g : B -> list C) l m : Forall2 (fun x y => f x = g y) l m -> flat_map f l = flat_map g m.
Proof. induction 1; simpl; auto. now f_equal. Qed.
Lemma ob_prune_ok h X oy t k o : oinv h X oy t k o ->
  exists ps h1 h2 t2, ob_prune_mutations h t = Ok (map p_mut ps, h1) /\ oinv h1 X oy t k o /\ h_next h <= h_next h1 /\ (forall j, j < h_next h -> h_get h1 j = h_get h j) /\
    map en_e ps = prunable_decision_nodes h t /\
    (forall i a b ci di, In (i, ((a, b), (ci, di))) (opr [] 0 o) -> exists en, In en ps /\ en_e en = i /\ en_l en = a /\ en_r en = b /\ exists w s, h_get h1 (en_u en) = Some (Nd (KLeaf w) (SFull s) di) /\ sinv X oy ci s) /\
    mutate_all h1 t (map p_mut ps) = Ok (h2, t2) /\ oinv h2 X oy t2 (pred k) (oprune (target ps) o) /\ tr_pred t2 = tr_pred t /\ (ps <> [] -> tr_fresh t2 = false) /\ stays h t h2 t2 /\ (ps = [] -> t2 = t).
Proof.
  intros H. unfold ob_prune_mutations. pose proof (prunable_perm _ _ _ _ _ _ H) as P.
  destruct (Permutation_map_inv _ _ P) as (L&EL&PL). rewrite EL.
  assert (Hlow : forall j, In j (oids o) -> j < h_next h) by apply (oi_below _ _ _ _ _ _ H).
  destruct (ob_prunes_ok X oy L h) as (ps&h1&E1&Hf&Hnd&Hfr&Hle&Hold).
  { intros i a b ci di Hi. apply (Permutation_in _ (Permutation_sym PL)) in Hi.
    destruct (opr_ok _ _ _ _ _ _ _ _ _ _ _ (oi_ok _ _ _ _ _ _ H) Hi) as ((s&E&Hs)&A&B&C).
    assert (Aa : In a (oids o)) by (apply oids_incl; auto). assert (Bb : In b (oids o)) by (apply oids_incl; auto).
    split; [split; [apply Hlow, oids_incl; auto|auto]|].
    destruct (ook_leaf_iff _ _ _ _ _ _ a (oi_ok _ _ _ _ _ _ H) Aa (oi_nodup _ _ _ _ _ _ H)) as [-> _].
    destruct (ook_leaf_iff _ _ _ _ _ _ b (oi_ok _ _ _ _ _ _ H) Bb (oi_nodup _ _ _ _ _ _ H)) as [-> _]. eauto. }
  pose proof (oinv_ext _ _ _ _ _ _ _ H Hle Hold) as H1.
  assert (F1 : flat_map three L = flat_map gone ps).
  { apply Forall2_flat_map. clear -Hf. induction Hf; constructor; auto. tauto. }
  assert (F2 : map en_e ps = map fst L).
  { clear -Hf. induction Hf as [|x en L ps Hxy Hf IH]; simpl; auto. destruct Hxy as (A&_). unfold three, gone in A. injection A as A _ _. now rewrite A, IH. }
  assert (Hthree : forall j, In j (flat_map gone ps) <-> In j (flat_map three (opr [] 0 o))).
  { intros j. rewrite <- F1, !in_flat_map. split; intros (x&A&B); exists x; split; auto; [apply (Permutation_in _ (Permutation_sym PL))|apply (Permutation_in _ PL)]; auto. }
  assert (Hfst : forall j, In j (map en_e ps) <-> In j (map fst (opr [] 0 o))).
  { intros j. rewrite F2, <- EL. split; apply Permutation_in; auto using Permutation_sym. }
  assert (Ngone : NoDup (flat_map gone ps)).
  { rewrite <- F1. assert (Pm : Permutation (flat_map three (opr [] 0 o)) (flat_map three L)) by (apply Permutation_flat_map; auto).
    eapply Permutation_NoDup; [exact Pm|]. apply three_nodup, H. }
  assert (Nen : NoDup (map en_e ps)) by (rewrite F2; apply fst_nodup; rewrite F1; auto).
  assert (HA : forall i a b ci di, In (i, ((a, b), (ci, di))) (opr [] 0 o) -> exists en, In en ps /\ en_e en = i /\ en_l en = a /\ en_r en = b /\ exists w s, h_get h1 (en_u en) = Some (Nd (KLeaf w) (SFull s) di) /\ sinv X oy ci s).
  { intros i a b ci di Hi. apply (Permutation_in _ PL) in Hi. destruct (Forall2_in_l _ _ _ _ Hf Hi) as (en&Hin&A&s&B&C).
    unfold three, gone in A. simpl in A, B, C. injection A as A1 A2 A3. exists en. split; auto. split; auto. split; auto. split; auto. eauto. }
  destruct (prune_all ps h1 t) as (h2&t2&Em&Hn2&Hnd2&Hs2&Hg2&Ho2&Hfr2&Hpr2); auto.
  - apply H.
  - intros j Hj. apply (oi_same _ _ _ _ _ _ H). apply Hthree, three_incl in Hj. auto.
  - intros j Hj A. apply Hfr in Hj. apply (oi_same _ _ _ _ _ _ H), Hlow in A. lia.
  - rewrite Forall_forall. intros en Hin. destruct (Forall2_in_r _ _ _ _ Hf Hin) as ([i [[a b] [ci di]]]&Hi&A&s&B&C).
    apply (Permutation_in _ (Permutation_sym PL)) in Hi. destruct (opr_ok _ _ _ _ _ _ _ _ _ _ _ (oi_ok _ _ _ _ _ _ H1) Hi) as ((s'&E&_)&_).
    unfold three, gone in A. simpl in A, B, C. injection A as A1 A2 A3. subst. split; [eauto|]. unfold is_leaf. rewrite B. reflexivity.
  - exists ps, h1, h2, t2. split; [exact E1|]. split; auto. split; auto. split; auto. split; [congruence|]. split; auto. split; auto. split; [|split; [auto|split; [auto|split]]].
    2: { split; [lia|]. split.
         - intros j Hj Hnj. rewrite Ho2; auto. intros A. apply Hfr in A. lia.
         - intros j Hj. apply Hs2 in Hj as [[Hj _]|Hj]; auto. apply Hfr in Hj. right. lia. }
    2: { intros ->. simpl in Em. congruence. }
    assert (Hut : forall j, (exists i, In i (map fst (opr [] 0 o)) /\ j = target ps i) <-> In j (map en_u ps)).
    { intros j. split.
      - intros (i&Hi&->). apply Hfst, in_map_iff in Hi as (en&<-&Hin). rewrite target_in by auto. now apply in_map.
      - intros Hj. apply in_map_iff in Hj as (en&<-&Hin). exists (en_e en). split; [apply Hfst, in_map; auto|]. now rewrite target_in. }
    assert (Hsame : forall j, In j (tr_nodes t2) <-> In j (oids (oprune (target ps) o))).
    { intros j. rewrite Hs2, (oprune_ids (target ps) o [] 0 j (oi_nodup _ _ _ _ _ _ H)), Hut, Hthree, (oi_same _ _ _ _ _ _ H). tauto. }
    constructor.
    + eapply (ook_prune h1 h2 X oy (target ps)); [apply H1|apply H| |intros j Hj; apply Hg2, Hsame; auto|].
      * intros i a b ci di Hi. split; auto. destruct (HA _ _ _ _ _ Hi) as (en&Hin&<-&_&_&w&s&A&B). rewrite target_in by auto. eauto.
      * intros j Hj A. apply target_notin. now rewrite Hfst.
    + apply oprune_full, H.
    + apply (oprune_nodup (target ps) o [] 0); [apply H| |].
      * intros i Hi A. assert (B : In (target ps i) (map en_u ps)) by (apply Hut; eauto). apply Hfr in B. apply Hlow in A. lia.
      * intros i i' Hi Hi'. apply Hfst, in_map_iff in Hi as (en&<-&Hin). apply Hfst, in_map_iff in Hi' as (en'&<-&Hin'). rewrite !target_in by auto.
        intros E. f_equal. clear -Hnd Hin Hin' E. induction ps as [|z ps IH]; [destruct Hin|]. simpl in Hnd. inversion Hnd; subst.
        destruct Hin as [->|Hin], Hin' as [->|Hin']; auto; exfalso; apply H1; [rewrite E|rewrite <- E]; now apply in_map.
    + auto.
    + auto.
    + intros j Hj. rewrite Hn2. apply (oprune_ids _ _ [] 0 _ (oi_nodup _ _ _ _ _ _ H)) in Hj as [[Hj _]|Hj].
      * apply Hlow in Hj. lia.
      * apply Hut, Hfr in Hj. lia.
Qed.

(** ** leaf values and targets *)
Lemma set_value_ook h X oy i w o : forall cs d, ook h X oy cs d o -> ook (set_value h i w) X oy cs d o.
Proof.
  induction o as [j|j q l IHl r IHr]; intros cs d; simpl.
  - intros (w'&s&E&Hs). rewrite set_value_get, E. eauto.
  - intros ((s&E&Hs)&Hx&Hl&Hr). rewrite set_value_get, E. eauto 10.
Qed.
Lemma set_value_oinv h X oy t k o i w : oinv h X oy t k o -> oinv (set_value h i w) X oy t k o.
Proof. intros H. constructor; try apply H; [apply set_value_ook, H|]. rewrite set_value_next. apply H. Qed.
Lemma osub o : forall cs d j, NoDup (oids o) -> In j (oids o) -> exists o' cs' d', oroot o' = j /\ incl (oids o') (oids o) /\ oheight o' <= oheight o /\ NoDup (oids o') /\
  forall h X oy, ook h X oy cs d o -> ook h X oy cs' d' o'.
Proof.
  induction o as [i|i q l IHl r IHr]; intros cs d j Hn Hj.
  - destruct Hj as [<-|[]]. exists (OLeaf i), cs, d. split; auto. split; [apply incl_refl|]. auto.
  - inversion Hn as [|? ? Hi Hn']; subst. apply NoDup_app_disj in Hn' as (Hnl&Hnr&Dis). destruct Hj as [<-|Hj].
    + exists (ONode i q l r), cs, d. split; auto. split; [apply incl_refl|]. auto.
    + apply in_app_iff in Hj as [Hj|Hj].
      * destruct (IHl (under cs q true) (S d) j Hnl Hj) as (o'&c'&d'&A&B&C&D&E). exists o', c', d'. split; auto. split.
        { intros z Hz. simpl. right. apply in_app_iff. auto. } split; [simpl; lia|]. split; auto. intros h X oy H. apply E. simpl in H. tauto.
      * destruct (IHr (under cs q false) (S d) j Hnr Hj) as (o'&c'&d'&A&B&C&D&E). exists o', c', d'. split; auto. split.
        { intros z Hz. simpl. right. apply in_app_iff. auto. } split; [simpl; lia|]. split; auto. intros h X oy H. apply E. simpl in H. tauto.
Qed.
Lemma onode_update_y_spec X oy y o : forall fuel h cs d, oheight o <= fuel -> NoDup (oids o) ->
  (exists h0, ook h0 X oy cs d o /\ forall j, In j (oids o) -> h_get h j = h_get h0 j \/ h_get h j = y_set y (h_get h0 j)) ->
  exists h', node_update_y fuel h (oroot o) y = Ok h' /\ h_next h' = h_next h /\
    forall j, h_get h' j = if mem j (oids o) then y_set y (h_get h j) else h_get h j.
Proof.
  induction o as [i|i q l IHl r IHr]; intros fuel h cs d Hf Hnd (h0&Hok&Hh); simpl in Hf;
  (destruct fuel as [|fuel]; [lia|]); simpl in *.
  - destruct Hok as (w&s&E&Hs). destruct (Hh i) as [E'|E']; auto; rewrite E in E'; simpl in E'; rewrite E'; simpl;
    eexists; (split; [reflexivity|]); simpl; split; auto; intros j; destruct (Nat.eqb_spec j i) as [->|]; simpl; auto; rewrite E'; reflexivity.
  - destruct Hok as ((s&E&Hs)&Hx&Hl&Hr).
    inversion Hnd as [|? ? Hi Hnd']; subst. apply NoDup_app_disj in Hnd' as (Hnl&Hnr&Hdis).
    assert (exists s', h_get h i = Some (Nd (KDec (oroot l) (oroot r)) (SFull s') d)) as (s'&E').
    { destruct (Hh i) as [E'|E']; auto; rewrite E in E'; simpl in E'; eauto. }
    rewrite E'. simpl.
    set (h1 := h_set h i _).
    assert (Hh1 : forall j, In j (oids l ++ oids r) -> h_get h1 j = h_get h j).
    { intros j Hj. unfold h1; simpl. destruct (Nat.eqb_spec j i) as [->|]; tauto. }
    destruct (IHl fuel h1 (under cs q true) (S d)) as (h2&E2&N2&G2); auto.
    + lia.
    + exists h0. split; auto. intros j Hj. rewrite Hh1 by (apply in_app_iff; auto). apply Hh. right. apply in_app_iff; auto.
    + rewrite E2. simpl.
      assert (Hh2 : forall j, In j (oids r) -> h_get h2 j = h_get h j).
      { intros j Hj. rewrite G2. replace (mem j (oids l)) with false.
        - apply Hh1, in_app_iff; auto.
        - symmetry. apply mem_not. intros ?; eauto. }
      destruct (IHr fuel h2 (under cs q false) (S d)) as (h3&E3&N3&G3); auto.
      * lia.
      * exists h0. split; auto. intros j Hj. rewrite Hh2 by auto. apply Hh. right. apply in_app_iff; auto.
      * exists h3. split; auto. split; [rewrite N3, N2; reflexivity|].
        intros j. rewrite G3, G2. simpl. unfold mem. simpl. rewrite existsb_app. fold (mem j (oids l)) (mem j (oids r)).
        destruct (Nat.eqb_spec j i) as [->|Hne].
        -- replace (mem i (oids l)) with false by (symmetry; apply mem_not; intros ?; apply Hi, in_app_iff; auto).
           replace (mem i (oids r)) with false by (symmetry; apply mem_not; intros ?; apply Hi, in_app_iff; auto).
           unfold h1. simpl. rewrite E'. reflexivity.
        -- simpl. destruct (mem j (oids l)) eqn:Ml, (mem j (oids r)) eqn:Mr; simpl; auto. now rewrite y_set_idem.
Qed.
Lemma onodes_update_y_spec X oy y o h0 fuel : ook h0 X oy [] 0 o -> NoDup (oids o) -> oheight o <= fuel ->
  forall ids h, incl ids (oids o) -> 
  (forall j, In j (oids o) -> h_get h j = h_get h0 j \/ h_get h j = y_set y (h_get h0 j)) ->
  exists h' T, nodes_update_y fuel h ids y = Ok h' /\ h_next h' = h_next h /\ incl ids T /\ incl T (oids o) /\
    forall j, h_get h' j = if mem j T then y_set y (h_get h j) else h_get h j.
Proof.
  intros Hok Hnd Hfu. induction ids as [|i ids IH]; intros h Hin Hh.
  - exists h, []. simpl. split; auto. split; auto. split; [apply incl_refl|]. split; [intros ? []|]. auto.
  - destruct (osub o [] 0 i Hnd) as (ai&ci&di&Ei&Hsub&Hht&Hndi&Hoki); [apply Hin; simpl; auto|].
    destruct (onode_update_y_spec X oy y ai fuel h ci di) as (h1&E1&N1&G1).
    + lia.
    + auto.
    + exists h0. split; [apply Hoki; auto|auto].
    + destruct (IH h1) as (h2&T&E2&N2&I2&J2&G2).
      * intros j Hj. apply Hin. simpl; auto.
      * intros j Hj. rewrite G1. destruct (Hh j Hj) as [E|E]; destruct (mem j (oids ai)); rewrite E; auto.
        rewrite y_set_idem. auto.
      * exists h2, (oids ai ++ T). simpl. rewrite <- Ei, E1. simpl. split; auto. split; [congruence|]. split.
        { intros j [<-|Hj]; apply in_app_iff; [left; apply oroot_in|right; apply I2; auto]. }
        split. { apply incl_app; auto. }
        intros j. rewrite G2, G1. unfold mem. rewrite existsb_app. fold (mem j (oids ai)) (mem j T).
        destruct (mem j (oids ai)), (mem j T); simpl; auto. now rewrite y_set_idem.
Qed.
Lemma update_y_ook h h' X oy y o : (forall y', y = Some y' -> length y' = length (mx_rows X)) ->
  forall cs d, (forall j, In j (oids o) -> h_get h' j = y_set y (h_get h j)) -> ook h X oy cs d o -> ook h' X y cs d o.
Proof.
  intros Hy. induction o as [i|i q l IHl r IHr]; intros cs d He; simpl in *.
  - intros (w&s&E&Hs). rewrite He, E by auto. simpl. eauto using sinv_update_y.
  - intros ((s&E&Hs)&Hx&Hl&Hr). rewrite He, E by auto. simpl.
    split; [eauto using sinv_update_y|]. split; auto.
    split; [apply IHl|apply IHr]; auto; intros; apply He; right; apply in_app_iff; auto.
Qed.
Lemma update_y_oinv h X oy t k o y : oinv h X oy t k o -> (forall y', y = Some y' -> length y' = length (mx_rows X)) ->
  exists h', tree_update_y h t y = Ok (h', Tr (tr_nodes t) false (tr_pred t)) /\ oinv h' X y (Tr (tr_nodes t) false (tr_pred t)) k o.
Proof.
  intros H Hy. unfold tree_update_y.
  destruct (onodes_update_y_spec X oy y o h (S (length (tr_nodes t))) (oi_ok _ _ _ _ _ _ H) (oi_nodup _ _ _ _ _ _ H)) with (ids := tr_nodes t) (h := h)
    as (h'&T&E&N&I&J&G); auto.
  - assert (length (oids o) <= length (tr_nodes t)) by (apply NoDup_incl_length; [apply H|intros j Hj; now apply (oi_same _ _ _ _ _ _ H)]). pose proof (oheight_le o). lia.
  - intros j Hj. now apply (oi_same _ _ _ _ _ _ H).
  - exists h'. rewrite E. simpl. split; auto. constructor; simpl; try apply H.
    + eapply update_y_ook; eauto; [|apply H]. intros j Hj. rewrite G. replace (mem j T) with true; auto. symmetry. apply mem_in, I. now apply (oi_same _ _ _ _ _ _ H).
    + rewrite N. apply H.
Qed.
Lemma start_oinv X y normalize h0 s : length y = length (mx_rows X) -> root_split X y normalize = Ok s ->
  oinv (fst (start_tree h0 s)) X (Some (start_target y normalize)) (snd (start_tree h0 s)) 0 (OLeaf (h_next h0)).
Proof.
  intros Hl Hr. destruct (start_inv X y normalize h0 s Hl Hr) as [A B C D]. constructor; simpl in *; auto; try tauto.
Qed.

(** ** all histories *)
Lemma ob_propose_ok h X oy t k o limit r ms h1 r1 : no_nan X -> oinv h X oy t k o -> ob_propose limit h t r = Ok (ms, h1, r1) ->
  (exists idx idx', ob_grow_mutations h t idx = Ok (ms, h1, idx')) \/ ob_prune_mutations h t = Ok (ms, h1).
Proof.
  intros Hn H. revert r. induction limit as [|n IH]; intros r; simpl; [discriminate|]. destruct (rg_method r) as [|b bs]; [discriminate|].
  destruct b.
  - destruct (ob_grow_mutations h t (rg_index r)) as [[[ms' h'] idx']|e|] eqn:E; [|destruct e; try discriminate; intros Q; eapply IH; exact Q|discriminate].
    intros Q. injection Q as <- <- _. left. eauto.
  - destruct (ob_prune_ok _ _ _ _ _ _ H) as (ps&h'&h2&t2&E&_). rewrite E. cbn [rbind]. intros Q. injection Q as <- <- _. right. reflexivity.
Qed.
Definition sane_ob (n : nat) (o : ob_op) : Prop := match o with OUpdateY y => length y = n | _ => True end.
Lemma ob_sample_ok h X oy t k o sigma p r om h1 r1 : no_nan X -> oinv h X oy t k o -> ob_sample h t sigma p r = Ok (om, h1, r1) ->
  oinv h1 X oy t k o /\ h_next h <= h_next h1 /\ (forall j, j < h_next h -> h_get h1 j = h_get h j) /\
  forall ms, om = Some ms -> (exists idx idx', ob_grow_mutations h t idx = Ok (ms, h1, idx')) \/ ob_prune_mutations h t = Ok (ms, h1).
Proof.
  intros Hnan H. unfold ob_sample. destruct (ob_propose (pa_limit p) h t r) as [[[ms h'] r']| |] eqn:E; try discriminate. cbn [rbind].
  apply (ob_propose_ok _ _ _ _ _ _ _ _ _ _ _ Hnan H) in E.
  destruct (ob_ratio h' ms sigma p) as [x| |]; try discriminate. cbn [rbind]. destruct (rg_unif r') as [|u us]; [discriminate|].
  intros Q. injection Q as <- <- <-.
  assert (G : oinv h' X oy t k o /\ h_next h <= h_next h' /\ (forall j, j < h_next h -> h_get h' j = h_get h j)).
  { destruct E as [(idx&idx'&E)|E].
    - destruct (ob_grow_ok _ _ _ _ _ _ _ _ _ _ Hnan H E) as (A&B&C&_). auto.
    - destruct (ob_prune_ok _ _ _ _ _ _ H) as (ps&h2&h3&t2&E2&A&B&C&_). rewrite E in E2. injection E2 as _ <-. auto. }
  destruct G as (A&B&C). split; auto. split; auto. split; auto. intros ms'. destruct (accepts u x); [|discriminate]. intros Q; injection Q as <-. auto.
Qed.
Lemma ob_step_ok h X oy t k o sigma p r om h1 t1 r1 : no_nan X -> oinv h X oy t k o -> ob_step h t sigma p r = Ok (om, h1, t1, r1) ->
  match om with
  | None => t1 = t /\ oinv h1 X oy t k o /\ h_next h <= h_next h1 /\ (forall j, j < h_next h -> h_get h1 j = h_get h j)
  | Some ms => (exists ps o1, ms = map g_mut ps /\ map en_e ps = leaf_nodes h t /\ oinv h1 X oy t1 (S k) o1) \/
               (exists ps o1, ms = map p_mut ps /\ map en_e ps = prunable_decision_nodes h t /\ oinv h1 X oy t1 (pred k) o1)
  end.
Proof.
  intros Hnan H. unfold ob_step. destruct (ob_sample h t sigma p r) as [[[om' h'] r']| |] eqn:E; try discriminate. cbn [rbind].
  destruct (ob_sample_ok _ _ _ _ _ _ _ _ _ _ _ _ Hnan H E) as (A&B&C&D). destruct om' as [ms|].
  - destruct (mutate_all h' t ms) as [[h2 t2]| |] eqn:Em; try discriminate. cbn [rbind]. intros Q; injection Q as <- <- <- <-.
    destruct (D ms eq_refl) as [(idx&idx'&Eg)|Ep].
    + destruct (ob_grow_ok _ _ _ _ _ _ _ _ _ _ Hnan H Eg) as (_&_&_&ps&h3&t3&Q1&Q2&_&_&Q3&Q4&_). rewrite Em in Q3. injection Q3 as <- <-. left. eauto 10.
    + destruct (ob_prune_ok _ _ _ _ _ _ H) as (ps&h4&h3&t3&E2&_&_&_&Q2&_&Q3&Q4&_). rewrite Ep in E2. injection E2 as -> <-. rewrite Em in Q3. injection Q3 as <- <-. right. eauto 10.
  - intros Q; injection Q as <- <- <- <-. auto.
Qed.
Lemma ob_do_oinv h X y t k o op h' t' : no_nan X -> oinv h X (Some y) t k o -> sane_ob (length (mx_rows X)) op -> ob_do h t op = Ok (h', t') ->
  exists y' k' o', oinv h' X (Some y') t' k' o'.
Proof.
  intros Hnan H Hs. destruct op as [idx| |[] idx|i w|y1| |sigma p r]; simpl.
  - destruct (ob_grow_mutations h t idx) as [[[ms h1] idx1]| |] eqn:E; try discriminate. cbn [rbind]. intros Em.
    destruct (ob_grow_ok _ _ _ _ _ _ _ _ _ _ Hnan H E) as (_&_&_&ps&h3&t3&_&_&_&_&Q3&Q4&_). rewrite Em in Q3. injection Q3 as <- <-. eauto.
  - destruct (ob_prune_ok _ _ _ _ _ _ H) as (ps&h4&h3&t3&E2&_&_&_&_&_&Q3&Q4&_). rewrite E2. cbn [rbind]. rewrite Q3. intros Q; injection Q as <- <-. eauto.
  - destruct (ob_grow_mutations h t idx) as [[[ms h1] idx1]| |] eqn:E; try discriminate. cbn [rbind]. intros Em; injection Em as <- <-.
    destruct (ob_grow_ok _ _ _ _ _ _ _ _ _ _ Hnan H E) as (A&_). eauto.
  - destruct (ob_prune_ok _ _ _ _ _ _ H) as (ps&h4&h3&t3&E2&A&_). rewrite E2. cbn [rbind]. intros Q; injection Q as <- <-. eauto.
  - destruct (existsb (Nat.eqb i) (leaf_nodes h t)); [|discriminate]. intros Q; injection Q as <- <-. exists y, k, o. apply set_value_oinv; auto.
  - destruct (update_y_oinv _ _ _ _ _ _ (Some y1) H) as (h2&E&A); [intros y' Q; injection Q as <-; exact Hs|]. rewrite E. intros Q; injection Q as <- <-. eauto.
  - unfold tree_predict. destruct (if tr_fresh t then _ else _) as [[b|]| |]; try discriminate. cbn [rbind]. intros Q; injection Q as <- <-. exists y, k, o. constructor; simpl; apply H.
  - destruct (ob_step h t sigma p r) as [[[[om h1] t1] r1]| |] eqn:E; try discriminate. cbn [rbind]. intros Q; injection Q as <- <-.
    pose proof (ob_step_ok _ _ _ _ _ _ _ _ _ _ _ _ _ Hnan H E) as G. destruct om as [ms|].
    + destruct G as [(ps&o1&_&_&G)|(ps&o1&_&_&G)]; eauto.
    + destruct G as (->&G&_). eauto.
Qed.
Lemma ob_run_oinv X os : no_nan X -> forall h y t k o h' t', oinv h X (Some y) t k o -> Forall (sane_ob (length (mx_rows X))) os -> ob_run h t os = Ok (h', t') ->
  exists y' k' o', oinv h' X (Some y') t' k' o'.
Proof.
  intros Hnan. induction os as [|op os IH]; intros h y t k o h' t' H Hs; simpl.
  - intros Q; injection Q as <- <-. eauto.
  - inversion Hs; subst. destruct (ob_do h t op) as [[h1 t1]| |] eqn:E; try discriminate. cbn [rbind]. intros Q.
    destruct (ob_do_oinv _ _ _ _ _ _ _ _ _ Hnan H H2 E) as (y1&k1&o1&G). eapply IH; eauto.
Qed.
