(** Lemmas behind Properties_ObScore.v *)
From Coq Require Import Reals Lra Permutation.
From Verif Require Import Base Fl Ext MData MSplit MTree MSampler MHist MTreeHist MOblivious Spec SpecTree SpecSampler SpecScore SpecOblivious SpecObScore LFl LList
  PData PSplit PDataProps PCond PTree PPred PTreeHist PTreeProps PTreeProps2 PSampler PSampler2 PModel7 PDiag PScore POblivious POblivious2 POblivious3 POblivious4 POblivious5.
Local Open Scope R_scope.

(** ** the score on abstract trees *)
Section Sc.
Variables (X : matrix) (Y : list R) (sigma : R) (p : params).
Definition ogain (cs : list rule) (q : option (nat * fl)) : R :=
  split_gain Y sigma (tau_of (pa_k p) (pa_ntrees p)) (rws X cs) (rws X (under cs q true)) (rws X (under cs q false)).
Definition oodds (d : nat) : R := ln (pa_pprune p / pa_pgrow p) + log_structure_odds (pa_alpha p) (pa_beta p) d.
Fixpoint osc (cs : list rule) (d : nat) (o : otree) : R :=
  match o with OLeaf _ => 0 | ONode _ q l r => oodds d + ogain cs q + osc (under cs q true) (S d) l + osc (under cs q false) (S d) r end.
Definition oq (o : otree) : option (nat * fl) := match o with OLeaf _ => None | ONode _ q _ _ => q end.
Definition twig (o : otree) : Prop := exists i q a b, o = ONode i q (OLeaf a) (OLeaf b).
Lemma osc_grow f : (forall i, twig (f i)) -> forall o cs d, osc cs d (ogrow f o) = osc cs d o + rsum (map (fun x => oodds (snd (snd x)) + ogain (fst (snd x)) (oq (f (fst x)))) (ogr cs d o)).
Proof.
  intros Hf. induction o as [i|i q l IHl r IHr]; intros cs d; simpl.
  - destruct (Hf i) as (j&q&a&b&->). simpl. unfold rsum. simpl. lra.
  - rewrite IHl, IHr, map_app, PSampler.rsum_app. lra.
Qed.
Fixpoint opg (cs : list rule) (d : nat) (o : otree) : list (nat * (list rule * nat * option (nat * fl))) :=
  match o with
  | OLeaf _ => []
  | ONode i q l r => match leafid l, leafid r with
                     | Some a, Some b => [(i, (cs, d, q))]
                     | _, _ => opg (under cs q true) (S d) l ++ opg (under cs q false) (S d) r end
  end.
Lemma opg_node cs d i q l r : leafid l = None \/ leafid r = None -> opg cs d (ONode i q l r) = opg (under cs q true) (S d) l ++ opg (under cs q false) (S d) r.
Proof. simpl. destruct (leafid l), (leafid r); auto. intros [|]; discriminate. Qed.
Lemma opg_opr o : forall cs d, map fst (opg cs d o) = map fst (opr cs d o).
Proof.
  induction o as [i|i q l IHl r IHr]; intros cs d; auto. destruct (two_leaves l r) as [(a&b&->&->&_)|Hn]; [reflexivity|].
  rewrite opg_node, opr_node, !map_app, IHl, IHr by auto. reflexivity.
Qed.
Lemma opg_oreg o : forall cs d i ci di q, In (i, (ci, di, q)) (opg cs d o) -> exists a b, In (ONode i q (OLeaf a) (OLeaf b), (ci, di)) (oreg cs d o) /\ In (i, ((a, b), (ci, di))) (opr cs d o).
Proof.
  induction o as [j|j q l IHl r IHr]; intros cs d i ci di q'; [simpl; tauto|]. destruct (two_leaves l r) as [(a&b&->&->&_)|Hn].
  - simpl. intros [E|[]]. injection E as <- <- <- <-. exists a, b. auto.
  - rewrite opg_node, opr_node, in_app_iff by auto. cbn [oreg]. intros [H|H]; [apply IHl in H as (a&b&H&H')|apply IHr in H as (a&b&H&H')]; exists a, b; (split; [right|]; apply in_app_iff; auto).
Qed.
Lemma opg_depth o : forall k cs d i ci di q, full k o -> In (i, (ci, di, q)) (opg cs d o) -> S di = (d + k)%nat.
Proof.
  induction o as [j|j q l IHl r IHr]; intros k cs d i ci di q' F; [simpl; tauto|]. destruct k as [|k]; [destruct F|]. destruct F as [Fl Fr].
  destruct (two_leaves l r) as [(x&y&->&->&_)|Hn].
  - simpl. intros [E|[]]. injection E as <- <- <- <-. destruct k; [lia|destruct Fl].
  - rewrite opg_node, in_app_iff by auto. intros [H|H]; [apply (IHl k) in H|apply (IHr k) in H]; auto; lia.
Qed.
Lemma osc_prune f : forall o cs d, osc cs d o = osc cs d (oprune f o) + rsum (map (fun x => oodds (snd (fst (snd x))) + ogain (fst (fst (snd x))) (snd (snd x))) (opg cs d o)).
Proof.
  induction o as [i|i q l IHl r IHr]; intros cs d; [unfold rsum; simpl; lra|]. destruct (two_leaves l r) as [(a&b&->&->&_)|Hn].
  - unfold rsum. simpl. lra.
  - rewrite opg_node, map_app, PSampler.rsum_app by auto.
    replace (oprune f (ONode i q l r)) with (ONode i q (oprune f l) (oprune f r)) by (simpl; destruct (leafid l), (leafid r); auto; destruct Hn; discriminate).
    simpl osc at 1 2. rewrite (IHl (under cs q true)), (IHr (under cs q false)). lra.
Qed.
End Sc.

(** ** the score of a tree in a heap *)
Lemma held_rows_sinv h j k s d X oy cs : h_get h j = Some (Nd k (SFull s) d) -> sinv X oy cs s -> held_rows h j = rws X cs.
Proof.
  intros E Hs. unfold held_rows, node_split. rewrite E. unfold rws, d_mask. rewrite (si_mask _ _ _ _ Hs), mask_of_length.
  apply filter_ext_in. intros i Hi. apply in_seq in Hi. unfold in_nodeb, d_mask. rewrite (si_mask _ _ _ _ Hs). unfold mask_of.
  rewrite nth_error_map, (nth_error_nth' _ [] (proj2 Hi)). simpl. unfold kept. now destruct (existsb _ _).
Qed.
Lemma held_root h X oy o cs d : ook h X oy cs d o -> held_rows h (oroot o) = rws X cs.
Proof. destruct o; simpl; [intros (w&s&E&Hs)|intros ((s&E&Hs)&_)]; eapply held_rows_sinv; eauto. Qed.
Lemma node_score_sum h X oy Y sigma p : forall o cs d, ook h X oy cs d o -> rsum (map (decision_score Y sigma p h) (oids o)) = osc X Y sigma p cs d o.
Proof.
  induction o as [i|i q l IHl r IHr]; intros cs d H.
  - destruct H as (w&s&E&_). simpl. unfold decision_score. rewrite E. unfold rsum. simpl. lra.
  - pose proof (held_root _ _ _ _ _ _ H) as Hi. destruct H as ((s&E&Hs)&_&Hl&Hr). simpl oids. simpl map. 
    change (rsum (?a :: ?b)) with (a + rsum b). rewrite map_app, PSampler.rsum_app, (IHl _ _ Hl), (IHr _ _ Hr). simpl osc. simpl oroot in Hi.
    unfold decision_score. rewrite E, Hi, (held_root _ _ _ _ _ _ Hl), (held_root _ _ _ _ _ _ Hr). unfold oodds, ogain. lra.
Qed.
Lemma nodes_perm h X oy t k o : oinv h X oy t k o -> Permutation (tr_nodes t) (oids o).
Proof. intros H. apply NoDup_Permutation; apply H. Qed.
Lemma ob_score_osc h X oy t k o Y sigma p : oinv h X oy t k o -> ob_score Y sigma p h t = osc X Y sigma p [] 0 o.
Proof.
  intros H. unfold ob_score. rewrite (rsum_perm _ _ (Permutation_map _ (nodes_perm _ _ _ _ _ _ H))). apply (node_score_sum h X oy). apply H.
Qed.
Lemma score_cuts Y sigma p h t h2 t2 : same_cuts h t h2 t2 -> ob_score Y sigma p h t = ob_score Y sigma p h2 t2.
Proof.
  intros P. set (g := fun c : option (nat * list nat * list nat * list nat) => match c with None => 0 | Some (d, a, l, r) => 
    ln (pa_pprune p / pa_pgrow p) + log_structure_odds (pa_alpha p) (pa_beta p) d + split_gain Y sigma (tau_of (pa_k p) (pa_ntrees p)) a l r end).
  assert (G : forall h j, decision_score Y sigma p h j = g (cut_of h j)).
  { intros h' j. unfold decision_score, cut_of. destruct (h_get h' j) as [[[v|l r] s d]|]; reflexivity. }
  unfold ob_score. rewrite (map_ext _ _ (G h)), (map_ext _ _ (G h2)), <- (map_map (cut_of h) g), <- (map_map (cut_of h2) g). apply rsum_perm, Permutation_map, P.
Qed.
Lemma oinv_target_len h X Y t k o : oinv h X (Some Y) t k o -> length Y = length (mx_rows X).
Proof.
  intros H. assert (Hs : exists s, sinv X (Some Y) [] s) by (pose proof (oi_ok _ _ _ _ _ _ H) as Ho; destruct o; simpl in Ho; [destruct Ho as (w&s&_&Hs)|destruct Ho as ((s&_&Hs)&_)]; eauto).
  destruct Hs as (s&Hs). pose proof (tv_len _ _ _ (si_t _ _ _ _ Hs) Y eq_refl) as Hl. now rewrite mask_of_length in Hl.
Qed.

(** ** the likelihood terms *)
Lemma lik_gain h e u l r X Y cs q sigma p ke se de kl sl dl kr sr dr : good p -> 0 < sigma -> length Y = length (mx_rows X) ->
  h_get h e = Some (Nd ke (SFull se) de) -> sinv X (Some Y) cs se -> get_children h u = Ok (l, r) ->
  h_get h l = Some (Nd kl (SFull sl) dl) -> sinv X (Some Y) (under cs q true) sl -> h_get h r = Some (Nd kr (SFull sr) dr) -> sinv X (Some Y) (under cs q false) sr ->
  log_grow_ratio_nodes h e l r sigma p = Ok (XFin (ogain X Y sigma p cs q)).
Proof.
  intros Hp Hsg Hl Ee Hs _ Ell Hsl Err Hsr. unfold log_grow_ratio_nodes.
  rewrite (node_n_spec _ _ _ _ _ _ _ _ Ee Hs), (node_n_spec _ _ _ _ _ _ _ _ Ell Hsl), (node_n_spec _ _ _ _ _ _ _ _ Err Hsr).
  rewrite (node_sum_spec _ _ _ _ _ _ _ _ Ee Hs), (node_sum_spec _ _ _ _ _ _ _ _ Ell Hsl), (node_sum_spec _ _ _ _ _ _ _ _ Err Hsr). cbn [rbind].
  destruct Hp as [(_&_&Hk&_) Hnt]. rewrite sigma_m_fin by auto. rewrite log_grow_ratio_fin by auto using tau_pos.
  rewrite !rws_count, !rws_sum by auto. reflexivity.
Qed.
Lemma rsum_const {A} (f g : A -> R) c l : (forall x, In x l -> f x = c + g x) -> rsum (map f l) = rsum (map g l) + INR (length l) * c.
Proof.
  intros H. induction l as [|x l IH]; [unfold rsum; simpl; lra|]. simpl map. change (rsum (?a :: ?b)) with (a + rsum b).
  rewrite (H x) by (simpl; auto). rewrite IH by (intros; apply H; simpl; auto). change (length (x :: l)) with (S (length l)). rewrite S_INR. lra.
Qed.
Lemma rsum_opp {A} (f : A -> R) l : rsum (map (fun x => - f x) l) = - rsum (map f l).
Proof. induction l as [|x l IH]; [unfold rsum; simpl; lra|]. simpl map. change (rsum (?a :: ?b)) with (a + rsum b). rewrite IH. lra. Qed.
Lemma nodup_fst {A B} (l : list (A * B)) x y : NoDup (map fst l) -> In x l -> In y l -> fst x = fst y -> x = y.
Proof.
  induction l as [|z l IH]; simpl; [tauto|]. intros N. inversion N; subst. intros [->|Hx] [->|Hy] E; auto; exfalso; apply H1; [rewrite E|rewrite <- E]; now apply in_map.
Qed.
Lemma newtree_twig ps i : twig (newtree ps i).
Proof. induction ps as [|en ps IH]; simpl; [exists i, None, i, i; auto|]. destruct (Nat.eqb i (en_e en)); auto. unfold onew, twig. eauto 10. Qed.

(** ** which nodes have a finite ratio, by their rules *)
Definition sco (X : matrix) (cs : list rule) : Prop :=
  open X cs \/ exists cs' v x b, cs = cs' ++ [Rl v x b] /\
    (b = true \/ forall a c, (a < length (mx_rows X))%nat -> (c < length (mx_rows X))%nat -> kept cs (nth a (mx_rows X) []) = true -> kept cs (nth c (mx_rows X) []) = true ->
       value_in X a v = value_in X c v -> a = c).
Lemma scorable_sco X oy h i k s d cs : no_nan X -> h_get h i = Some (Nd k (SFull s) d) -> sinv X oy cs s -> scorable X h i <-> sco X cs.
Proof.
  intros Hn E Hs. unfold scorable, sco. 
  assert (Hsp : is_splittable h i = true <-> open X cs) by (unfold is_splittable, node_data, node_split; rewrite E; apply (splittable_open X oy cs s Hn Hs)).
  assert (Hh : forall a, leaf_holds h i a <-> (a < length (mx_rows X))%nat /\ kept cs (nth a (mx_rows X) []) = true).
  { intros a. rewrite <- (in_node_kept _ _ _ _ a Hs). unfold leaf_holds, node_split. rewrite E. split; [intros (s'&Q&A); injection Q as <-; auto|eauto]. }
  rewrite Hsp. unfold last_condition, node_split. rewrite E. unfold split_most_recent. split; (intros [A|A]; [auto|right]).
  - destruct A as (c&Ec&Hc). destruct cs as [|q cs _] using rev_ind.
    { exfalso. pose proof (si_conds _ _ _ _ Hs) as Q. unfold cc_most_recent in Ec. destruct (cc_conds (sp_cc s)); discriminate. }
    destruct (sinv_recent _ _ _ _ _ Hs) as (c'&Ec'&Hr). rewrite Ec in Ec'. injection Ec' as <-. destruct q as [v x b]. unfold rule_of in Hr. injection Hr as Hv Hx Hb.
    exists cs, v, x, b. split; auto. destruct Hc as [Hc|Hc]; [left; now rewrite <- Hb, Hc|right]. subst v. intros a c' Ha Hc' Ka Kc. apply Hc; apply Hh; auto.
  - destruct A as (cs'&v&x&b&->&Hc). destruct (sinv_recent _ _ _ _ _ Hs) as (c&Ec&Hr). exists c. split; auto. unfold rule_of in Hr. injection Hr as Hv Hx Hb.
    destruct Hc as [->|Hc]; [left; destruct (sc_op c); congruence|right]. rewrite Hv. intros a c' Ha Hc'. apply Hh in Ha, Hc'. apply Hc; tauto.
Qed.
Fixpoint oscd (X : matrix) (cs : list rule) (o : otree) : Prop :=
  match o with OLeaf _ => True | ONode _ q l r => sco X cs /\ oscd X (under cs q true) l /\ oscd X (under cs q false) r end.
Lemma oscd_grow X f : (forall i, twig (f i)) -> forall o cs d, oscd X cs o -> (forall i ci di, In (i, (ci, di)) (ogr cs d o) -> sco X ci) -> oscd X cs (ogrow f o).
Proof.
  intros Hf. induction o as [i|i q l IHl r IHr]; intros cs d; simpl.
  - intros _ H. destruct (Hf i) as (j&q&a&b&->). simpl. split; auto. eapply H; auto.
  - intros (A&B&C) H. split; auto. split; [apply (IHl _ (S d))|apply (IHr _ (S d))]; auto; intros; eapply H; apply in_app_iff; eauto.
Qed.
Lemma oscd_prune X f : forall o cs, oscd X cs o -> oscd X cs (oprune f o).
Proof.
  induction o as [i|i q l IHl r IHr]; intros cs H; auto. destruct (two_leaves l r) as [(a&b&->&->&_)|Hn]; [exact I|].
  replace (oprune f (ONode i q l r)) with (ONode i q (oprune f l) (oprune f r)) by (simpl; destruct (leafid l), (leafid r); auto; destruct Hn; discriminate).
  simpl in *. intuition.
Qed.
Lemma oscd_oreg X o : forall cs d o' ci di, oscd X cs o -> In (o', (ci, di)) (oreg cs d o) -> oscd X ci o'.
Proof.
  induction o as [i|i q l IHl r IHr]; intros cs d o' ci di H; simpl; [intros [E|[]]; injection E as <- <- <-; auto|].
  intros [E|E]; [injection E as <- <- <-; auto|]. destruct H as (_&A&B). apply in_app_iff in E as [E|E]; eauto.
Qed.

(** ** the ratios *)
Lemma ob_grow_score h X Y t k o idx ms h1 idx1 h2 t2 sigma p : no_nan X -> mx_rows X <> [] -> oinv h X (Some Y) t k o ->
  ob_grow_mutations h t idx = Ok (ms, h1, idx1) -> mutate_all h1 t ms = Ok (h2, t2) -> (forall j, In j (leaf_nodes h t) -> scorable X h j) -> good p -> 0 < sigma ->
  exists o2, oinv h2 X (Some Y) t2 (S k) o2 /\ (oscd X [] o -> oscd X [] o2) /\
    ob_ratio h1 ms sigma p = Ok (XFin (osc X Y sigma p [] 0 o2 - osc X Y sigma p [] 0 o)).
Proof.
  intros Hn Hne H E Em Hsc Hp Hsg. destruct (ob_grow_ratio _ _ _ _ _ _ _ _ _ _ _ _ Hn Hne H E Hsc Hp Hsg) as (Ls&HL&HLn&Er).
  destruct (ob_grow_ok _ _ _ _ _ _ _ _ _ _ Hn H E) as (H1&_&Hold&ps&h3&t3&->&Hes&_&HB&Em'&H2&_). rewrite Em in Em'. injection Em' as <- <-.
  exists (ogrow (newtree ps) o). split; auto.
  assert (Hnf : NoDup (map fst (ogr [] 0 o))) by (rewrite ogr_ids; apply NoDup_oleaf, H).
  split.
  { intros Hd. apply (oscd_grow X (newtree ps) (newtree_twig ps) o [] 0%nat); auto. intros i ci di Hi.
    destruct (ogr_ok _ _ _ _ _ _ _ _ _ (oi_ok _ _ _ _ _ _ H) Hi) as (w&s&Es&Hs). apply (scorable_sco X (Some Y) h i (KLeaf w) s di ci Hn Es Hs). apply Hsc.
    apply (leaf_ogr _ _ _ _ _ _ _ H). eauto. }
  assert (P : Permutation (leaf_nodes h t) (map fst (ogr [] 0 o))) by (rewrite ogr_ids; eapply oleaf_nodes_perm; eauto).
  destruct (Permutation_map_inv _ _ P) as (L&EL&PL). 
  set (F := fun x : nat * (list rule * nat) => ogain X Y sigma p (fst (snd x)) (oq (newtree ps (fst x)))).
  assert (Hlen : length Y = length (mx_rows X)) by (eapply oinv_target_len; eauto).
  assert (Hpt : forall en x, In en ps -> In x L -> en_e en = fst x -> log_likihood_ratio h1 (g_mut en) sigma p = Ok (XFin (F x))).
  { intros en [i [ci di]] Hen Hx Ei. simpl in Ei. destruct (HB en Hen) as (ci'&di'&Hi&Hok). apply (Permutation_in _ (Permutation_sym PL)) in Hx.
    pose proof (nodup_fst _ _ _ Hnf Hi Hx Ei) as Q. injection Q as _ -> ->.
    destruct (ogr_ok _ _ _ _ _ _ _ _ _ (oi_ok _ _ _ _ _ _ H1) Hi) as (w&s&Es&Hs).
    unfold F. simpl fst. simpl snd. rewrite <- Ei, newtree_in; [|rewrite Hes; apply NoDup_filter, H|auto]. simpl oq.
    destruct Hok as ((su&Eu&Hsu)&_&(wl&sl&Ell&Hsl)&(wr&sr&Err&Hsr)). simpl in Eu, Ell, Err.
    assert (Ech : get_children h1 (en_u en) = Ok (en_l en, en_r en)) by (unfold get_children, left_child, right_child; now rewrite Eu).
    unfold log_likihood_ratio. cbn [g_mut mu_kind mu_existing mu_updated]. rewrite Ech. cbn [rbind]. eapply lik_gain; eauto. }
  assert (ELs : Ls = map F L).
  { rewrite EL in Hes. clearbody F. clear -HL Hpt Hes. revert L Hes HL Hpt. revert Ls. induction ps as [|en ps IH]; intros Ls [|x L] He HL Hpt; try discriminate He; inversion HL; subst; auto.
    injection He as Ee He. simpl. f_equal; [|apply IH; auto; intros; apply Hpt; simpl; auto].
    rewrite (Hpt en x) in H1; [congruence|simpl; auto..|auto]. }
  rewrite Er. f_equal. f_equal. rewrite (osc_grow X Y sigma p (newtree ps) (newtree_twig ps)), ELs.
  rewrite (rsum_const _ F (oodds p k) (ogr [] 0 o)).
  - rewrite (rsum_perm _ _ (Permutation_map F PL)). rewrite <- HLn, ELs, map_length, (Permutation_length PL). unfold oodds. lra.
  - intros [i [ci di]] Hi. simpl. pose proof (ogr_depth _ _ _ _ _ _ _ (oi_full _ _ _ _ _ _ H) Hi) as Hd. simpl in Hd. rewrite Hd. reflexivity.
Qed.
Lemma ob_prune_score h X Y t k o ms h1 h2 t2 sigma p : no_nan X -> mx_rows X <> [] -> oinv h X (Some Y) t k o -> (1 <= k)%nat ->
  ob_prune_mutations h t = Ok (ms, h1) -> mutate_all h1 t ms = Ok (h2, t2) -> (forall j, In j (prunable_decision_nodes h t) -> scorable X h j) -> good p -> 0 < sigma ->
  exists o2, oinv h2 X (Some Y) t2 (pred k) o2 /\ (oscd X [] o -> oscd X [] o2) /\
    ob_ratio h1 ms sigma p = Ok (XFin (osc X Y sigma p [] 0 o2 - osc X Y sigma p [] 0 o)).
Proof.
  intros Hn Hne H Hk1 E Em Hsc Hp Hsg. destruct k as [|k]; [lia|]. destruct (ob_prune_ratio _ _ _ _ _ _ _ _ _ _ Hn Hne H E Hsc Hp Hsg) as (Ls&HL&HLn&Er).
  destruct (ob_prune_ok _ _ _ _ _ _ H) as (ps&h1'&h3&t3&E'&H1&_&Hold&Hes&HA&Em'&H2&_). rewrite E in E'. injection E' as -> <-. rewrite Em in Em'. injection Em' as <- <-.
  exists (oprune (target ps) o). split; auto. split; [apply oscd_prune|].
  assert (P : Permutation (prunable_decision_nodes h t) (map fst (opg [] 0 o))) by (rewrite opg_opr; eapply prunable_perm; eauto).
  assert (Hnf : NoDup (map fst (opg [] 0 o))) by (eapply Permutation_NoDup; [exact P|apply NoDup_filter, NoDup_filter, H]).
  destruct (Permutation_map_inv _ _ P) as (L&EL&PL).
  set (F := fun x : nat * (list rule * nat * option (nat * fl)) => ogain X Y sigma p (fst (fst (snd x))) (snd (snd x))).
  assert (Hlen : length Y = length (mx_rows X)) by (eapply oinv_target_len; eauto).
  assert (Hne' : NoDup (map en_e ps)) by (rewrite Hes; apply NoDup_filter, NoDup_filter, H).
  assert (Hpt : forall en x, In en ps -> In x L -> en_e en = fst x -> log_likihood_ratio h1 (p_mut en) sigma p = Ok (XFin (- F x))).
  { intros en [i [[ci di] q]] Hen Hx Ei. simpl in Ei. apply (Permutation_in _ (Permutation_sym PL)) in Hx.
    destruct (opg_oreg _ _ _ _ _ _ _ Hx) as (a&b&Hreg&Hi).
    destruct (HA _ _ _ _ _ Hi) as (en'&Hen'&Ee&Eea&Eeb&w&s&Eu&Hs).
    assert (en' = en). { clear -Hne' Hen Hen' Ee Ei. induction ps as [|z ps IH]; [destruct Hen|]. simpl in Hne'. inversion Hne'; subst.
      destruct Hen as [->|Hen], Hen' as [->|Hen']; auto; exfalso; apply H1; [rewrite <- Ee|rewrite Ee]; now apply in_map. }
    subst en'. pose proof (oreg_ok _ _ _ _ _ _ _ _ _ (oi_ok _ _ _ _ _ _ H1) Hreg) as ((si&Esi&Hsi)&_&(wl&sl&Ell&Hsl)&(wr&sr&Err&Hsr)). simpl in Esi, Ell, Err.
    assert (Ech : get_children h1 (en_e en) = Ok (a, b)) by (unfold get_children, left_child, right_child; now rewrite Ei, Esi).
    unfold log_likihood_ratio. cbn [p_mut mu_kind mu_existing mu_updated]. rewrite Ech. cbn [rbind].
    rewrite (lik_gain h1 (en_u en) (en_e en) a b X Y ci q sigma p _ _ _ _ _ _ _ _ _ Hp Hsg Hlen Eu Hs Ech Ell Hsl Err Hsr). reflexivity. }
  assert (ELs : Ls = map (fun x => - F x) L).
  { rewrite EL in Hes. clearbody F. clear -HL Hpt Hes. revert L Hes HL Hpt. revert Ls. induction ps as [|en ps IH]; intros Ls [|x L] He HL Hpt; try discriminate He; inversion HL; subst; auto.
    injection He as Ee He. simpl. f_equal; [|apply IH; auto; intros; apply Hpt; simpl; auto].
    rewrite (Hpt en x) in H1; [congruence|simpl; auto..|auto]. }
  rewrite Er. f_equal. f_equal. rewrite (osc_prune X Y sigma p (target ps) o), ELs, rsum_opp.
  rewrite (rsum_const _ F (oodds p k) (opg [] 0 o)).
  - rewrite (rsum_perm _ _ (Permutation_map F PL)). rewrite <- HLn, ELs, map_length, (Permutation_length PL). unfold oodds.
    destruct Hp as [(_&_&_&Hg&Hpr) _]. rewrite (ln_div (pa_pgrow p)), (ln_div (pa_pprune p)) by auto. lra.
  - intros [i [[ci di] q]] Hi. simpl. pose proof (opg_depth _ _ _ _ _ _ _ _ (oi_full _ _ _ _ _ _ H) Hi) as Hd. simpl in Hd. injection Hd as ->. reflexivity.
Qed.
