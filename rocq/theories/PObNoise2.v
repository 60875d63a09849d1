(** The ratio of an oblivious proposal as a sum over the cuts of one level, and its limits. *)
From Coq Require Import Reals Lra Lia Permutation.
From Verif Require Import Base Fl Ext MData MSplit MTree MSampler MHist MTreeHist MOblivious Spec SpecTree SpecSampler SpecScore SpecOblivious SpecObScore SpecObNoise LFl LList
  PData PSplit PDataProps PCond PTree PPred PTreeHist PTreeProps PTreeProps2 PSampler PSampler2 PScore PScore2 POblivious POblivious2 POblivious3 POblivious4 POblivious5 PObScore PObScore2
  PNoise PObNoise.
Local Open Scope R_scope.

Definition told (X : matrix) (Y : list R) (x : list rule * option (nat * fl)) : Prop :=
  match snd x with
  | None => target_sum Y (rws X (fst x)) <> 0
  | Some _ => target_mean Y (rws X (under (fst x) (snd x) true)) <> target_mean Y (rws X (under (fst x) (snd x) false))
  end.
Definition cut_ok (X : matrix) (x : list rule * option (nat * fl)) : Prop := rule_ok X (fst x) (snd x) /\ (1 <= length (rws X (fst x)))%nat.
Definition cut_rate (X : matrix) (Y : list R) (p : params) (x : list rule * option (nat * fl)) : R :=
  let a := rws X (fst x) in let l := rws X (under (fst x) (snd x) true) in let r := rws X (under (fst x) (snd x) false) in
  rate (INR (length a)) (INR (length l)) (INR (length r)) (target_sum Y a) (target_sum Y l) (target_sum Y r) (tau_of (pa_k p) (pa_ntrees p)).

Lemma told_dec X Y x : told X Y x \/ ~ told X Y x.
Proof.
  unfold told. destruct (snd x).
  - destruct (Req_dec (target_mean Y (rws X (under (fst x) (Some p) true))) (target_mean Y (rws X (under (fst x) (Some p) false)))); tauto.
  - destruct (Req_dec (target_sum Y (rws X (fst x))) 0); tauto.
Qed.
Lemma Forall2_len {A B} {P : A -> B -> Prop} {l m} : Forall2 P l m -> length l = length m.
Proof. induction 1; simpl; auto. Qed.
Lemma good_tau p : good p -> 0 < tau_of (pa_k p) (pa_ntrees p).
Proof. intros [(_&_&Hk&_) Hnt]. now apply tau_pos. Qed.
Lemma inr_one n : (1 <= n)%nat -> 1 <= INR n.
Proof. intros. change 1 with (INR 1). now apply le_INR. Qed.
Lemma means a b k n : (1 <= k)%nat -> (1 <= n)%nat -> (a / INR k = b / INR n <-> a * INR n = b * INR k).
Proof.
  intros Hk Hn. apply inr_one in Hk, Hn. split; intros E.
  - apply Rmult_eq_reg_r with (/ INR k * / INR n); [|apply Rgt_not_eq, Rmult_lt_0_compat; apply Rinv_0_lt_compat; lra].
    replace (a * INR n * (/ INR k * / INR n)) with (a / INR k) by (field; lra). rewrite E. field. lra.
  - apply Rmult_eq_reg_r with (INR k * INR n); [|apply Rgt_not_eq, Rmult_lt_0_compat; lra].
    replace (a / INR k * (INR k * INR n)) with (a * INR n) by (field; lra). rewrite E. field. lra.
Qed.
Lemma cut_split X Y cs v x : no_nan X -> length Y = length (mx_rows X) -> rule_ok X cs (Some (v, x)) ->
  let l := rws X (under cs (Some (v, x)) true) in let r := rws X (under cs (Some (v, x)) false) in
  (1 <= length l)%nat /\ (1 <= length r)%nat /\ INR (length (rws X cs)) = INR (length l) + INR (length r) /\ target_sum Y (rws X cs) = target_sum Y l + target_sum Y r.
Proof.
  intros Hn HY ((Hv&_)&Hx&Hl&Hr) l r. split; [now apply some_rws|]. split; [now apply some_rws|]. unfold l, r, under. split.
  - rewrite <- plus_INR, <- !rws_count. now rewrite count_of_split.
  - rewrite <- !rws_sum by auto. symmetry. now apply sum_of_split.
Qed.
Lemma cut_low X Y p x : no_nan X -> length Y = length (mx_rows X) -> good p -> cut_ok X x ->
  low (fun s => ogain X Y s p (fst x) (snd x)) (cut_rate X Y p x) /\ 0 <= cut_rate X Y p x /\
  (told X Y x -> 0 < cut_rate X Y p x) /\ (~ told X Y x -> sinks (fun s => ogain X Y s p (fst x) (snd x))) /\ fades (fun s => ogain X Y s p (fst x) (snd x)).
Proof.
  intros Hn HY Hp [Hok Hc]. pose proof (good_tau p Hp) as Ht. destruct x as [cs [[v x]|]]; simpl fst in *; simpl snd in *.
  - destruct (cut_split X Y cs v x Hn HY Hok) as (Hl&Hr&En&Es). unfold cut_rate, told. simpl fst. simpl snd. unfold ogain, split_gain.
    set (l := rws X (under cs (Some (v, x)) true)) in *. set (r := rws X (under cs (Some (v, x)) false)) in *.
    pose proof (inr_one _ Hl) as Hl'. pose proof (inr_one _ Hr) as Hr'. pose proof (inr_one _ Hc) as Hc'.
    pose proof (means (target_sum Y l) (target_sum Y r) _ _ Hl Hr) as Hm.
    destruct (rate_split (INR (length (rws X cs))) (INR (length l)) (INR (length r)) (target_sum Y l) (target_sum Y r) (tau_of (pa_k p) (pa_ntrees p)) Hl' Hr' En Ht) as [R1 R2].
    split; [now apply gain_low|]. rewrite Es. split; auto. unfold target_mean. split; [intros A; apply R2; tauto|]. split.
    + intros A. apply gain_sinks; auto. destruct (Req_dec (target_sum Y l * INR (length r)) (target_sum Y r * INR (length l))); tauto.
    + apply gain_fades; auto; apply pos_INR.
  - unfold cut_rate, told, ogain, split_gain. simpl fst. simpl snd. cbn [under]. set (a := rws X cs) in *. pose proof (inr_one _ Hc) as Hc'.
    destruct (rate_same (INR (length a)) (target_sum Y a) (tau_of (pa_k p) (pa_ntrees p)) Hc' Ht) as [R1 R2].
    split; [now apply gain_low|]. split; auto. split; auto. split.
    + intros A. assert (E : target_sum Y a = 0) by (destruct (Req_dec (target_sum Y a) 0); tauto). rewrite E. now apply gain_sinks_same.
    + apply gain_fades; auto; apply pos_INR.
Qed.
(** the sums over a level *)
Lemma level_up X Y p L M : no_nan X -> length Y = length (mx_rows X) -> good p -> Forall (cut_ok X) L -> (exists x, In x L /\ told X Y x) ->
  exists s0, 0 < s0 /\ forall s, 0 < s < s0 -> M < rsum (map (fun x => ogain X Y s p (fst x) (snd x)) L).
Proof.
  intros Hn HY Hp HL (x&Hx&Htx). rewrite Forall_forall in HL.
  apply (low_up _ (rsum (map (cut_rate X Y p) L))).
  - apply low_sum. intros a Ha. apply cut_low; auto.
  - revert HL Hx. induction L as [|a L IH]; intros HL Hx; [destruct Hx|]. change (0 < cut_rate X Y p a + rsum (map (cut_rate X Y p) L)).
    assert (Hge : forall L', (forall z, In z L' -> cut_ok X z) -> 0 <= rsum (map (cut_rate X Y p) L')).
    { clear -Hn HY Hp. induction L' as [|z L' IH]; intros H; [unfold rsum; simpl; lra|]. change (0 <= cut_rate X Y p z + rsum (map (cut_rate X Y p) L')).
      specialize (IH (fun w Hw => H w (or_intror Hw))). destruct (cut_low X Y p z Hn HY Hp (H z (or_introl eq_refl))) as (_&H0&_). lra. }
    destruct (cut_low X Y p a Hn HY Hp (HL a (or_introl eq_refl))) as (_&H0&H1&_). destruct Hx as [->|Hx].
    + specialize (H1 Htx). pose proof (Hge L (fun z Hz => HL z (or_intror Hz))). lra.
    + pose proof (IH (fun z Hz => HL z (or_intror Hz)) Hx). lra.
Qed.
Lemma level_down X Y p L M : no_nan X -> length Y = length (mx_rows X) -> good p -> Forall (cut_ok X) L -> L <> [] -> (forall x, In x L -> ~ told X Y x) ->
  exists s0, 0 < s0 /\ forall s, 0 < s < s0 -> rsum (map (fun x => ogain X Y s p (fst x) (snd x)) L) < M.
Proof.
  intros Hn HY Hp HL Hne Ht. rewrite Forall_forall in HL. apply (sinks_sum _ (fun x s => ogain X Y s p (fst x) (snd x)) L Hne).
  intros a Ha. destruct (cut_low X Y p a Hn HY Hp (HL a Ha)) as (_&_&_&H&_). apply H, Ht, Ha.
Qed.
Lemma level_far X Y p L e : no_nan X -> length Y = length (mx_rows X) -> good p -> Forall (cut_ok X) L -> 0 < e ->
  exists s0, 0 < s0 /\ forall s, s0 < s -> Rabs (rsum (map (fun x => ogain X Y s p (fst x) (snd x)) L)) < e.
Proof.
  intros Hn HY Hp HL He. rewrite Forall_forall in HL. apply (fades_sum _ (fun x s => ogain X Y s p (fst x) (snd x)) L); auto.
  intros a Ha. apply (cut_low X Y p a Hn HY Hp (HL a Ha)).
Qed.

(** ** the cuts of a proposal *)
Lemma rws_under X cs q b : no_nan X -> rule_ok X cs q -> (1 <= length (rws X cs))%nat -> (1 <= length (rws X (under cs q b)))%nat.
Proof. intros Hn Hok Hc. destruct q as [[v x]|]; auto. destruct Hok as (_&_&Hl&Hr). destruct b; now apply some_rws. Qed.
Lemma ogr_rows h X oy o : no_nan X -> forall cs d i ci di, ook h X oy cs d o -> (1 <= length (rws X cs))%nat -> In (i, (ci, di)) (ogr cs d o) -> (1 <= length (rws X ci))%nat.
Proof.
  intros Hn. induction o as [j|j q l IHl r IHr]; intros cs d i ci di H Hc Hi.
  - destruct Hi as [E|[]]. injection E as _ <- _. auto.
  - destruct H as (_&Hok&Hl&Hr). simpl in Hi. apply in_app_iff in Hi as [Hi|Hi]; [eapply IHl|eapply IHr]; eauto using rws_under.
Qed.
Lemma oreg_rows h X oy o : no_nan X -> forall cs d o' ci di, ook h X oy cs d o -> (1 <= length (rws X cs))%nat -> In (o', (ci, di)) (oreg cs d o) -> (1 <= length (rws X ci))%nat.
Proof.
  intros Hn. induction o as [j|j q l IHl r IHr]; intros cs d o' ci di H Hc Hi.
  - destruct Hi as [E|[]]. injection E as _ <- _. auto.
  - destruct Hi as [E|Hi]; [injection E as _ <- _; auto|]. destruct H as (_&Hok&Hl&Hr). apply in_app_iff in Hi as [Hi|Hi]; [eapply IHl|eapply IHr]; eauto using rws_under.
Qed.
Lemma root_rows X : mx_rows X <> [] -> (1 <= length (rws X []))%nat.
Proof. intros H. rewrite rws_nil, seq_length. destruct (mx_rows X); [easy|simpl; lia]. Qed.
Lemma tells_told h X oy Y cs d u q l r : no_nan X -> ook h X oy cs d (ONode u q (OLeaf l) (OLeaf r)) -> tells Y h u <-> told X Y (cs, q).
Proof.
  intros Hn ((s&E&Hs)&Hok&Hl&Hr). simpl in E. unfold tells, told. rewrite E. cbv zeta.
  pose proof (held_root _ _ _ _ _ _ Hl) as El. pose proof (held_root _ _ _ _ _ _ Hr) as Er. simpl oroot in El, Er. rewrite El, Er. simpl fst. simpl snd.
  destruct q as [[v x]|]; [|simpl; tauto]. destruct Hok as ((Hv&_)&Hx&Hkl&Hkr). simpl under.
  assert (Hd : rws X (cs ++ [Rl v x true]) <> rws X (cs ++ [Rl v x false])).
  { intros Eq. apply some_rws in Hkl. pose proof Eq as Eq'. rewrite rws_left, rws_right in Eq' by auto.
    rewrite rws_left in Hkl by auto. destruct (filter (fun i => fle (value_in X i v) x) (rws X cs)) as [|i l0] eqn:F; [simpl in Hkl; lia|].
    assert (A : In i (filter (fun i => fle (value_in X i v) x) (rws X cs))) by (rewrite F; simpl; auto).
    assert (B : In i (filter (fun i => negb (fle (value_in X i v) x)) (rws X cs))) by (rewrite <- Eq'; simpl; auto).
    apply filter_In in A as [_ A]. apply filter_In in B as [_ B]. rewrite A in B. discriminate. }
  tauto.
Qed.
Lemma same_liks h ms sigma p : forall Ls Ks, Forall2 (fun m L => log_likihood_ratio h m sigma p = Ok (XFin L)) ms Ls ->
  Forall2 (fun m L => log_likihood_ratio h m sigma p = Ok (XFin L)) ms Ks -> Ls = Ks.
Proof.
  induction ms as [|m ms IH]; intros Ls Ks H1 H2; inversion H1; inversion H2; subst; auto. f_equal; [congruence|]. now apply IH.
Qed.
(** a grow *)
Lemma grow_level h X Y t k o idx ms h1 idx1 p : no_nan X -> mx_rows X <> [] -> oinv h X (Some Y) t k o ->
  ob_grow_mutations h t idx = Ok (ms, h1, idx1) -> (forall j, In j (leaf_nodes h t) -> scorable X h j) -> good p ->
  exists L, Forall2 (fun m x => cut_ok X x /\ (tells Y h1 (mu_updated m) <-> told X Y x)) ms L /\ L <> [] /\ length L = (2 ^ k)%nat /\
    forall sigma, 0 < sigma -> ob_ratio h1 ms sigma p =
      Ok (XFin (rsum (map (fun x => ogain X Y sigma p (fst x) (snd x)) L) + INR (2 ^ k) * (ln (pa_pprune p / pa_pgrow p) + log_structure_odds (pa_alpha p) (pa_beta p) k))).
Proof.
  intros Hn Hne H E Hsc Hp. destruct (ob_grow_ok _ _ _ _ _ _ _ _ _ _ Hn H E) as (H1&_&Hold&ps&h3&t3&->&Hes&_&HB&_).
  assert (HY : length Y = length (mx_rows X)) by (eapply oinv_target_len; eauto).
  assert (HL : exists L, Forall2 (fun en x => (cut_ok X x /\ (tells Y h1 (mu_updated (g_mut en)) <-> told X Y x)) /\
     forall sigma, 0 < sigma -> log_likihood_ratio h1 (g_mut en) sigma p = Ok (XFin (ogain X Y sigma p (fst x) (snd x)))) ps L).
  { apply Forall_exists2. intros en Hen. destruct (HB en Hen) as (ci&di&Hi&Hok). exists (ci, en_q en).
    pose proof (ogr_rows _ _ _ _ Hn _ _ _ _ _ (oi_ok _ _ _ _ _ _ H) (root_rows X Hne) Hi) as Hc.
    destruct (ogr_ok _ _ _ _ _ _ _ _ _ (oi_ok _ _ _ _ _ _ H1) Hi) as (w&s&Es&Hs).
    split; [split; [split; [apply Hok|exact Hc]|exact (tells_told _ _ _ _ _ _ _ _ _ _ Hn Hok)]|]. intros sigma Hsg. simpl fst. simpl snd.
    destruct Hok as ((su&Eu&Hsu)&_&(wl&sl&Ell&Hsl)&(wr&sr&Err&Hsr)). simpl in Eu, Ell, Err.
    assert (Ech : get_children h1 (en_u en) = Ok (en_l en, en_r en)) by (unfold get_children, left_child, right_child; now rewrite Eu).
    unfold log_likihood_ratio. cbn [g_mut mu_kind mu_existing mu_updated]. rewrite Ech. cbn [rbind]. eapply lik_gain; eauto. }
  destruct HL as (L&HL). exists L.
  assert (Hlen : length L = (2 ^ k)%nat).
  { pose proof (Forall2_len HL) as Hl. rewrite <- Hl, <- (map_length en_e ps), Hes. rewrite (Permutation_length (oleaf_nodes_perm _ _ _ _ _ _ H)). apply full_count, H. }
  split; [clear -HL; induction HL; simpl; constructor; tauto|].
  split; [intros ->; simpl in Hlen; pose proof (Nat.pow_nonzero 2 k); lia|]. split; auto. intros sigma Hs.
  destruct (ob_grow_ratio _ _ _ _ _ _ _ _ _ _ sigma p Hn Hne H E Hsc Hp Hs) as (Ls&HLs&_&Er).
  assert (EL : Ls = map (fun x => ogain X Y sigma p (fst x) (snd x)) L).
  { eapply same_liks; [exact HLs|]. clear -HL Hs. induction HL as [|en x ps L [_ Ex] HL IH]; simpl; constructor; auto. }
  rewrite <- EL. exact Er.
Qed.
(** a prune *)
Lemma prune_level h X Y t k o ms h1 p : no_nan X -> mx_rows X <> [] -> oinv h X (Some Y) t (S k) o ->
  ob_prune_mutations h t = Ok (ms, h1) -> (forall j, In j (prunable_decision_nodes h t) -> scorable X h j) -> good p ->
  exists L, Forall2 (fun j x => cut_ok X x /\ (tells Y h j <-> told X Y x)) (prunable_decision_nodes h t) L /\ L <> [] /\ length L = (2 ^ k)%nat /\
    forall sigma, 0 < sigma -> ob_ratio h1 ms sigma p =
      Ok (XFin (- rsum (map (fun x => ogain X Y sigma p (fst x) (snd x)) L) + INR (2 ^ k) * (ln (pa_pgrow p / pa_pprune p) - log_structure_odds (pa_alpha p) (pa_beta p) k))).
Proof.
  intros Hn Hne H E Hsc Hp. destruct (ob_prune_ok _ _ _ _ _ _ H) as (ps&h1'&h3&t3&E'&H1&_&Hold&Hes&HA&_). rewrite E in E'. injection E' as -> <-.
  assert (HY : length Y = length (mx_rows X)) by (eapply oinv_target_len; eauto).
  assert (P : Permutation (prunable_decision_nodes h t) (map fst (opg [] 0 o))) by (rewrite opg_opr; eapply prunable_perm; eauto).
  assert (Hne' : NoDup (map en_e ps)) by (rewrite Hes; apply NoDup_filter, NoDup_filter, H).
  assert (HL : exists L, Forall2 (fun en x => (cut_ok X x /\ (tells Y h (en_e en) <-> told X Y x)) /\
     forall sigma, 0 < sigma -> log_likihood_ratio h1 (p_mut en) sigma p = Ok (XFin (- ogain X Y sigma p (fst x) (snd x)))) ps L).
  { apply Forall_exists2. intros en Hen. assert (Hin : In (en_e en) (prunable_decision_nodes h t)) by (rewrite <- Hes; now apply in_map).
    apply (Permutation_in _ P) in Hin. apply in_map_iff in Hin as ([i [[ci di] q]]&Ei&Hi0). simpl in Ei. subst i.
    destruct (opg_oreg _ _ _ _ _ _ _ Hi0) as (a&b&Hreg&Hi). exists (ci, q).
    destruct (HA _ _ _ _ _ Hi) as (en'&Hen'&Ee&Eea&Eeb&w&s&Eu&Hs).
    assert (en' = en). { clear -Hne' Hen Hen' Ee. induction ps as [|z ps IH]; [destruct Hen|]. simpl in Hne'. inversion Hne'; subst.
      destruct Hen as [->|Hen], Hen' as [->|Hen']; auto; exfalso; apply H1; [rewrite <- Ee|rewrite Ee]; now apply in_map. }
    subst en'. pose proof (oreg_ok _ _ _ _ _ _ _ _ _ (oi_ok _ _ _ _ _ _ H) Hreg) as Hok0.
    pose proof (oreg_rows _ _ _ _ Hn _ _ _ _ _ (oi_ok _ _ _ _ _ _ H) (root_rows X Hne) Hreg) as Hc.
    split; [split; [split; [apply Hok0|exact Hc]|exact (tells_told _ _ _ _ _ _ _ _ _ _ Hn Hok0)]|]. intros sigma Hsg. simpl fst. simpl snd.
    pose proof (oreg_ok _ _ _ _ _ _ _ _ _ (oi_ok _ _ _ _ _ _ H1) Hreg) as ((si&Esi&Hsi)&_&(wl&sl&Ell&Hsl)&(wr&sr&Err&Hsr)). simpl in Esi, Ell, Err.
    assert (Ech : get_children h1 (en_e en) = Ok (a, b)) by (unfold get_children, left_child, right_child; now rewrite Esi).
    unfold log_likihood_ratio. cbn [p_mut mu_kind mu_existing mu_updated]. rewrite Ech. cbn [rbind].
    rewrite (lik_gain h1 (en_u en) (en_e en) a b X Y ci q sigma p _ _ _ _ _ _ _ _ _ Hp Hsg HY Eu Hs Ech Ell Hsl Err Hsr). reflexivity. }
  destruct HL as (L&HL). exists L.
  assert (Hlen : length L = (2 ^ k)%nat).
  { pose proof (Forall2_len HL) as Hl. rewrite <- Hl, <- (map_length en_e ps), Hes. rewrite (Permutation_length (prunable_perm _ _ _ _ _ _ H)), map_length. apply opr_count, H. }
  split; [rewrite <- Hes; clear -HL; induction HL; simpl; constructor; tauto|].
  split; [intros ->; simpl in Hlen; pose proof (Nat.pow_nonzero 2 k); lia|]. split; auto. intros sigma Hs.
  destruct (ob_prune_ratio _ _ _ _ _ _ _ _ sigma p Hn Hne H E Hsc Hp Hs) as (Ls&HLs&_&Er).
  assert (EL : Ls = map (fun x => - ogain X Y sigma p (fst x) (snd x)) L).
  { eapply same_liks; [exact HLs|]. clear -HL Hs. induction HL as [|en x ps L [_ Ex] HL IH]; simpl; constructor; auto. }
  rewrite Er, EL, rsum_opp. reflexivity.
Qed.
Lemma ob_step_decided h t sigma p r ms h1 r0 u us q h2 t2 : ob_propose (pa_limit p) h t r = Ok (ms, h1, r0) -> rg_unif r0 = u :: us ->
  ob_ratio h1 ms sigma p = Ok (XFin q) -> mutate_all h1 t ms = Ok (h2, t2) ->
  (u < q -> ob_step h t sigma p r = Ok (Some ms, h2, t2, rng_set_unif r0 us)) /\ (q <= u -> ob_step h t sigma p r = Ok (None, h1, t, rng_set_unif r0 us)).
Proof.
  intros Ep Eu Eq Em. unfold ob_step, ob_sample. rewrite Ep. cbn [rbind]. rewrite Eq. cbn [rbind]. rewrite Eu. cbn [rbind].
  unfold accepts, xltb. destruct (Rlt_dec u q); split; intros; try lra; cbn [rbind]; auto. rewrite Em. reflexivity.
Qed.
Lemma cuts_ok X Y (P : nat -> Prop) {A} (f : A -> nat) ms L : Forall2 (fun m x => cut_ok X x /\ (P (f m) <-> told X Y x)) ms L ->
  Forall (cut_ok X) L /\ ((exists m, In m ms /\ P (f m)) -> exists x, In x L /\ told X Y x) /\ ((forall m, In m ms -> ~ P (f m)) -> forall x, In x L -> ~ told X Y x).
Proof.
  induction 1 as [|m x ms L [Hc Hi] HL (IH1&IH2&IH3)].
  - split; [constructor|]. split; [intros (m&[]&_)|intros _ x []].
  - split; [constructor; auto|]. split.
    + intros (m'&[<-|Hm]&Hp); [exists x; simpl; tauto|]. destruct IH2 as (z&Hz&Tz); [eauto|]. exists z. simpl; auto.
    + intros Hno z [<-|Hz]; [intros Tz; apply (Hno m); simpl; tauto|]. apply IH3; auto. intros m' Hm'. apply Hno. simpl; auto.
Qed.
(** an unsplittable leaf whose targets do not add up to 0 *)
Lemma grow_same h X Y t k o idx ms h1 idx1 i : no_nan X -> oinv h X (Some Y) t k o -> ob_grow_mutations h t idx = Ok (ms, h1, idx1) ->
  In i (leaf_nodes h t) -> is_splittable h i = false -> target_sum Y (held_rows h i) <> 0 -> exists m, In m ms /\ mu_existing m = i /\ tells Y h1 (mu_updated m).
Proof.
  intros Hn H E Hi Hsp Hy. destruct (ob_grow_ok _ _ _ _ _ _ _ _ _ _ Hn H E) as (H1&_&Hold&ps&h3&t3&->&Hes&_&HB&_).
  rewrite <- Hes in Hi. apply in_map_iff in Hi as (en&Ee&Hen). destruct (HB en Hen) as (ci&di&Hi&Hok).
  exists (g_mut en). split; [now apply in_map|]. split; [exact Ee|]. apply (tells_told _ _ _ _ _ _ _ _ _ _ Hn Hok).
  destruct (ogr_ok _ _ _ _ _ _ _ _ _ (oi_ok _ _ _ _ _ _ H) Hi) as (w&s&Es&Hs). rewrite Ee in Es.
  rewrite (held_rows_sinv _ _ _ _ _ _ _ _ Es Hs) in Hy. unfold told. simpl fst. simpl snd.
  assert (Eq : en_q en = None); [|rewrite Eq; exact Hy].
  destruct (en_q en) as [[v x]|] eqn:Q; auto. exfalso. destruct Hok as (_&Hok&_). rewrite Q in Hok. destruct Hok as (Hch&_).
  unfold is_splittable, node_data, node_split in Hsp. rewrite Es in Hsp. rewrite (proj2 (splittable_open X (Some Y) ci s Hn Hs)) in Hsp; [discriminate|]. now exists v, x.
Qed.
