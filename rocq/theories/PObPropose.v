(** The grow proposals of the oblivious tree sampler: which draws lead to which cuts, and how often. *)
From Coq Require Import Reals Lra Permutation.
From Verif Require Import Base Fl Ext MData MSplit MTree MSampler MHist MTreeHist MOblivious Spec SpecTree SpecPropose SpecOblivious SpecObPropose LFl LList
  PData PSplit PDataProps PCond PTree PPred PTreeHist PTreeProps PTreeProps2 PSampler PSampler2 PPropose PPropose2 POblivious POblivious2 POblivious3.
Local Open Scope R_scope.

(** ** limits *)
Lemma share_range B k P : (0 < B)%nat -> 0 <= share B k P <= 1.
Proof.
  intros HB. unfold share. assert (Hp : 0 < INR (length (streams B k))).
  { rewrite streams_length. apply lt_0_INR. assert (B ^ k <> 0)%nat by (apply Nat.pow_nonzero; lia). lia. }
  assert (Hle : forall l, (length (filter P l) <= length l)%nat) by (induction l as [|a l IH]; simpl; auto; destruct (P a); simpl; lia).
  specialize (Hle (streams B k)). apply le_INR in Hle. pose proof (pos_INR (length (filter P (streams B k)))).
  assert (Hi : 0 < / INR (length (streams B k))) by now apply Rinv_0_lt_compat. split; [apply Rmult_le_pos; lra|].
  apply (Rmult_le_reg_r (INR (length (streams B k)))); auto. unfold Rdiv. rewrite Rmult_assoc, Rinv_l by lra. lra.
Qed.
(** the shares grow to [q] *)
Definition rises (B : nat) (P : list nat -> bool) (q : R) : Prop := Un_growing (fun k => share B k P) /\ Un_cv (fun k => share B k P) q.
Lemma const_cv c : Un_cv (fun _ => c) c.
Proof. intros e He. exists 0%nat. intros n _. unfold R_dist. rewrite Rminus_diag_eq by reflexivity. rewrite Rabs_R0. lra. Qed.
Lemma cv_shift (u : nat -> R) l : Un_cv u l -> Un_cv (fun k => u (S k)) l.
Proof. intros H e He. destruct (H e He) as (N&HN). exists N. intros n Hn. apply HN. lia. Qed.
Lemma cv_unshift (u : nat -> R) l : Un_cv (fun k => u (S k)) l -> Un_cv u l.
Proof. intros H e He. destruct (H e He) as (N&HN). exists (S N). intros [|n] Hn; [lia|]. apply HN. lia. Qed.
Lemma cv_ext (u v : nat -> R) l : (forall k, u k = v k) -> Un_cv u l -> Un_cv v l.
Proof. intros E H e He. destruct (H e He) as (N&HN). exists N. intros n Hn. rewrite <- E. auto. Qed.
Lemma recurrence (s p : nat -> R) r w q : 0 <= r < 1 -> 0 <= w -> s O = 0 -> (forall k, s (S k) = r * s k + w * p k) ->
  Un_growing p -> (forall k, 0 <= p k) -> (forall k, s k <= 1) -> Un_cv p q -> Un_growing s /\ Un_cv s (w / (1 - r) * q).
Proof.
  intros Hr Hw H0 HS Gp Pp Us Cp.
  assert (G : Un_growing s).
  { intros n. induction n as [|n IH].
    - rewrite HS, H0. specialize (Pp O). nra.
    - rewrite (HS (S n)), (HS n). specialize (Gp n). rewrite (HS n) in IH. assert (r * s n <= r * (r * s n + w * p n)) by (apply Rmult_le_compat_l; lra). assert (w * p n <= w * p (S n)) by (apply Rmult_le_compat_l; lra). lra. }
  split; auto. destruct (growing_cv s G) as (l&Hl). { exists 1. intros x (n&->). apply Us. }
  assert (E : l = r * l + w * q).
  { eapply UL_sequence; [apply cv_shift; exact Hl|]. eapply cv_ext; [intros k; symmetry; apply HS|].
    apply CV_plus; apply CV_mult; auto using const_cv. }
  replace (w / (1 - r) * q) with l; auto. apply (Rmult_eq_reg_r (1 - r)); [|lra]. field_simplify; lra.
Qed.

(** ** one leaf *)
Definition loop_then (col : list fl) (mx x : fl) (P : list nat -> bool) (ds : list nat) : bool :=
  match value_loop col mx ds with Ok (z, rest) => feqb z x && P rest | _ => false end.
Lemma loop_then_share B col mx x P k : col <> [] -> (0 < B)%nat -> Nat.divide (length col) B -> feqb x mx = false ->
  (forall z, In z col -> feqb z mx = true -> feqb z x = false) ->
  share B (S k) (loop_then col mx x P) =
  INR (count_eq col mx) / INR (length col) * share B k (loop_then col mx x P) + INR (count_eq col x) / INR (length col) * share B k P.
Proof.
  intros Hne HB Hd Hx Hdis. rewrite share_S by auto.
  set (q := share B k (loop_then col mx x P)). set (p := share B k P).
  rewrite (total_ext _ (fun d => (fun z => (if feqb z mx then q else 0) + (if feqb z x then p else 0)) (choose FNaN col d))).
  - rewrite (mean_choose (fun z => (if feqb z mx then q else 0) + (if feqb z x then p else 0)) FNaN col B) by auto.
    assert (E : forall l, rsum (map (fun z => (if feqb z mx then q else 0) + (if feqb z x then p else 0)) l) = INR (count_eq l mx) * q + INR (count_eq l x) * p).
    { intros l. unfold count_eq. rewrite <- (rsum_count (fun z => feqb z mx)), <- (rsum_count (fun z => feqb z x)). unfold rsum. induction l as [|z l IH]; simpl; [lra|]. rewrite IH. lra. }
    rewrite E. assert (0 < INR (length col)) by (apply lt_0_INR; destruct col; [congruence|simpl; lia]). field. lra.
  - intros d _. cbn beta. pose proof (choose_in FNaN col d Hne) as Hz. set (z := choose FNaN col d) in *.
    assert (E : forall ds, loop_then col mx x P (d :: ds) = if feqb z mx then loop_then col mx x P ds else feqb z x && P ds).
    { intros ds. unfold loop_then. cbn [value_loop]. fold z. destruct (feqb z mx); reflexivity. }
    rewrite (share_ext _ _ _ _ E). destruct (feqb z mx) eqn:Em.
    + rewrite (Hdis z Hz Em). cbv iota. transitivity q; [reflexivity|lra].
    + destruct (feqb z x); cbn [andb]; cbv iota; [transitivity p; [reflexivity|lra]|rewrite share_false; lra].
Qed.
Definition cut_step (c : covmat) (vx : nat * fl) (P : list nat -> bool) (ds : list nat) : bool :=
  match ds with
  | [] => false
  | d :: ds' => Nat.eqb (choose 0%nat (fst (splittable_variables c)) d) (fst vx) &&
      match random_splittable_value c (fst vx) ds' with Ok (z, rest) => feqb z (snd vx) && P rest | _ => false end
  end.
Lemma rises_ext B P Q q : (forall ds, P ds = Q ds) -> rises B P q -> rises B Q q.
Proof.
  intros E [G C]. split.
  - intros n. rewrite <- !(share_ext _ _ _ _ E). apply G.
  - eapply cv_ext; [|exact C]. intros k. cbn beta. now apply share_ext.
Qed.
Lemma cut_step_rises X oy cs s v x B P q : no_nan X -> sinv X oy cs s -> In v (fst (splittable_variables (d_X (sp_data s)))) ->
  (exists j, in_node s j /\ value_in X j v = x) -> (exists j, in_node s j /\ flt x (value_in X j v) = true) ->
  (0 < B)%nat -> Nat.divide (length (fst (splittable_variables (d_X (sp_data s))))) B -> Nat.divide (rows_in X s) B -> rises B P q ->
  rises B (cut_step (d_X (sp_data s)) (v, x) P) (/ INR (length (fst (splittable_variables (d_X (sp_data s))))) * (INR (rows_with X s v x) / INR (rows_below_max X s v)) * q).
Proof.
  intros Hn Hs Hv Hx Hb HB D1 D2 [GP CP].
  destruct (rsv_share X oy cs s v x B 0 Hn Hs Hv Hx Hb HB D2) as (Hc1&Hc2&_).
  destruct (column_facts X oy cs s v Hn Hs Hv) as (m&Hr&(jm&Hjm&Em)&Hall&Hnm&Hsum).
  assert (Hxm : flt x m = true) by (destruct Hb as (jb&Hjb&Hlt); eapply flt_fle_trans; [exact Hlt|auto]). pose proof (flt_neq _ _ Hxm) as Hne. pose proof (flt_not_nan _ _ Hxm) as [Hxn _].
  set (col := get_column (d_X (sp_data s)) v) in *.
  assert (Hcl : length col = rows_in X s) by apply (column_length X oy cs s Hs v).
  assert (Hcm : count_eq col m = rows_with X s v m) by (apply (count_eq_spec X oy cs s Hs)).
  assert (Hcx : count_eq col x = rows_with X s v x) by (apply (count_eq_spec X oy cs s Hs)).
  set (V := fst (splittable_variables (d_X (sp_data s)))) in *.
  assert (Hvn : V <> []) by (intros E; rewrite E in Hv; destruct Hv).
  assert (Hvl : 0 < INR (length V)) by (apply lt_0_INR; destruct V; [congruence|simpl; lia]).
  assert (E1 : forall k, share B (S k) (cut_step (d_X (sp_data s)) (v, x) P) = / INR (length V) * share B k (loop_then col m x P)).
  { intros k. rewrite share_S by auto.
    rewrite (total_ext _ (fun d => (fun w => if Nat.eqb w v then share B k (loop_then col m x P) else 0) (choose 0%nat V d))).
    - rewrite (mean_choose (fun w => if Nat.eqb w v then share B k (loop_then col m x P) else 0) 0%nat) by auto.
      rewrite rsum_pick by (auto; apply vars_nodup). unfold Rdiv. lra.
    - intros d _. cbn beta. unfold cut_step. cbn [fst snd]. fold V. destruct (Nat.eqb (choose 0%nat V d) v); cbn [andb]; [|apply share_false].
      apply share_ext. intros ds. rewrite Hr. reflexivity. }
  assert (Hn0 : 0 < INR (rows_in X s)) by (apply lt_0_INR; lia).
  assert (Hbm : 0 < INR (rows_below_max X s v)) by (apply lt_0_INR; lia).
  assert (Hw0 : 0 < INR (rows_with X s v x)) by (apply lt_0_INR; lia).
  assert (HI : INR (rows_in X s) = INR (rows_with X s v m) + INR (rows_below_max X s v)) by (rewrite Hsum, plus_INR; lra).
  pose proof (pos_INR (rows_with X s v m)) as Hm0.
  assert (E2 : forall k, share B (S k) (loop_then col m x P) =
     INR (rows_with X s v m) / INR (rows_in X s) * share B k (loop_then col m x P) + INR (rows_with X s v x) / INR (rows_in X s) * share B k P).
  { intros k. rewrite <- Hcm, <- Hcx, <- Hcl. apply loop_then_share; auto.
    - intros E. rewrite E in Hcl. simpl in Hcl. lia.
    - now rewrite Hcl.
    - apply feqb_neq; auto.
    - intros z _ Hz. apply feqb_eq in Hz as [-> _]. rewrite feqb_sym. apply feqb_neq; auto. }
  assert (E0 : share B 0 (loop_then col m x P) = 0) by (unfold share; simpl; unfold Rdiv; lra).
  destruct (recurrence (fun k => share B k (loop_then col m x P)) (fun k => share B k P) (INR (rows_with X s v m) / INR (rows_in X s))
    (INR (rows_with X s v x) / INR (rows_in X s)) q) as [GL CL]; auto.
  - split; [apply Rmult_le_pos; [lra|]; now apply Rlt_le, Rinv_0_lt_compat|]. apply (Rmult_lt_reg_r (INR (rows_in X s))); auto. unfold Rdiv. rewrite Rmult_assoc, Rinv_l by lra. lra.
  - apply Rmult_le_pos; [lra|]. now apply Rlt_le, Rinv_0_lt_compat.
  - intros k. now apply share_range.
  - intros k. now apply share_range.
  - split.
    + intros [|n]; [rewrite E1; unfold share at 1; simpl; unfold Rdiv; rewrite Rmult_0_l; apply Rmult_le_pos; [now apply Rlt_le, Rinv_0_lt_compat|now apply share_range]|].
      rewrite !E1. apply Rmult_le_compat_l; [now apply Rlt_le, Rinv_0_lt_compat|]. apply GL.
    + apply cv_unshift. eapply cv_ext; [intros k; symmetry; apply E1|].
      replace (/ INR (length V) * (INR (rows_with X s v x) / INR (rows_below_max X s v)) * q) with
        (/ INR (length V) * (INR (rows_with X s v x) / INR (rows_in X s) / (1 - INR (rows_with X s v m) / INR (rows_in X s)) * q)).
      * apply CV_mult; auto using const_cv.
      * rewrite HI. field. rewrite HI in Hn0. repeat split; try lra.
Qed.

(** ** all leaves *)
Fixpoint cut_all (h : heap) (cut : nat -> nat * fl) (L : list nat) (ds : list nat) : bool :=
  match L with
  | [] => true
  | j :: L' => if is_splittable h j
               then match node_data h j with Some d => cut_step (d_X d) (cut j) (cut_all h cut L') ds | None => false end
               else cut_all h cut L' ds
  end.
Definition cut_test (h : heap) (cut : nat -> nat * fl) (h1 : heap) (m : mutation) : bool :=
  (negb (is_splittable h (mu_existing m)) ||
        match dec_most_recent h1 (mu_updated m) with
        | Some c => Nat.eqb (sc_var c) (fst (cut (mu_existing m))) && feqb (sc_val c) (snd (cut (mu_existing m)))
        | None => false
        end)%bool.
Definition leaf_ok (X : matrix) (y : list R) (h : heap) (j : nat) : Prop :=
  (j < h_next h)%nat /\ exists w s d cs, h_get h j = Some (Nd (KLeaf w) (SFull s) d) /\ sinv X (Some y) cs s.
Definition grows_from (h h1 : heap) : Prop := (h_next h <= h_next h1)%nat /\ forall j, (j < h_next h)%nat -> h_get h1 j = h_get h j.
Lemma leaf_ok_from X y h h1 j : grows_from h h1 -> leaf_ok X y h j -> leaf_ok X y h1 j.
Proof. intros [A B] (Hj&w&s&d&cs&E&Hs). split; [lia|]. exists w, s, d, cs. rewrite B; auto. Qed.
Lemma splittable_from h h1 j : grows_from h h1 -> (j < h_next h)%nat -> is_splittable h1 j = is_splittable h j.
Proof. intros [A B] Hj. unfold is_splittable, node_data, node_split. now rewrite B. Qed.
Lemma split_from X y h j ds p h1 ds1 : no_nan X -> leaf_ok X y h j -> ob_split_node h j ds = Ok (p, h1, ds1) -> grows_from h h1 /\ p = S (S (h_next h)) /\ (p < h_next h1)%nat.
Proof.
  intros Hn (Hj&w&s&d&cs&E&Hs) E1. destruct (ob_split_node_ok _ _ _ _ _ _ _ _ _ _ _ _ Hn E Hs E1) as (q&Hp&Hn2&Hold&_). split; [split; [lia|auto]|]. split; auto. lia.
Qed.
Lemma grows_frame X y L : no_nan X -> forall h ds ms h1 ds1, Forall (leaf_ok X y h) L -> ob_grows h L ds = Ok (ms, h1, ds1) -> grows_from h h1.
Proof.
  intros Hn. induction L as [|j L IH]; intros h ds ms h1 ds1 HL; simpl; [intros [= _ <- _]; split; auto|]. inversion HL as [|? ? Hj HL']; subst.
  destruct (ob_split_node h j ds) as [[[p h2] ds2]| |] eqn:E1; try discriminate. cbn [rbind]. destruct (grow_mutation h2 j p); try discriminate. cbn [rbind].
  destruct (ob_grows h2 L ds2) as [[[ms' h3] ds3]| |] eqn:E2; try discriminate. intros [= _ <- _].
  destruct (split_from X y h j ds p h2 ds2 Hn Hj E1) as (F&_). destruct F as [F1 F2].
  apply IH in E2 as [G1 G2]; [|eapply Forall_impl; [|exact HL']; intros; eapply leaf_ok_from; [split; eauto|eauto]]. split; [lia|]. intros i Hi. rewrite G2 by lia. auto.
Qed.
Lemma dec_recent_from h h1 l r s d i : grows_from h h1 -> (i < h_next h)%nat -> (l < h_next h)%nat -> h_get h i = Some (Nd (KDec l r) s d) ->
  dec_most_recent h1 i = dec_most_recent h i.
Proof. intros [_ B] Hi Hl E. unfold dec_most_recent, left_child, node_split. rewrite (B i Hi), E. now rewrite (B l Hl). Qed.
Lemma cut_all_spec X y cut h0 L : no_nan X -> forall h ds, grows_from h0 h -> Forall (leaf_ok X y h0) L ->
  match ob_grows h L ds with Ok (ms, h1, _) => forallb (cut_test h0 cut h1) ms | _ => false end = cut_all h0 cut L ds.
Proof.
  intros Hn. induction L as [|j L IH]; intros h ds F HL; [reflexivity|]. inversion HL as [|? ? Hj0 HL']; subst.
  pose proof (leaf_ok_from X y h0 h j F Hj0) as Hj. cbn [ob_grows cut_all].
  assert (HLh : Forall (leaf_ok X y h) L) by (eapply Forall_impl; [|exact HL']; intros; eapply leaf_ok_from; eauto).
  (* the rest, from any later heap *)
  assert (Rest : forall h2 ds2 p b, grows_from h h2 -> grow_mutation h2 j p = Ok (Mu MGrow j p) ->
     (forall h3, grows_from h2 h3 -> cut_test h0 cut h3 (Mu MGrow j p) = b) ->
     match (let! m := grow_mutation h2 j p in let! (ms, h3, ds3) := ob_grows h2 L ds2 in Ok (m :: ms, h3, ds3)) with Ok (ms, h1, _) => forallb (cut_test h0 cut h1) ms | _ => false end
     = (b && cut_all h0 cut L ds2)%bool).
  { intros h2 ds2 p b F2 Eg Hb. rewrite Eg. cbn [rbind]. assert (F02 : grows_from h0 h2) by (destruct F, F2; split; [lia|intros; rewrite H2, H0; auto; lia]).
    rewrite <- (IH h2 ds2 F02 HL').
    destruct (ob_grows h2 L ds2) as [[[ms h3] ds3]| |] eqn:E; cbn [rbind]; try (now rewrite andb_false_r).
    cbn [forallb].
    assert (HL2 : Forall (leaf_ok X y h2) L) by (eapply Forall_impl; [|exact HLh]; intros i Hi; exact (leaf_ok_from X y h h2 i F2 Hi)).
    rewrite (Hb h3 (grows_frame X y L Hn h2 ds2 ms h3 ds3 HL2 E)). reflexivity. }
  destruct Hj as (Hlt&w&s&d&cs&E&Hs). destruct Hj0 as (Hlt0&w0&s0&d0&cs0&E0&Hs0). pose proof E as Ex. destruct F as [F1 F2]. rewrite F2 in Ex by auto. rewrite E0 in Ex. injection Ex as <- <- <-.
  assert (Esp : is_splittable h j = is_splittable h0 j) by (apply splittable_from; auto; split; auto).
  assert (Ed : node_data h0 j = Some (sp_data s0)) by (unfold node_data, node_split; now rewrite E0).
  destruct (ob_split_node h j ds) as [[[p h2] ds2]| |] eqn:E1; cbn [rbind].
  - destruct (split_from X y h j ds p h2 ds2 Hn) as (F3&Hp&Hp2); [split; eauto 6|exact E1|].
    assert (Eg : grow_mutation h2 j p = Ok (Mu MGrow j p)).
    { destruct F3 as [_ F3]. unfold grow_mutation, is_leaf. rewrite F3, E by auto. reflexivity. }
    unfold ob_split_node in E1. rewrite Esp in E1. destruct (is_splittable h0 j) eqn:Ei.
    + rewrite Ed. unfold node_data, node_split in E1. rewrite E in E1. cbn [option_map nd_split] in E1. unfold ob_sample_split_condition, random_splittable_variable in E1.
      assert (Eo : fst (is_at_least_one_splittable_variable (d_X (sp_data s0))) = true) by (unfold is_splittable in Ei; rewrite Ed in Ei; exact Ei). rewrite Eo in E1.
      destruct ds as [|dd ds]; [discriminate|]. cbn [rbind] in E1. set (u := choose 0%nat (fst (splittable_variables (d_X (sp_data s0)))) dd) in *.
      unfold cut_step. fold u.
      destruct (random_splittable_value (d_X (sp_data s0)) u ds) as [[z rest]| |] eqn:Er; try discriminate. cbn [rbind] in E1.
      destruct (split_node h j (SC u z OpLe None None) (SC u z OpGt None None)) as [[p' h2']| |] eqn:Esn; try discriminate. cbn [rbind] in E1. injection E1 as -> -> ->.
      rewrite (Rest h2 ds2 p (Nat.eqb u (fst (cut j)) && feqb z (snd (cut j)))%bool F3 Eg).
      * destruct (Nat.eqb_spec u (fst (cut j))) as [<-|]; [rewrite Er|]; reflexivity.
      * intros h3 F4. unfold cut_test. cbn [mu_existing mu_updated]. rewrite Ei. cbn [negb orb].
        change (SC u z OpLe None None) with (fresh_le u z) in Esn. change (SC u z OpGt None None) with (fresh_gt u z) in Esn.
        apply split_node_spec in Esn as (k&s1&d1&s'&sl&sr&Eg'&Hsc&Hp'&Hnx&Hold&Hgl&Hgr&Hgp). rewrite E in Eg'. injection Eg' as <- <- <-.
        destruct (sampled_fills _ _ _ _ _ _ _ _ Hn Hs Er) as (Hz&_). destruct (split_children_sinv _ _ _ _ _ _ _ _ _ Hn Hz Hs Hsc) as (_&_&Hsl&_).
        destruct (sinv_recent _ _ _ _ _ Hsl) as (c&Ec&Erc). subst p.
        rewrite (dec_recent_from h2 h3 (h_next h) _ _ _ _ F4 Hp2 ltac:(lia) Hgp).
        assert (Em : dec_most_recent h2 (S (S (h_next h))) = Some c) by (unfold dec_most_recent, left_child; rewrite Hgp, Hgl; exact Ec). rewrite Em. unfold rule_of in Erc. injection Erc as -> -> _. reflexivity.
    + rewrite (Rest h2 ds2 p true F3 Eg); [|intros h3 _; unfold cut_test; cbn [mu_existing]; now rewrite Ei].
      rewrite E in E1. destruct (h_alloc h _) as [l1 h1'] in E1. destruct (h_alloc h1' _) as [l2 h2'] in E1. destruct (h_alloc h2' _) as [l3 h3'] in E1. injection E1 as _ _ <-. reflexivity.
  - (* the split fails: then no cut either *)
    destruct (is_splittable h0 j) eqn:Ei.
    2:{ unfold ob_split_node in E1. rewrite Esp, E in E1. destruct (h_alloc h _) as [l1 h1'] in E1. destruct (h_alloc h1' _) as [l2 h2'] in E1. destruct (h_alloc h2' _) as [l3 h3'] in E1. discriminate. }
    rewrite Ed. unfold ob_split_node in E1. rewrite Esp in E1. unfold node_data, node_split in E1. rewrite E in E1. cbn [option_map nd_split] in E1. unfold ob_sample_split_condition, random_splittable_variable in E1.
    assert (Eo : fst (is_at_least_one_splittable_variable (d_X (sp_data s0))) = true) by (unfold is_splittable in Ei; rewrite Ed in Ei; exact Ei). rewrite Eo in E1.
    destruct ds as [|dd ds]; [discriminate|]. cbn [rbind] in E1. set (u := choose 0%nat (fst (splittable_variables (d_X (sp_data s0)))) dd) in *. unfold cut_step. fold u.
    destruct (Nat.eqb_spec u (fst (cut j))) as [<-|]; [|reflexivity]. cbn [andb].
    destruct (random_splittable_value (d_X (sp_data s0)) u ds) as [[z rest]| |] eqn:Er; auto. exfalso. cbn [rbind] in E1.
    change (SC u z OpLe None None) with (fresh_le u z) in E1. change (SC u z OpGt None None) with (fresh_gt u z) in E1.
    destruct (sampled_fills _ _ _ _ _ _ _ _ Hn Hs Er) as (Hz&_).
    assert (Hu : In u (fst (splittable_variables (d_X (sp_data s0))))) by (apply choose_in; intros E2; unfold is_at_least_one_splittable_variable in Eo; apply (any_meaning X _ cs s0 Hs) in Eo as (v0&Hv0); rewrite E2 in Hv0; destruct Hv0).
    apply (offered_iff X _ cs s0 Hn Hs) in Hu as (Hu&_).
    destruct (split_node_total h X y j w0 s0 d0 cs u z Hn E Hs Hz Hu Hlt) as (p&h1&Esn&_). rewrite Esn in E1. discriminate.
  - destruct (is_splittable h0 j) eqn:Ei.
    2:{ unfold ob_split_node in E1. rewrite Esp, E in E1. destruct (h_alloc h _) as [l1 h1'] in E1. destruct (h_alloc h1' _) as [l2 h2'] in E1. destruct (h_alloc h2' _) as [l3 h3'] in E1. discriminate. }
    rewrite Ed. unfold ob_split_node in E1. rewrite Esp in E1. unfold node_data, node_split in E1. rewrite E in E1. cbn [option_map nd_split] in E1. unfold ob_sample_split_condition, random_splittable_variable in E1.
    assert (Eo : fst (is_at_least_one_splittable_variable (d_X (sp_data s0))) = true) by (unfold is_splittable in Ei; rewrite Ed in Ei; exact Ei). rewrite Eo in E1.
    destruct ds as [|dd ds]; [reflexivity|]. cbn [rbind] in E1. set (u := choose 0%nat (fst (splittable_variables (d_X (sp_data s0)))) dd) in *. unfold cut_step. fold u.
    destruct (Nat.eqb_spec u (fst (cut j))) as [<-|]; [|reflexivity]. cbn [andb].
    destruct (random_splittable_value (d_X (sp_data s0)) u ds) as [[z rest]| |] eqn:Er; auto. exfalso. cbn [rbind] in E1.
    change (SC u z OpLe None None) with (fresh_le u z) in E1. change (SC u z OpGt None None) with (fresh_gt u z) in E1.
    destruct (sampled_fills _ _ _ _ _ _ _ _ Hn Hs Er) as (Hz&_).
    assert (Hu : In u (fst (splittable_variables (d_X (sp_data s0))))) by (apply choose_in; intros E2; unfold is_at_least_one_splittable_variable in Eo; apply (any_meaning X _ cs s0 Hs) in Eo as (v0&Hv0); rewrite E2 in Hv0; destruct Hv0).
    apply (offered_iff X _ cs s0 Hn Hs) in Hu as (Hu&_).
    destruct (split_node_total h X y j w0 s0 d0 cs u z Hn E Hs Hz Hu Hlt) as (p&h1&Esn&_). rewrite Esn in E1. discriminate.
Qed.

Definition may_cut (X : matrix) (h : heap) (j v : nat) (x : fl) : Prop :=
  exists s, node_split h j = Some s /\ In v (fst (splittable_variables (d_X (sp_data s)))) /\
    (exists i, in_node s i /\ value_in X i v = x) /\ (exists i, in_node s i /\ flt x (value_in X i v) = true).
Definition leaf_columns (h : heap) (j : nat) : nat := match node_split h j with Some s => length (fst (splittable_variables (d_X (sp_data s)))) | None => 1%nat end.
Definition leaf_rows (X : matrix) (h : heap) (j : nat) : nat := match node_split h j with Some s => rows_in X s | None => 1%nat end.
Lemma common_multiple (f : nat -> nat) L : (forall j, In j L -> (0 < f j)%nat) -> exists N, (0 < N)%nat /\ forall j, In j L -> Nat.divide (f j) N.
Proof.
  induction L as [|a L IH]; intros H; [exists 1%nat; split; [lia|intros j []]|]. destruct IH as (N&HN&HD); [intros; apply H; simpl; auto|].
  exists (f a * N)%nat. split; [specialize (H a (or_introl eq_refl)); nia|]. intros j [<-|Hj]; [apply Nat.divide_factor_l|]. apply Nat.divide_mul_r. auto.
Qed.
Lemma all_rises X y h cut B L : no_nan X -> (0 < B)%nat -> Forall (leaf_ok X y h) L ->
  (forall j, In j L -> is_splittable h j = true -> may_cut X h j (fst (cut j)) (snd (cut j)) /\ Nat.divide (leaf_columns h j) B /\ Nat.divide (leaf_rows X h j) B) ->
  rises B (cut_all h cut L) (product (map (fun j => cut_probability X h j (cut j)) (filter (is_splittable h) L))).
Proof.
  intros Hn HB. induction L as [|j L IH]; intros HL HC.
  - cbn [cut_all filter map product fold_right]. split.
    + intros n. rewrite !share_true by auto. lra.
    + eapply cv_ext; [intros k; symmetry; now apply share_true|]. apply const_cv.
  - inversion HL as [|? ? Hj HL']; subst. specialize (IH HL' (fun i Hi => HC i (or_intror Hi))). cbn [filter]. destruct (is_splittable h j) eqn:Ei.
    + destruct (HC j (or_introl eq_refl) Ei) as ((s&Es&Hv&Hx&Hb)&D1&D2). destruct Hj as (_&w&s0&d&cs&E&Hs).
      assert (s0 = s) as -> by (unfold node_split in Es; rewrite E in Es; congruence).
      unfold leaf_columns, leaf_rows in D1, D2. rewrite Es in D1, D2.
      pose proof (cut_step_rises X (Some y) cs s (fst (cut j)) (snd (cut j)) B _ _ Hn Hs Hv Hx Hb HB D1 D2 IH) as R0.
      cbn [map product fold_right]. unfold cut_probability at 1. rewrite Es.
      eapply rises_ext; [|exact R0]. intros ds. cbn [cut_all]. rewrite Ei. unfold node_data. rewrite Es. cbn [option_map]. now destruct (cut j).
    + eapply rises_ext; [|exact IH]. intros ds. cbn [cut_all]. now rewrite Ei.
Qed.
Lemma may_cut_positive X y h j v x : no_nan X -> leaf_ok X y h j -> may_cut X h j v x -> 0 < cut_probability X h j (v, x) /\ (0 < leaf_columns h j)%nat /\ (0 < leaf_rows X h j)%nat.
Proof.
  intros Hn (_&w&s0&d&cs&E&Hs) (s&Es&Hv&Hx&Hb). assert (s0 = s) as -> by (unfold node_split in Es; rewrite E in Es; congruence).
  assert (Hp : (0 < rows_in X s)%nat).
  { destruct Hx as (jx&Hjx&_). apply count_pos with (i := jx); [apply (in_node_lt X (Some y) cs s Hs); exact Hjx|apply in_nodeb_iff; exact Hjx]. }
  destruct (rsv_share X (Some y) cs s v x (rows_in X s) 0 Hn Hs Hv Hx Hb Hp (Nat.divide_refl _)) as (Hc1&Hc2&_).
  unfold cut_probability, leaf_columns, leaf_rows. rewrite Es. cbn [fst snd].
  assert (Hl : (0 < length (fst (splittable_variables (d_X (sp_data s)))))%nat) by (destruct (fst (splittable_variables (d_X (sp_data s)))); [destruct Hv|simpl; lia]).
  split; auto. apply Rmult_lt_0_compat; [apply Rinv_0_lt_compat, lt_0_INR; auto|]. apply Rdiv_lt_0_compat; apply lt_0_INR; lia.
Qed.
Lemma product_pos l : (forall x, In x l -> 0 < x) -> 0 < product l.
Proof. induction l as [|a l IH]; intros H; cbn [product fold_right]; [lra|]. apply Rmult_lt_0_compat; [apply H; now left|apply IH; intros; apply H; now right]. Qed.
Lemma cut_all_may X y h cut L : no_nan X -> Forall (leaf_ok X y h) L -> forall ds, cut_all h cut L ds = true ->
  forall j, In j L -> is_splittable h j = true -> may_cut X h j (fst (cut j)) (snd (cut j)).
Proof.
  intros Hn. induction L as [|i L IH]; intros HL ds; [intros _ j []|]. inversion HL as [|? ? Hi HL']; subst. cbn [cut_all].
  destruct Hi as (Hlt&w&s&d&cs&E&Hs). assert (Es : node_split h i = Some s) by (unfold node_split; now rewrite E).
  destruct (is_splittable h i) eqn:Ei; [|intros Hc j [<-|Hj]; [congruence|eauto]].
  unfold node_data. rewrite Es. cbn [option_map]. unfold cut_step. destruct ds as [|dd ds]; [discriminate|]. intros Hc. apply andb_true_iff in Hc as [Hc1 Hc2].
  destruct (random_splittable_value (d_X (sp_data s)) (fst (cut i)) ds) as [[z rest]| |] eqn:Er; try discriminate. apply andb_true_iff in Hc2 as [Hz Hc2].
  intros j [<-|Hj] Hjs; [|eauto]. apply Nat.eqb_eq in Hc1. apply feqb_eq in Hz as [<- _].
  assert (Hu : In (fst (cut i)) (fst (splittable_variables (d_X (sp_data s))))).
  { rewrite <- Hc1. apply choose_in. intros E2. unfold is_splittable, node_data in Ei. rewrite Es in Ei. cbn [option_map] in Ei. apply (any_meaning X _ cs s Hs) in Ei as (v0&Hv0). rewrite E2 in Hv0. destruct Hv0. }
  exists s. split; auto. split; auto.
  destruct (rsv_value X (Some y) cs s Hn Hs (fst (cut i)) ds z rest Er) as (_&a&b&Ha&Hb&Ea&Eb&_). split; eauto.
Qed.
