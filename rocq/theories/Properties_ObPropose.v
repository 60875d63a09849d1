(** Property C96: what the oblivious tree sampler can propose when it grows, and with which probability. *)
From Coq Require Import Reals Lra Permutation.
From Verif Require Import Base Fl Ext MData MSplit MTree MSampler MHist MTreeHist MOblivious Spec SpecTree SpecPropose SpecOblivious SpecObPropose LFl LList
  PData PSplit PDataProps PCond PTree PPred PTreeHist PTreeProps PTreeProps2 PSampler PSampler2 PPropose PPropose2 POblivious POblivious2 POblivious3 PObPropose Properties_Data Properties_Sampler Properties_Oblivious.
Local Open Scope R_scope.

(** ** the column drawn *)
(** Drawing a column gives one of the columns offered, each with the same probability, and fails exactly if there is none. *)
Theorem C96_column : forall X y nrm os s, no_nan X -> reached X y nrm os s -> let V := fst (splittable_variables (d_X (sp_data s))) in
  (forall d, (exists v, random_splittable_variable (d_X (sp_data s)) d = Ok v /\ In v V) \/
             (V = [] /\ random_splittable_variable (d_X (sp_data s)) d = Raise ENoSplittableVariable)) /\
  (forall v, In v V -> chance (fun ds => match ds with d :: _ => match random_splittable_variable (d_X (sp_data s)) d with Ok u => Nat.eqb u v | _ => false end | [] => false end) (/ INR (length V))).
Proof.
  intros X y nrm os s Hn Hr V. pose proof (reached_sinv _ _ _ _ _ Hn Hr) as Hs.
  assert (E : V <> [] -> forall d, random_splittable_variable (d_X (sp_data s)) d = Ok (choose 0%nat V d)).
  { intros Hne d. unfold random_splittable_variable. destruct (fst (is_at_least_one_splittable_variable (d_X (sp_data s)))) eqn:Eo; auto.
    destruct V as [|v l] eqn:Ev; [congruence|]. exfalso. assert (H : fst (is_at_least_one_splittable_variable (d_X (sp_data s))) = true).
    { apply (any_meaning X _ _ s Hs). exists v. unfold V in Ev. rewrite Ev. now left. }
    congruence. }
  split.
  - intros d. destruct V as [|v l] eqn:Ev.
    + right. split; auto. unfold random_splittable_variable. destruct (fst (is_at_least_one_splittable_variable (d_X (sp_data s)))) eqn:Eo; auto.
      apply (any_meaning X _ _ s Hs) in Eo as (v&Hv). unfold V in Ev. rewrite Ev in Hv. destruct Hv.
    + left. exists (choose 0%nat (v :: l) d). rewrite <- Ev in *. split; [apply E; congruence|apply choose_in; congruence].
  - intros v Hv. assert (Hne : V <> []) by (intros E0; rewrite E0 in Hv; destruct Hv). exists (length V). split; [destruct V; [congruence|simpl; lia]|].
    intros B HB HD. apply cv_unshift. eapply cv_ext; [|apply const_cv]. intros k. cbn beta. rewrite share_S by auto.
    rewrite (total_ext _ (fun d => (fun u => if Nat.eqb u v then 1 else 0) (choose 0%nat V d))).
    + rewrite (mean_choose (fun u => if Nat.eqb u v then 1 else 0) 0%nat) by auto. rewrite rsum_pick by (auto; apply vars_nodup). unfold Rdiv. lra.
    + intros d _. cbn beta. rewrite (E Hne d). destruct (Nat.eqb (choose 0%nat V d) v); [now apply share_true|apply share_false].
Qed.
Print Assumptions C96_column.
(** two columns, the first of which is constant: the second is the only one offered *)
Definition px_X : matrix := Mx 2 [[fz 7; fz 1]; [fz 7; fz 2]; [fz 7; fz 3]].
Example C96_column_case : no_nan px_X /\ exists s, reached px_X [1; 2; 3] false [] s /\ fst (splittable_variables (d_X (sp_data s))) = [1%nat].
Proof.
  split.
  - intros r v Hr Hv. simpl in Hv. assert (v = 0 \/ v = 1)%nat as Hv' by lia. simpl in Hr. destruct Hr as [<-|[<-|[<-|[]]]], Hv' as [-> | ->]; discriminate.
  - assert (G : (match root_split px_X [1; 2; 3] false with Ok s => Some (fst (splittable_variables (d_X (sp_data s)))) | _ => None end) = Some [1%nat]) by (vm_compute; reflexivity).
    destruct (root_split px_X [1; 2; 3] false) as [s| |] eqn:E; try discriminate. exists s. injection G as G. split; auto.
    split; [reflexivity|]. split; [constructor|]. exists s. auto.
Qed.

Lemma reached_leaves X y nrm h0 os h t : no_nan X -> ob_reached X y nrm h0 os h t -> exists y', Forall (leaf_ok X y' h) (leaf_nodes h t).
Proof.
  intros Hn H. destruct (ob_reached_oinv _ _ _ _ _ _ _ Hn H) as (y'&k&o&Ho). exists y'. apply Forall_forall. intros j Hj.
  pose proof (leaf_nodes_in _ _ _ _ _ _ Ho j) as Hl. pose proof Hj as Hj0. apply Hl in Hj0.
  apply (leaf_ogr _ _ _ _ _ _ _ Ho) in Hj as (cj&dj&Hj). pose proof (ogr_ok _ _ _ _ _ _ _ _ _ (oi_ok _ _ _ _ _ _ Ho) Hj) as (w&s&E&Hs).
  split; [apply (oi_below _ _ _ _ _ _ Ho), oids_incl; now left|]. exists w, s, dj, cj. auto.
Qed.
Lemma may_grow_cut X h t j v x : In j (leaf_nodes h t) -> (may_grow X h t j v x <-> may_cut X h j v x).
Proof. intros Hj. unfold may_grow, may_cut. tauto. Qed.
Lemma proposes_cut_all X y nrm h0 os h t cut ds : no_nan X -> ob_reached X y nrm h0 os h t -> ob_proposes_cuts h t cut ds = cut_all h cut (leaf_nodes h t) ds.
Proof.
  intros Hn H. destruct (reached_leaves _ _ _ _ _ _ _ Hn H) as (y'&HL).
  rewrite <- (cut_all_spec X y' cut h (leaf_nodes h t) Hn h ds (conj (le_n _) (fun _ _ => eq_refl)) HL). reflexivity.
Qed.

(** ** the cuts proposed *)
(** The leaves that can be split are cut independently: each in one of the columns offered, every column with the same
    probability, at the value of a row of the leaf below the largest, each such row with the same probability. *)
Theorem C96_probability : forall X y nrm h0 os h t cut, no_nan X -> ob_reached X y nrm h0 os h t ->
  (forall j, In j (splittable_leaf_nodes h t) -> may_grow X h t j (fst (cut j)) (snd (cut j))) ->
  let q := product (map (fun j => cut_probability X h j (cut j)) (splittable_leaf_nodes h t)) in
  chance (ob_proposes_cuts h t cut) q /\ 0 < q.
Proof.
  intros X y nrm h0 os h t cut Hn H HC q. destruct (reached_leaves _ _ _ _ _ _ _ Hn H) as (y'&HL). rewrite Forall_forall in HL.
  assert (HM : forall j, In j (leaf_nodes h t) -> is_splittable h j = true -> may_cut X h j (fst (cut j)) (snd (cut j))).
  { intros j Hj Hs. apply (may_grow_cut X h t); auto. apply HC. unfold splittable_leaf_nodes. now apply filter_In. }
  assert (HP : forall j, In j (splittable_leaf_nodes h t) -> 0 < cut_probability X h j (cut j) /\ (0 < leaf_columns h j)%nat /\ (0 < leaf_rows X h j)%nat).
  { intros j Hj. unfold splittable_leaf_nodes in Hj. apply filter_In in Hj as [Hj Hs]. rewrite (surjective_pairing (cut j)). eapply may_cut_positive; eauto. }
  split.
  - destruct (common_multiple (leaf_columns h) (splittable_leaf_nodes h t)) as (N1&P1&D1); [intros; now apply HP|].
    destruct (common_multiple (leaf_rows X h) (splittable_leaf_nodes h t)) as (N2&P2&D2); [intros; now apply HP|].
    exists (N1 * N2)%nat. split; [nia|]. intros B HB HD.
    destruct (all_rises X y' h cut B (leaf_nodes h t) Hn HB) as [_ C]; [now apply Forall_forall| |].
    + intros j Hj Hs. assert (Hi : In j (splittable_leaf_nodes h t)) by (unfold splittable_leaf_nodes; now apply filter_In). split; [now apply HM|]. split.
      * eapply Nat.divide_trans; [apply D1; auto|]. eapply Nat.divide_trans; [apply Nat.divide_factor_l|exact HD].
      * eapply Nat.divide_trans; [apply D2; auto|]. eapply Nat.divide_trans; [apply Nat.divide_factor_r|exact HD].
    + eapply cv_ext; [|exact C]. intros k. cbn beta. apply share_ext. intros ds. symmetry. now apply (proposes_cut_all X y nrm h0 os).
  - unfold q. apply product_pos. intros x Hx. apply in_map_iff in Hx as (j&<-&Hj). now apply HP.
Qed.
Print Assumptions C96_probability.

(** Some draws lead to the cuts exactly if every leaf that can be split may be cut that way. *)
Theorem C96_possible : forall X y nrm h0 os h t cut, no_nan X -> ob_reached X y nrm h0 os h t ->
  ((exists ds, ob_proposes_cuts h t cut ds = true) <-> forall j, In j (splittable_leaf_nodes h t) -> may_grow X h t j (fst (cut j)) (snd (cut j))).
Proof.
  intros X y nrm h0 os h t cut Hn H. split.
  - intros (ds&E) j Hj. rewrite (proposes_cut_all X y nrm h0 os) in E by auto. destruct (reached_leaves _ _ _ _ _ _ _ Hn H) as (y'&HL).
    unfold splittable_leaf_nodes in Hj. apply filter_In in Hj as [Hj Hs]. apply may_grow_cut; auto. eapply cut_all_may; eauto.
  - intros HC. destruct (C96_probability X y nrm h0 os h t cut Hn H HC) as ((N&HN&Hcv)&Hq).
    destruct (Hcv N HN (Nat.divide_refl N) _ Hq) as (k&Hk). specialize (Hk k (le_n k)). cbn beta in Hk. unfold R_dist in Hk.
    destruct (filter (ob_proposes_cuts h t cut) (streams N k)) as [|ds l] eqn:Ef.
    + exfalso. unfold share in Hk. rewrite Ef in Hk. simpl in Hk. unfold Rdiv in Hk. rewrite Rmult_0_l in Hk.
      set (q := product _) in *. replace (0 - q) with (- q) in Hk by lra. rewrite Rabs_Ropp, Rabs_right in Hk by lra. lra.
    + exists ds. assert (Hin : In ds (filter (ob_proposes_cuts h t cut) (streams N k))) by (rewrite Ef; now left). now apply filter_In in Hin.
Qed.
Print Assumptions C96_possible.

Lemma case_facts h t s os : ob_reached ox_X ox_y false h_empty os h t -> splittable_leaf_nodes h t = [2%nat] -> node_split h 2 = Some s ->
  fst (splittable_variables (d_X (sp_data s))) = [0%nat] -> (rows_with ox_X s 0 (fz 3), rows_below_max ox_X s 0) = (1, 2)%nat -> d_mask (sp_data s) = [true; false; false; false] ->
  chance (ob_proposes_cuts h t (fun _ => (0%nat, fz 3))) (/ 2) /\ ~ (exists ds, ob_proposes_cuts h t (fun _ => (0%nat, fz 4)) ds = true).
Proof.
  intros HR HS Es Ev Ec Em.
  assert (In_ : forall i, in_node s i <-> (i = 1 \/ i = 2 \/ i = 3)%nat).
  { clear - Em. intros i. unfold in_node. rewrite Em. clear. destruct i as [|[|[|[|i]]]]; cbn [nth_error].
    - split; [discriminate|]. intros [H|[H|H]]; discriminate.
    - split; auto.
    - split; auto.
    - split; auto.
    - destruct i; cbn [nth_error]; (split; [discriminate|]); intros [H|[H|H]]; discriminate. }
  split.
  - assert (HC : forall j, In j (splittable_leaf_nodes h t) -> may_grow ox_X h t j 0 (fz 3)).
    { intros j Hj. split; [unfold splittable_leaf_nodes in Hj; now apply filter_In in Hj|]. rewrite HS in Hj. destruct Hj as [<-|[]].
      exists s. split; auto. split; [rewrite Ev; now left|]. split; [exists 2%nat|exists 3%nat]; (split; [apply In_; auto|reflexivity]). }
    destruct (C96_probability ox_X ox_y false h_empty _ _ _ (fun _ => (0%nat, fz 3)) ox_no_nan HR HC) as [C _].
    rewrite HS in C. cbn [map product fold_right] in C. unfold cut_probability in C. rewrite Es, Ev in C. cbn [fst snd length] in C. injection Ec as E1 E2. rewrite E1, E2 in C.
    replace (/ 2) with (/ INR 1 * (INR 1 / INR 2) * 1) by (simpl; field). exact C.
  - intros Hex. apply (C96_possible ox_X ox_y false h_empty _ _ _ (fun _ => (0%nat, fz 4)) ox_no_nan HR) with (j := 2%nat) in Hex; [|rewrite HS; now left].
    destruct Hex as (_&s'&Es'&_&_&(i&Hi&Hlt)). rewrite Es in Es'. injection Es' as <-. apply In_ in Hi as [E|[E|E]]; subst i; vm_compute in Hlt; discriminate.
Qed.
(** [ox_1]: the leaves hold {1} and {2,3,4}; only the second can be split, at 2 or at 3, each with probability 1/2 *)
Example C96_case : ob_reached ox_X ox_y false h_empty [OGrow [0%nat; 0%nat]] (fst ox_1) (snd ox_1) /\
  splittable_leaf_nodes (fst ox_1) (snd ox_1) = [2%nat] /\
  chance (ob_proposes_cuts (fst ox_1) (snd ox_1) (fun _ => (0%nat, fz 3))) (/ 2) /\
  ~ (exists ds, ob_proposes_cuts (fst ox_1) (snd ox_1) (fun _ => (0%nat, fz 4)) ds = true).
Proof.
  assert (HS : splittable_leaf_nodes (fst ox_1) (snd ox_1) = [2%nat]) by (vm_compute; reflexivity).
  split; [exact ox_1_reached|]. split; [exact HS|].
  assert (Es : exists s, node_split (fst ox_1) 2 = Some s).
  { assert (E : match node_split (fst ox_1) 2 with Some _ => true | None => false end = true) by (vm_compute; reflexivity). destruct (node_split (fst ox_1) 2) as [s|]; [now exists s|discriminate]. }
  assert (F : match node_split (fst ox_1) 2 with Some s => (fst (splittable_variables (d_X (sp_data s))), (rows_with ox_X s 0 (fz 3), rows_below_max ox_X s 0), d_mask (sp_data s)) | None => ([], (0, 0)%nat, []) end
    = ([0%nat], (1, 2)%nat, [true; false; false; false])) by (vm_compute; reflexivity).
  destruct Es as (s&Es). rewrite Es in F. injection F as F1 F2 F3 F4. eapply case_facts; [exact ox_1_reached|exact HS|exact Es|exact F1| |exact F4]. congruence.
Qed.
