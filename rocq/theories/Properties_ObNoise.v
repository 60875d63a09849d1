(** C110: what the noise level does to the decisions of the oblivious tree sampler *)
From Coq Require Import Reals Lra Lia Permutation.
From Verif Require Import Base Fl Ext MData MSplit MTree MSampler MHist MTreeHist MOblivious Spec SpecTree SpecSampler SpecScore SpecOblivious SpecObScore SpecObNoise LFl LList
  PData PSplit PDataProps PCond PTree PPred PTreeHist PTreeProps PTreeProps2 PSampler PSampler2 PScore PScore2 POblivious POblivious2 POblivious3 POblivious4 POblivious5 PObScore PObScore2
  PNoise PObNoise PObNoise2 Properties_Sampler Properties_Oblivious.
Local Open Scope R_scope.

(** ** C110 *)
(** With little enough noise a proposed level of cuts is accepted whatever the draw if one of them tells something about the target,
    and rejected whatever the draw if none of them does. *)
Theorem C110_grow : forall X y nrm h0 os h t idx ms h1 idx1 p, no_nan X -> mx_rows X <> [] -> ob_reached X y nrm h0 os h t ->
  ob_grow_mutations h t idx = Ok (ms, h1, idx1) -> (forall j, In j (leaf_nodes h t) -> scorable X h j) -> usual p ->
  let Y := last_ob_target (start_target y nrm) os in
  exists h2 t2 s0, mutate_all h1 t ms = Ok (h2, t2) /\ 0 < s0 /\ forall sigma r r0 u us, 0 < sigma < s0 ->
    ob_propose (pa_limit p) h t r = Ok (ms, h1, r0) -> rg_unif r0 = u :: us -> 0 <= u < 1 ->
    ((exists m, In m ms /\ tells Y h1 (mu_updated m)) -> ob_step h t sigma p r = Ok (Some ms, h2, t2, rng_set_unif r0 us)) /\
    ((forall m, In m ms -> ~ tells Y h1 (mu_updated m)) -> ob_step h t sigma p r = Ok (None, h1, t, rng_set_unif r0 us)).
Proof.
  intros X y nrm h0 os h t idx ms h1 idx1 p Hn Hne Hr E Hsc Hp Y. destruct (ob_reached_target _ _ _ _ _ _ _ Hn Hr) as (k&o&H). fold Y in H.
  destruct (ob_grow_ok _ _ _ _ _ _ _ _ _ _ Hn H E) as (_&_&_&ps&h2&t2&_&_&_&_&Em&_).
  destruct (grow_level _ _ _ _ _ _ _ _ _ _ p Hn Hne H E Hsc Hp) as (L&HL&HLn&_&Hq). destruct (cuts_ok X Y (tells Y h1) mu_updated _ _ HL) as (Hc&Hsome&Hnone).
  assert (HY : length Y = length (mx_rows X)) by (eapply oinv_target_len; eauto). exists h2, t2.
  set (C := INR (2 ^ k) * (ln (pa_pprune p / pa_pgrow p) + log_structure_odds (pa_alpha p) (pa_beta p) k)) in *.
  assert (D : (exists x, In x L /\ told X Y x) \/ forall x, In x L -> ~ told X Y x).
  { clear. induction L as [|x L IH]; [right; intros x []|]. destruct (told_dec X Y x) as [A|A]; [left; exists x; simpl; auto|].
    destruct IH as [(z&Hz&Tz)|B]; [left; exists z; simpl; auto|right; intros z [<-|Hz]; auto]. }
  destruct D as [D|D].
  - destruct (level_up X Y p L (1 - C) Hn HY Hp Hc D) as (s0&Hs0&Hup). exists s0. split; auto. split; auto.
    intros sigma r r0 u us Hs Ep Eu Hu. destruct (ob_step_decided _ _ _ _ _ _ _ _ _ _ _ _ _ Ep Eu (Hq sigma (proj1 Hs)) Em) as [Hacc _]. specialize (Hup sigma Hs).
    split; [intros _; apply Hacc; lra|]. intros A. exfalso. destruct D as (x&Hx&Tx). exact (Hnone A x Hx Tx).
  - destruct (level_down X Y p L (- C) Hn HY Hp Hc HLn D) as (s0&Hs0&Hdn). exists s0. split; auto. split; auto.
    intros sigma r r0 u us Hs Ep Eu Hu. destruct (ob_step_decided _ _ _ _ _ _ _ _ _ _ _ _ _ Ep Eu (Hq sigma (proj1 Hs)) Em) as [_ Hrej]. specialize (Hdn sigma Hs).
    split; [intros A; exfalso; destruct (Hsome A) as (x&Hx&Tx); exact (D x Hx Tx)|]. intros _. apply Hrej. lra.
Qed.
Print Assumptions C110_grow.
(** With little enough noise a prune is rejected whatever the draw if one of the cuts it would take away tells something about the
    target, and accepted whatever the draw if none of them does. *)
Theorem C110_prune : forall X y nrm h0 os h t ms h1 p, no_nan X -> mx_rows X <> [] -> ob_reached X y nrm h0 os h t ->
  prunable_decision_nodes h t <> [] -> ob_prune_mutations h t = Ok (ms, h1) -> (forall j, In j (prunable_decision_nodes h t) -> scorable X h j) -> usual p ->
  let Y := last_ob_target (start_target y nrm) os in
  exists h2 t2 s0, mutate_all h1 t ms = Ok (h2, t2) /\ 0 < s0 /\ forall sigma r r0 u us, 0 < sigma < s0 ->
    ob_propose (pa_limit p) h t r = Ok (ms, h1, r0) -> rg_unif r0 = u :: us -> 0 <= u < 1 ->
    ((exists j, In j (prunable_decision_nodes h t) /\ tells Y h j) -> ob_step h t sigma p r = Ok (None, h1, t, rng_set_unif r0 us)) /\
    ((forall j, In j (prunable_decision_nodes h t) -> ~ tells Y h j) -> ob_step h t sigma p r = Ok (Some ms, h2, t2, rng_set_unif r0 us)).
Proof.
  intros X y nrm h0 os h t ms h1 p Hn Hne Hr Hpr E Hsc Hp Y. destruct (ob_reached_target _ _ _ _ _ _ _ Hn Hr) as (k&o&H). fold Y in H.
  destruct k as [|k].
  { exfalso. apply Hpr. apply Permutation_nil. pose proof (prunable_perm _ _ _ _ _ _ H) as P. rewrite (opr_zero _ _ _ (oi_full _ _ _ _ _ _ H)) in P. now apply Permutation_sym. }
  destruct (ob_prune_ok _ _ _ _ _ _ H) as (ps&h1'&h2&t2&E'&_&_&_&_&_&Em&_). rewrite E in E'. injection E' as -> <-.
  destruct (prune_level _ _ _ _ _ _ _ _ p Hn Hne H E Hsc Hp) as (L&HL&HLn&_&Hq). destruct (cuts_ok X Y (tells Y h) (fun j => j) _ _ HL) as (Hc&Hsome&Hnone).
  assert (HY : length Y = length (mx_rows X)) by (eapply oinv_target_len; eauto). exists h2, t2.
  set (C := INR (2 ^ k) * (ln (pa_pgrow p / pa_pprune p) - log_structure_odds (pa_alpha p) (pa_beta p) k)) in *.
  assert (D : (exists x, In x L /\ told X Y x) \/ forall x, In x L -> ~ told X Y x).
  { clear. induction L as [|x L IH]; [right; intros x []|]. destruct (told_dec X Y x) as [A|A]; [left; exists x; simpl; auto|].
    destruct IH as [(z&Hz&Tz)|B]; [left; exists z; simpl; auto|right; intros z [<-|Hz]; auto]. }
  destruct D as [D|D].
  - destruct (level_up X Y p L C Hn HY Hp Hc D) as (s0&Hs0&Hup). exists s0. split; auto. split; auto.
    intros sigma r r0 u us Hs Ep Eu Hu. destruct (ob_step_decided _ _ _ _ _ _ _ _ _ _ _ _ _ Ep Eu (Hq sigma (proj1 Hs)) Em) as [_ Hrej]. specialize (Hup sigma Hs).
    split; [intros _; apply Hrej; lra|]. intros A. exfalso. destruct D as (x&Hx&Tx). exact (Hnone A x Hx Tx).
  - destruct (level_down X Y p L (C - 1) Hn HY Hp Hc HLn D) as (s0&Hs0&Hdn). exists s0. split; auto. split; auto.
    intros sigma r r0 u us Hs Ep Eu Hu. destruct (ob_step_decided _ _ _ _ _ _ _ _ _ _ _ _ _ Ep Eu (Hq sigma (proj1 Hs)) Em) as [Hacc _]. specialize (Hdn sigma Hs).
    split; [intros A; exfalso; destruct (Hsome A) as (x&Hx&Tx); exact (D x Hx Tx)|]. intros _. apply Hacc. lra.
Qed.
Print Assumptions C110_prune.
(** So with little enough noise a level is added although no leaf can be split, unless the targets of every leaf add up to 0:
    every leaf is then replaced by a node with two copies of it. *)
Theorem C110_copies : forall X y nrm h0 os h t idx ms h1 idx1 p i, no_nan X -> mx_rows X <> [] -> ob_reached X y nrm h0 os h t ->
  ob_grow_mutations h t idx = Ok (ms, h1, idx1) -> (forall j, In j (leaf_nodes h t) -> scorable X h j) -> usual p ->
  let Y := last_ob_target (start_target y nrm) os in
  In i (leaf_nodes h t) -> is_splittable h i = false -> target_sum Y (held_rows h i) <> 0 ->
  exists h2 t2 s0, mutate_all h1 t ms = Ok (h2, t2) /\ 0 < s0 /\ forall sigma r r0 u us, 0 < sigma < s0 ->
    ob_propose (pa_limit p) h t r = Ok (ms, h1, r0) -> rg_unif r0 = u :: us -> 0 <= u < 1 ->
    ob_step h t sigma p r = Ok (Some ms, h2, t2, rng_set_unif r0 us).
Proof.
  intros X y nrm h0 os h t idx ms h1 idx1 p i Hn Hne Hr E Hsc Hp Y Hi Hsp Hy.
  destruct (C110_grow _ _ _ _ _ _ _ _ _ _ _ p Hn Hne Hr E Hsc Hp) as (h2&t2&s0&Em&Hs0&HS). fold Y in HS. exists h2, t2, s0. split; auto. split; auto.
  intros sigma r r0 u us Hs Ep Eu Hu. apply (HS sigma r r0 u us Hs Ep Eu Hu).
  destruct (ob_reached_target _ _ _ _ _ _ _ Hn Hr) as (k&o&H). fold Y in H.
  destruct (grow_same _ _ _ _ _ _ _ _ _ _ i Hn H E Hi Hsp Hy) as (m&Hm&_&Ht). eauto.
Qed.
Print Assumptions C110_copies.
(** With enough noise the targets do not matter: the log acceptance ratio of a grow is as close as wanted to the number of leaves
    times a number that depends on the parameters and the depth of the leaves only. *)
Theorem C110_large_noise : forall X y nrm h0 os h t idx ms h1 idx1 p e, no_nan X -> mx_rows X <> [] -> ob_reached X y nrm h0 os h t ->
  ob_grow_mutations h t idx = Ok (ms, h1, idx1) -> (forall j, In j (leaf_nodes h t) -> scorable X h j) -> usual p -> 0 < e ->
  exists k s0, length (leaf_nodes h t) = (2 ^ k)%nat /\ 0 < s0 /\ forall sigma, s0 < sigma ->
    exists q, ob_ratio h1 ms sigma p = Ok (XFin q) /\
      Rabs (q - INR (length (leaf_nodes h t)) * (ln (pa_pprune p / pa_pgrow p) + log_structure_odds (pa_alpha p) (pa_beta p) k)) < e.
Proof.
  intros X y nrm h0 os h t idx ms h1 idx1 p e Hn Hne Hr E Hsc Hp He. destruct (ob_reached_target _ _ _ _ _ _ _ Hn Hr) as (k&o&H).
  set (Y := last_ob_target (start_target y nrm) os) in *.
  destruct (grow_level _ _ _ _ _ _ _ _ _ _ p Hn Hne H E Hsc Hp) as (L&HL&HLn&_&Hq). destruct (cuts_ok X Y (tells Y h1) mu_updated _ _ HL) as (Hc&_&_).
  assert (HY : length Y = length (mx_rows X)) by (eapply oinv_target_len; eauto).
  assert (El : length (leaf_nodes h t) = (2 ^ k)%nat) by (rewrite (Permutation_length (oleaf_nodes_perm _ _ _ _ _ _ H)); apply full_count, H).
  destruct (level_far X Y p L e Hn HY Hp Hc He) as (s0&Hs0&Hf). exists k, s0. split; auto. split; auto. intros sigma Hs. rewrite El.
  eexists. split; [apply Hq; lra|]. specialize (Hf sigma Hs). match type of Hf with Rabs ?g < _ => set (G := g) in * end.
  match goal with |- Rabs ?z < _ => replace z with G by ring end. exact Hf.
Qed.
Print Assumptions C110_large_noise.
(** The same for a prune. *)
Theorem C110_large_noise_prune : forall X y nrm h0 os h t ms h1 p e, no_nan X -> mx_rows X <> [] -> ob_reached X y nrm h0 os h t ->
  prunable_decision_nodes h t <> [] -> ob_prune_mutations h t = Ok (ms, h1) -> (forall j, In j (prunable_decision_nodes h t) -> scorable X h j) -> usual p -> 0 < e ->
  exists k s0, length (leaf_nodes h t) = (2 ^ S k)%nat /\ 0 < s0 /\ forall sigma, s0 < sigma ->
    exists q, ob_ratio h1 ms sigma p = Ok (XFin q) /\
      Rabs (q - INR (2 ^ k) * (ln (pa_pgrow p / pa_pprune p) - log_structure_odds (pa_alpha p) (pa_beta p) k)) < e.
Proof.
  intros X y nrm h0 os h t ms h1 p e Hn Hne Hr Hpr E Hsc Hp He. destruct (ob_reached_target _ _ _ _ _ _ _ Hn Hr) as (k&o&H).
  set (Y := last_ob_target (start_target y nrm) os) in *. destruct k as [|k].
  { exfalso. apply Hpr. apply Permutation_nil. pose proof (prunable_perm _ _ _ _ _ _ H) as P. rewrite (opr_zero _ _ _ (oi_full _ _ _ _ _ _ H)) in P. now apply Permutation_sym. }
  destruct (prune_level _ _ _ _ _ _ _ _ p Hn Hne H E Hsc Hp) as (L&HL&HLn&_&Hq). destruct (cuts_ok X Y (tells Y h) (fun j => j) _ _ HL) as (Hc&_&_).
  assert (HY : length Y = length (mx_rows X)) by (eapply oinv_target_len; eauto).
  assert (El : length (leaf_nodes h t) = (2 ^ S k)%nat) by (rewrite (Permutation_length (oleaf_nodes_perm _ _ _ _ _ _ H)); apply full_count, H).
  destruct (level_far X Y p L e Hn HY Hp Hc He) as (s0&Hs0&Hf). exists k, s0. split; auto. split; auto. intros sigma Hs.
  eexists. split; [apply Hq; lra|]. specialize (Hf sigma Hs). match type of Hf with Rabs ?g < _ => set (G := g) in * end.
  match goal with |- Rabs ?z < _ => replace z with (- G) by ring end. now rewrite Rabs_Ropp.
Qed.
Print Assumptions C110_large_noise_prune.

(** The tree [ox_1] has the leaf 1 with row 0, which cannot be split, and the leaf 2 with the rows 1, 2 and 3.  A proposal gives leaf 1 two
    copies and splits leaf 2 into {1} and {2, 3}.  With targets 10, 10, -10, -10 both cuts tell something; with 0, 3, 3, 3 neither does;
    with 5, 3, 3, 3 only the copies do. *)
Definition nx_grow : res (list mutation * heap * list nat) := ob_grow_mutations (fst ox_1) (snd ox_1) [0; 0]%nat.
Definition nx_ms : list mutation := match nx_grow with Ok (ms, _, _) => ms | _ => [] end.
Definition nx_h : heap := match nx_grow with Ok (_, h, _) => h | _ => h_empty end.
Lemma nx_grow_ok : ob_grow_mutations (fst ox_1) (snd ox_1) [0; 0]%nat = Ok (nx_ms, nx_h, []).
Proof.
  unfold nx_ms, nx_h, nx_grow. assert (E : match ob_grow_mutations (fst ox_1) (snd ox_1) [0; 0]%nat with Ok (_, _, i) => Some i | _ => None end = Some []) by (vm_compute; reflexivity).
  destruct (ob_grow_mutations (fst ox_1) (snd ox_1) [0; 0]%nat) as [[[ms h] i]| |]; try discriminate. injection E as ->. reflexivity.
Qed.
Lemma nx_cuts : exists a b l1 r1 l2 r2 s1 d1 s2 d2, map mu_updated nx_ms = [a; b] /\ h_get nx_h a = Some (Nd (KDec l1 r1) s1 d1) /\ h_get nx_h b = Some (Nd (KDec l2 r2) s2 d2) /\
  map (held_rows nx_h) [l1; r1; l2; r2] = [[0]; [0]; [1]; [2; 3]]%nat.
Proof. do 10 eexists. split; [vm_compute; reflexivity|]. split; [vm_compute; reflexivity|]. split; [vm_compute; reflexivity|]. vm_compute. reflexivity. Qed.
Lemma nx_general Y ms h a b l1 r1 l2 r2 s1 d1 s2 d2 : map mu_updated ms = [a; b] -> h_get h a = Some (Nd (KDec l1 r1) s1 d1) -> h_get h b = Some (Nd (KDec l2 r2) s2 d2) ->
  map (held_rows h) [l1; r1; l2; r2] = [[0]; [0]; [1]; [2; 3]]%nat ->
  (exists m, In m ms /\ tells Y h (mu_updated m)) <-> nth 0 Y 0 <> 0 \/ nth 1 Y 0 <> (nth 2 Y 0 + nth 3 Y 0) / 2.
Proof.
  intros Em Ea Eb Eh.
  assert (A : (exists m, In m ms /\ tells Y h (mu_updated m)) <-> exists j, In j (map mu_updated ms) /\ tells Y h j).
  { split; [intros (m&Hm&Ht); eauto using in_map|]. intros (j&Hj&Ht). apply in_map_iff in Hj as (m&<-&Hm). eauto. }
  rewrite A, Em. cbn [map] in Eh. injection Eh as H1 H2 H3 H4.
  assert (Ta : tells Y h a <-> nth 0 Y 0 <> 0).
  { unfold tells. rewrite Ea. cbv zeta. rewrite H1, H2. unfold target_sum, rsum. simpl map. simpl fold_right. rewrite Rplus_0_r. tauto. }
  assert (Tb : tells Y h b <-> nth 1 Y 0 <> (nth 2 Y 0 + nth 3 Y 0) / 2).
  { unfold tells. rewrite Eb. cbv zeta. rewrite H3, H4. unfold target_mean, target_sum, rsum. simpl map. simpl fold_right. simpl length. simpl INR.
    replace ((nth 1 Y 0 + 0) / 1) with (nth 1 Y 0) by field. replace ((nth 2 Y 0 + (nth 3 Y 0 + 0)) / (1 + 1)) with ((nth 2 Y 0 + nth 3 Y 0) / 2) by field.
    split; [intros [[_ K]|[K _]]; [exact K|discriminate K]|intros K; left; split; [discriminate|exact K]]. }
  rewrite <- Ta, <- Tb. split; [intros (j&[<-|[<-|[]]]&Ht); auto|]. intros [Ht|Ht]; [exists a|exists b]; simpl; auto.
Qed.
Lemma nx_tells Y : (exists m, In m nx_ms /\ tells Y nx_h (mu_updated m)) <-> nth 0 Y 0 <> 0 \/ nth 1 Y 0 <> (nth 2 Y 0 + nth 3 Y 0) / 2.
Proof. destruct nx_cuts as (a&b&l1&r1&l2&r2&s1&d1&s2&d2&Em&Ea&Eb&Eh). exact (nx_general Y nx_ms nx_h a b l1 r1 l2 r2 s1 d1 s2 d2 Em Ea Eb Eh). Qed.
Example C110_case : (exists m, In m nx_ms /\ tells ox_y nx_h (mu_updated m)) /\ (exists m, In m nx_ms /\ tells [5; 3; 3; 3] nx_h (mu_updated m)) /\
  ~ (exists m, In m nx_ms /\ tells [0; 3; 3; 3] nx_h (mu_updated m)).
Proof. rewrite !nx_tells. simpl nth. split; [left; simpl; lra|]. split; [left; simpl; lra|]. simpl. intros [A|A]; apply A; lra. Qed.
Lemma nx_propose h t idx u ms h1 i : ob_grow_mutations h t idx = Ok (ms, h1, i) -> ob_propose 1 h t (Rng [true] idx [u] [] []) = Ok (ms, h1, Rng [] i [u] [] []).
Proof. intros E. cbn [ob_propose rg_method rg_index]. rewrite E. reflexivity. Qed.
(** The theorem applied to it: with a small enough noise the sampler itself adds the level, for every draw. *)
Example C110_case_step : exists h2 t2 s0, 0 < s0 /\ forall sigma u, 0 < sigma < s0 -> 0 <= u < 1 ->
  ob_step (fst ox_1) (snd ox_1) sigma ox_p (Rng [true] [0; 0]%nat [u] [] []) = Ok (Some nx_ms, h2, t2, Rng [] [] [] [] []).
Proof.
  assert (Hsc : forall j, In j (leaf_nodes (fst ox_1) (snd ox_1)) -> scorable ox_X (fst ox_1) j).
  { destruct ox_1_nodes as [-> _]. intros j [<-|[<-|[]]]; [apply scorable_le; vm_compute; reflexivity|left; vm_compute; reflexivity]. }
  assert (Hne : mx_rows ox_X <> []) by discriminate.
  destruct (C110_grow _ _ _ _ _ _ _ _ _ _ _ ox_p ox_no_nan Hne ox_1_reached nx_grow_ok Hsc ox_usual) as (h2&t2&s0&_&Hs0&HS).
  exists h2, t2, s0. split; auto. intros sigma u Hs Hu.
  exact (proj1 (HS sigma (Rng [true] [0; 0]%nat [u] [] []) (Rng [] [] [u] [] []) u [] Hs (nx_propose _ _ _ _ _ _ _ nx_grow_ok) eq_refl Hu) (proj1 C110_case)).
Qed.
