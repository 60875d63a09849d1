(** Fitted estimators under the change of representation of PRel.v. *)
From Coq Require Import Reals Lra QArith Qcanon FunctionalExtensionality.
From Verif Require Import Base Fl Ext MData MSplit MTree MSampler MModel MModelHist MSklearn MFeatures MDiag SpecModel SpecInvariance LFl LList PHeap PRel PModel7 PSklearn.
Local Open Scope R_scope.

(** run_chain without the object it is a method of *)
Definition chain_run (p : params) (ns nb : nat) (thn : thinning) (sp sa : bool) (h : heap) (X : matrix) (y : list R) (r : rng) : res (chain * data * model) :=
  if (length (mx_rows X) =? 0)%nat || (mx_ncols X =? 0)%nat then Raise EValueError else
  let! d := convert_to_data X y in
  let! m := make_model h d 1 p in
  let! (c, m1, _) := samples m ns nb thn sp sa r in Ok (c, d, m1).
Lemma convert_scale X y d : convert_to_data X y = Ok d -> exists q, t_range (d_y d) = Some q /\ normalizing_scale (d_y d) = Ok (snd q - fst q).
Proof.
  unfold convert_to_data, make_data, make_target. destruct y as [|v y]; [discriminate|]. destruct (finite_vec _); [|discriminate]. cbn [rbind].
  intros [= <-]. unfold normalizing_scale. cbn [d_y t_range]. eexists. split; reflexivity.
Qed.
Lemma construct_eq s h X y : construct_model s h X y =
  if (length (mx_rows X) =? 0)%nat || (mx_ncols X =? 0)%nat then Raise EValueError else
  let! d := convert_to_data X y in let! m := make_model h d 1 (sk_par s) in Ok (sk_set_model s d m).
Proof.
  unfold construct_model. destruct (_ || _); auto. destruct (convert_to_data X y) as [d| |] eqn:E; cbn [rbind]; auto.
  destruct (convert_scale _ _ _ E) as (q&_&->). reflexivity.
Qed.
Lemma run_chain_eq s h X y r : run_chain s h X y r =
  rmap (fun q => (fst (fst q), sk_set_model s (snd (fst q)) (snd q), m_heap (snd q)))
       (chain_run (sk_par s) (sk_nsamples s) (sk_nburn s) (sk_thin s) (sk_store_preds s) (sk_store_accept s) h X y r).
Proof.
  unfold run_chain, chain_run. rewrite construct_eq. destruct (_ || _); auto. destruct (convert_to_data X y) as [d| |]; cbn [rbind]; auto.
  destruct (make_model h d 1 (sk_par s)) as [m| |]; cbn [rbind]; auto. cbn [sk_model sk_data sk_set_model].
  destruct (samples m _ _ _ _ _ r) as [[[c m1] r1]| |]; reflexivity.
Qed.

(** what can be observed of a chain *)
Definition chain_rel (f : R -> R) (tx : matrix -> matrix) (e e' : extract) : Prop :=
  (forall X, map (fun sm => sample_predict (fst e') sm (tx X)) (ch_models (snd e')) =
             map (fun sm => rmap (map f) (sample_predict (fst e) sm X)) (ch_models (snd e))) /\
  ch_accept (snd e') = ch_accept (snd e) /\ ch_preds (snd e') = map (map f) (ch_preds (snd e)) /\
  map sm_sigma (ch_models (snd e')) = map sm_sigma (ch_models (snd e)) /\
  map (fun sm => tree_variables (fst e') (sm_trees sm)) (ch_models (snd e')) = map (fun sm => tree_variables (fst e) (sm_trees sm)) (ch_models (snd e)) /\
  map (fun sm => model_depths (fst e') (sm_trees sm)) (ch_models (snd e')) = map (fun sm => model_depths (fst e) (sm_trees sm)) (ch_models (snd e)).
Lemma node_variables_frame h h' : forall ids, (forall i, In i ids -> h_get h' i = h_get h i) -> node_variables h' ids = node_variables h ids.
Proof. induction ids as [|i ids IH]; intros H; auto. cbn [node_variables]. rewrite (H i) by (left; auto). rewrite IH; auto. intros j Hj. apply H. now right. Qed.
Lemma node_depths_frame h h' : forall ids, (forall i, In i ids -> h_get h' i = h_get h i) -> node_depths h' ids = node_depths h ids.
Proof. induction ids as [|i ids IH]; intros H; auto. cbn [node_depths]. rewrite (H i) by (left; auto). rewrite IH; auto. intros j Hj. apply H. now right. Qed.
Lemma tree_variables_frame h h' : forall ts, (forall t i, In t ts -> In i (tr_nodes t) -> h_get h' i = h_get h i) -> tree_variables h' ts = tree_variables h ts.
Proof.
  induction ts as [|t ts IH]; intros H; auto. cbn [tree_variables]. rewrite IH by (intros; eapply H; eauto; now right).
  rewrite (node_variables_frame h h'); auto. intros i. apply H. now left.
Qed.
Lemma model_depths_frame h h' : forall ts, (forall t i, In t ts -> In i (tr_nodes t) -> h_get h' i = h_get h i) -> model_depths h' ts = model_depths h ts.
Proof.
  induction ts as [|t ts IH]; intros H; auto. cbn [model_depths]. rewrite IH by (intros; eapply H; eauto; now right).
  rewrite (node_depths_frame h h'); auto. intros i. apply H. now left.
Qed.
Lemma chain_rel_later f tx e h c h' : chain_rel f tx e (h, c) -> Forall (sample_below h) (ch_models c) ->
  (forall j, (j < h_next h)%nat -> h_get h' j = h_get h j) -> chain_rel f tx e (h', c).
Proof.
  intros (A&B&C&D&V&W) F K.
  assert (K' : forall sm t i, In sm (ch_models c) -> In t (sm_trees sm) -> In i (tr_nodes t) -> h_get h' i = h_get h i).
  { intros sm t i Hin Ht Hq. apply K. rewrite Forall_forall in F. specialize (F _ Hin). red in F. rewrite Forall_forall in F. specialize (F _ Ht). red in F. rewrite Forall_forall in F. auto. }
  split; [|split; [|split; [|split; [|split]]]]; auto.
  - intros X. rewrite <- (A X). apply map_ext_in. intros sm Hin. simpl. apply sample_frame. intros q (t&Ht&Hq). eauto.
  - rewrite <- V. apply map_ext_in. intros sm Hin. apply tree_variables_frame. eauto.
  - rewrite <- W. apply map_ext_in. intros sm Hin. apply model_depths_frame. eauto.
Qed.
Lemma chain_rel_both f tx e e1 e2 : chain_rel (fun x => x) (fun X => X) e e1 -> chain_rel f tx e e2 -> chain_rel f tx e1 e2.
Proof.
  intros (A1&B1&C1&D1&V1&W1) (A2&B2&C2&D2&V2&W2). repeat split; try congruence.
  - intros X. rewrite A2. specialize (A1 X). apply (f_equal (map (rmap (map f)))) in A1. rewrite !map_map in A1. rewrite A1. apply map_ext. intros sm.
    destruct (sample_predict (fst e) sm X); simpl; auto. now rewrite map_id.
  - rewrite C2, C1, !map_map. apply map_ext. intros v. now rewrite map_id.
Qed.

(** the same chains, each run alone in an empty heap *)
Fixpoint canon_list (p : params) (ns nb : nat) (thn : thinning) (sp sa : bool) (n : nat) (X : matrix) (y : list R) (rs : list rng) : res (list (chain * data * model)) :=
  match n with
  | O => Ok []
  | S n' => match rs with
            | [] => NoDraws
            | r :: rs' => let! q := chain_run p ns nb thn sp sa h_empty X y r in
                          let! l := canon_list p ns nb thn sp sa n' X y rs' in Ok (q :: l)
            end
  end.
Definition canon_fit (p : params) (ns nb : nat) (thn : thinning) (sp sa : bool) (n : nat) (X : matrix) (y : list R) (rs : list rng) : res (data * list (chain * data * model)) :=
  if (length (mx_rows X) =? 0)%nat || (mx_ncols X =? 0)%nat then Raise EValueError else
  let! d := convert_to_data X y in
  let! m := make_model h_empty d 1 p in
  let! l := canon_list p ns nb thn sp sa n X y rs in
  match l with [] => Raise EIndexError | _ => Ok (d, l) end.
Definition ext_of (q : chain * data * model) : extract := (m_heap (snd q), fst (fst q)).

Section Fit.
Variable phi : nat -> fl -> fl.
Hypothesis phi_nan : forall v, phi v FNaN = FNaN.
Hypothesis phi_ninf : forall v, phi v FNInf = FNInf.
Hypothesis phi_pinf : forall v, phi v FPInf = FPInf.
Hypothesis phi_lt : forall v a b, flt (phi v a) (phi v b) = flt a b.
Hypothesis phi_eq : forall v a b, feqb (phi v a) (phi v b) = feqb a b.
Variable rho : option (R * R) -> option (R * R).
Hypothesis rho_none : rho None = None.
Variable sg : R.
Hypothesis sg_sq : sg * sg = 1.
Variables (X : matrix) (y y' : list R).
Hypothesis Hdata : convert_to_data (tX phi X) y' = rmap (tdt phi rho sg) (convert_to_data X y).

Lemma th_empty h : heap_ok h -> th phi rho sg 0 (h_next h) (h_get h) h_empty = h.
Proof.
  intros W. destruct h as [n c]. unfold th. cbn [h_next h_get h_empty]. f_equal. extensionality j. change (j <? 0)%nat with false. cbn [Nat.add]. cbn iota. destruct (Nat.ltb_spec j n); auto.
  symmetry. apply W. auto.
Qed.
Definition tcdm (dl : nat) (g : nat -> option tnode) (q : chain * data * model) : chain * data * model :=
  (tch sg 0 dl (fst (fst q)), tdt phi rho sg (snd (fst q)), tmd phi rho sg 0 dl g (snd q)).
Lemma chain_run_tr p ns nb thn sp sa dl g h r :
  chain_run p ns nb thn sp sa (th phi rho sg 0 dl g h) (tX phi X) y' (trg sg r) = rmap (tcdm dl g) (chain_run p ns nb thn sp sa h X y r).
Proof.
  unfold chain_run. cbn [tX mx_rows mx_ncols]. rewrite map_length. destruct (_ || _); auto. fold (tX phi X). rewrite Hdata.
  destruct (convert_to_data X y) as [d| |]; cbn [rbind rmap]; auto. rewrite make_model_tr by (assumption || apply Nat.le_0_l).
  destruct (make_model h d 1 p) as [m| |]; cbn [rbind rmap]; auto. rewrite samples_tr by (assumption || apply Nat.le_0_l).
  destruct (samples m ns nb thn sp sa r) as [[[c m1] r1]| |]; reflexivity.
Qed.
Lemma chain_run_canon p ns nb thn sp sa h r : heap_ok h ->
  chain_run p ns nb thn sp sa h (tX phi X) y' (trg sg r) = rmap (tcdm (h_next h) (h_get h)) (chain_run p ns nb thn sp sa h_empty X y r).
Proof. intros W. rewrite <- chain_run_tr. now rewrite th_empty. Qed.
Lemma cc_variable_tr c : cc_splitting_variable (tcc phi sg c) = cc_splitting_variable c.
Proof. destruct c as [vs cs]. unfold cc_splitting_variable, tcc, last_opt. cbn [cc_conds]. rewrite <- map_rev. now destruct (rev cs). Qed.
Lemma node_variables_tr dl g h : forall ids, node_variables (th phi rho sg 0 dl g h) (map (ti 0 dl) ids) = node_variables h ids.
Proof.
  induction ids as [|i ids IH]; auto. cbn [map node_variables]. rewrite th_get. rewrite IH. destruct (h_get h i) as [[k [s|c] dp]|]; cbn [option_map tnd nd_kind nd_split nd_depth tns]; auto. now rewrite cc_variable_tr.
Qed.
Lemma node_depths_tr dl g h : forall ids, node_depths (th phi rho sg 0 dl g h) (map (ti 0 dl) ids) = node_depths h ids.
Proof.
  induction ids as [|i ids IH]; auto. cbn [map node_depths]. rewrite th_get. rewrite IH. now destruct (h_get h i) as [[k s dp]|].
Qed.
Lemma tree_variables_tr dl g h : forall ts, tree_variables (th phi rho sg 0 dl g h) (map (ttr sg 0 dl) ts) = tree_variables h ts.
Proof. induction ts as [|t ts IH]; auto. cbn [map tree_variables ttr tr_nodes]. now rewrite node_variables_tr, IH. Qed.
Lemma model_depths_tr dl g h : forall ts, model_depths (th phi rho sg 0 dl g h) (map (ttr sg 0 dl) ts) = model_depths h ts.
Proof. induction ts as [|t ts IH]; auto. cbn [map model_depths ttr tr_nodes]. now rewrite node_depths_tr, IH. Qed.
Lemma tcdm_rel h q : chain_rel (sv sg) (tX phi) (ext_of q) (ext_of (tcdm (h_next h) (h_get h) q)).
Proof.
  destruct q as [[c d] m]. unfold ext_of, tcdm. cbn [fst snd]. repeat split; cbn [fst snd tch ch_models ch_accept ch_preds].
  - intros X0. rewrite map_map. apply map_ext. intros sm. change (m_heap (tmd phi rho sg 0 (h_next h) (h_get h) m)) with (th phi rho sg 0 (h_next h) (h_get h) (m_heap m)).
    now apply sample_predict_tr.
  - rewrite map_map. reflexivity.
  - rewrite map_map. apply map_ext. intros sm. apply tree_variables_tr.
  - rewrite map_map. apply map_ext. intros sm. apply model_depths_tr.
Qed.
Lemma run_chain_canon s h r : heap_ok h -> run_chain s h (tX phi X) y' (trg sg r) =
  rmap (fun q => let q' := tcdm (h_next h) (h_get h) q in (fst (fst q'), sk_set_model s (snd (fst q')) (snd q'), m_heap (snd q')))
       (chain_run (sk_par s) (sk_nsamples s) (sk_nburn s) (sk_thin s) (sk_store_preds s) (sk_store_accept s) h_empty X y r).
Proof. intros W. rewrite run_chain_eq, chain_run_canon by auto. now destruct (chain_run _ _ _ _ _ _ _ _ _ _). Qed.
Lemma chain_run_data p ns nb thn sp sa h X0 y0 r c d m : chain_run p ns nb thn sp sa h X0 y0 r = Ok (c, d, m) -> convert_to_data X0 y0 = Ok d.
Proof.
  unfold chain_run. destruct (_ || _); [discriminate|]. destruct (convert_to_data X0 y0) as [d0| |]; try discriminate. cbn [rbind].
  destruct (make_model h d0 1 p) as [m0| |]; try discriminate. cbn [rbind]. destruct (samples _ _ _ _ _ _ _) as [[[c1 m1] r1]| |]; try discriminate. cbn [rbind]. congruence.
Qed.

Definition canon_s (s : sklearn) := canon_list (sk_par s) (sk_nsamples s) (sk_nburn s) (sk_thin s) (sk_store_preds s) (sk_store_accept s).
Lemma run_processes_canon s h : heap_ok h -> forall n rs,
  same_outcome (fun l es => Forall2 (chain_rel (sv sg) (tX phi)) (map ext_of l) es)
    (canon_s s n X y rs) (run_processes (repeat (s, h, tX phi X, y') n) (map (trg sg) rs)).
Proof.
  intros W. induction n as [|n IH]; intros rs; cbn [repeat run_processes]; [simpl; constructor|]. unfold canon_s in *. cbn [canon_list].
  destruct rs as [|r rs]; [exact I|]. cbn [map]. rewrite run_chain_canon by auto.
  destruct (chain_run (sk_par s) _ _ _ _ _ h_empty X y r) as [[[c d] m]| |]; cbn [rbind rmap]; try exact I; [|reflexivity].
  specialize (IH rs). destruct (canon_list _ _ _ _ _ _ n X y rs) as [l|e|], (run_processes (repeat (s, h, tX phi X, y') n) (map (trg sg) rs)) as [es|e'|]; cbn [rbind]; simpl in IH |- *; auto.
  constructor; auto. apply (tcdm_rel h (c, d, m)).
Qed.
Lemma same_s s s' : settings s' = settings s -> canon_s s' = canon_s s.
Proof. intros E. apply settings_fields in E. destruct E as (->&_&->&->&->&->&->) || destruct E as (E1&E2&E3&E4&E5&E6&E7). unfold canon_s. now rewrite E1, E3, E4, E5, E6, E7. Qed.
Lemma run_here_canon : forall n s h rs, heap_ok h -> (forall d, convert_to_data X y = Ok d -> sk_data s = Some (tdt phi rho sg d)) ->
  same_outcome (fun l csh => Forall2 (chain_rel (sv sg) (tX phi)) (map ext_of l) (map (fun c => (snd csh, c)) (fst (fst csh))) /\
                             settings (snd (fst csh)) = settings s /\ (forall d, convert_to_data X y = Ok d -> sk_data (snd (fst csh)) = Some (tdt phi rho sg d)) /\
                             (h_next h <= h_next (snd csh))%nat /\ (forall j, (j < h_next h)%nat -> h_get (snd csh) j = h_get h j))
    (canon_s s n X y rs) (run_here n s h (tX phi X) y' (map (trg sg) rs)).
Proof.
  induction n as [|n IH]; intros s h rs W Hd; cbn [run_here].
  - simpl. repeat split; auto.
  - unfold canon_s. cbn [canon_list]. destruct rs as [|r rs]; [exact I|]. cbn [map]. pose proof (run_chain_canon s h r W) as E. rewrite E.
    destruct (chain_run (sk_par s) _ _ _ _ _ h_empty X y r) as [[[c d] m]| |] eqn:Ec; cbn [rbind rmap] in *; try exact I; [|reflexivity].
    set (q' := tcdm (h_next h) (h_get h) (c, d, m)) in *. pose proof (run_chain_grows _ _ _ _ _ _ _ _ E) as [[G1 G2] F].
    set (s1 := sk_set_model s (snd (fst q')) (snd q')) in *. assert (Hs : settings s1 = settings s) by reflexivity.
    assert (Hd1 : forall d0, convert_to_data X y = Ok d0 -> sk_data s1 = Some (tdt phi rho sg d0)).
    { intros d0 H0. apply chain_run_data in Ec. rewrite Ec in H0. injection H0 as <-. reflexivity. }
    specialize (IH s1 (m_heap (snd q')) rs (G2 W) Hd1). rewrite (same_s _ _ Hs) in IH. unfold canon_s in IH.
    destruct (canon_list _ _ _ _ _ _ n X y rs) as [l|e|], (run_here n s1 (m_heap (snd q')) (tX phi X) y' (map (trg sg) rs)) as [[[cs s2] h2]|e'|]; cbn [rbind]; cbn [same_outcome fst snd map] in IH |- *; auto.
    destruct IH as (R1&R2&R3&R4&R5). assert (Fr : forall j, (j < h_next h)%nat -> h_get (m_heap (snd q')) j = h_get h j).
    { intros j Hj. unfold q', tcdm. cbn [snd]. unfold tmd. cbn [m_heap]. unfold th. cbn [h_get]. change (j <? 0)%nat with false. cbn [Nat.add]. cbn iota. destruct (Nat.ltb_spec j (h_next h)); auto. lia. }
    repeat split; auto; try congruence; try lia.
    + constructor; auto. apply (chain_rel_later _ _ _ (m_heap (snd q'))); auto. apply (tcdm_rel h (c, d, m)).
    + intros j Hj. rewrite R5 by lia. auto.
Qed.

Definition fit_rel (s : sklearn) (dl : data * list (chain * data * model)) (s1 : sklearn) : Prop :=
  settings s1 = settings s /\ sk_data s1 = Some (tdt phi rho sg (fst dl)) /\
  exists es, Forall2 (chain_rel (sv sg) (tX phi)) (map ext_of (snd dl)) es /\
    sk_samples s1 = Some (flat_map (fun e : extract => map (fun sm => (fst e, sm)) (ch_models (snd e))) es) /\
    sk_preds s1 = Some (flat_map (fun e : extract => ch_preds (snd e)) es) /\ sk_accept s1 = Some (flat_map (fun e : extract => ch_accept (snd e)) es).
Definition canon_fit_s (s : sklearn) := canon_fit (sk_par s) (sk_nsamples s) (sk_nburn s) (sk_thin s) (sk_store_preds s) (sk_store_accept s) (sk_nchains s).
Lemma fit_canon b s h rs : heap_ok h -> same_outcome (fit_rel s) (canon_fit_s s X y rs) (fit b s h (tX phi X) y' (map (trg sg) rs)).
Proof.
  pose proof run_processes_canon as RPC. pose proof run_here_canon as RHC. intros W. unfold fit, canon_fit_s, canon_fit. rewrite construct_eq. cbn [tX mx_rows mx_ncols]. rewrite map_length. destruct (_ || _); [reflexivity|]. fold (tX phi X).
  rewrite Hdata. remember (convert_to_data X y) as cd eqn:Ed. destruct cd as [d| |]; symmetry in Ed; cbn [rbind rmap]; try exact I; [|reflexivity].
  assert (Em : make_model h (tdt phi rho sg d) 1 (sk_par s) = rmap (tmd phi rho sg 0 (h_next h) (h_get h)) (make_model h_empty d 1 (sk_par s))).
  { rewrite <- make_model_tr by (assumption || apply Nat.le_0_l). now rewrite th_empty. }
  rewrite Em. destruct (make_model h_empty d 1 (sk_par s)) as [m| |]; cbn [rbind rmap] in Em |- *; try exact I; [|reflexivity].
  apply make_model_grows in Em. set (m' := tmd phi rho sg 0 (h_next h) (h_get h) m) in Em |- *. set (s1 := sk_set_model s (tdt phi rho sg d) m'). cbn [sk_model s1 sk_set_model sk_nchains].
  destruct Em as [_ W']. specialize (W' W).
  change (canon_list (sk_par s) (sk_nsamples s) (sk_nburn s) (sk_thin s) (sk_store_preds s) (sk_store_accept s) (sk_nchains s) X y rs) with (canon_s s1 (sk_nchains s) X y rs).
  destruct b.
  - pose proof (RPC s1 (m_heap m') W' (sk_nchains s) rs) as H. fold s1.
    destruct (canon_s s1 (sk_nchains s) X y rs) as [l|e|], (run_processes (repeat (s1, m_heap m', tX phi X, y') (sk_nchains s)) (map (trg sg) rs)) as [es|e'|]; cbn [rbind]; simpl in H; auto; try contradiction.
    unfold store_chains. destruct es as [|e0 es]; inversion H; destruct l; try discriminate; cbn [combine_chains rbind]; try reflexivity.
    cbn [same_outcome]. split; [reflexivity|]. split; [reflexivity|]. eexists. split; [exact H|]. repeat split.
  - pose proof (RHC (sk_nchains s) s1 (m_heap m') rs W') as H. assert (Hd : forall d0, @Ok data d = Ok d0 -> sk_data s1 = Some (tdt phi rho sg d0)) by (now intros d0 [= <-]).
    specialize (H Hd). fold s1.
    destruct (canon_s s1 (sk_nchains s) X y rs) as [l|e|], (run_here (sk_nchains s) s1 (m_heap m') (tX phi X) y' (map (trg sg) rs)) as [[[cs s2] h2]|e'|]; cbn [rbind]; simpl in H; auto; try contradiction.
    destruct H as (R1&R2&R3&_). unfold store_chains. remember (map (fun c : chain => (h2, c)) cs) as es.
    destruct es as [|e0 es]; inversion R1; destruct l; try discriminate; cbn [combine_chains rbind]; try reflexivity.
    cbn [same_outcome]. split; [exact R2|]. split; [cbn [sk_set_chains sk_data]; auto|]. eexists. split; [exact R1|]. repeat split.
Qed.
End Fit.
