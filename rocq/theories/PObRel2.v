(** Estimators fitted with the tree sampler of bartpy/samplers/oblivioustrees under the change of representation of PRel.v
    (as PRel2.v and PRel3.v for the ordinary sampler). *)
From Coq Require Import Reals Lra QArith Qcanon FunctionalExtensionality.
From Verif Require Import Base Fl Ext MData MSplit MTree MSampler MModel MModelHist MSklearn MOblivious MObModel MObSklearn SpecModel SpecInvariance LFl LList PHeap PRel PRel2 PRel3 PObRel PModel7 PSklearn.
Local Open Scope R_scope.

(** ob_run_chain without the object it is a method of *)
Definition ob_chain_run (p : params) (ns nb : nat) (thn : thinning) (sp sa : bool) (h : heap) (X : matrix) (y : list R) (r : rng) : res (chain * data * model) :=
  if (length (mx_rows X) =? 0)%nat || (mx_ncols X =? 0)%nat then Raise EValueError else
  let! d := convert_to_data X y in
  let! m := make_model h d 1 p in
  let! (c, m1, _) := ob_samples m ns nb thn sp sa r in Ok (c, d, m1).
Lemma ob_run_chain_eq s h X y r : ob_run_chain s h X y r =
  rmap (fun q => (fst (fst q), sk_set_model s (snd (fst q)) (snd q), m_heap (snd q)))
       (ob_chain_run (sk_par s) (sk_nsamples s) (sk_nburn s) (sk_thin s) (sk_store_preds s) (sk_store_accept s) h X y r).
Proof.
  unfold ob_run_chain, ob_chain_run. rewrite construct_eq. destruct (_ || _); auto. destruct (convert_to_data X y) as [d| |]; cbn [rbind]; auto.
  destruct (make_model h d 1 (sk_par s)) as [m| |]; cbn [rbind]; auto. cbn [sk_model sk_data sk_set_model].
  destruct (ob_samples m _ _ _ _ _ r) as [[[c m1] r1]| |]; reflexivity.
Qed.

(** the same chains, each run alone in an empty heap *)
Fixpoint ob_canon_list (p : params) (ns nb : nat) (thn : thinning) (sp sa : bool) (n : nat) (X : matrix) (y : list R) (rs : list rng) : res (list (chain * data * model)) :=
  match n with
  | O => Ok []
  | S n' => match rs with
            | [] => NoDraws
            | r :: rs' => let! q := ob_chain_run p ns nb thn sp sa h_empty X y r in
                          let! l := ob_canon_list p ns nb thn sp sa n' X y rs' in Ok (q :: l)
            end
  end.
Definition ob_canon_fit (p : params) (ns nb : nat) (thn : thinning) (sp sa : bool) (n : nat) (X : matrix) (y : list R) (rs : list rng) : res (data * list (chain * data * model)) :=
  if (length (mx_rows X) =? 0)%nat || (mx_ncols X =? 0)%nat then Raise EValueError else
  let! d := convert_to_data X y in
  let! m := make_model h_empty d 1 p in
  let! l := ob_canon_list p ns nb thn sp sa n X y rs in
  match l with [] => Raise EIndexError | _ => Ok (d, l) end.

Section Fit.
Variable phi : nat -> fl -> fl.
Hypothesis phi_nan : forall v, phi v FNaN = FNaN.
Hypothesis phi_ninf : forall v, phi v FNInf = FNInf.
Hypothesis phi_pinf : forall v, phi v FPInf = FPInf.
Hypothesis phi_lt : forall v a b, flt (phi v a) (phi v b) = flt a b.
Hypothesis phi_eq : forall v a b, feqb (phi v a) (phi v b) = feqb a b.
Variable rho : option (R * R) -> option (R * R).
Hypothesis rho_none : rho None = None.
Variable sg : R.
Hypothesis sg_sq : sg * sg = 1.
Variables (X : matrix) (y y' : list R).
Hypothesis Hdata : convert_to_data (tX phi X) y' = rmap (tdt phi rho sg) (convert_to_data X y).

Lemma ob_chain_run_tr p ns nb thn sp sa dl g h r :
  ob_chain_run p ns nb thn sp sa (th phi rho sg 0 dl g h) (tX phi X) y' (trg sg r) = rmap (tcdm phi rho sg dl g) (ob_chain_run p ns nb thn sp sa h X y r).
Proof.
  unfold ob_chain_run. cbn [tX mx_rows mx_ncols]. rewrite map_length. destruct (_ || _); auto. fold (tX phi X). rewrite Hdata.
  destruct (convert_to_data X y) as [d| |]; cbn [rbind rmap]; auto. rewrite make_model_tr by (assumption || apply Nat.le_0_l).
  destruct (make_model h d 1 p) as [m| |]; cbn [rbind rmap]; auto. rewrite ob_samples_tr by (assumption || apply Nat.le_0_l).
  destruct (ob_samples m ns nb thn sp sa r) as [[[c m1] r1]| |]; reflexivity.
Qed.
Lemma ob_chain_run_canon p ns nb thn sp sa h r : heap_ok h ->
  ob_chain_run p ns nb thn sp sa h (tX phi X) y' (trg sg r) = rmap (tcdm phi rho sg (h_next h) (h_get h)) (ob_chain_run p ns nb thn sp sa h_empty X y r).
Proof. intros W. rewrite <- ob_chain_run_tr. now rewrite (th_empty phi rho sg). Qed.
Lemma ob_run_chain_canon s h r : heap_ok h -> ob_run_chain s h (tX phi X) y' (trg sg r) =
  rmap (fun q => let q' := tcdm phi rho sg (h_next h) (h_get h) q in (fst (fst q'), sk_set_model s (snd (fst q')) (snd q'), m_heap (snd q')))
       (ob_chain_run (sk_par s) (sk_nsamples s) (sk_nburn s) (sk_thin s) (sk_store_preds s) (sk_store_accept s) h_empty X y r).
Proof. intros W. rewrite ob_run_chain_eq, ob_chain_run_canon by auto. now destruct (ob_chain_run _ _ _ _ _ _ _ _ _ _). Qed.
Lemma ob_chain_run_data p ns nb thn sp sa h X0 y0 r c d m : ob_chain_run p ns nb thn sp sa h X0 y0 r = Ok (c, d, m) -> convert_to_data X0 y0 = Ok d.
Proof.
  unfold ob_chain_run. destruct (_ || _); [discriminate|]. destruct (convert_to_data X0 y0) as [d0| |]; try discriminate. cbn [rbind].
  destruct (make_model h d0 1 p) as [m0| |]; try discriminate. cbn [rbind]. destruct (ob_samples _ _ _ _ _ _ _) as [[[c1 m1] r1]| |]; try discriminate. cbn [rbind]. congruence.
Qed.

Definition ob_canon_s (s : sklearn) := ob_canon_list (sk_par s) (sk_nsamples s) (sk_nburn s) (sk_thin s) (sk_store_preds s) (sk_store_accept s).
Lemma ob_run_processes_canon s h : heap_ok h -> forall n rs,
  same_outcome (fun l es => Forall2 (chain_rel (sv sg) (tX phi)) (map ext_of l) es)
    (ob_canon_s s n X y rs) (ob_run_processes (repeat (s, h, tX phi X, y') n) (map (trg sg) rs)).
Proof.
  intros W. induction n as [|n IH]; intros rs; cbn [repeat ob_run_processes]; [simpl; constructor|]. unfold ob_canon_s in *. cbn [ob_canon_list].
  destruct rs as [|r rs]; [exact I|]. cbn [map]. rewrite ob_run_chain_canon by auto.
  destruct (ob_chain_run (sk_par s) _ _ _ _ _ h_empty X y r) as [[[c d] m]| |]; cbn [rbind rmap]; try exact I; [|reflexivity].
  specialize (IH rs). destruct (ob_canon_list _ _ _ _ _ _ n X y rs) as [l|e|], (ob_run_processes (repeat (s, h, tX phi X, y') n) (map (trg sg) rs)) as [es|e'|]; cbn [rbind]; simpl in IH |- *; auto.
  constructor; auto. apply (tcdm_rel phi phi_nan phi_lt phi_eq rho sg h (c, d, m)).
Qed.
Lemma ob_same_s s s' : settings s' = settings s -> ob_canon_s s' = ob_canon_s s.
Proof. intros E. apply settings_fields in E. destruct E as (->&_&->&->&->&->&->) || destruct E as (E1&E2&E3&E4&E5&E6&E7). unfold ob_canon_s. now rewrite E1, E3, E4, E5, E6, E7. Qed.
Lemma ob_run_here_canon : forall n s h rs, heap_ok h -> (forall d, convert_to_data X y = Ok d -> sk_data s = Some (tdt phi rho sg d)) ->
  same_outcome (fun l csh => Forall2 (chain_rel (sv sg) (tX phi)) (map ext_of l) (map (fun c => (snd csh, c)) (fst (fst csh))) /\
                             settings (snd (fst csh)) = settings s /\ (forall d, convert_to_data X y = Ok d -> sk_data (snd (fst csh)) = Some (tdt phi rho sg d)) /\
                             (h_next h <= h_next (snd csh))%nat /\ (forall j, (j < h_next h)%nat -> h_get (snd csh) j = h_get h j))
    (ob_canon_s s n X y rs) (ob_run_here n s h (tX phi X) y' (map (trg sg) rs)).
Proof.
  induction n as [|n IH]; intros s h rs W Hd; cbn [ob_run_here].
  - simpl. repeat split; auto.
  - unfold ob_canon_s. cbn [ob_canon_list]. destruct rs as [|r rs]; [exact I|]. cbn [map]. pose proof (ob_run_chain_canon s h r W) as E. rewrite E.
    destruct (ob_chain_run (sk_par s) _ _ _ _ _ h_empty X y r) as [[[c d] m]| |] eqn:Ec; cbn [rbind rmap] in *; try exact I; [|reflexivity].
    set (q' := tcdm phi rho sg (h_next h) (h_get h) (c, d, m)) in *. pose proof (ob_run_chain_grows _ _ _ _ _ _ _ _ E) as [[G1 G2] F].
    set (s1 := sk_set_model s (snd (fst q')) (snd q')) in *. assert (Hs : settings s1 = settings s) by reflexivity.
    assert (Hd1 : forall d0, convert_to_data X y = Ok d0 -> sk_data s1 = Some (tdt phi rho sg d0)).
    { intros d0 H0. apply ob_chain_run_data in Ec. rewrite Ec in H0. injection H0 as <-. reflexivity. }
    specialize (IH s1 (m_heap (snd q')) rs (G2 W) Hd1). rewrite (ob_same_s _ _ Hs) in IH. unfold ob_canon_s in IH.
    destruct (ob_canon_list _ _ _ _ _ _ n X y rs) as [l|e|], (ob_run_here n s1 (m_heap (snd q')) (tX phi X) y' (map (trg sg) rs)) as [[[cs s2] h2]|e'|]; cbn [rbind]; cbn [same_outcome fst snd map] in IH |- *; auto.
    destruct IH as (R1&R2&R3&R4&R5). assert (Fr : forall j, (j < h_next h)%nat -> h_get (m_heap (snd q')) j = h_get h j).
    { intros j Hj. unfold q', tcdm. cbn [snd]. unfold tmd. cbn [m_heap]. unfold th. cbn [h_get]. change (j <? 0)%nat with false. cbn [Nat.add]. cbn iota. destruct (Nat.ltb_spec j (h_next h)); auto. lia. }
    repeat split; auto; try congruence; try lia.
    + constructor; auto. apply (chain_rel_later _ _ _ (m_heap (snd q'))); auto. apply (tcdm_rel phi phi_nan phi_lt phi_eq rho sg h (c, d, m)).
    + intros j Hj. rewrite R5 by lia. auto.
Qed.

Definition ob_canon_fit_s (s : sklearn) := ob_canon_fit (sk_par s) (sk_nsamples s) (sk_nburn s) (sk_thin s) (sk_store_preds s) (sk_store_accept s) (sk_nchains s).
Lemma ob_fit_canon b s h rs : heap_ok h -> same_outcome (fit_rel phi rho sg s) (ob_canon_fit_s s X y rs) (ob_fit b s h (tX phi X) y' (map (trg sg) rs)).
Proof.
  pose proof ob_run_processes_canon as RPC. pose proof ob_run_here_canon as RHC. intros W. unfold ob_fit, ob_canon_fit_s, ob_canon_fit. rewrite construct_eq. cbn [tX mx_rows mx_ncols]. rewrite map_length. destruct (_ || _); [reflexivity|]. fold (tX phi X).
  rewrite Hdata. remember (convert_to_data X y) as cd eqn:Ed. destruct cd as [d| |]; symmetry in Ed; cbn [rbind rmap]; try exact I; [|reflexivity].
  assert (Em : make_model h (tdt phi rho sg d) 1 (sk_par s) = rmap (tmd phi rho sg 0 (h_next h) (h_get h)) (make_model h_empty d 1 (sk_par s))).
  { rewrite <- make_model_tr by (assumption || apply Nat.le_0_l). now rewrite (th_empty phi rho sg). }
  rewrite Em. destruct (make_model h_empty d 1 (sk_par s)) as [m| |]; cbn [rbind rmap] in Em |- *; try exact I; [|reflexivity].
  apply make_model_grows in Em. set (m' := tmd phi rho sg 0 (h_next h) (h_get h) m) in Em |- *. set (s1 := sk_set_model s (tdt phi rho sg d) m'). cbn [sk_model s1 sk_set_model sk_nchains].
  destruct Em as [_ W']. specialize (W' W).
  change (ob_canon_list (sk_par s) (sk_nsamples s) (sk_nburn s) (sk_thin s) (sk_store_preds s) (sk_store_accept s) (sk_nchains s) X y rs) with (ob_canon_s s1 (sk_nchains s) X y rs).
  destruct b.
  - pose proof (RPC s1 (m_heap m') W' (sk_nchains s) rs) as H. fold s1.
    destruct (ob_canon_s s1 (sk_nchains s) X y rs) as [l|e|], (ob_run_processes (repeat (s1, m_heap m', tX phi X, y') (sk_nchains s)) (map (trg sg) rs)) as [es|e'|]; cbn [rbind]; simpl in H; auto; try contradiction.
    unfold store_chains. destruct es as [|e0 es]; inversion H; destruct l; try discriminate; cbn [combine_chains rbind]; try reflexivity.
    cbn [same_outcome]. split; [reflexivity|]. split; [reflexivity|]. eexists. split; [exact H|]. repeat split.
  - pose proof (RHC (sk_nchains s) s1 (m_heap m') rs W') as H. assert (Hd : forall d0, @Ok data d = Ok d0 -> sk_data s1 = Some (tdt phi rho sg d0)) by (now intros d0 [= <-]).
    specialize (H Hd). fold s1.
    destruct (ob_canon_s s1 (sk_nchains s) X y rs) as [l|e|], (ob_run_here (sk_nchains s) s1 (m_heap m') (tX phi X) y' (map (trg sg) rs)) as [[[cs s2] h2]|e'|]; cbn [rbind]; simpl in H; auto; try contradiction.
    destruct H as (R1&R2&R3&_). unfold store_chains. remember (map (fun c : chain => (h2, c)) cs) as es.
    destruct es as [|e0 es]; inversion R1; destruct l; try discriminate; cbn [combine_chains rbind]; try reflexivity.
    cbn [same_outcome]. split; [exact R2|]. split; [cbn [sk_set_chains sk_data]; auto|]. eexists. split; [exact R1|]. repeat split.
Qed.
End Fit.

Section Follow.
Variable phi : nat -> fl -> fl.
Hypothesis phi_nan : forall v, phi v FNaN = FNaN.
Hypothesis phi_ninf : forall v, phi v FNInf = FNInf.
Hypothesis phi_pinf : forall v, phi v FPInf = FPInf.
Hypothesis phi_lt : forall v a b, flt (phi v a) (phi v b) = flt a b.
Hypothesis phi_eq : forall v a b, feqb (phi v a) (phi v b) = feqb a b.
Variable rho : option (R * R) -> option (R * R).
Hypothesis rho_none : rho None = None.
Variable sg : R.
Hypothesis sg_sq : sg * sg = 1.
Variables (X : matrix) (y y' : list R).
Hypothesis Hdata : convert_to_data (tX phi X) y' = rmap (tdt phi rho sg) (convert_to_data X y).
Variable f : R -> R.
Hypothesis Hunits : forall d v, convert_to_data X y = Ok d -> unnormalize_y (ttg rho sg (d_y d)) (map (sv sg) v) = rmap (map f) (unnormalize_y (d_y d) v).

Lemma ob_canon_data s d l rs : ob_canon_fit_s s X y rs = Ok (d, l) -> convert_to_data X y = Ok d.
Proof.
  unfold ob_canon_fit_s, ob_canon_fit. destruct (_ || _); [discriminate|]. destruct (convert_to_data X y) as [d0| |]; try discriminate. cbn [rbind].
  destruct (make_model _ _ _ _); try discriminate. cbn [rbind]. destruct (ob_canon_list _ _ _ _ _ _ _ _ _ _) as [[|q l0]| |]; try discriminate. cbn [rbind]. congruence.
Qed.
Lemma ob_canon_settings s s' : same_settings s s' -> ob_canon_fit_s s' = ob_canon_fit_s s.
Proof. intros (E1&E2&E3&E4&E5&E6&E7). unfold ob_canon_fit_s. now rewrite E1, E2, E3, E4, E5, E6, E7. Qed.
Lemma ob_fit_follow b b' s s' h h' rs : heap_ok h -> heap_ok h' -> same_settings s s' ->
  same_outcome (follows f (tX phi)) (ob_fit b s h X y rs) (ob_fit b' s' h' (tX phi X) y' (map (trg sg) rs)).
Proof.
  intros W W' Hs.
  pose proof (ob_fit_canon idc ltac:(auto) ltac:(auto) ltac:(auto) ltac:(auto) ltac:(auto) idr eq_refl 1 ltac:(ring) X y y (convert_id X y) b s h rs W) as L.
  pose proof (ob_fit_canon phi phi_nan phi_ninf phi_pinf phi_lt phi_eq rho rho_none sg sg_sq X y y' Hdata b' s' h' rs W') as Rt.
  rewrite (ob_canon_settings _ _ Hs) in Rt. rewrite trgs_1, tX_id in L.
  destruct (ob_canon_fit_s s X y rs) as [[d l]|e|] eqn:Ec; cbn [same_outcome] in L, Rt.
  - destruct (ob_fit b s h X y rs) as [s1| |]; try contradiction. destruct (ob_fit b' s' h' _ y' _) as [s1'| |]; try contradiction. cbn [same_outcome].
    apply ob_canon_data in Ec. destruct Hs as (_&_&_&_&_&Hp&_). apply (fit_rel_follows phi rho sg X y f Hunits s s' d l); auto.
  - destruct (ob_fit b s h X y rs) as [s1| |]; try contradiction. destruct (ob_fit b' s' h' _ y' _) as [s1'| |]; try contradiction. cbn [same_outcome]. congruence.
  - destruct (ob_fit b s h X y rs) as [s1| |]; try contradiction. destruct (ob_fit b' s' h' _ y' _) as [s1'| |]; try contradiction. exact I.
Qed.
End Follow.
