(** Safety and liveness of Gibbs steps. *)
From Coq Require Import Reals Lra Permutation.
From Verif Require Import Base Fl Ext MData MSplit MTree MSampler MHist MTreeHist MModel MModelHist Spec SpecTree SpecSampler SpecModel LFl LList
  PData PSplit PDataProps PCond PTree PPred PTreeHist PTreeProps PTreeProps2 PSampler PSampler2 PSampler3
  PModel PModel2 PModel3 PModel4 PModel5 PModel6 PModel7 PModel8 PModel9 PModel10.

Definition well (p : params) : Prop := fair p /\ (0 < pa_siga p)%R /\ (0 < pa_sigb p)%R.
Definition pos_gamma (g : R -> R -> R) : Prop := forall a b, (0 < a)%R -> (0 < b)%R -> (0 < g a b)%R.
Definition fit_rng (r : rng) : Prop := Forall pos_gamma (rg_gamma r).
Lemma sigma_value_pos g s : sigma_value g = XFin s -> (0 < s)%R.
Proof.
  unfold sigma_value. destruct (rsign g) eqn:E; try discriminate. intros [= <-]. apply Rinv_0_lt_compat, sqrt_lt_R0.
  unfold rsign in E. destruct (Rlt_dec 0 g); auto. destruct (Rlt_dec g 0); discriminate.
Qed.
Lemma sigma_value_total g : (0 < g)%R -> exists s, sigma_value g = XFin s /\ (0 < s)%R.
Proof. intros H. unfold sigma_value. rewrite rsign_pos by auto. eexists. split; [reflexivity|]. apply Rinv_0_lt_compat, sqrt_lt_R0. auto. Qed.

(** positive sigma is kept by everything, whatever the draws *)
Lemma sigma_step_pos m r m' r' : sigma_step m r = Ok (m', r') -> (0 < m_sigma m')%R.
Proof.
  unfold sigma_step. destruct (residuals m) as [[e m1]| |]; try discriminate. cbn [rbind].
  destruct (Req_EM_T _ _); [discriminate|]. destruct (Rlt_dec _ _); [discriminate|]. destruct (Rlt_dec _ _); [discriminate|].
  destruct (rg_gamma r) as [|g gs]; [discriminate|]. destruct (sigma_value _) eqn:E; try discriminate.
  intros E'. injection E' as <- <-. simpl. eapply sigma_value_pos; eauto.
Qed.
Lemma call_sigma m fr th r b a m' r' : call m fr th r = Ok (b, a, m', r') -> (0 < m_sigma m)%R -> (0 < m_sigma m')%R.
Proof.
  intros E Hs. destruct th; simpl in E.
  - destruct (fr_tree fr) as [j|]; [|discriminate]. destruct (nth_error _ _) as [t|]; [|discriminate].
    destruct (tree_step _ _ _ _ _) as [[[[om h1] t1] r1]| |]; try discriminate. cbn [rbind] in E. injection E as <- <- <- <-. exact Hs.
  - destruct (fr_leaf fr) as [i|]; [|discriminate]. destruct (leaf_step _ _ _ _ _) as [[h1 r1]| |]; try discriminate.
    cbn [rbind] in E. injection E as <- <- <- <-. exact Hs.
  - destruct (sigma_step m r) as [[m1 r1]| |] eqn:E1; try discriminate. cbn [rbind] in E. injection E as <- <- <- <-.
    eapply sigma_step_pos; eauto.
Qed.

(** ** safety *)
Lemma call_safe X y e m fr pc As r : no_nan X -> ginv X y e m fr pc As -> pc <> GStart -> Forall (filled X []) As ->
  well (m_par m) -> (0 < m_sigma m)%R -> fit_rng r ->
  match call m fr (snd (yields pc)) r with
  | Ok (_, _, _, r') => fit_rng r'
  | Raise e => e = ERecursionError
  | NoDraws => True
  end.
Proof.
  intros Hn Hg Hpc Hf (Hp&Ha&Hb) Hs Hr. destruct pc as [|j|j rest|]; [congruence|..]; simpl in Hg; cbn [yields snd call].
  - destruct Hg as [H Hft]. rewrite Hft. destruct (mi_target _ _ _ _ _ _ H j eq_refl) as (t&a&ty&Et&Ea&Hi&_). rewrite Et.
    assert (Hfa : filled X [] a) by (eapply Forall_forall; [exact Hf|eapply nth_error_In; eauto]).
    pose proof (tree_step_safe _ _ _ _ _ (m_sigma m) (m_par m) r Hn Hi Hfa Hp Hs) as Hsafe.
    destruct (tree_step _ t _ _ r) as [[[[om h1] t1] r1]| |]; cbn [rbind]; auto. unfold fit_rng. now rewrite Hsafe.
  - destruct Hg as (H&Hft&t&i&Et&Hi&Hin&_). rewrite Hi. destruct (mi_target _ _ _ _ _ _ H j eq_refl) as (t'&a&ty&Et'&Ea&Hti&_).
    rewrite Et in Et'. injection Et' as <-.
    assert (Hfa : filled X [] a) by (eapply Forall_forall; [exact Hf|eapply nth_error_In; eauto]).
    pose proof (leaf_total _ _ _ _ _ i (m_sigma m) (m_par m) r Hti Hfa Hin Hp Hs) as Hl.
    destruct (rg_norm r) as [|z zs]; [rewrite Hl|destruct Hl as (w&->)]; cbn [rbind]; auto.
  - destruct Hg as [H _]. destruct (sigma_step_exact _ _ _ _ _ r Hn H Ha Hb) as (res&m1&_&_&_&_&_&_&_&->).
    destruct (rg_gamma r) as [|g gs] eqn:Eg; cbn [rbind]; auto. unfold fit_rng in Hr. rewrite Eg in Hr. inversion Hr; subst.
    edestruct (sigma_value_total) as (s&->&_); [|cbn [rbind]; exact H3].
    apply H2; [pose proof (pos_INR (length (mx_rows X))); lra|]. apply Rinv_0_lt_compat. pose proof (sq_sum_pos res). lra.
Qed.
Lemma drive_safe X y e : no_nan X -> forall fuel m fr pc As r, ginv X y e m fr pc As -> Forall (filled X []) As ->
  well (m_par m) -> (0 < m_sigma m)%R -> fit_rng r ->
  match drive fuel m fr pc r with
  | Ok (_, _, mf, rf) => (0 < m_sigma mf)%R /\ fit_rng rf
  | Raise e => e = ERecursionError
  | NoDraws => True
  end.
Proof.
  intros Hn. induction fuel as [|fuel IH]; intros m fr pc As r Hg Hf Hp Hs Hr; cbn [drive]; auto.
  destruct (pc_dec pc) as [->|Hpc]; [simpl; auto|].
  destruct (gen_next_spec _ _ _ _ _ _ _ Hn Hg Hpc) as (fr1&m1&->&Hfr&Hg1&Hsm1&Hlk1&Es1). cbn [rbind].
  assert (Hp1 : m_par m1 = m_par m) by apply Hsm1.
  pose proof (call_safe X y e m1 fr1 (pc_next m pc) As r Hn Hg1 (pc_next_started m pc Hpc) Hf ltac:(congruence) ltac:(congruence) Hr) as Hc.
  destruct (yields (pc_next m pc)) as [ky th] eqn:Ey.
  assert (Hth : th = snd (yields (pc_next m pc))) by now rewrite Ey. cbn [snd] in Hc.
  destruct (call m1 fr1 th r) as [[[[b a] m2] r1]| |] eqn:Ec; cbn [rbind]; auto.
  destruct (call_spec _ _ _ _ _ _ _ _ _ _ _ _ Hn Hg1 (pc_next_started m pc Hpc) ltac:(rewrite <- Hth; exact Ec)) as (As2&Hg2&Hsm2&Hfl2&_).
  assert (Hp2 : m_par m2 = m_par m) by (transitivity (m_par m1); [apply Hsm2|auto]).
  specialize (IH m2 fr1 (pc_next m pc) As2 r1 Hg2 (Hfl2 Hf) ltac:(congruence) ltac:(eapply call_sigma; [exact Ec|congruence]) Hc).
  destruct (drive fuel m2 fr1 (pc_next m pc) r1) as [[[[log2 acts2] m3] r2]| |]; cbn [rbind]; auto.
Qed.

(** ** liveness *)
Definition radd (r s : rng) : rng :=
  Rng (rg_method r ++ rg_method s) (rg_index r ++ rg_index s) (rg_unif r ++ rg_unif s) (rg_norm r ++ rg_norm s) (rg_gamma r ++ rg_gamma s).
Lemma radd_assoc a b c : radd (radd a b) c = radd a (radd b c).
Proof. unfold radd. simpl. now rewrite !app_assoc. Qed.
Definition rnil : rng := Rng [] [] [] [] [].
Lemma radd_nil s : radd rnil s = s.
Proof. destruct s; reflexivity. Qed.
Lemma radd_nil_r s : radd s rnil = s.
Proof. destruct s; unfold radd; simpl. now rewrite !app_nil_r. Qed.
Lemma tree_step_live h X y t a sigma p : no_nan X -> tree_inv h X (Some y) t a -> filled X [] a -> fair p -> (0 < sigma)%R ->
  offers X -> 0 < pa_limit p ->
  exists r0 om h1 t1, fit_rng r0 /\ forall s, tree_step h t sigma p (radd r0 s) = Ok (om, h1, t1, s).
Proof.
  intros Hn H Hf Hp Hs Ho Hl. destruct (pa_limit p) as [|lim] eqn:El; [lia|].
  assert (Hex : exists (b : bool) idx m h1, sampled h t m h1 /\
    forall rest, (if b then sample_grow_mutation h t (idx ++ rest) else sample_prune_mutation h t (idx ++ rest)) = Ok (m, h1, rest)).
  { destruct (move_exists _ _ _ _ _ Hn H Ho) as [Hm|Hm].
    - destruct (grow_exists _ _ _ _ _ Hn H Hm) as (idx&m&h1&E). exists true, idx, m, h1. split; auto. exists (idx ++ []), []. left. apply E.
    - destruct (prune_exists _ _ _ _ _ H Hm) as (idx&m&h1&E). exists false, idx, m, h1. split; auto. exists (idx ++ []), []. right. apply E. }
  destruct Hex as (b&idx&m&h1&Hsa&E).
  destruct (sampled_ratio _ _ _ _ _ _ _ sigma p Hn H Hf Hp Hs Hsa) as (L&EL).
  destruct (sampled_mutate _ _ _ _ _ _ _ Hn H Hsa) as (h2&t2&Em).
  exists (Rng [b] idx [(/ 2)%R] [] []), (if accepts (/ 2)%R L then Some m else None), (if accepts (/ 2)%R L then h2 else h1), (if accepts (/ 2)%R L then t2 else t).
  split; [constructor|]. intros s. unfold tree_step, tree_sample. rewrite El. cbn [propose]. unfold radd at 1. simpl rg_method. cbn iota.
  unfold radd. simpl rg_index. rewrite E. cbn [rbind]. rewrite EL. cbn [rbind].
  simpl rg_unif. cbn [rbind]. destruct (accepts _ L); [rewrite Em|]; destruct s; reflexivity.
Qed.
Lemma call_live X y e m fr pc As : no_nan X -> ginv X y e m fr pc As -> pc <> GStart -> Forall (filled X []) As ->
  well (m_par m) -> (0 < m_sigma m)%R -> offers X -> 0 < pa_limit (m_par m) ->
  exists r0 b a m', fit_rng r0 /\ forall s, call m fr (snd (yields pc)) (radd r0 s) = Ok (b, a, m', s).
Proof.
  intros Hn Hg Hpc Hf (Hp&Ha&Hb) Hs Ho Hl. destruct pc as [|j|j rest|]; [congruence|..]; simpl in Hg; cbn [yields snd call].
  - destruct Hg as [H Hft]. rewrite Hft. destruct (mi_target _ _ _ _ _ _ H j eq_refl) as (t&a&ty&Et&Ea&Hi&_). rewrite Et.
    assert (Hfa : filled X [] a) by (eapply Forall_forall; [exact Hf|eapply nth_error_In; eauto]).
    destruct (tree_step_live _ _ _ _ _ (m_sigma m) (m_par m) Hn Hi Hfa Hp Hs Ho Hl) as (r0&om&h1&t1&Hr0&E).
    exists r0. do 3 eexists. split; auto. intros s. rewrite E. cbn [rbind]. reflexivity.
  - destruct Hg as (H&Hft&t&i&Et&Hi&Hin&_). rewrite Hi. destruct (mi_target _ _ _ _ _ _ H j eq_refl) as (t'&a&ty&Et'&Ea&Hti&_).
    rewrite Et in Et'. injection Et' as <-.
    assert (Hfa : filled X [] a) by (eapply Forall_forall; [exact Hf|eapply nth_error_In; eauto]).
    assert (Hl0 : exists w, forall s, leaf_step (m_heap m) i (m_sigma m) (m_par m) (radd (Rng [] [] [] [0%R] []) s) = Ok (set_value (m_heap m) i w, s)).
    { pose proof (leaf_total _ _ _ _ _ i (m_sigma m) (m_par m) (Rng [] [] [] [0%R] []) Hti Hfa Hin Hp Hs) as (w&Ew). exists w. intros s.
      revert Ew. unfold leaf_step. destruct (node_n _ i) as [n| |]; try discriminate. cbn [rbind].
      destruct (node_sum _ i) as [q| |]; try discriminate. cbn [rbind]. simpl. destruct (leaf_sample _ _ _ _ _); try discriminate.
      intros E. injection E as E. rewrite E. f_equal. f_equal. destruct s; reflexivity. }
    destruct Hl0 as (w&Hl0). exists (Rng [] [] [] [0%R] []). do 3 eexists. split; [constructor|]. intros s. rewrite Hl0. cbn [rbind]. reflexivity.
  - destruct Hg as [H _].
    assert (Hs0 : exists m1, forall s, sigma_step m (radd (Rng [] [] [] [] [fun _ _ => 1%R]) s) = Ok (m1, s)).
    { destruct (sigma_step_exact _ _ _ _ _ (Rng [] [] [] [] [fun _ _ => 1%R]) Hn H Ha Hb) as (res&m1&_&_&_&_&_&_&_&E).
      destruct (sigma_value_total 1%R) as (sv&Ev&_); [lra|]. simpl in E. rewrite Ev in E.
      exists (m_set_sigma m1 sv). intros s. revert E. unfold sigma_step. destruct (residuals m) as [[rr m2]| |]; try discriminate. cbn [rbind].
      destruct (Req_EM_T _ _); [discriminate|]. destruct (Rlt_dec _ _); [discriminate|]. destruct (Rlt_dec _ _); [discriminate|].
      simpl. rewrite Ev. intros E'. assert (E2 : m_set_sigma m2 sv = m_set_sigma m1 sv) by congruence. rewrite E2. f_equal. f_equal. destruct s; reflexivity. }
    destruct Hs0 as (m1&Hs0). exists (Rng [] [] [] [] [fun _ _ => 1%R]). do 3 eexists. split; [constructor; [intros ? ? _ _; lra|constructor]|].
    intros s. rewrite Hs0. cbn [rbind]. reflexivity.
Qed.
Lemma drive_live X y e : no_nan X -> offers X -> forall fuel m fr pc As, ginv X y e m fr pc As -> Forall (filled X []) As ->
  well (m_par m) -> (0 < m_sigma m)%R -> 0 < pa_limit (m_par m) -> need m pc <= fuel ->
  exists r0 log acts mf, fit_rng r0 /\ forall s, drive fuel m fr pc (radd r0 s) = Ok (log, acts, mf, s).
Proof.
  intros Hn Ho. induction fuel as [|fuel IH]; intros m fr pc As Hg Hf Hp Hs Hl Hfu; [pose proof (need_pos m pc); lia|]. cbn [drive].
  destruct (pc_dec pc) as [->|Hpc].
  { exists rnil, [], [], m. split; [constructor|]. intros s. simpl. now rewrite radd_nil. }
  destruct (gen_next_spec _ _ _ _ _ _ _ Hn Hg Hpc) as (fr1&m1&Egn&Hfr&Hg1&Hsm1&Hlk1&Es1). rewrite Egn. cbn [rbind].
  assert (Hp1 : m_par m1 = m_par m) by apply Hsm1.
  destruct (call_live X y e m1 fr1 (pc_next m pc) As Hn Hg1 (pc_next_started m pc Hpc) Hf ltac:(congruence) ltac:(congruence) Ho ltac:(congruence))
    as (r0&b&a&m2&Hr0&Ec).
  destruct (yields (pc_next m pc)) as [ky th] eqn:Ey.
  assert (Hth : th = snd (yields (pc_next m pc))) by now rewrite Ey. cbn [snd] in Ec.
  destruct (call_spec X y e m1 fr1 (pc_next m pc) As (radd r0 rnil) b a m2 rnil Hn Hg1 (pc_next_started m pc Hpc) ltac:(rewrite <- Hth; apply Ec))
    as (As2&Hg2&Hsm2&Hfl2&_).
  assert (Hp2 : m_par m2 = m_par m) by (transitivity (m_par m1); [apply Hsm2|auto]).
  rewrite <- Ey in Egn. pose proof (need_dec _ _ _ _ _ _ _ _ _ _ _ _ _ _ _ Hn Hg Hpc Egn Hth (Ec rnil)) as Hdec.
  destruct (IH m2 fr1 (pc_next m pc) As2 Hg2 (Hfl2 Hf) ltac:(congruence) ltac:(eapply call_sigma; [apply (Ec rnil)|congruence]) ltac:(congruence) ltac:(lia))
    as (r1&log&acts&mf&Hr1&Ed).
  exists (radd r0 r1), (match trace_log ky b with Some b0 => (ky, b0) :: log | None => log end), (a :: acts), mf. split.
  - unfold fit_rng in *. simpl. now apply Forall_app.
  - intros s. rewrite radd_assoc, Ec. cbn [rbind]. rewrite Ed. reflexivity.
Qed.

(** the models the sampler reaches *)
Definition sampled_model (X : matrix) (y : list R) (p : params) (m : model) : Prop :=
  exists As e, minv X y None e m As /\ Forall (filled X []) As /\ m_par m = p /\ length (m_trees m) = pa_ntrees p /\ (0 < m_sigma m)%R.
Lemma model_do_sigma m o m' : sampler_op o -> model_do m o = Ok m' -> (0 < m_sigma m)%R -> (0 < m_sigma m')%R.
Proof.
  assert (Hsame : forall ts h, m_sigma (m_set_trees m h ts) = m_sigma m) by reflexivity.
  assert (Hgen : forall m fr pc q, gen_next m fr pc = Ok q -> m_sigma (snd q) = m_sigma m).
  { assert (Hpr : forall m v m1, model_predict m = Ok (v, m1) -> m_sigma m1 = m_sigma m).
    { intros m0 v m1. unfold model_predict. destruct (predict_all _ _) as [[vs ts]| |]; try discriminate. cbn [rbind].
      destruct (vsum _ _); try discriminate. cbn [rbind]. intros E; injection E as _ <-. reflexivity. }
    assert (Hst : forall m m1, rt_start m = Ok m1 -> m_sigma m1 = m_sigma m).
    { intros m0 m1. unfold rt_start. destruct (m_pred m0); [intros E; injection E as <-; auto|].
      destruct (model_predict m0) as [[v m2]| |] eqn:E; try discriminate. cbn [rbind]. intros E'; injection E' as <-. simpl. eapply Hpr; eauto. }
    assert (Hop : forall m j m1, rt_open m j = Ok m1 -> m_sigma m1 = m_sigma m).
    { intros m0 j m1. unfold rt_open. destruct (nth_error _ _); [|discriminate]. destruct (m_pred m0); [|discriminate].
      destruct (tree_predict _ _) as [[v t1]| |]; try discriminate. cbn [rbind]. destruct (vop _ _ _); try discriminate. cbn [rbind].
      destruct (data_values _); try discriminate. cbn [rbind]. destruct (vop _ _ _); try discriminate. cbn [rbind].
      destruct (tree_update_y _ _ _) as [[h1 t2]| |]; try discriminate. cbn [rbind]. intros E'; injection E' as <-. reflexivity. }
    assert (Hcl : forall m j m1, rt_close m j = Ok m1 -> m_sigma m1 = m_sigma m).
    { intros m0 j m1. unfold rt_close. destruct (nth_error _ _); [|discriminate]. destruct (m_pred m0); [|discriminate].
      destruct (tree_predict _ _) as [[v t1]| |]; try discriminate. cbn [rbind]. destruct (vop _ _ _); try discriminate. cbn [rbind].
      intros E'; injection E' as <-. reflexivity. }
    assert (Hgt : forall m fr j q, gen_tree m fr j = Ok q -> m_sigma (snd q) = m_sigma m).
    { intros m0 fr j q. unfold gen_tree. destruct (_ <? _)%nat.
      - destruct (rt_open m0 j) as [m1| |] eqn:E; try discriminate. cbn [rbind]. intros E'; injection E' as <-. simpl. eauto.
      - intros E'; injection E' as <-. reflexivity. }
    assert (Hgl : forall m fr j l q, gen_leaves m fr j l = Ok q -> m_sigma (snd q) = m_sigma m).
    { intros m0 fr j l q. unfold gen_leaves. destruct l as [|i l].
      - destruct (rt_close m0 j) as [m1| |] eqn:E; try discriminate. cbn [rbind]. intros E'. rewrite (Hgt _ _ _ _ E'). eauto.
      - intros E'; injection E' as <-. reflexivity. }
    intros m0 fr pc q. unfold gen_next. destruct pc as [|j|j l|].
    - destruct (rt_start m0) as [m1| |] eqn:E; try discriminate. cbn [rbind]. intros E'. rewrite (Hgt _ _ _ _ E'). eauto.
    - destruct (nth_error _ _); try discriminate. apply Hgl.
    - apply Hgl.
    - intros E'; injection E' as <-. reflexivity. }
  intros Ho. destruct o as [r|acts| | |n b r|acts os]; simpl in Ho; try tauto; cbn [model_do].
  - unfold gibbs_step. generalize (drive_fuel m), (Fr None None), GStart. intros f fr pc.
    destruct (drive f m fr pc r) as [[[[log acts] m1] r1]| |] eqn:Ed; try discriminate. cbn [rbind]. intros E; injection E as <-.
    clear Hsame. revert m fr pc r log acts m1 r1 Ed. induction f as [|f IH]; intros m fr pc r log acts m1 r1 Ed; [discriminate|]. cbn [drive] in Ed.
    destruct (gen_next m fr pc) as [[[[yy pc1] fr1] m2]| |] eqn:Eg; try discriminate. cbn [rbind] in Ed. apply Hgen in Eg. simpl in Eg.
    destruct yy as [[k th]|]; [|injection Ed as <- <- <- <-; congruence].
    destruct (call m2 fr1 th r) as [[[[b a] m3] r2]| |] eqn:Ec; try discriminate. cbn [rbind] in Ed.
    destruct (drive f m3 fr1 pc1 r2) as [[[[l2 a2] m4] r3]| |] eqn:Ed2; try discriminate. cbn [rbind] in Ed.
    injection Ed as <- <- <- <-. intros Hs. eapply IH; [exact Ed2|]. eapply call_sigma; [exact Ec|congruence].
  - unfold model_predict. destruct (predict_all _ _) as [[vs ts]| |]; try discriminate. cbn [rbind].
    destruct (vsum _ _); try discriminate. cbn [rbind]. intros E; injection E as <-. auto.
  - unfold deep_copy_model. destruct (copy_trees _ _) as [[ts h]| |]; try discriminate. cbn [rbind]. intros E; injection E as <-. auto.
  - unfold half_step. generalize (Fr None None), GStart. intros fr pc.
    destruct (drive_for n m fr pc r) as [[[[m1 fr1] pc1] r1]| |] eqn:Ed; try discriminate. cbn [rbind].
    assert (Hd : (0 < m_sigma m -> 0 < m_sigma m1)%R).
    { clear Hsame. revert m fr pc r m1 fr1 pc1 r1 Ed. induction n as [|n IH]; intros m fr pc r m1 fr1 pc1 r1 Ed; cbn [drive_for] in Ed.
      - injection Ed as <- <- <- <-. auto.
      - destruct (gen_next m fr pc) as [[[[yy pc2] fr2] m2]| |] eqn:Eg; try discriminate. cbn [rbind] in Ed. apply Hgen in Eg. simpl in Eg.
        destruct yy as [[k th]|]; [|injection Ed as <- <- <- <-; congruence].
        destruct (call m2 fr2 th r) as [[[[b0 a] m3] r2]| |] eqn:Ec; try discriminate. cbn [rbind] in Ed.
        intros Hs. eapply IH; [exact Ed|]. eapply call_sigma; [exact Ec|congruence]. }
    destruct b.
    + destruct (gen_next m1 fr1 pc1) as [[[[yy pc2] fr2] m2]| |] eqn:Eg; try discriminate. cbn [rbind]. intros E; injection E as <-.
      apply Hgen in Eg. simpl in Eg. rewrite Eg. auto.
    + intros E; injection E as <-. auto.
Qed.
Lemma sampled_model_do X y p m o m' : no_nan X -> sampled_model X y p m -> sampler_op o -> model_do m o = Ok m' -> sampled_model X y p m'.
Proof.
  intros Hn (As&e&H&Hf&Hp&Hl&Hs) Ho Hd. assert (Hsn : sane_model_op (length (m_trees m)) o) by (destruct o; simpl in Ho |- *; tauto).
  destruct (model_do_spec _ _ _ _ _ _ _ Hn H Hsn Hd) as (As'&e'&H'&Hsm&_&Hf'). destruct Hsm as (L&_&P&_).
  exists As', e'. split; auto. split; auto. split; [congruence|]. split; [congruence|]. eapply model_do_sigma; eauto.
Qed.
Lemma sampled_model_run X y p : no_nan X -> forall os m m', sampled_model X y p m -> Forall sampler_op os -> model_run m os = Ok m' -> sampled_model X y p m'.
Proof.
  intros Hn. induction os as [|o os IH]; intros m m' H Ho; cbn [model_run].
  - intros E; injection E as <-. auto.
  - inversion Ho; subst. destruct (model_do m o) as [m1| |] eqn:Ed; try discriminate. cbn [rbind]. apply IH; auto. eapply sampled_model_do; eauto.
Qed.
Lemma sampled_model_start X y nrm h0 sigma p m : length y = length (mx_rows X) -> mx_rows X <> [] -> (0 < sigma)%R ->
  start_model X y nrm h0 sigma p = Ok m -> sampled_model X (start_target y nrm) p m.
Proof.
  intros Hl Hx Hs Hm. destruct (start_model_spec _ _ _ _ _ _ _ Hl Hm) as (H0&Ht&_&_&Hsg&Hp&_).
  eexists. eexists. split; [exact H0|]. split; [|split; [auto|split; [rewrite Ht, map_length, seq_length; auto|congruence]]].
  apply Forall_forall. intros a Ha. apply in_map_iff in Ha as (q&<-&_). simpl.
  destruct (mx_rows X) as [|r rs]; [congruence|]. exists r. split; simpl; auto.
Qed.
Lemma sampled_model_reached X y nrm h0 sigma p os m : no_nan X -> mx_rows X <> [] -> (0 < sigma)%R -> Forall sampler_op os ->
  model_reached X y nrm h0 sigma p os m -> sampled_model X (start_target y nrm) p m.
Proof.
  intros Hn Hx Hs Ho (Hl&_&m0&Hm0&Hr). eapply sampled_model_run; eauto. eapply sampled_model_start; eauto.
Qed.
Lemma gibbs_safe X y p m r : no_nan X -> sampled_model X y p m -> well p -> fit_rng r ->
  match gibbs_step m r with
  | Ok (_, _, m', r') => sampled_model X y p m' /\ fit_rng r'
  | Raise e => e = ERecursionError
  | NoDraws => True
  end.
Proof.
  intros Hn Hm Hp Hr. pose proof Hm as (As&e&H&Hf&Ep&Hl&Hs).
  pose proof (drive_safe X y e Hn (drive_fuel m) m (Fr None None) GStart As r H Hf ltac:(congruence) Hs Hr) as Hd.
  destruct (gibbs_step m r) as [[[[d acts] m1] r1]|er|] eqn:Eg; auto.
  - split; [eapply (sampled_model_do X y p m (GStep r)); eauto; [exact I|cbn [model_do]; rewrite Eg; reflexivity]|].
    unfold gibbs_step in Eg. destruct (drive _ _ _ _ _) as [[[[log acts'] m2] r2]| |]; try discriminate. cbn [rbind] in Eg.
    injection Eg as _ _ _ <-. tauto.
  - unfold gibbs_step in Eg. destruct (drive _ _ _ _ _) as [[[[log acts'] m2] r2]| |]; try discriminate. cbn [rbind] in Eg. congruence.
Qed.
Lemma gibbs_live X y p m : no_nan X -> sampled_model X y p m -> well p -> offers X -> 0 < pa_limit p ->
  exists r0 d acts m', fit_rng r0 /\ forall s, gibbs_step m (radd r0 s) = Ok (d, acts, m', s).
Proof.
  intros Hn (As&e&H&Hf&Ep&Hl&Hs) Hp Ho Hlim.
  destruct (drive_live X y e Hn Ho (drive_fuel m) m (Fr None None) GStart As H Hf ltac:(congruence) Hs ltac:(congruence) (le_n _)) as (r0&log&acts&mf&Hr0&E).
  exists r0, (step_dict log), acts, mf. split; auto. intros s. unfold gibbs_step. rewrite E. reflexivity.
Qed.
