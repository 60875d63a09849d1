(** A sampling run that stores samples on the way makes the same steps as one that stores nothing: what it stores
    only moves the node objects made later to other addresses. *)
From Coq Require Import Reals Lra Lia ZArith FunctionalExtensionality.
From Verif Require Import Base Fl Ext MData MSplit MTree MSampler MModel MModelHist MSklearn Spec SpecTree SpecModel SpecInvariance SpecBook.
From Verif Require Import LList PHeap PClosed PRel PRel2 PRel3 PTree PModel PModel2 PModel7 PModel8 PModel12.

(** ** cached predictions *)
Definition warm (m : model) : Prop := forall t, In t (m_trees m) -> exists v, t = Tr (tr_nodes t) true (Some v).
Lemma predict_all_warm h : forall ts vs ts', predict_all h ts = Ok (vs, ts') -> forall t, In t ts' -> exists v, t = Tr (tr_nodes t) true (Some v).
Proof.
  induction ts as [|t ts IH]; intros vs ts'; cbn [predict_all]; [intros [= _ <-]; contradiction|].
  destruct (tree_predict h t) as [[v t1]| |] eqn:E; try discriminate. cbn [rbind].
  destruct (predict_all h ts) as [[vs1 ts1]| |] eqn:E1; try discriminate. cbn [rbind]. intros [= _ <-] t' [<-|H]; [|eapply IH; eauto].
  unfold tree_predict in E. destruct (if tr_fresh t then _ else _) as [[w|]| |]; try discriminate. cbn [rbind] in E. injection E as _ <-. simpl. eauto.
Qed.
Lemma predict_all_id h : forall ts, (forall t, In t ts -> exists v, t = Tr (tr_nodes t) true (Some v)) -> exists vs, predict_all h ts = Ok (vs, ts).
Proof.
  induction ts as [|t ts IH]; intros H; cbn [predict_all]; [eauto|]. destruct (H t (or_introl eq_refl)) as (v&E).
  unfold tree_predict. rewrite E. cbn [tr_fresh tr_pred tr_nodes rbind]. destruct IH as (vs&->); [intros t' Ht'; apply H; now right|]. cbn [rbind]. eauto.
Qed.
Lemma m_set_same m : m_set_trees m (m_heap m) (m_trees m) = m.
Proof. now destruct m. Qed.
Lemma model_predict_warm m v m' : model_predict m = Ok (v, m') -> warm m'.
Proof.
  unfold model_predict. destruct (predict_all (m_heap m) (m_trees m)) as [[vs ts]| |] eqn:E; try discriminate. cbn [rbind].
  destruct (vsum _ vs); try discriminate. cbn [rbind]. intros [= _ <-]. exact (predict_all_warm _ _ _ _ E).
Qed.
Lemma model_predict_id m v m' : warm m -> model_predict m = Ok (v, m') -> m' = m.
Proof.
  intros W. unfold model_predict. destruct (predict_all_id (m_heap m) _ W) as (vs&->). cbn [rbind]. destruct (vsum _ vs); try discriminate. cbn [rbind].
  intros [= _ <-]. apply m_set_same.
Qed.
Lemma sigma_step_warm m r m' r' : sigma_step m r = Ok (m', r') -> warm m'.
Proof.
  unfold sigma_step, residuals. destruct (data_values (m_data m)) as [y| |]; cbn [rbind]; try discriminate.
  destruct (model_predict m) as [[v m1]| |] eqn:E; cbn [rbind]; try discriminate. destruct (vop Rminus y v); cbn [rbind]; try discriminate.
  destruct (Req_EM_T _ _); try discriminate. destruct (Rlt_dec _ _); try discriminate. destruct (Rlt_dec _ _); try discriminate.
  destruct (rg_gamma r); try discriminate. destruct (sigma_value _); try discriminate. intros [= <- _]. exact (model_predict_warm _ _ _ E).
Qed.
Lemma gen_next_pc m fr pc y pc' fr' m' : pc <> GSigma -> gen_next m fr pc = Ok (y, pc', fr', m') ->
  (pc' = GSigma -> y = Some (KyNode, ThSigma)) /\ y <> None.
Proof.
  intros H. assert (T : forall m j, gen_tree m fr j = Ok (y, pc', fr', m') -> (pc' = GSigma -> y = Some (KyNode, ThSigma)) /\ y <> None).
  { intros m0 j. unfold gen_tree. destruct (_ <? _).
    - destruct (rt_open m0 j); try discriminate. cbn [rbind]. intros [= <- <- _ _]. split; discriminate.
    - intros [= <- <- _ _]. split; auto. discriminate. }
  assert (L : forall m j rest, gen_leaves m fr j rest = Ok (y, pc', fr', m') -> (pc' = GSigma -> y = Some (KyNode, ThSigma)) /\ y <> None).
  { intros m0 j [|i rest]; cbn [gen_leaves]; [|intros [= <- <- _ _]; split; discriminate]. destruct (rt_close m0 j); try discriminate. apply T. }
  destruct pc; cbn [gen_next]; eauto; [| |contradiction].
  - destruct (rt_start m); try discriminate. apply T.
  - destruct (nth_error (m_trees m) j); try discriminate. apply L.
Qed.
Lemma drive_warm : forall f m fr pc r log acts m' r', pc <> GSigma \/ warm m -> drive f m fr pc r = Ok (log, acts, m', r') -> warm m'.
Proof.
  induction f as [|f IH]; intros m fr pc r log acts m' r' Hw; cbn [drive]; [discriminate|].
  destruct (gen_next m fr pc) as [[[[y pc1] fr1] m1]| |] eqn:E; try discriminate. cbn [rbind].
  assert (Hp : pc = GSigma \/ pc <> GSigma) by (destruct pc; auto; right; discriminate). destruct Hp as [->|Hp].
  - cbn [gen_next] in E. injection E as <- <- <- <-. intros [= _ _ <- _]. destruct Hw as [Hw|Hw]; [now destruct Hw|auto].
  - destruct (gen_next_pc _ _ _ _ _ _ _ Hp E) as [Hs Hy]. destruct y as [[k th]|]; [|now destruct Hy].
    destruct (call m1 fr1 th r) as [[[[b a] m2] r1]| |] eqn:E2; try discriminate; cbn [rbind].
    destruct (drive f m2 fr1 pc1 r1) as [[[[log1 acts1] m3] r2]| |] eqn:E3; try discriminate; cbn [rbind]; intros [= _ _ <- _].
    refine (IH _ _ _ _ _ _ _ _ _ E3). destruct pc1; try (left; discriminate). right.
    specialize (Hs eq_refl). injection Hs as -> ->. cbn [call] in E2.
    destruct (sigma_step m1 r) as [[m4 r4]| |] eqn:E4; try discriminate; cbn [rbind] in E2. injection E2 as _ _ <- _. eapply sigma_step_warm; eauto.
Qed.
Lemma gibbs_warm m r d acts m' r' : gibbs_step m r = Ok (d, acts, m', r') -> warm m'.
Proof.
  unfold gibbs_step. destruct (drive _ _ _ _ _) as [[[[log acts1] m3] r2]| |] eqn:E; try discriminate. cbn [rbind]. intros [= _ _ <- _].
  eapply drive_warm; [|exact E]. left. discriminate.
Qed.

(** ** objects at other addresses *)
Notation mv n0 dl g := (tmd idc idr 1 n0 dl g).
Inductive moved (m : model) : model -> Prop :=
| moved_refl : moved m m
| moved_step m1 n0 dl g : moved m m1 -> n0 <= h_next (m_heap m1) -> moved m (mv n0 dl g m1).
Lemma moved_trans m1 m2 m3 : moved m1 m2 -> moved m2 m3 -> moved m1 m3.
Proof. intros H. induction 1; auto. now constructor. Qed.
Lemma so_trans {A B C} (P : A -> B -> Prop) (Q : B -> C -> Prop) (T : A -> C -> Prop) a b c :
  (forall x y z, P x y -> Q y z -> T x z) -> same_outcome P a b -> same_outcome Q b c -> same_outcome T a c.
Proof. intros H. destruct a, b; simpl; try contradiction; destruct c; simpl; try contradiction; eauto. congruence. Qed.
Lemma so_rmap {A B} (P : A -> B -> Prop) f (a : res A) : (forall x, P x (f x)) -> same_outcome P a (rmap f a).
Proof. intros H. destruct a; simpl; auto. Qed.
Lemma so_refl {A} (P : A -> A -> Prop) (a : res A) : (forall x, P x x) -> same_outcome P a a.
Proof. intros H. destruct a; simpl; auto. Qed.
Lemma mv_gibbs n0 dl g m r : n0 <= h_next (m_heap m) -> gibbs_step (mv n0 dl g m) r = rmap (tdrive idc idr 1 n0 dl g) (gibbs_step m r).
Proof.
  intros L. rewrite <- (trg_1 r) at 1. apply gibbs_step_tr; auto; try (intros; reflexivity). ring.
Qed.
Lemma moved_gibbs m m' r : moved m m' ->
  same_outcome (fun q q' => fst (fst (fst q')) = fst (fst (fst q)) /\ snd q' = snd q /\ moved (snd (fst q)) (snd (fst q'))) (gibbs_step m r) (gibbs_step m' r).
Proof.
  induction 1 as [|m1 n0 dl g H IH L].
  - apply so_refl. intros x. repeat split; auto. constructor.
  - rewrite mv_gibbs by auto. destruct (gibbs_step m1 r) as [[[[d a] m2] r2]| |] eqn:E1; cbn [rmap].
    + destruct (gibbs_step m r) as [[[[d0 a0] m0] r0]| |]; simpl in IH; try contradiction. simpl. destruct IH as (->&->&M).
      split; auto. split; [apply trg_1|]. constructor; auto. apply gibbs_grows in E1. destruct E1. lia.
    + destruct (gibbs_step m r); simpl in *; auto.
    + destruct (gibbs_step m r); simpl in *; auto.
Qed.
Lemma moved_sigma m m' : moved m m' -> m_sigma m' = m_sigma m.
Proof. induction 1; auto. Qed.
Lemma moved_out m m' X : moved m m' -> trees_predict_out (m_heap m') (m_trees m') X = trees_predict_out (m_heap m) (m_trees m) X.
Proof.
  induction 1 as [|m1 n0 dl g H IH L]; auto. rewrite <- IH. rewrite <- (tX_id X) at 1. etransitivity; [apply trees_predict_out_tr; try (intros; reflexivity); ring|].
  rewrite sv_1. apply rmap_id. intros. apply map_id.
Qed.
Lemma moved_predict m m' : moved m m' -> same_outcome (fun q q' => fst q' = fst q) (model_predict m) (model_predict m').
Proof.
  induction 1 as [|m1 n0 dl g H IH L]; [now apply so_refl|]. eapply so_trans; [|exact IH|].
  - intros a b c H1 H2. cbv beta in *. rewrite <- H1. exact H2.
  - rewrite model_predict_tr by (try (intros; reflexivity); ring). apply so_rmap. intros [v m2]. simpl. now rewrite sv_1, map_id.
Qed.
Lemma mv_view n0 dl g m : trees_view (m_heap (mv n0 dl g m)) (m_trees (mv n0 dl g m)) = trees_view (m_heap m) (m_trees m).
Proof.
  unfold trees_view. cbn [tmd m_heap m_trees]. unfold tmd. cbn [m_heap m_trees]. rewrite map_map. apply map_ext. intros t.
  unfold ttr. cbn [tr_nodes]. rewrite map_map. apply map_ext. intros i. unfold node_view. rewrite th_get.
  destruct (h_get (m_heap m) i) as [[k s d]|]; auto. cbn [option_map]. unfold tnd. cbn [nd_kind nd_split nd_depth]. do 3 f_equal.
  - assert (T : map (tsc idc 1) = fun l => l).
    { extensionality l. rewrite <- map_id. apply map_ext. intros [v x o ys n]. unfold tsc, idc. cbn [sc_var sc_val sc_op sc_ysum sc_n]. f_equal. rewrite sv_1. now destruct ys. }
    destruct s as [s|c]; unfold tns, tsp, tcc; cbn [nsplit_cc sp_cc cc_conds]; now rewrite T.
  - destruct k; simpl; auto. now rewrite sv_1.
Qed.
Lemma moved_view m m' : moved m m' -> trees_view (m_heap m') (m_trees m') = trees_view (m_heap m) (m_trees m).
Proof. induction 1 as [|m1 n0 dl g H IH L]; auto. now rewrite mv_view. Qed.
Lemma moved_ensemble m m' : moved m m' -> same_ensemble m m'.
Proof. intros H. split; [symmetry; now apply moved_sigma|]. split; [symmetry; now apply moved_view|]. intros X. symmetry. now apply moved_out. Qed.

(** ** storing a sample *)
Definition tidy (m : model) : Prop := heap_ok (m_heap m) /\ closed (m_heap m).
Lemma sv1_map v : map (sv 1) v = v.
Proof. rewrite sv_1. apply map_id. Qed.
Lemma tnd_id n0 dl n : (match nd_kind n with KLeaf _ => True | KDec l r => l < n0 /\ r < n0 end) -> tnd idc idr 1 n0 dl n = n.
Proof.
  intros B. destruct n as [k s d]. unfold tnd. cbn [nd_kind nd_split nd_depth] in *. f_equal.
  - destruct k as [v|l r]; simpl; [now rewrite sv_1|]. unfold ti. destruct (Nat.ltb_spec l n0), (Nat.ltb_spec r n0); auto; lia.
  - assert (C : forall c, tcc idc 1 c = c).
    { intros [vs cs]. unfold tcc. cbn [cc_vars cc_conds]. f_equal.
      - unfold tvars. rewrite <- map_id. apply map_ext. intros [v [a b]]. reflexivity.
      - rewrite <- map_id. apply map_ext. intros [v x o ys n]. unfold tsc, idc. cbn [sc_var sc_val sc_op sc_ysum sc_n]. f_equal. rewrite sv_1. now destruct ys. }
    destruct s as [[dt c]|c]; unfold tns, tsp; cbn [sp_data sp_cc]; now rewrite ?tdt_id, C.
Qed.
Lemma store_moved X y e m As s m' : minv X y None e m As -> tidy m -> deep_copy_model m = Ok (s, m') ->
  moved m m' /\ tidy m' /\ (exists As', minv X y None e m' As').
Proof.
  intros H [W C] E. destruct (deep_copy_model_spec _ _ _ _ _ _ H) as (s0&m0&E0&H'&_&_&Ep&Es&Et&_&_&_&_&Hg). rewrite E in E0. injection E0 as <- <-.
  assert (T' : tidy m' /\ h_next (m_heap m) <= h_next (m_heap m')).
  { split; [split|].
    - unfold deep_copy_model in E. destruct (copy_trees (m_heap m) (m_trees m)) as [[ts h]| |] eqn:Ec; try discriminate. cbn [rbind] in E. injection E as _ <-. simpl.
      apply copy_trees_grows in Ec. destruct Ec as [[_ G] _]. auto.
    - apply deep_copy_model_tight in E. apply E. exact C.
    - apply deep_copy_model_tight in E. apply E. }
  destruct T' as [T' L]. split; [|eauto].
  assert (Em : m' = mv (h_next (m_heap m)) (h_next (m_heap m') - h_next (m_heap m)) (h_get (m_heap m')) m).
  { assert (Eq : m' = Md (m_heap m') (m_trees m) (m_data m) (m_pred m) (m_sigma m) (m_par m)).
    { unfold deep_copy_model in E. destruct (copy_trees (m_heap m) (m_trees m)) as [[ts h]| |]; try discriminate. cbn [rbind] in E. injection E as _ <-. reflexivity. }
    rewrite Eq at 1. unfold tmd. f_equal.
    - destruct T' as [W' _]. destruct (m_heap m') as [n' g'] eqn:E'. unfold th. cbn [h_next h_get] in *. f_equal; [lia|]. extensionality j.
      destruct (Nat.ltb_spec j (h_next (m_heap m))) as [Hj|Hj].
      + rewrite Hg by auto. destruct (h_get (m_heap m) j) as [n|] eqn:En; auto. cbn [option_map]. f_equal. symmetry. apply tnd_id. exact (C _ _ En).
      + destruct (Nat.ltb_spec j (h_next (m_heap m) + (n' - h_next (m_heap m)))) as [Hj'|Hj']; auto.
        rewrite (W (j - (n' - h_next (m_heap m)))) by lia. apply (W' j). cbn [h_next]. lia.
    - rewrite <- (map_id (m_trees m)) at 1. apply map_ext_in. intros t Ht. destruct t as [ns f p] eqn:Ed. unfold ttr. cbn [tr_nodes tr_fresh tr_pred]. f_equal.
      + rewrite <- (map_id ns) at 1. apply map_ext_in. intros i Hi. destruct (minv_nodes _ _ _ _ _ _ t i H) as [B _]; subst; auto.
        unfold ti. destruct (Nat.ltb_spec i (h_next (m_heap m))); auto. lia.
      + destruct p; simpl; now rewrite ?sv1_map.
    - symmetry. apply tdt_id.
    - destruct (m_pred m); unfold ty; simpl; now rewrite ?sv1_map. }
  rewrite Em. constructor; [constructor|auto].
Qed.
Definition stores_of (os : list model_op) : Prop := os = [] \/ os = [GStore] \/ os = [GPredict; GStore].
Lemma stores_moved X y e m As os m' : no_nan X -> minv X y None e m As -> tidy m -> warm m -> stores_of os -> model_run m os = Ok m' ->
  moved m m' /\ tidy m' /\ (exists As', minv X y None e m' As').
Proof.
  intros Hn H T W [E|[E|E]]; subst os; cbn [model_run model_do].
  - intros [= <-]. split; [constructor|eauto].
  - destruct (deep_copy_model m) as [[s m1]| |] eqn:E; try discriminate. cbn [rbind]. intros [= <-]. eapply store_moved; eauto.
  - destruct (model_predict m) as [[v m1]| |] eqn:Ep; try discriminate. cbn [rbind]. apply model_predict_id in Ep; auto. subst m1.
    destruct (deep_copy_model m) as [[s m1]| |] eqn:E; try discriminate. cbn [rbind]. intros [= <-]. eapply store_moved; eauto.
Qed.
Lemma gibbs_tidy m r d acts m' r' : gibbs_step m r = Ok (d, acts, m', r') -> tidy m -> tidy m'.
Proof. intros E [W C]. pose proof (gibbs_grows _ _ _ _ _ _ E) as [_ G]. pose proof (gibbs_tight _ _ _ _ _ _ E) as [_ G']. split; auto. Qed.

(** ** the runs *)
Lemma sampling_moved X y e stores : no_nan X -> (forall i, stores_of (stores i)) -> forall i m' r l' m2' r', sampling stores i m' r l' m2' r' ->
  forall m As, moved m m' -> minv X y None e m' As -> tidy m' ->
  exists l m2, sampling (fun _ => []) i m r l m2 r' /\ moved m2 m2' /\ Forall2 (fun st st' => fst st' = fst st /\ moved (snd st) (snd st')) l l'.
Proof.
  intros Hn Hs. induction 1 as [i m' r|i m' r d acts m1' r1 m2' l' m3' r' Eg Er Hl IH]; intros m As M H T.
  - exists [], m. split; [constructor|]. split; auto.
  - pose proof (moved_gibbs m m' r M) as G. rewrite Eg in G. destruct (gibbs_step m r) as [[[[d0 acts0] m1] r0]| |] eqn:E0; simpl in G; try contradiction.
    destruct G as (<-&<-&M1). destruct (same_gibbs _ _ _ _ _ _ _ _ _ _ Hn H Eg) as (As1&H1&_). pose proof (gibbs_tidy _ _ _ _ _ _ Eg T) as T1.
    destruct (stores_moved _ _ _ _ _ _ _ Hn H1 T1 (gibbs_warm _ _ _ _ _ _ Eg) (Hs i) Er) as (M2&T2&As2&H2).
    destruct (IH m1 As2 (moved_trans _ _ _ M1 M2) H2 T2) as (l&m2&Hl2&Mf&F).
    exists ((d, m1) :: l), m2. split; [econstructor; eauto; reflexivity|]. split; auto.
Qed.
Lemma sampling_det : forall i m r l m2 r2, sampling (fun _ => []) i m r l m2 r2 -> forall l' m2' r2', sampling (fun _ => []) i m r l' m2' r2' ->
  length l' = length l -> l' = l /\ m2' = m2 /\ r2' = r2.
Proof.
  induction 1 as [i m r|i m r d acts m1 r1 m2 l m3 r3 Eg Er Hl IH]; intros l' m2' r2' H' Hlen; inversion H'; subst; try discriminate; auto.
  rewrite H in Eg. injection Eg as <- <- <- <-. simpl in Er, H0. injection Er as <-. injection H0 as <-.
  destruct (IH _ _ _ H1) as (->&->&->); [simpl in Hlen; lia|auto].
Qed.
Lemma loop_outcome X y e num den sp sa : no_nan X -> num <> 0%Z -> forall n ss m m' As r, moved m m' -> minv X y None e m' As -> tidy m' ->
  same_outcome (fun q q' => snd q' = snd q /\ moved (fst q) (snd (fst q'))) (burn n m r) (sample_loop ss n num den sp sa m' r).
Proof.
  intros Hn Hz. induction n as [|n IH]; intros ss m m' As r M H T; cbn [burn sample_loop]; [simpl; auto|].
  unfold sample_iter. pose proof (moved_gibbs m m' r M) as G.
  destruct (gibbs_step m r) as [[[[d acts] m1] r1]|ex|], (gibbs_step m' r) as [[[[d' acts'] m1'] r1']|ex'|] eqn:Eg; simpl in G; try contradiction; auto.
  cbn [rbind]. destruct G as (->&->&M1). rewrite (proj2 (Z.eqb_neq num 0) Hz). destruct (same_gibbs _ _ _ _ _ _ _ _ _ _ Hn H Eg) as (As1&H1&_).
  pose proof (gibbs_tidy _ _ _ _ _ _ Eg T) as T1. pose proof (gibbs_warm _ _ _ _ _ _ Eg) as W1.
  assert (K : exists c m3 As3, (if keeps_sample ss num den then
      let! (ps, m2) := (if sp then let! (v, m2) := model_predict m1' in Ok ([v], m2) else Ok ([], m1')) in
      let! (s, m3) := deep_copy_model m2 in Ok (Ch [s] (if sa then [d] else []) ps, m3, r1)
    else Ok (Ch [] [] [], m1', r1)) = Ok (c, m3, r1) /\ moved m1' m3 /\ tidy m3 /\ minv X y None e m3 As3).
  { destruct (keeps_sample ss num den); [|eexists _, m1', As1; split; [reflexivity|]; split; [constructor|auto]].
    destruct (deep_copy_model_spec _ _ _ _ _ _ H1) as (s&m3&Ec&_). destruct (store_moved _ _ _ _ _ _ _ H1 T1 Ec) as (M3&T3&As3&H3).
    destruct sp; cbn [rbind].
    - destruct (model_predict_spec _ _ _ _ _ Hn H1) as (v&m2&Ep&_). rewrite Ep. cbn [rbind]. apply model_predict_id in Ep; auto. subst m2.
      rewrite Ec. cbn [rbind]. eauto 8.
    - rewrite Ec. cbn [rbind]. eauto 8. }
  destruct K as (c&m3&As3&->&M3&T3&H3). cbn [rbind]. specialize (IH (S ss) m1 m3 As3 r1 (moved_trans _ _ _ M1 M3) H3 T3).
  destruct (burn n m1 r1) as [[mb rb]|eb|], (sample_loop (S ss) n num den sp sa m3 r1) as [[[c2 m4] r4]|el|]; simpl in *; auto.
Qed.
Lemma burn_app : forall a b m r, burn (a + b) m r = rbind (burn a m r) (fun q => burn b (fst q) (snd q)).
Proof.
  induction a as [|a IH]; intros b m r; auto. cbn [Nat.add burn]. destruct (gibbs_step m r) as [[[[d acts] m1] r1]| |]; cbn [rbind]; auto.
Qed.
Lemma burn_tidy : forall n m r m' r', burn n m r = Ok (m', r') -> tidy m -> tidy m'.
Proof.
  induction n as [|n IH]; intros m r m' r'; cbn [burn]; [now intros [= <- _]|]. destruct (gibbs_step m r) as [[[[d acts] m1] r1]| |] eqn:E; try discriminate.
  cbn [rbind]. intros E2 T. eapply IH; eauto. eapply gibbs_tidy; eauto.
Qed.
Lemma samples_outcome X y e num den sp sa n nb m As r : no_nan X -> num <> 0%Z -> minv X y None e m As -> tidy m ->
  same_outcome (fun q q' => snd q' = snd q /\ moved (fst q) (snd (fst q'))) (burn (nb + n) m r) (samples m n nb (TInv num den) sp sa r).
Proof.
  intros Hn Hz H T. rewrite burn_app. unfold samples. destruct (burn nb m r) as [[m1 r1]| |] eqn:E; cbn [rbind]; try (simpl; auto; fail).
  destruct (burn_same _ _ _ Hn _ _ _ _ _ _ H E) as (As1&H1&_). cbn [fst snd].
  eapply loop_outcome; eauto; [constructor|]. eapply burn_tidy; eauto.
Qed.
