(** Two fits that differ by a change of representation: what the fitted objects predict. *)
From Coq Require Import Reals Lra QArith Qcanon FunctionalExtensionality.
From Verif Require Import Base Fl Ext MData MSplit MTree MSampler MModel MModelHist MSklearn MFeatures MDiag SpecModel SpecInvariance LFl LList PHeap PRel PRel2 PModel7 PSklearn.
Local Open Scope R_scope.

(** ** the identity *)
Lemma imap_id {A} (f : nat -> A -> A) l : (forall i x, f i x = x) -> imap f l = l.
Proof. intros H. apply imap_ext_list. intros i. rewrite imap_nth_error. destruct (nth_error l i); simpl; now rewrite ?H. Qed.
Definition idc : nat -> fl -> fl := fun _ x => x.
Lemma tX_id X : tX idc X = X.
Proof. destruct X as [n rows]. unfold tX. simpl. f_equal. rewrite <- map_id. apply map_ext. intros r. now apply imap_id. Qed.
Lemma sv_1 : sv 1 = fun x => x.
Proof. extensionality x. unfold sv. ring. Qed.
Lemma trg_1 r : trg 1 r = r.
Proof. destruct r. unfold trg. simpl. now rewrite sv_1, map_id. Qed.
Lemma trgs_1 rs : map (trg 1) rs = rs.
Proof. rewrite <- map_id. apply map_ext. apply trg_1. Qed.
Definition idr : option (R * R) -> option (R * R) := fun x => x.
Lemma tdt_id d : tdt idc idr 1 d = d.
Proof.
  destruct d as [[X m n u s mx] [y m' f sm rg]]. unfold tdt, tcm, ttg. simpl. rewrite tX_id, sv_1. f_equal.
  - f_equal. apply imap_id. now intros i [x|].
  - f_equal; [destruct y; simpl; auto; now rewrite map_id|now destruct sm].
Qed.
Lemma rmap_id {A} (f : A -> A) m : (forall a, f a = a) -> rmap f m = m.
Proof. intros H. destruct m; simpl; auto. now rewrite H. Qed.
Lemma convert_id X y : convert_to_data (tX idc X) y = rmap (tdt idc idr 1) (convert_to_data X y).
Proof. rewrite tX_id, (rmap_id _ _ tdt_id). reflexivity. Qed.

(** ** predictions *)
Fixpoint seqr {A} (l : list (res A)) : res (list A) :=
  match l with [] => Ok [] | m :: l' => let! a := m in let! s := seqr l' in Ok (a :: s) end.
Lemma seqr_map {A B} (f : A -> B) l : seqr (map (rmap f) l) = rmap (map f) (seqr l).
Proof. induction l as [|m l IH]; simpl; auto. rewrite IH. destruct m as [a| |]; simpl; auto. now destruct (seqr l). Qed.
Lemma predict_samples_seq X : forall ss, predict_samples ss X = seqr (map (fun hs => sample_predict (fst hs) (snd hs) X) ss).
Proof. induction ss as [|[h s] ss IH]; simpl; auto. now rewrite IH. Qed.
Definition all_of (es : list extract) : list stored_sample := flat_map (fun e : extract => map (fun sm => (fst e, sm)) (ch_models (snd e))) es.
Lemma predict_samples_rel f tx es es' X : Forall2 (chain_rel f tx) es es' ->
  predict_samples (all_of es') (tx X) = rmap (map (map f)) (predict_samples (all_of es) X).
Proof.
  intros H. rewrite !predict_samples_seq, <- seqr_map. f_equal. rewrite map_map. induction H as [|e e' es es' (A&_) _ IH]; auto.
  unfold all_of in *. cbn [flat_map]. rewrite !map_app, !map_map. cbn [fst snd]. f_equal; auto.
Qed.
Lemma sample_variables_seq : forall ss, sample_variables ss = rmap (@concat _) (seqr (map (fun hs => tree_variables (fst hs) (sm_trees (snd hs))) ss)).
Proof. induction ss as [|[h s] ss IH]; auto. cbn [sample_variables map seqr fst snd]. rewrite IH. destruct (tree_variables h (sm_trees s)); cbn [rbind rmap]; auto. now destruct (seqr _). Qed.
Lemma sample_variables_rel f tx es es' : Forall2 (chain_rel f tx) es es' -> sample_variables (all_of es') = sample_variables (all_of es).
Proof.
  intros H. rewrite !sample_variables_seq. do 2 f_equal. induction H as [|e e' es es' (_&_&_&_&V&_) _ IH]; auto.
  unfold all_of in *. cbn [flat_map]. rewrite !map_app, !map_map. cbn [fst snd]. f_equal; auto.
Qed.
Lemma depth_summaries_seq : forall ss, depth_summaries ss = seqr (map (fun ds => rbind ds summary) (map (fun hs => model_depths (fst hs) (sm_trees (snd hs))) ss)).
Proof. induction ss as [|[h s] ss IH]; auto. cbn [depth_summaries map seqr fst snd]. rewrite IH. now destruct (model_depths h (sm_trees s)). Qed.
Lemma depth_summaries_rel f tx es es' : Forall2 (chain_rel f tx) es es' -> depth_summaries (all_of es') = depth_summaries (all_of es).
Proof.
  intros H. rewrite !depth_summaries_seq. do 2 f_equal. induction H as [|e e' es es' (_&_&_&_&_&V) _ IH]; auto.
  unfold all_of in *. cbn [flat_map]. rewrite !map_app, !map_map. cbn [fst snd]. f_equal; auto.
Qed.
Lemma vmean_tr sg vs : vmean (map (map (sv sg)) vs) = rmap (map (sv sg)) (vmean vs).
Proof.
  destruct vs as [|v vs]; auto. unfold vmean. cbn [map]. change (map (sv sg) v :: map (map (sv sg)) vs) with (map (map (sv sg)) (v :: vs)).
  rewrite vsum_tr, !map_length. destruct (vsum (length v) (v :: vs)) as [s| |]; cbn [rbind rmap]; auto. f_equal. rewrite !map_map. apply map_ext. intros x. unfold sv, Rdiv. ring.
Qed.
Lemma same_outcome_rmap {A B} (f : A -> B) m : same_outcome (fun v v' => v' = f v) m (rmap f m).
Proof. destruct m; simpl; auto. Qed.
Lemma forall2_common {A B C} (P : A -> B -> Prop) (Q : A -> C -> Prop) (S : B -> C -> Prop) l : (forall a b c, P a b -> Q a c -> S b c) ->
  forall lb lc, Forall2 P l lb -> Forall2 Q l lc -> Forall2 S lb lc.
Proof.
  intros H. induction l as [|a l IH]; intros lb lc F1 F2; inversion F1; inversion F2; subst; constructor; eauto.
Qed.

Section Follow.
Variable phi : nat -> fl -> fl.
Hypothesis phi_nan : forall v, phi v FNaN = FNaN.
Hypothesis phi_ninf : forall v, phi v FNInf = FNInf.
Hypothesis phi_pinf : forall v, phi v FPInf = FPInf.
Hypothesis phi_lt : forall v a b, flt (phi v a) (phi v b) = flt a b.
Hypothesis phi_eq : forall v a b, feqb (phi v a) (phi v b) = feqb a b.
Variable rho : option (R * R) -> option (R * R).
Hypothesis rho_none : rho None = None.
Variable sg : R.
Hypothesis sg_sq : sg * sg = 1.
Variables (X : matrix) (y y' : list R).
Hypothesis Hdata : convert_to_data (tX phi X) y' = rmap (tdt phi rho sg) (convert_to_data X y).
Variable f : R -> R.
Hypothesis Hunits : forall d v, convert_to_data X y = Ok d -> unnormalize_y (ttg rho sg (d_y d)) (map (sv sg) v) = rmap (map f) (unnormalize_y (d_y d) v).

Lemma follow_units d m : convert_to_data X y = Ok d ->
  rbind (rmap (map (sv sg)) m) (unnormalize_y (ttg rho sg (d_y d))) = rmap (map f) (rbind m (unnormalize_y (d_y d))).
Proof. intros E. destruct m as [v| |]; cbn [rmap rbind]; auto. Qed.
Lemma canon_data s d l rs : canon_fit_s s X y rs = Ok (d, l) -> convert_to_data X y = Ok d.
Proof.
  unfold canon_fit_s, canon_fit. destruct (_ || _); [discriminate|]. destruct (convert_to_data X y) as [d0| |]; try discriminate. cbn [rbind].
  destruct (make_model _ _ _ _); try discriminate. cbn [rbind]. destruct (canon_list _ _ _ _ _ _ _ _ _ _) as [[|q l0]| |]; try discriminate. cbn [rbind]. congruence.
Qed.
Lemma fit_rel_follows s s' d l s1 s1' : convert_to_data X y = Ok d -> sk_store_preds s' = sk_store_preds s ->
  fit_rel idc idr 1 s (d, l) s1 -> fit_rel phi rho sg s' (d, l) s1' -> follows f (tX phi) s1 s1'.
Proof.
  intros Ed Hp (S1&D1&es1&F1&M1&P1&A1) (S2&D2&es2&F2&M2&P2&A2). cbn [fst snd] in *. rewrite tdt_id in D1.
  assert (F : Forall2 (chain_rel (sv sg) (tX phi)) es1 es2).
  { eapply forall2_common; [|exact F1|exact F2]. intros e e1 e2. rewrite sv_1. intros R1 R2. eapply chain_rel_both; eauto.
    destruct R1 as (Q1&Q2). split; auto. intros X0. rewrite <- (Q1 X0). now rewrite tX_id. }
  apply settings_fields in S1, S2. destruct S1 as (_&_&_&_&_&E1&_), S2 as (_&_&_&_&_&E2&_).
  split; [|split; [|split; [|split; [|split]]]].
  - unfold sk_predict. rewrite E1, E2, Hp. destruct (sk_store_preds s); [|simpl; reflexivity]. rewrite D1, D2, P1, P2.
    replace (flat_map (fun e : extract => ch_preds (snd e)) es2) with (map (map (sv sg)) (flat_map (fun e : extract => ch_preds (snd e)) es1)).
    + rewrite vmean_tr. change (d_y (tdt phi rho sg d)) with (ttg rho sg (d_y d)). rewrite follow_units by auto. apply same_outcome_rmap.
    + clear - F. induction F as [|e e' es es' (_&_&C&_) _ IH]; auto. cbn [flat_map]. rewrite map_app, C, IH. reflexivity.
  - intros X0. unfold sk_predict, out_of_sample_predict. rewrite D1, D2, M1, M2. fold (all_of es1). fold (all_of es2).
    rewrite (predict_samples_rel _ _ _ _ X0 F). destruct (predict_samples (all_of es1) X0) as [vs| |]; cbn [rmap rbind]; try exact I; try reflexivity.
    rewrite vmean_tr. change (d_y (tdt phi rho sg d)) with (ttg rho sg (d_y d)). rewrite follow_units by auto. apply same_outcome_rmap.
  - rewrite A1, A2. f_equal. clear - F. induction F as [|e e' es es' (_&B&_) _ IH]; auto. cbn [flat_map]. now rewrite B, IH.
  - rewrite M1, M2. cbn [option_map]. f_equal. clear - F. induction F as [|e e' es es' (_&_&_&D&_) _ IH]; auto. cbn [flat_map]. rewrite !map_app, !map_map. cbn [snd]. f_equal; [exact D|exact IH].
  - unfold plot_tree_depth. rewrite M1, M2. exact (depth_summaries_rel _ _ _ _ F).
  - intros columns. unfold feature_split_proportions. rewrite M1, M2. fold (all_of es1). fold (all_of es2). now rewrite (sample_variables_rel _ _ _ _ F).
Qed.
Lemma canon_settings s s' : same_settings s s' -> canon_fit_s s' = canon_fit_s s.
Proof. intros (E1&E2&E3&E4&E5&E6&E7). unfold canon_fit_s. now rewrite E1, E2, E3, E4, E5, E6, E7. Qed.
Lemma fit_follow b b' s s' h h' rs : heap_ok h -> heap_ok h' -> same_settings s s' ->
  same_outcome (follows f (tX phi)) (fit b s h X y rs) (fit b' s' h' (tX phi X) y' (map (trg sg) rs)).
Proof.
  intros W W' Hs.
  pose proof (fit_canon idc ltac:(auto) ltac:(auto) ltac:(auto) ltac:(auto) ltac:(auto) idr eq_refl 1 ltac:(ring) X y y (convert_id X y) b s h rs W) as L.
  pose proof (fit_canon phi phi_nan phi_ninf phi_pinf phi_lt phi_eq rho rho_none sg sg_sq X y y' Hdata b' s' h' rs W') as Rt.
  rewrite (canon_settings _ _ Hs) in Rt. rewrite trgs_1, tX_id in L.
  destruct (canon_fit_s s X y rs) as [[d l]|e|] eqn:Ec; cbn [same_outcome] in L, Rt.
  - destruct (fit b s h X y rs) as [s1| |]; try contradiction. destruct (fit b' s' h' _ y' _) as [s1'| |]; try contradiction. cbn [same_outcome].
    apply canon_data in Ec. destruct Hs as (_&_&_&_&_&Hp&_). apply (fit_rel_follows s s' d l); auto.
  - destruct (fit b s h X y rs) as [s1| |]; try contradiction. destruct (fit b' s' h' _ y' _) as [s1'| |]; try contradiction. cbn [same_outcome]. congruence.
  - destruct (fit b s h X y rs) as [s1| |]; try contradiction. destruct (fit b' s' h' _ y' _) as [s1'| |]; try contradiction. exact I.
Qed.
End Follow.
