(** Property C98: see /verif/properties.jsonl. *)
From Coq Require Import Reals Lra Lia QArith Qcanon.
From Verif Require Import Base Fl Ext MData MSplit MTree MSampler MModel MModelHist MSklearn MFeatures Spec SpecModel SpecSklearn SpecFeatures SpecInvariance SpecImportance SpecSelect.
From Verif Require Import PRel PRel2 PRel3 PInvar PSklearn PSelect Properties_Model Properties_Model2 Properties_Sklearn Properties_Invariance Properties_Features3 Properties_Importance.
Local Open Scope R_scope.

Lemma draws_up b rs : 0 < b -> draws_for b rs = map (trg 1) rs.
Proof. intros H. unfold draws_for. destruct (Rlt_dec b 0); [lra|]. now rewrite trgs_1. Qed.
Lemma draws_dn b rs : b < 0 -> draws_for b rs = map (trg (-1)) rs.
Proof. intros H. unfold draws_for. destruct (Rlt_dec b 0); [|lra]. apply mirrored_trg. Qed.
Lemma data_up psi a b X y : 0 < b -> convert_to_data (tX (recode_cell psi) X) (affine a b y) = rmap (tdt (recode_cell psi) (rho_up a b) 1) (convert_to_data X y).
Proof. intros Hb. apply convert_tr; [apply map_length|]. now apply target_up. Qed.
Lemma data_dn psi a b X y : b < 0 -> convert_to_data (tX (recode_cell psi) X) (affine a b y) = rmap (tdt (recode_cell psi) (rho_dn a b) (-1)) (convert_to_data X y).
Proof. intros Hb. apply convert_tr; [apply map_length|]. now apply target_dn. Qed.
Lemma permuted_affine a b p y : row_numbers (length y) p -> permuted p (affine a b y) = affine a b (permuted p y).
Proof.
  intros H. unfold permuted, affine. rewrite map_map. apply map_ext_in. intros i Hi. apply H in Hi.
  rewrite (nth_indep _ 0 (a + b * 0)) by now rewrite map_length. apply (map_nth (fun v => a + b * v)).
Qed.

(** ** C98 *)
(** Which features SelectSplitProportionThreshold keeps, and the proportions it decides by, do not depend on the
    units of the target or on how the covariates are coded, as long as their order is kept. *)
Theorem C98_split_selection : forall psi a b bk t h h' X y rs, strictly_increasing psi -> b <> 0 -> heap_ok h -> heap_ok h' ->
  same_outcome (fun u u' => select_split_mask u' = select_split_mask u /\ ss_proportions u' = ss_proportions u)
    (select_split_fit bk t h X y rs) (select_split_fit bk t h' (recode psi X) (affine a b y) (draws_for b rs)).
Proof.
  intros psi a b bk t h h' X y rs Hp Hb W W'. rewrite recode_tX. destruct (Rlt_dec b 0) as [L|L].
  - rewrite draws_dn by auto.
    apply (select_split_rel (recode_cell psi) ltac:(auto) ltac:(auto) ltac:(auto) (recode_lt psi Hp) (recode_eq psi Hp) (rho_dn a b) eq_refl (-1) ltac:(ring) (affine a b)
      (fun X y => data_dn psi a b X y L) bk bk t t h h' X y rs W W' eq_refl eq_refl).
  - assert (G : 0 < b) by lra. rewrite draws_up by auto.
    apply (select_split_rel (recode_cell psi) ltac:(auto) ltac:(auto) ltac:(auto) (recode_lt psi Hp) (recode_eq psi Hp) (rho_up a b) eq_refl 1 ltac:(ring) (affine a b)
      (fun X y => data_up psi a b X y G) bk bk t t h h' X y rs W W' eq_refl eq_refl).
Qed.
Print Assumptions C98_split_selection.
(** The same for SelectNullDistributionThreshold: the null distributions, the thresholds, the proportions and the
    mask, whatever permutations of the target were drawn. *)
Theorem C98_null_selection : forall psi a b bk t h h' X y rs perms rs', strictly_increasing psi -> b <> 0 -> heap_ok h -> heap_ok h' ->
  (forall p, In p perms -> row_numbers (length y) p) ->
  same_outcome (fun u u' => select_null_mask u' = select_null_mask u /\ sn_null u' = sn_null u /\
                            sn_thresholds u' = sn_thresholds u /\ sn_proportions u' = sn_proportions u)
    (select_null_fit bk t h X y rs perms rs') (select_null_fit bk t h' (recode psi X) (affine a b y) (draws_for b rs) perms (draws_for b rs')).
Proof.
  intros psi a b bk t h h' X y rs perms rs' Hp Hb W W' Hr. rewrite recode_tX. destruct (Rlt_dec b 0) as [L|L].
  - rewrite !draws_dn by auto.
    apply (select_null_rel (recode_cell psi) ltac:(auto) ltac:(auto) ltac:(auto) (recode_lt psi Hp) (recode_eq psi Hp) (rho_dn a b) eq_refl (-1) ltac:(ring) (affine a b)
      (fun X y => data_dn psi a b X y L)); auto. intros p Hin. apply permuted_affine. auto.
  - assert (G : 0 < b) by lra. rewrite !draws_up by auto.
    apply (select_null_rel (recode_cell psi) ltac:(auto) ltac:(auto) ltac:(auto) (recode_lt psi Hp) (recode_eq psi Hp) (rho_up a b) eq_refl 1 ltac:(ring) (affine a b)
      (fun X y => data_up psi a b X y G)); auto. intros p Hin. apply permuted_affine. auto.
Qed.
Print Assumptions C98_null_selection.
(** feature_importance of an estimator that was fitted before: every error it reports, for the original data and for
    the permuted column, is multiplied by the absolute value of the scale, so all comparisons come out the same. *)
Theorem C98_importance : forall psi a b bk s0 h0 h0' X0 y0 rs0 s s' h h' X y v folds folds' rs, strictly_increasing psi -> b <> 0 ->
  heap_ok h0 -> heap_ok h0' -> heap_ok h -> heap_ok h' ->
  fit bk s0 h0 X0 y0 rs0 = Ok s -> fit bk s0 h0' (recode psi X0) (affine a b y0) (draws_for b rs0) = Ok s' ->
  same_outcome (fun q q' => fst q' = (map (Rmult (Rabs b)) (fst (fst q)), map (Rmult (Rabs b)) (snd (fst q))))
    (feature_importance bk s h X y v folds folds' rs)
    (feature_importance bk s' h' (recode psi X) (affine a b y) v (map (fun f => (fst f, draws_for b (snd f))) folds) folds' (draws_for b rs)).
Proof.
  intros psi a b bk s0 h0 h0' X0 y0 rs0 s s' h h' X y v folds folds' rs Hp Hb W0 W0' W W' E E'. rewrite recode_tX in *. destruct (Rlt_dec b 0) as [L|L].
  - rewrite draws_dn in * by auto.
    pose proof (fit_est (recode_cell psi) ltac:(auto) ltac:(auto) ltac:(auto) (recode_lt psi Hp) (recode_eq psi Hp) (rho_dn a b) eq_refl (-1) ltac:(ring) (affine a b)
      (fun X y => data_dn psi a b X y L) bk bk s0 s0 h0 h0' X0 y0 rs0 W0 W0' eq_refl) as F. rewrite E, E' in F. cbn [same_outcome] in F.
    pose proof (importance_rel (recode_cell psi) ltac:(auto) ltac:(auto) ltac:(auto) (recode_lt psi Hp) (recode_eq psi Hp) (rho_dn a b) eq_refl (-1) ltac:(ring) (affine a b)
      (fun X y => data_dn psi a b X y L) a b ltac:(auto) (units_dn a b) bk bk s s' h h' X y v folds folds' rs W W' F) as G.
    replace (map (fun f => (fst f, draws_for b (snd f))) folds) with (map (fun f => (fst f, map (trg (-1)) (snd f))) folds) by (apply map_ext; intros f; now rewrite draws_dn).
    eapply so_impl; [|exact G]. intros q q' [K _]. exact K.
  - assert (P : 0 < b) by lra. rewrite draws_up in * by auto.
    pose proof (fit_est (recode_cell psi) ltac:(auto) ltac:(auto) ltac:(auto) (recode_lt psi Hp) (recode_eq psi Hp) (rho_up a b) eq_refl 1 ltac:(ring) (affine a b)
      (fun X y => data_up psi a b X y P) bk bk s0 s0 h0 h0' X0 y0 rs0 W0 W0' eq_refl) as F. rewrite E, E' in F. cbn [same_outcome] in F.
    pose proof (importance_rel (recode_cell psi) ltac:(auto) ltac:(auto) ltac:(auto) (recode_lt psi Hp) (recode_eq psi Hp) (rho_up a b) eq_refl 1 ltac:(ring) (affine a b)
      (fun X y => data_up psi a b X y P) a b ltac:(auto) (units_up a b) bk bk s s' h h' X y v folds folds' rs W W' F) as G.
    replace (map (fun f => (fst f, draws_for b (snd f))) folds) with (map (fun f => (fst f, map (trg 1) (snd f))) folds) by (apply map_ext; intros f; now rewrite draws_up).
    eapply so_impl; [|exact G]. intros q q' [K _]. exact K.
Qed.
Print Assumptions C98_importance.

Definition cubed : nat -> Qc -> Qc := fun _ q => (q * q * q + 1)%Qc.
Lemma cubed_ok : strictly_increasing cubed.
Proof. exact cube_up. Qed.
(** three rows: the selection for the target upside down (1 - 2*y) and the covariate cubed returns the same mask; an
    estimator fitted to these rows then reports errors for six other rows that are twice as big *)
Example C98_case : forall bk, 
  (exists t rs rs' u u', make_select_null ex_sk (95 / 100) MethodLocal None = Ok t /\
     select_null_fit bk t ex_empty mx_X mx_y rs [[0; 1; 2]; [2; 0; 1]]%nat rs' = Ok u /\
     select_null_fit bk t ex_empty (recode cubed mx_X) (affine 1 (-2) mx_y) (map mirrored rs) [[0; 1; 2]; [2; 0; 1]]%nat (map mirrored rs') = Ok u' /\
     select_null_mask u' = select_null_mask u /\ exists mask, select_null_mask u = Ok mask) /\
  (exists rs0 s s' folds folds' rs es ns s1 s1', fit bk ex_sk ex_empty mx_X mx_y rs0 = Ok s /\
     fit bk ex_sk ex_empty (recode cubed mx_X) (affine 1 (-2) mx_y) (map mirrored rs0) = Ok s' /\
     feature_importance bk s ex_empty imp_X imp_y 0 folds folds' rs = Ok (es, ns, s1) /\ length es = 2%nat /\ length ns = 20%nat /\
     feature_importance bk s' ex_empty (recode cubed imp_X) (affine 1 (-2) imp_y) 0 (map (fun f => (fst f, map mirrored (snd f))) folds) folds' (map mirrored rs) =
       Ok (map (Rmult 2) es, map (Rmult 2) ns, s1')).
Proof.
  intros bk. assert (D : forall rs, draws_for (-2) rs = map mirrored rs) by (intros rs; unfold draws_for; destruct (Rlt_dec (-2) 0); [auto|lra]). split.
  - destruct (C71_case bk) as (t&rs&rs'&u&mask&Et&Eu&Em&_).
    pose proof (C98_null_selection cubed 1 (-2) bk t ex_empty ex_empty mx_X mx_y rs [[0; 1; 2]; [2; 0; 1]]%nat rs' cubed_ok ltac:(lra) ex_heap_ok ex_heap_ok) as H.
    rewrite Eu, !D in H. destruct (select_null_fit bk t ex_empty (recode cubed mx_X) _ _ _ _) as [u'| |] eqn:E'; cbn [same_outcome] in H.
    + exists t, rs, rs', u, u'. repeat split; auto; [|eauto]. apply H. intros p [<-|[<-|[]]] i Hi; simpl in *; lia.
    + exfalso. apply H. intros p [<-|[<-|[]]] i Hi; simpl in *; lia.
    + exfalso. apply H. intros p [<-|[<-|[]]] i Hi; simpl in *; lia.
  - destruct (C90_case bk) as (rs0&s&folds&folds'&rs&es&ns&s1&Es&_&_&Ei&L1&L2).
    pose proof (fit_est (recode_cell cubed) ltac:(auto) ltac:(auto) ltac:(auto) (recode_lt cubed cubed_ok) (recode_eq cubed cubed_ok) (rho_dn 1 (-2)) eq_refl (-1) ltac:(ring) (affine 1 (-2))
      (fun X y => data_dn cubed 1 (-2) X y ltac:(lra)) bk bk ex_sk ex_sk ex_empty ex_empty mx_X mx_y rs0 ex_heap_ok ex_heap_ok eq_refl) as F.
    rewrite <- mirrored_trg, Es in F. destruct (fit bk ex_sk ex_empty (tX (recode_cell cubed) mx_X) _ _) as [s'| |] eqn:E'; try contradiction.
    pose proof (C98_importance cubed 1 (-2) bk ex_sk ex_empty ex_empty mx_X mx_y rs0 s s' ex_empty ex_empty imp_X imp_y 0 folds folds' rs cubed_ok ltac:(lra) ex_heap_ok ex_heap_ok ex_heap_ok ex_heap_ok Es) as H.
    rewrite !D in H. specialize (H E'). rewrite Ei in H.
    replace (map (fun f => (fst f, draws_for (-2) (snd f))) folds) with (map (fun f => (fst f, map mirrored (snd f))) folds) in H by (apply map_ext; intros f; now rewrite D).
    destruct (feature_importance bk s' ex_empty (recode cubed imp_X) _ _ _ _ _) as [[[es' ns'] s1']| |] eqn:Eq; try contradiction. cbn [same_outcome fst snd] in H.
    replace (Rabs (-2)) with 2 in H by (unfold Rabs; destruct (Rcase_abs (-2)); lra). injection H as -> ->.
    exists rs0, s, s', folds, folds', rs, es, ns, s1, s1'. auto 10.
Qed.
