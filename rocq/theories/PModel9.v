(** Invariants of models: drift and targets. *)
From Coq Require Import Reals Lra Permutation.
From Verif Require Import Base Fl Ext MData MSplit MTree MSampler MHist MTreeHist MModel MModelHist Spec SpecTree SpecSampler SpecModel LFl LList
  PData PSplit PDataProps PCond PTree PPred PTreeHist PTreeProps PTreeProps2 PSampler PSampler2 PSampler3
  PModel PModel2 PModel3 PModel4 PModel5 PModel6 PModel7 PModel8.

Lemma minv_drift X y e m As : minv X y None e m As -> drift m X e.
Proof.
  intros H. unfold drift. destruct (m_pred m) as [pr|] eqn:Ep.
  - destruct (mi_pred _ _ _ _ _ _ H pr Ep) as [L N]. split; auto. intros vs Hv i Hi.
    rewrite (trees_say_unique _ _ _ _ _ _ _ H Hv), total_col, N by auto. simpl. lra.
  - intros i _. apply (mi_none _ _ _ _ _ _ H Ep).
Qed.
Lemma drift_minv X y e m As d : minv X y None e m As -> drift m X d -> forall i, i < length (mx_rows X) -> d i = e i.
Proof.
  intros H Hd i Hi. unfold drift in Hd. destruct (m_pred m) as [pr|] eqn:Ep.
  - destruct (mi_pred _ _ _ _ _ _ H pr Ep) as [L N]. destruct Hd as [_ Hd]. specialize (Hd _ (trees_say_inv _ _ _ _ _ _ H) i Hi).
    rewrite total_col, N in Hd by auto. simpl in Hd. lra.
  - rewrite Hd by auto. symmetry. apply (mi_none _ _ _ _ _ _ H Ep).
Qed.
Lemma drift_ext m X d d' : (forall i, i < length (mx_rows X) -> d' i = d i) -> drift m X d -> drift m X d'.
Proof.
  intros E. unfold drift. destruct (m_pred m).
  - intros [L H]. split; auto. intros vs Hv i Hi. rewrite E by auto. auto.
  - intros H i Hi. rewrite E by auto. auto.
Qed.
Lemma minv_target X y e m As j : minv X y (Some j) e m As -> fits_residual m X y j e.
Proof.
  intros H. destruct (mi_target _ _ _ _ _ _ H j eq_refl) as (t&a&ty&Et&Ha&Hi&L&N). exists t, ty. split; auto. split; [|split; auto].
  - intros q Hq. apply (ti_in _ _ _ _ _ _ Hi) in Hq.
    destruct (ti_node _ _ _ _ [] 0 q (ti_ok _ _ _ _ _ Hi) Hq) as (k&s&d&cs&Eg&Hsv).
    exists s. unfold node_split. rewrite Eg. split; auto. apply (si_t _ _ _ _ Hsv).
  - intros vs Hv i Hi0. rewrite (trees_say_unique _ _ _ _ _ _ _ H Hv).
    assert (Hj : j < length As) by (apply nth_error_Some; congruence). rewrite others_col by auto.
    destruct (m_pred m) as [pr|] eqn:Ep; [|destruct (mi_none _ _ _ _ _ _ H Ep); discriminate].
    destruct (mi_pred _ _ _ _ _ _ H pr Ep) as [L' N']. rewrite (N pr), N' by auto. simpl. lra.
Qed.
Lemma minv_abandon_drift X y e m As j : minv X y (Some j) e m As ->
  forall vs, trees_say m X vs -> drift m X (fun i => e i + nth i (nth j vs []) 0)%R.
Proof.
  intros H vs Hv. pose proof (minv_drift _ _ _ _ _ (minv_abandon _ _ _ _ _ _ H)) as Hd.
  eapply drift_ext; [|exact Hd]. intros i Hi. simpl. rewrite (trees_say_unique _ _ _ _ _ _ _ H Hv), nth_vs_col; auto.
  apply (ms_op _ _ _ _ _ _ (mi_st _ _ _ _ _ _ H)). reflexivity.
Qed.
Lemma fits_ext m X y j d d' : (forall i, i < length (mx_rows X) -> d' i = d i) -> fits_residual m X y j d -> fits_residual m X y j d'.
Proof.
  intros E (t&tg&H1&H2&H3&H4). exists t, tg. split; auto. split; auto. split; auto. intros vs Hv i Hi. rewrite E by auto. auto.
Qed.

(** ** the sigma step, exactly *)
Lemma sq_sum_pos l : (0 <= rsum (map (fun x => x * x) l))%R.
Proof. unfold rsum. induction l as [|x l IH]; simpl; [lra|]. pose proof (Rle_0_sqr x). unfold Rsqr in *. lra. Qed.
Lemma sigma_step_exact X y e m As r : no_nan X -> minv X y None e m As ->
  let a := pa_siga (m_par m) in let b := pa_sigb (m_par m) in
  (0 < a)%R -> (0 < b)%R ->
  exists res m1, length res = length (mx_rows X) /\
    (forall i, i < length (mx_rows X) -> nth i res 0%R = (nth i y 0 - rsum (col (m_heap m) X As i))%R) /\
    m_trees m1 = map2 (cached (m_heap m) X) (m_trees m) As /\ m_heap m1 = m_heap m /\ m_pred m1 = m_pred m /\ m_data m1 = m_data m /\ m_par m1 = m_par m /\
    let shape := (a + INR (length (mx_rows X)) / 2)%R in
    let rate := (b + / 2 * rsum (map (fun x => x * x) res))%R in
    sigma_step m r = match rg_gamma r with
      | [] => NoDraws
      | g :: gs => match sigma_value (g shape (/ rate)%R) with XFin s => Ok (m_set_sigma m1 s, rng_set_gamma r gs) | _ => Raise XNonFinite end
      end.
Proof.
  intros Hn H a b Ha Hb. unfold sigma_step, residuals, data_values. rewrite (mi_y _ _ _ _ _ _ H). cbn [rbind].
  destruct (model_predict_spec _ _ _ _ _ Hn H) as (v&m1&->&Lv&Nv&H1&Hsm&Hlk&E1&E2&E3&E4). cbn [rbind].
  destruct (vop_sum Rminus y v _ (mi_ylen _ _ _ _ _ _ H) Lv) as (d&->&Ld&Nd). cbn [rbind].
  exists d, m1. split; auto. split; [intros i Hi; rewrite Nd, Nv; auto|]. destruct Hsm as (_&D&P&_).
  split; auto. split; auto. split; auto. split; auto. split; auto.
  cbv zeta. rewrite (mi_n _ _ _ _ _ _ H), <- INR_IZR_INZ. fold a. fold b.
  pose proof (sq_sum_pos d) as Hsq.
  destruct (Req_EM_T _ 0) as [E|_]; [exfalso; lra|].
  destruct (Rlt_dec _ 0) as [E|_]; [exfalso; pose proof (pos_INR (length (mx_rows X))); lra|].
  destruct (Rlt_dec _ 0) as [E|_]; [exfalso|reflexivity].
  assert (0 < / (b + / 2 * rsum (map (fun x => x * x) d)))%R by (apply Rinv_0_lt_compat; lra). lra.
Qed.
