(** Predictions of fitted SklearnModel objects. *)
From Coq Require Import Reals Lra Permutation ZArith.
From Verif Require Import Base Fl Ext MData MSplit MTree MSampler MHist MTreeHist MModel MModelHist MSklearn Spec SpecTree SpecSampler SpecModel SpecSklearn LFl LList
  PData PSplit PDataProps PCond PTree PPred PTreeHist PTreeProps PTreeProps2 PSampler PSampler2 PSampler3
  PModel PModel2 PModel3 PModel4 PModel5 PModel6 PModel7 PModel8 PModel9 PModel10 PModel11 PModel12 PSklearn.
Local Open Scope R_scope.

(** ** the target in original units *)
Lemma two_values (y : list R) : y <> [] -> (exists a b, In a y /\ In b y /\ a <> b) \/ (exists k, forall v, In v y -> v = k).
Proof.
  induction y as [|x y IH]; [congruence|]. intros _. destruct y as [|z y].
  - right. exists x. intros v [<-|[]]. auto.
  - destruct IH as [(a&b&Ha&Hb&Hab)|(k&Hk)]; [discriminate|left; exists a, b; simpl in *; tauto|].
    destruct (Req_EM_T x k) as [->|Hx].
    + right. exists k. intros v [<-|H]; auto.
    + left. exists x, z. assert (z = k) by (apply Hk; simpl; auto). subst. simpl. auto.
Qed.
Lemma finite_nan (A : Type) (l : list A) : l <> [] -> finite_vec (map (fun _ => XNaN) l) = None.
Proof. destruct l; simpl; congruence. Qed.
Lemma target_spec y mask t : make_target y mask true None = Ok t ->
  exists lo hi ny, range_of y lo hi /\ lo < hi /\ lo = vmin y /\ hi = vmax y /\ t_range t = Some (lo, hi) /\ t_y t = Some ny /\ unnormalize_with lo hi ny = y /\ length ny = length y.
Proof.
  intros Ht. assert (Hy : y <> []) by (destruct y; [discriminate|congruence]).
  destruct (two_values y Hy) as [(a&b&Ha&Hb&Hab)|(k&Hk)].
  - destruct (normalised_range y mask a b Ha Hb Hab) as (t'&ny&lo&hi&Ht'&Hny&Hlen&Hlo&Hhi&Hr&_&_&_&_&Hu&_&Hn).
    rewrite Ht in Ht'. injection Ht' as <-. unfold make_target in Ht. destruct y as [|y0 y1]; [congruence|].
    destruct (finite_vec _) as [ny'|] eqn:Ef; [|discriminate]. injection Ht as <-. simpl in Hny. injection Hny as ->.
    unfold normalizing_scale in Hn. unfold unnormalize_y in Hu. cbn [t_range] in *. injection Hn as Hn. injection Hu as Hu.
    set (y := y0 :: y1) in *.
    assert (Hv : forall l, l <> [] -> In (vmin l) l /\ In (vmax l) l /\ forall v, In v l -> vmin l <= v <= vmax l).
    { clear. intros [|x l] Hl; [congruence|]. simpl. clear Hl. 
      assert (G : forall l a, (In (fold_left Rmin l a) l \/ fold_left Rmin l a = a) /\ fold_left Rmin l a <= a /\ (forall v, In v l -> fold_left Rmin l a <= v)).
      { induction l0 as [|b l0 IH]; intros a; simpl; [split; [auto|split; [lra|tauto]]|].
        destruct (IH (Rmin a b)) as (I1&I2&I3). pose proof (Rmin_l a b). pose proof (Rmin_r a b). split; [|split; [lra|intros v [<-|Hv]; [lra|auto]]].
        destruct I1 as [I1|I1]; auto. destruct (Rle_dec a b); [right; rewrite I1; now apply Rmin_left|left; left; rewrite I1; rewrite Rmin_right; lra]. }
      assert (G' : forall l a, (In (fold_left Rmax l a) l \/ fold_left Rmax l a = a) /\ a <= fold_left Rmax l a /\ (forall v, In v l -> v <= fold_left Rmax l a)).
      { induction l0 as [|b l0 IH]; intros a; simpl; [split; [auto|split; [lra|tauto]]|].
        destruct (IH (Rmax a b)) as (I1&I2&I3). pose proof (Rmax_l a b). pose proof (Rmax_r a b). split; [|split; [lra|intros v [<-|Hv]; [lra|auto]]].
        destruct I1 as [I1|I1]; auto. destruct (Rle_dec a b); [left; left; rewrite I1; now rewrite Rmax_right|right; rewrite I1; rewrite Rmax_left; lra]. }
      destruct (G l x) as (A1&A2&A3). destruct (G' l x) as (B1&B2&B3). split; [destruct A1; auto|]. split; [destruct B1; auto|].
      intros v [<-|Hv]; auto. }
    destruct (Hv y Hy) as (V1&V2&V3). exists (vmin y), (vmax y), ny. split; [split; auto|].
    assert (vmin y < vmax y). { pose proof (V3 a Ha). pose proof (V3 b Hb). destruct (Req_dec (vmin y) (vmax y)); [lra|]. lra. }
    split; [assumption|]. split; [reflexivity|]. split; [reflexivity|]. split; [reflexivity|]. split; [reflexivity|]. split; [exact Hu|exact Hlen].
  - exfalso. unfold make_target in Ht. destruct y as [|y0 y1]; [congruence|]. rewrite (normalise_constant _ k Hk), finite_nan in Ht by discriminate. discriminate.
Qed.
Lemma convert_spec X y d : convert_to_data X y = Ok d -> make_target y (repeat false (length y)) true None = Ok (d_y d).
Proof.
  unfold convert_to_data, make_data. destruct (make_target _ _ _ _) as [t| |]; try discriminate. cbn [rbind]. now intros [= <-].
Qed.
Lemma unnormalize_units lo hi v : unnormalize_with lo hi v = map (in_units lo hi) v.
Proof. apply map_ext. intros x. unfold in_units. lra. Qed.

(** ** predictions of states and of samples *)
Lemma minv_out X y op e m As X' : minv X y op e m As -> (mx_ncols X <= mx_ncols X')%nat ->
  trees_predict_out (m_heap m) (m_trees m) X' = Ok (map (fun r => rsum (map (fun a => out_value (mx_ncols X) (m_heap m) a r) As)) (mx_rows X')).
Proof.
  intros H Hc. pose proof (mi_st _ _ _ _ _ _ H) as Hs. assert (Hl := ms_len _ _ _ _ _ _ Hs).
  assert (Ht : forall j t a, nth_error (m_trees m) j = Some t -> nth_error As j = Some a ->
    tree_predict_out (m_heap m) t X' = Ok (map (out_value (mx_ncols X) (m_heap m) a) (mx_rows X'))).
  { intros j t a H1 H2. destruct (ms_tree _ _ _ _ _ _ Hs _ _ _ H1 H2) as (oy&Hi&_). eapply tree_predict_out_spec; eauto. }
  clear H Hs. revert As Hl Ht. unfold trees_predict_out. generalize (m_trees m). induction l as [|t ts IH]; intros [|a As] Hl Ht; try discriminate; cbn [predict_out_all rbind].
  - cbn [vsum map]. f_equal. clear. induction (mx_rows X') as [|r0 rs0 IHr]; [reflexivity|]. cbn [length repeat map]. f_equal. exact IHr.
  - rewrite (Ht 0%nat t a eq_refl eq_refl). cbn [rbind].
    assert (E : (let! vs := predict_out_all (m_heap m) ts X' in vsum (length (mx_rows X')) vs) = Ok (map (fun r => rsum (map (fun a => out_value (mx_ncols X) (m_heap m) a r) As)) (mx_rows X'))).
    { apply IH; [simpl in Hl; lia|]. intros j t' a' H1 H2. apply (Ht (S j)); auto. }
    destruct (predict_out_all (m_heap m) ts X') as [vs| |]; try discriminate. cbn [rbind vsum] in *. rewrite E. cbn [rbind].
    unfold vop. rewrite !map_length, Nat.eqb_refl. f_equal. apply map2_map.
Qed.
Lemma ok_state_out X ys p m X' : ok_state X ys p m -> (mx_ncols X <= mx_ncols X')%nat ->
  exists v, trees_predict_out (m_heap m) (m_trees m) X' = Ok v /\ length v = length (mx_rows X').
Proof. intros (As&e&H&_) Hc. eexists. split; [eapply minv_out; eauto|]. apply map_length. Qed.
Lemma ok_state_in X ys p m v : clean X -> ok_state X ys p m -> length v = length (mx_rows X) ->
  (forall vs, trees_say m X vs -> forall i, (i < length (mx_rows X))%nat -> nth i v 0 = total vs i) ->
  trees_predict_out (m_heap m) (m_trees m) X = Ok v.
Proof.
  intros Hc (As&e&H&_) Hl Hv. rewrite (minv_out _ _ _ _ _ _ _ H (le_n _)). f_equal.
  apply nth_ext with 0 0; [rewrite map_length; auto|]. intros i Hi. rewrite map_length in Hi.
  rewrite (Hv _ (trees_say_inv _ _ _ _ _ _ H) i Hi), total_col. rewrite nth_map_in with (d := []) by auto. f_equal. unfold col. apply map_ext. intros a.
  unfold insample. rewrite nth_map_in with (d := []) by auto. unfold out_value.
  replace (row_clean (mx_ncols X) (nth i (mx_rows X) [])) with true; auto. symmetry. apply row_clean_iff. intros c Hcc. apply Hc; auto. apply nth_In; auto.
Qed.
(** unclean rows *)
Lemma ok_state_unclean X ys p m X' v k : ok_state X ys p m -> (mx_ncols X <= mx_ncols X')%nat ->
  trees_predict_out (m_heap m) (m_trees m) X' = Ok v -> (k < length (mx_rows X'))%nat -> row_clean (mx_ncols X) (nth k (mx_rows X') []) = false -> nth k v 1 = 0.
Proof.
  intros (As&e&H&_) Hc E Hk Hr. rewrite (minv_out _ _ _ _ _ _ _ H Hc) in E. injection E as <-. rewrite nth_map_in with (d := []) by auto.
  unfold out_value. rewrite Hr. clear. induction As as [|a As IH]; [reflexivity|]. simpl. unfold rsum in *. simpl in *. rewrite IH. lra.
Qed.

(** ** means *)
Lemma vmean_spec vs n : vs <> [] -> (forall v, In v vs -> length v = n) -> exists u, vmean vs = Ok u /\ length u = n /\
  forall i, (i < n)%nat -> nth i u 0 = mean (map (fun v => nth i v 0) vs).
Proof.
  intros Hne H. destruct vs as [|v vs]; [congruence|]. unfold vmean. rewrite (H v (or_introl eq_refl)).
  destruct (vsum_spec n (v :: vs) H) as (s&->&Hs&Hi). cbn [rbind]. eexists. split; [reflexivity|]. rewrite map_length. split; auto.
  intros i Hi'. rewrite nth_map_in with (d := 0) by lia. rewrite Hi by auto. unfold mean. now rewrite map_length.
Qed.
Lemma vop_length f a b c : vop f a b = Ok c -> length a = length b /\ length c = length a.
Proof. unfold vop. destruct (Nat.eqb_spec (length a) (length b)); [|discriminate]. intros [= <-]. split; auto. rewrite map2_length by auto. auto. Qed.
Lemma vsum_lengths n : forall vs s, vsum n vs = Ok s -> length s = n /\ forall v, In v vs -> length v = n.
Proof.
  induction vs as [|v vs IH]; intros s; cbn [vsum]; [intros [= <-]; rewrite repeat_length; simpl; tauto|].
  destruct (vsum n vs) as [s'| |] eqn:E; try discriminate. cbn [rbind]. intros E2. apply vop_length in E2 as [A B]. destruct (IH s' eq_refl) as [C D].
  split; [congruence|]. intros w [<-|Hw]; auto. congruence.
Qed.
Lemma vmean_inv vs u : vmean vs = Ok u -> vs <> [] /\ forall v, In v vs -> length v = length u.
Proof.
  unfold vmean. destruct vs as [|v vs]; [discriminate|]. destruct (vsum (length v) (v :: vs)) as [s| |] eqn:E; try discriminate. cbn [rbind].
  intros [= <-]. apply vsum_lengths in E as [A B]. rewrite map_length. split; [discriminate|]. intros w Hw. rewrite A. auto.
Qed.
Lemma mean_units lo hi xs : xs <> [] -> in_units lo hi (mean xs) = mean (map (in_units lo hi) xs).
Proof.
  intros Hne. unfold mean. rewrite map_length. assert (Hn : INR (length xs) <> 0) by (apply not_0_INR; destruct xs; simpl; congruence).
  assert (E : rsum (map (in_units lo hi) xs) = INR (length xs) * lo + (rsum xs + INR (length xs) * / 2) * (hi - lo)).
  { clear. induction xs as [|x xs IH]; [simpl; unfold rsum; simpl; lra|]. cbn [map length]. rewrite S_INR. unfold rsum in *. simpl. rewrite IH. unfold in_units. lra. }
  rewrite E. unfold in_units. field. auto.
Qed.
Lemma mean_bounds xs : xs <> [] -> forall lo hi, (forall x, In x xs -> lo <= x <= hi) -> lo <= mean xs <= hi.
Proof.
  intros Hne lo hi H. unfold mean. assert (Hn : 0 < INR (length xs)) by (apply lt_0_INR; destruct xs; simpl; [congruence|lia]).
  assert (G : INR (length xs) * lo <= rsum xs <= INR (length xs) * hi).
  { clear - H. induction xs as [|x xs IH]; [simpl; unfold rsum; simpl; lra|]. cbn [length]. rewrite S_INR. unfold rsum in *. simpl.
    specialize (IH (fun z Hz => H z (or_intror Hz))). specialize (H x (or_introl eq_refl)). lra. }
  split; apply Rmult_le_reg_r with (INR (length xs)); auto; unfold Rdiv; rewrite Rmult_assoc, Rinv_l; lra.
Qed.
Lemma predict_samples_spec X : forall ss vs, predict_samples ss X = Ok vs <-> samples_say ss X vs.
Proof.
  induction ss as [|[h s] ss IH]; intros vs; cbn [predict_samples]; split.
  - intros [= <-]. constructor.
  - inversion 1. auto.
  - destruct (sample_predict h s X) as [v| |] eqn:E; try discriminate. cbn [rbind]. destruct (predict_samples ss X) as [vs'| |]; try discriminate. cbn [rbind].
    intros [= <-]. constructor; auto. now apply IH.
  - inversion 1 as [|? ? ? ? E1 E2]; subst. simpl in E1. rewrite E1. cbn [rbind]. apply IH in E2. rewrite E2. reflexivity.
Qed.

(** ** fitted objects *)
Lemma forall2_flat {A C D} (P : C -> D -> Prop) (f : A -> list C) (g : A -> list D) l :
  (forall a, In a l -> Forall2 P (f a) (g a)) -> Forall2 P (flat_map f l) (flat_map g l).
Proof. induction l as [|a l IH]; intros H; simpl; [constructor|]. apply Forall2_app; [apply H; simpl; auto|apply IH; intros; apply H; simpl; auto]. Qed.
Lemma forall2_right {A B} (P : A -> B -> Prop) l l' : Forall2 P l l' -> forall a, In a l -> exists b, P a b.
Proof. induction 1 as [|x y l l' Hxy H IH]; intros z Hz; [destruct Hz|]. destruct Hz as [<-|Hz]; eauto. Qed.
Lemma forall2_in_l {A B} (P : A -> B -> Prop) l l' : Forall2 P l l' -> forall a, In a l -> exists b, In b l' /\ P a b.
Proof. induction 1 as [|x y l l' Hxy H IH]; intros z Hz; [destruct Hz|]. destruct Hz as [<-|Hz]; [exists y; simpl; auto|]. destruct (IH z Hz) as (b&Hb&Hp). exists b. simpl; auto. Qed.
Lemma chain_in_sample s X y e r : clean X -> chain_ran s X y e r -> sk_store_preds s = true ->
  Forall2 (fun (st : stored_sample) p => sample_predict (fst st) (snd st) X = Ok p) (map (fun sm => (fst e, sm)) (ch_models (snd e))) (ch_preds (snd e)).
Proof.
  intros Hc (hs&m&m'&r'&kept&_&_&_&(F1&F2&_&F4)&_) Hsp. rewrite Hsp in F4. 
  revert F1 F4. generalize (ch_preds (snd e)). induction F2 as [|sm st la lb Hs F2 IH]; intros ps F1 F4; inversion F4; subst; cbn [map]; constructor.
  - cbn [fst snd]. destruct Hs as (_&_&Hs). rewrite Hs. inversion F1 as [|? ? Hok1 Hok2]; subst. match goal with H : preds_of _ _ _ |- _ => destruct H as (Hl'&_&Hv) end. eapply ok_state_in; eauto.
  - apply IH; auto. now inversion F1.
Qed.
Lemma fit_in_sample b s h X y rs s' : clean X -> length y = length (mx_rows X) -> fit b s h X y rs = Ok s' -> sk_store_preds s = true ->
  exists ss ps, sk_samples s' = Some ss /\ sk_preds s' = Some ps /\ samples_say ss X ps.
Proof.
  intros Hc Hl Hf Hsp. assert (Hn : no_nan X) by (intros r v Hr Hv; apply (Hc r v Hr Hv)).
  destruct (fit_spec _ _ _ _ _ _ _ Hn Hl Hf) as (d&m&es&_&_&_&_&_&_&_&_&HF&->&->&_). eexists; eexists. split; [reflexivity|]. split; [reflexivity|].
  unfold samples_say. apply forall2_flat. intros e He. destruct (forall2_right _ _ _ HF e He) as (r&Hr). eapply chain_in_sample; eauto.
Qed.
Lemma chain_out s X y e r X' : chain_ran s X y e r -> (mx_ncols X <= mx_ncols X')%nat ->
  forall sm, In sm (ch_models (snd e)) -> exists st v, ok_state X (start_target y true) (sk_par s) st /\ trees_predict_out (m_heap st) (m_trees st) X' = Ok v /\
    sample_predict (fst e) sm X' = Ok v /\ length v = length (mx_rows X').
Proof.
  intros (hs&m&m'&r'&kept&_&_&_&(F1&F2&_&_)&_) Hc sm Hin. destruct (forall2_in_l _ _ _ F2 sm Hin) as (st&Hst&(_&_&Hs)).
  rewrite Forall_forall in F1. specialize (F1 st Hst). destruct (ok_state_out _ _ _ _ X' F1 Hc) as (v&Hv&Hvl). exists (snd st), v.
  split; auto. split; auto. split; auto. now rewrite Hs.
Qed.
Lemma fit_out b s h X y rs s' X' : no_nan X -> length y = length (mx_rows X) -> fit b s h X y rs = Ok s' -> (mx_ncols X <= mx_ncols X')%nat ->
  exists ss ps, sk_samples s' = Some ss /\ samples_say ss X' ps /\ (forall p, In p ps -> length p = length (mx_rows X') /\
    exists st, ok_state X (start_target y true) (sk_par s) st /\ trees_predict_out (m_heap st) (m_trees st) X' = Ok p).
Proof.
  intros Hn Hl Hf Hc. destruct (fit_spec _ _ _ _ _ _ _ Hn Hl Hf) as (d&m&es&_&_&_&_&_&_&_&_&HF&->&_).
  assert (G : forall st, In st (flat_map (fun e : extract => map (fun sm => (fst e, sm)) (ch_models (snd e))) es) ->
    exists p, sample_predict (fst st) (snd st) X' = Ok p /\ (length p = length (mx_rows X') /\
      exists st', ok_state X (start_target y true) (sk_par s) st' /\ trees_predict_out (m_heap st') (m_trees st') X' = Ok p)).
  { intros st Hst. apply in_flat_map in Hst as (e&He&Hst). apply in_map_iff in Hst as (sm&<-&Hsm). destruct (forall2_right _ _ _ HF e He) as (r&Hr).
    destruct (chain_out _ _ _ _ _ X' Hr Hc sm Hsm) as (st'&v&H1&H2&H3&H4). exists v. simpl. eauto. }
  revert G. generalize (flat_map (fun e : extract => map (fun sm => (fst e, sm)) (ch_models (snd e))) es). clear. intros l G.
  exists l. cut (exists ps, samples_say l X' ps /\ (forall p, In p ps -> length p = length (mx_rows X') /\
    exists st, ok_state X (start_target y true) (sk_par s) st /\ trees_predict_out (m_heap st) (m_trees st) X' = Ok p)); [intros (ps&A&B); eauto|].
  induction l as [|st l IH]; [exists []; split; [constructor|simpl; tauto]|].
  destruct (G st (or_introl eq_refl)) as (p&Hp&Hq). destruct IH as (ps&A&B); [intros; apply G; simpl; auto|].
  exists (p :: ps). split; [constructor; auto|]. intros q [<-|Hq']; auto.
Qed.
Lemma fit_data b s h X y rs s' : no_nan X -> length y = length (mx_rows X) -> fit b s h X y rs = Ok s' ->
  exists d m lo hi ny, sk_data s' = Some d /\ sk_model s' = Some m /\ m_data m = d /\ settings s' = settings s /\
    range_of y lo hi /\ lo < hi /\ t_range (d_y d) = Some (lo, hi) /\ t_y (d_y d) = Some ny /\ unnormalize_with lo hi ny = y.
Proof.
  intros Hn Hl Hf. destruct (fit_spec _ _ _ _ _ _ _ Hn Hl Hf) as (d&m&es&Hd&Hsd&Hsm&Hmd&Hset&_).
  apply convert_spec in Hd. destruct (target_spec _ _ _ Hd) as (lo&hi&ny&H1&H2&_&_&H3&H4&H5&_). exists d, m, lo, hi, ny. auto 10.
Qed.
Lemma nth_map2 {A B C} (f : A -> B -> C) (da : A) (db : B) (dc : C) : forall xs ys i, (i < length xs)%nat -> length xs = length ys ->
  nth i (map2 f xs ys) dc = f (nth i xs da) (nth i ys db).
Proof. induction xs as [|x xs IH]; intros [|y ys] [|i] Hi Hl; simpl in *; try lia; auto. apply IH; lia. Qed.
