(** Data objects built with explicit arguments. *)
From Coq Require Import Reals Lra.
From Verif Require Import Base Fl Ext MData MSplit MHist Spec SpecGiven LFl LList PData PSplit PDataProps PCond.

Section Given.
  Variables (X : matrix) (mask : list bool) (n : pint) (u : option (list (option pybool))) (l : option (list (option bool))).
  Definition base : covmat := make_covmat X mask n None None.
  (** what a covariate object built with these arguments looks like at any time *)
  Record kinv (c : covmat) : Prop := {
    k_X : cm_X c = X; k_mask : cm_mask c = mask; k_n : cm_nobsv c = n;
    k_lu : length (cm_unique c) = mx_ncols X; k_ls : length (cm_split c) = mx_ncols X;
    k_split : forall i, (fact l i = Some false -> i < mx_ncols X -> nth i (cm_split c) None = Some false) /\
      (fact l i <> Some false -> forall b, nth i (cm_split c) None = Some b -> b = is_not_constant (get_column base i));
    k_unique : forall i, (fact u i = Some (PyBool true) -> i < mx_ncols X -> nth i (cm_unique c) None = Some (PyBool true)) /\
      (fact u i <> Some (PyBool true) -> forall b, nth i (cm_unique c) None = Some b ->
         truthy b = (Z.of_nat (n_unique (get_column base i)) =? pz n)%Z) }.
  Lemma k_col c i : kinv c -> get_column c i = get_column base i.
  Proof. intros H. unfold get_column. now rewrite (k_X _ H), (k_mask _ H). Qed.
  Lemma k_nfeat c : kinv c -> cm_nfeat c = mx_ncols X.
  Proof. intros H. unfold cm_nfeat. now rewrite (k_X _ H). Qed.
  Definition offer (i : nat) : bool := match fact l i with Some false => false | _ => is_not_constant (get_column base i) end.
  Lemma k_fill c : kinv c -> fill_splittable c = map (fun i => Some (offer i)) (seq 0 (mx_ncols X)).
  Proof.
    intros H. unfold fill_splittable. rewrite (k_nfeat _ H). apply map_ext_in. intros i Hi. apply in_seq in Hi. unfold offer.
    pose proof (k_split _ H i) as [A B]. destruct (nth i (cm_split c) None) as [b|] eqn:En.
    - destruct (fact l i) as [[]|] eqn:E; [now rewrite <- (B ltac:(discriminate) b eq_refl)|apply A; auto; lia|now rewrite <- (B ltac:(discriminate) b eq_refl)].
    - rewrite (k_col _ _ H). destruct (fact l i) as [[]|] eqn:E; auto. symmetry in A. discriminate (A eq_refl). lia.
  Qed.
  Lemma k_offered c : kinv c -> fst (splittable_variables c) = filter offer (seq 0 (mx_ncols X)).
  Proof.
    intros H. simpl. rewrite k_fill by auto. apply true_indices_map; [now rewrite map_length, seq_length|].
    intros i Hi. now rewrite nth_map_seq.
  Qed.
  Lemma k_splittable c : kinv c -> kinv (snd (splittable_variables c)).
  Proof.
    intros H. pose proof (k_fill _ H) as Ef. destruct H as [A B C D E F G]. constructor; auto; cbn [snd splittable_variables cm_set_split cm_split]; rewrite Ef.
    - now rewrite map_length, seq_length.
    - intros i. unfold offer. split.
      + intros Hf Hi. rewrite nth_map_seq by auto. now rewrite Hf.
      + intros Hf b. destruct (Nat.lt_ge_cases i (mx_ncols X)) as [Hi|Hi].
        * rewrite nth_map_seq by auto. intros [= <-]. destruct (fact l i) as [[]|]; congruence.
        * rewrite nth_overflow; [discriminate|]. now rewrite map_length, seq_length.
  Qed.
  Lemma k_any c : kinv c -> kinv (snd (is_at_least_one_splittable_variable c)).
  Proof.
    intros H. unfold is_at_least_one_splittable_variable. destruct (existsb _ _); auto. exact (k_splittable c H).
  Qed.
  Lemma k_uniq c v b c' : kinv c -> is_column_unique c v = Ok (b, c') -> kinv c' /\
    v < mx_ncols X /\ b = match fact u v with Some (PyBool true) => true | _ => (Z.of_nat (n_unique (get_column base v)) =? pz n)%Z end.
  Proof.
    intros H. unfold is_column_unique. rewrite (k_nfeat _ H). destruct (Nat.leb_spec (mx_ncols X) v) as [|Hv]; [discriminate|].
    destruct (k_unique _ H v) as [A B]. destruct (nth v (cm_unique c) None) as [b0|] eqn:En.
    - intros [= <- <-]. split; auto. split; auto. destruct (fact u v) as [[[]|[]]|]; try (apply B; [discriminate|reflexivity]). specialize (A eq_refl Hv). now injection A as ->.
    - rewrite (k_col _ _ H), (k_n _ H). intros [= <- <-]. split; [|split; auto; destruct (fact u v) as [[[]|[]]|]; auto; discriminate (A eq_refl Hv)].
      destruct H as [A' B' C D E F G]. constructor; auto; simpl; [now rewrite set_nth_length|]. intros i. rewrite set_nth_nth.
      destruct ((v =? i) && (v <? length (cm_unique c))) eqn:Ei; [|apply G]. apply andb_true_iff in Ei as [Ei _]. apply Nat.eqb_eq in Ei. subst i. split.
      + intros Hf Hi. discriminate (A Hf Hi).
      + intros _ b [= <-]. now destruct (p_np n).
  Qed.
  Lemma k_max c v m c' : kinv c -> max_value_of_column c v = Ok (m, c') -> kinv c'.
  Proof.
    intros H. unfold max_value_of_column. destruct (_ <=? _); [discriminate|]. destruct (nth v (cm_max c) None); [intros [= <- <-]; auto|].
    destruct (list_max _); try discriminate. cbn [rbind]. intros [= <- <-]. destruct H. constructor; auto.
  Qed.
  Lemma k_prop c v x r c' : kinv c -> proportion_of_value_in_variable c v x = Ok (r, c') -> kinv c'.
  Proof.
    intros H. unfold proportion_of_value_in_variable. destruct (is_column_unique c v) as [[b c1]| |] eqn:E; try discriminate. cbn [rbind].
    destruct (k_uniq _ _ _ _ H E) as [H1 _]. destruct b; intros [= _ <-]; auto.
  Qed.
  Lemma k_start : (forall u', u = Some u' -> length u' = mx_ncols X) -> (forall l', l = Some l' -> length l' = mx_ncols X) -> kinv (make_covmat X mask n u l).
  Proof.
    intros Hu Hl. constructor; auto; simpl.
    - destruct u; [rewrite map_length; auto|apply repeat_length].
    - destruct l; [rewrite map_length; auto|apply repeat_length].
    - intros i. destruct l as [l'|]; simpl; [|split; [discriminate|intros _ b; rewrite nth_repeat_none; discriminate]].
      rewrite (map_nth (fun x => match x with Some false => x | _ => None end) l' None i : nth i (map _ l') None = _).
      destruct (nth i l' None) as [[]|]; split; intros; try discriminate; try congruence; auto.
    - intros i. destruct u as [u'|]; simpl; [|split; [discriminate|intros _ b; rewrite nth_repeat_none; discriminate]].
      rewrite (map_nth (fun x => match x with Some (PyBool true) => x | _ => None end) u' None i : nth i (map _ u') None = _).
      destruct (nth i u' None) as [[[]|[]]|]; split; intros; try discriminate; try congruence; auto.
  Qed.
End Given.

(** the target; [trusted]: the given sum is still believed *)
Definition tinv (mask : list bool) (trusted : option R) (y : list R) (t : target) : Prop :=
  t_y t = Some y /\ t_mask t = mask /\
  match trusted with
  | Some v => t_fresh t = true /\ t_sum t = Some v
  | None => t_fresh t = true -> t_sum t = Some (masked_sum y mask)
  end.
Definition told (mask : list bool) (trusted : option R) (y : list R) : R := match trusted with Some v => v | None => masked_sum y mask end.
Lemma tinv_sum mask tr y t : tinv mask tr y t -> length y = length mask ->
  exists t', summed_y t = Ok (told mask tr y, t') /\ tinv mask tr y t'.
Proof.
  intros (A&B&C) Hl. unfold summed_y, told. destruct tr as [v|].
  - destruct C as [E1 E2]. rewrite E1, E2. exists t. repeat (split; auto).
  - destruct (t_fresh t) eqn:Ef; [rewrite (C eq_refl); exists t; repeat (split; auto)|].
    rewrite A, B, Hl, Nat.eqb_refl. simpl. eexists. split; [reflexivity|]. repeat (split; auto).
Qed.
Definition trust (tr : option R) (os : list client_op) : option R := if sets_target os then None else tr.

Lemma given_here X mask n u l : forall os tr y s s', length y = length (mx_rows X) -> length mask = length (mx_rows X) ->
  Forall stays_here os -> Forall (sane_op (length (mx_rows X))) os ->
  kinv X mask n u l (d_X (sp_data s)) -> tinv mask tr y (d_y (sp_data s)) -> client_run s os = Ok s' ->
  kinv X mask n u l (d_X (sp_data s')) /\ tinv mask (trust tr os) (last_target y os) (d_y (sp_data s')) /\ length (last_target y os) = length mask.
Proof.
  induction os as [|o os IH]; intros tr y s s' Hy Hm Hh Ho Hk Ht; cbn [client_run].
  - intros [= <-]. unfold trust. simpl. split; auto. split; auto. congruence.
  - inversion Hh; subst. inversion Ho; subst. destruct (client_step s o) as [s1| |] eqn:Es; try discriminate. cbn [rbind]. intros Hr.
    assert (G : kinv X mask n u l (d_X (sp_data s1)) /\ tinv mask (trust tr [o]) (last_target y [o]) (d_y (sp_data s1)) /\ length (last_target y [o]) = length (mx_rows X)).
    { unfold client_step in Es. destruct o; try contradiction; unfold trust, sp_set_X, sp_set_y in *; cbn [sets_target existsb orb last_target] in *.
      - injection Es as <-. cbn [sp_data d_X d_y]. split; auto. now apply k_splittable.
      - injection Es as <-. cbn [sp_data d_X d_y]. split; auto. exact (k_splittable _ _ _ _ _ _ Hk).
      - injection Es as <-. cbn [sp_data d_X d_y]. split; auto. now apply k_any.
      - destruct (is_column_unique _ _) as [[b c']| |] eqn:E; try discriminate. injection Es as <-. cbn [sp_data d_X d_y]. split; auto. eapply k_uniq; eauto.
      - destruct (max_value_of_column _ _) as [[b c']| |] eqn:E; try discriminate. injection Es as <-. cbn [sp_data d_X d_y]. split; auto. eapply k_max; eauto.
      - destruct (proportion_of_value_in_variable _ _ _) as [[b c']| |] eqn:E; try discriminate. injection Es as <-. cbn [sp_data d_X d_y]. split; auto. eapply k_prop; eauto.
      - destruct (tinv_sum _ _ _ _ Ht ltac:(congruence)) as (t'&E&Ht'). rewrite E in Es. injection Es as <-. cbn [sp_data d_X d_y]. auto.
      - injection Es as <-. cbn [sp_data d_X d_y data_update_y]. split; auto. split; auto. destruct Ht as (_&B&_). repeat (split; auto). simpl. discriminate. }
    destruct G as (G1&G2&G3). destruct (IH _ _ _ _ G3 Hm H2 H4 G1 G2 Hr) as (I1&I2&I3).
    assert (E1 : trust (trust tr [o]) os = trust tr (o :: os)).
    { unfold trust, sets_target. cbn [existsb]. destruct o; simpl; auto; now destruct (existsb _ os). }
    assert (E2 : last_target (last_target y [o]) os = last_target y (o :: os)) by (destruct o; auto).
    rewrite E1, E2 in *. auto.
Qed.
Lemma given_start X y mask nrm u l ys n d : length y = length (mx_rows X) -> length mask = length (mx_rows X) ->
  (forall u', u = Some u' -> length u' = mx_ncols X) -> (forall l', l = Some l' -> length l' = mx_ncols X) ->
  make_data X y (Some mask) nrm u l ys n = Ok d ->
  kinv X mask (match n with Some n => n | None => PI (Z.of_nat (count_false mask)) true end) u l (d_X d) /\
  tinv mask ys (start_target y nrm) (d_y d) /\ length (start_target y nrm) = length (mx_rows X).
Proof.
  intros Hy Hm Hu Hl. unfold make_data. destruct (make_target y mask nrm ys) as [t| |] eqn:Et; try discriminate. cbn [rbind]. intros [= <-].
  cbn [d_X d_y]. split; [now apply k_start|]. unfold make_target, start_target in *. destruct nrm.
  - destruct y as [|a y]; [discriminate|]. destruct (finite_vec _) as [ny|] eqn:Ef; [|discriminate]. injection Et as <-.
    split; [|rewrite (finite_vec_length _ _ Ef); unfold normalize_y; now rewrite map_length].
    split; auto. split; auto. destruct ys; simpl; auto. discriminate.
  - injection Et as <-. split; auto. split; auto. split; auto. destruct ys; simpl; auto. discriminate.
Qed.
Lemma given_spec X y mask nrm u l ys n os s : given X y mask nrm u l ys n os s -> Forall stays_here os ->
  kinv X mask (match n with Some n => n | None => PI (Z.of_nat (count_false mask)) true end) u l (d_X (sp_data s)) /\
  tinv mask (trust ys os) (last_target (start_target y nrm) os) (d_y (sp_data s)) /\ length (last_target (start_target y nrm) os) = length mask.
Proof.
  intros (Hy&Hm&Hu&Hl&Ho&d&s0&Ed&Es&Hr) Hh. destruct (given_start _ _ _ _ _ _ _ _ _ Hy Hm Hu Hl Ed) as (A&B&C). rewrite Hy in Ho.
  unfold make_split in Es. destruct (make_cc _ _) as [cc| |]; try discriminate. injection Es as <-. exact (given_here _ _ _ _ _ _ _ _ (Sp d cc) _ C Hm Hh Ho A B Hr).
Qed.

(** columns marked as not splittable, in all descendants *)
Definition hidden (v : nat) (c : covmat) : Prop := v < length (cm_split c) /\ nth v (cm_split c) None = Some false.
Lemma hidden_fill v c : hidden v c -> v < cm_nfeat c -> nth v (fill_splittable c) None = Some false.
Proof. intros [_ H] Hv. unfold fill_splittable. rewrite nth_map_seq by auto. now rewrite H. Qed.
Lemma hidden_splittable v c : hidden v c -> v < cm_nfeat c -> hidden v (snd (splittable_variables c)).
Proof. intros H Hv. split; [simpl; unfold fill_splittable; now rewrite map_length, seq_length|]. now apply hidden_fill. Qed.
Lemma hidden_not v c : hidden v c -> ~ In v (fst (splittable_variables c)).
Proof.
  intros H Hi. simpl in Hi. unfold true_indices in Hi. apply filter_In in Hi as [Hi Hv]. apply in_seq in Hi.
  unfold fill_splittable in Hi at 1. rewrite map_length, seq_length in Hi. rewrite hidden_fill in Hv; auto; [discriminate|lia].
Qed.
Lemma hidden_add v s q s' : hidden v (d_X (sp_data s)) -> split_add s q = Ok s' ->
  hidden v (d_X (sp_data s')) /\ cm_nfeat (d_X (sp_data s')) = cm_nfeat (d_X (sp_data s)).
Proof.
  intros [H1 H2]. unfold split_add, data_add. destruct (update_mask _ _); try discriminate. cbn [rbind]. destruct (cc_add _ _); try discriminate. cbn [rbind].
  intros [= <-]. cbn [sp_data d_X]. split; [|reflexivity]. unfold hidden. simpl. rewrite map_length. split; auto.
  rewrite (map_nth (fun x => match x with Some false => x | _ => None end) (cm_split (d_X (sp_data s))) None v : nth v (map _ _) None = _). now rewrite H2.
Qed.
Lemma hidden_step v o s s' : hidden v (d_X (sp_data s)) -> v < cm_nfeat (d_X (sp_data s)) -> client_step s o = Ok s' ->
  hidden v (d_X (sp_data s')) /\ cm_nfeat (d_X (sp_data s')) = cm_nfeat (d_X (sp_data s)).
Proof.
  intros H Hv Es. unfold client_step in Es.
  assert (Hq : forall w b c', is_column_unique (d_X (sp_data s)) w = Ok (b, c') -> hidden v c' /\ cm_nfeat c' = cm_nfeat (d_X (sp_data s))).
  { intros w b c'. unfold is_column_unique. destruct (_ <=? _); [discriminate|]. destruct (nth _ _ _); intros [= <- <-]; auto. }
  assert (Hc : forall c0 c1 s1 sl sr, split_children s c0 c1 = Ok (s1, sl, sr) ->
    (hidden v (d_X (sp_data sl)) /\ cm_nfeat (d_X (sp_data sl)) = cm_nfeat (d_X (sp_data s))) /\
    (hidden v (d_X (sp_data sr)) /\ cm_nfeat (d_X (sp_data sr)) = cm_nfeat (d_X (sp_data s)))).
  { intros c0 c1 s1 sl sr. unfold split_children. destruct (split_add s c0) as [sl'| |] eqn:El; try discriminate. cbn [rbind].
    destruct (summed_y (d_y (sp_data s))) as [[sy ty]| |]; try discriminate. cbn [rbind]. destruct (summed_y (d_y (sp_data sl'))) as [[ly tl]| |]; try discriminate. cbn [rbind].
    destruct (split_add (sp_set_y s ty) _) as [sr'| |] eqn:Er; try discriminate. cbn [rbind]. intros [= <- <- <-]. split.
    - exact (hidden_add _ _ _ _ H El).
    - exact (hidden_add v (sp_set_y s ty) _ _ H Er). }
  destruct o; unfold sp_set_X, sp_set_y in Es.
  - injection Es as <-. split; [|reflexivity]. now apply hidden_splittable.
  - injection Es as <-. split; [|reflexivity]. exact (hidden_splittable v _ H Hv).
  - injection Es as <-. cbn [sp_data d_X]. unfold is_at_least_one_splittable_variable. destruct (existsb _ _); auto. split; [|reflexivity]. exact (hidden_splittable v _ H Hv).
  - destruct (is_column_unique _ _) as [[b c']| |] eqn:E; try discriminate. injection Es as <-. eapply Hq; eauto.
  - destruct (max_value_of_column _ _) as [[b c']| |] eqn:E; try discriminate. injection Es as <-. cbn [sp_data d_X]. unfold max_value_of_column in E.
    destruct (_ <=? _); [discriminate|]. destruct (nth _ _ _); [injection E as <- <-; split; auto|]. destruct (list_max _); try discriminate. injection E as <- <-. split; auto.
  - destruct (proportion_of_value_in_variable _ _ _) as [[b c']| |] eqn:E; try discriminate. injection Es as <-. cbn [sp_data d_X]. unfold proportion_of_value_in_variable in E.
    destruct (is_column_unique _ _) as [[b' c1]| |] eqn:Eu; try discriminate. cbn [rbind] in E. destruct (Hq _ _ _ Eu). destruct b'; injection E as _ <-; split; auto.
  - destruct (summed_y _) as [[b c']| |] eqn:E; try discriminate. injection Es as <-. split; auto.
  - injection Es as <-. split; auto.
  - destruct (split_children _ _ _) as [[[s1 sl] sr]| |] eqn:E; try discriminate. injection Es as <-. exact (proj1 (Hc _ _ _ _ _ E)).
  - destruct (split_children _ _ _) as [[[s1 sl] sr]| |] eqn:E; try discriminate. injection Es as <-. exact (proj2 (Hc _ _ _ _ _ E)).
  - eapply hidden_add; eauto.
  - eapply hidden_add; eauto.
Qed.
Lemma hidden_run v : forall os s s', hidden v (d_X (sp_data s)) -> v < cm_nfeat (d_X (sp_data s)) -> client_run s os = Ok s' -> hidden v (d_X (sp_data s')).
Proof.
  induction os as [|o os IH]; intros s s' H Hv; cbn [client_run]; [intros [= <-]; auto|].
  destruct (client_step s o) as [s1| |] eqn:Es; try discriminate. cbn [rbind]. intros Hr.
  destruct (hidden_step _ _ _ _ H Hv Es) as [H1 En]. eapply IH; eauto. now rewrite En.
Qed.
