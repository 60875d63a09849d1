(** Proofs about prediction with one tree, and about histories of one tree. *)
From Coq Require Import Reals Lra Permutation.
From Verif Require Import Base Fl Ext MData MSplit MTree MSampler MHist MTreeHist Spec SpecTree LFl LList PData PSplit PDataProps PCond PTree.

Definition hvalue (h : heap) (i : nat) : R := match leaf_value h i with Some v => v | None => 0%R end.
Fixpoint astree (h : heap) (a : atree) : stree :=
  match a with
  | ALeaf i => SLeaf (hvalue h i)
  | ANode _ v x l r => SNode v x (astree h l) (astree h r)
  end.
Fixpoint aleaf_of (a : atree) (r : row) : nat :=
  match a with
  | ALeaf i => i
  | ANode _ v x tl tr => if fle (cell r v) x then aleaf_of tl r else aleaf_of tr r
  end.
Lemma aleaf_of_in a r : In (aleaf_of a r) (aleafids a).
Proof. induction a; simpl; auto. apply in_app_iff. destruct (fle _ _); auto. Qed.
Lemma walk_leaf h a r : walk (astree h a) r = hvalue h (aleaf_of a r).
Proof. induction a; simpl; auto. destruct (fle _ _); auto. Qed.

(** each leaf with its rules and depth *)
Fixpoint aregions (cs : list rule) (d : nat) (a : atree) : list (nat * (list rule * nat)) :=
  match a with
  | ALeaf i => [(i, (cs, d))]
  | ANode _ v x l r => aregions (cs ++ [Rl v x true]) (S d) l ++ aregions (cs ++ [Rl v x false]) (S d) r
  end.
Lemma aregions_ids a : forall cs d, map fst (aregions cs d a) = aleafids a.
Proof. induction a as [i|i v x l IHl r IHr]; intros cs d; simpl; auto. now rewrite map_app, IHl, IHr. Qed.
Lemma aregions_of a cs d j : In j (aleafids a) -> exists cj dj, In (j, (cj, dj)) (aregions cs d a).
Proof.
  rewrite <- (aregions_ids a cs d). intros H. apply in_map_iff in H as ([j' [cj dj]]&<-&H). eauto.
Qed.
Lemma aok_region h X oy a : forall cs d j cj dj, aok h X oy cs d a -> In (j, (cj, dj)) (aregions cs d a) ->
  exists w s, h_get h j = Some (Nd (KLeaf w) (SFull s) dj) /\ sinv X oy cj s.
Proof.
  induction a as [i|i v x l IHl r IHr]; intros cs d j cj dj; simpl.
  - intros (w&s&E&Hs) [H|[]]. injection H as <- <- <-. eauto.
  - intros (_&_&_&Hl&Hr) H. apply in_app_iff in H as [H|H]; eauto.
Qed.
Definition kept (cs : list rule) (r : row) : bool := negb (existsb (fun q => excluded q r) cs).
Lemma kept_snoc cs q r : kept (cs ++ [q]) r = kept cs r && negb (excluded q r).
Proof. unfold kept. rewrite existsb_app. simpl. rewrite orb_false_r. apply negb_orb. Qed.
Lemma region_kept h X oy a r : (forall v, v < mx_ncols X -> cell r v <> FNaN) ->
  forall cs d j cj dj, aok h X oy cs d a -> NoDup (aids a) -> In (j, (cj, dj)) (aregions cs d a) ->
  kept cj r = kept cs r && Nat.eqb (aleaf_of a r) j.
Proof.
  intros Hr. induction a as [i|i v x l IHl rt IHr]; intros cs d j cj dj; simpl.
  - intros _ _ [H|[]]. injection H as <- <- <-. now rewrite Nat.eqb_refl, andb_true_r.
  - intros ((s&E&Hs)&Hx&Hv&Hl&Hrr) Hn H. inversion Hn as [|? ? Hi Hn']; subst.
    apply NoDup_app_disj in Hn' as (Hnl&Hnr&Hd).
    apply Hr in Hv. apply not_nan in Hv, Hx. pose proof (fgt_negb _ _ Hv Hx) as Hg.
    apply in_app_iff in H as [H|H].
    + rewrite (IHl _ _ _ _ _ Hl Hnl H), kept_snoc. unfold excluded; simpl. rewrite Hg.
      destruct (fle (cell r v) x) eqn:Ef; simpl; rewrite ?andb_true_r, ?andb_false_r; auto. simpl.
      replace (aleaf_of rt r =? j) with false; [now rewrite andb_false_r|].
      symmetry. apply Nat.eqb_neq. intros <-. eapply (Hd (aleaf_of rt r)); apply aids_incl; left.
      * assert (Hin : In (aleaf_of rt r) (map fst (aregions (cs ++ [Rl v x true]) (S d) l)))
          by (apply in_map_iff; exists (aleaf_of rt r, (cj, dj)); auto). now rewrite aregions_ids in Hin.
      * apply aleaf_of_in.
    + rewrite (IHr _ _ _ _ _ Hrr Hnr H), kept_snoc. unfold excluded; simpl.
      destruct (fle (cell r v) x) eqn:Ef; simpl; rewrite ?andb_true_r, ?andb_false_r; auto. simpl.
      replace (aleaf_of l r =? j) with false; [now rewrite andb_false_r|].
      symmetry. apply Nat.eqb_neq. intros <-. eapply (Hd (aleaf_of l r)); apply aids_incl; left.
      * apply aleaf_of_in.
      * assert (Hin : In (aleaf_of l r) (map fst (aregions (cs ++ [Rl v x false]) (S d) rt)))
          by (apply in_map_iff; exists (aleaf_of l r, (cj, dj)); auto). now rewrite aregions_ids in Hin.
Qed.

(** ** unfolds *)
Lemma sinv_recent X oy cs q s : sinv X oy (cs ++ [q]) s -> 
  exists c, cc_most_recent (sp_cc s) = Some c /\ rule_of c = q.
Proof.
  intros H. pose proof (si_conds _ _ _ _ H) as Hc. unfold cc_most_recent.
  destruct (cc_conds (sp_cc s)) as [|c l] using rev_ind; [destruct cs; discriminate|].
  rewrite map_app in Hc. simpl in Hc. apply app_inj_tail in Hc as [_ Hc].
  rewrite last_opt_app. eauto.
Qed.
Lemma aok_root_split h X oy cs d a : aok h X oy cs d a -> 
  exists k s, h_get h (aroot a) = Some (Nd k (SFull s) d) /\ sinv X oy cs s.
Proof. destruct a; simpl; [intros (w&s&E&H)|intros ((s&E&H)&_)]; eauto. Qed.
Lemma aok_unfolds h X oy a : forall cs d, aok h X oy cs d a -> unfolds h (aroot a) d (aids a) (astree h a).
Proof.
  induction a as [i|i v x l IHl r IHr]; intros cs d; simpl.
  - intros (w&s&E&Hs). unfold hvalue, leaf_value. rewrite E. eapply uf_leaf; eauto.
  - intros ((s&E&Hs)&Hx&Hv&Hl&Hr).
    destruct (aok_root_split _ _ _ _ _ _ Hl) as (k&sl&El&Hsl).
    destruct (sinv_recent _ _ _ _ _ Hsl) as (c&Ec&Eq).
    destruct c as [cv cx cop cn cy]. unfold rule_of in Eq. simpl in Eq. injection Eq as E1 E2 E3.
    destruct cop; try discriminate. subst cv cx.
    change v with (sc_var (SC v x OpLe cn cy)). change x with (sc_val (SC v x OpLe cn cy)).
    eapply uf_node; eauto. unfold dec_most_recent, left_child. rewrite E, El. simpl. auto.
Qed.

(** ** in-sample *)
Lemma nth_map_in {A B} (f : A -> B) l i d d' : i < length l -> nth i (map f l) d' = f (nth i l d).
Proof. revert i; induction l; intros [|i]; simpl; intros; auto; try lia. apply IHl. lia. Qed.
Lemma cond_in X oy cs s i : sinv X oy cs s -> i < length (mx_rows X) ->
  nth i (split_condition_in s) false = kept cs (nth i (mx_rows X) []).
Proof.
  intros Hs Hi. unfold split_condition_in, d_mask. rewrite (si_mask _ _ _ _ Hs). unfold mask_of, kept.
  rewrite map_map, nth_map_in with (d := []) by auto. reflexivity.
Qed.
Lemma cond_in_length X oy cs s : sinv X oy cs s -> length (split_condition_in s) = length (mx_rows X).
Proof. intros Hs. unfold split_condition_in, d_mask. rewrite (si_mask _ _ _ _ Hs). unfold mask_of. now rewrite !map_length. Qed.
Lemma in_node_kept X oy cs s i : sinv X oy cs s -> 
  (in_node s i <-> i < length (mx_rows X) /\ kept cs (nth i (mx_rows X) []) = true).
Proof.
  intros Hs. unfold in_node, d_mask. rewrite (si_mask _ _ _ _ Hs). unfold mask_of, kept. rewrite nth_error_map.
  destruct (nth_error (mx_rows X) i) as [r|] eqn:E; simpl.
  - rewrite (nth_error_nth _ _ _ E). assert (i < length (mx_rows X)) by (apply nth_error_Some; congruence).
    rewrite negb_true_iff. split; [intros H'; injection H'; auto|intros [_ ->]; auto].
  - apply nth_error_None in E. split; [discriminate|lia].
Qed.
Lemma assign_where_length c v b : length c = length b -> length (assign_where c v b) = length b.
Proof. intros H. unfold assign_where. rewrite map2_length; auto. Qed.
Lemma assign_where_nth c v b i : length c = length b -> i < length b ->
  nth i (assign_where c v b) 0%R = if nth i c false then v else nth i b 0%R.
Proof.
  unfold assign_where. revert b i; induction c as [|x c IH]; intros [|y b] [|i]; simpl; intros; try lia; auto.
  apply IH; lia.
Qed.
Lemma predict_loop_spec h X oy a n0 : no_nan X -> aok h X oy [] 0 a -> NoDup (aids a) ->
  forall L b, incl L (aleafids a) -> length b = length (mx_rows X) ->
  exists b', predict_loop h n0 L (Some b) = Ok (Some b') /\ length b' = length (mx_rows X) /\
    forall i, i < length (mx_rows X) -> nth i b' 0%R =
      if mem (aleaf_of a (nth i (mx_rows X) [])) L then hvalue h (aleaf_of a (nth i (mx_rows X) [])) else nth i b 0%R.
Proof.
  intros Hnan Hok Hn. induction L as [|j L IH]; intros b Hin Hb; simpl.
  - exists b. auto.
  - destruct (aregions_of a [] 0 j) as (cj&dj&Hj); [apply Hin; simpl; auto|].
    destruct (aok_region _ _ _ _ _ _ _ _ _ Hok Hj) as (w&s&E&Hs). rewrite E.
    rewrite (cond_in_length _ _ _ _ Hs), Hb, Nat.eqb_refl. simpl.
    assert (Hl : length (split_condition_in s) = length b) by (rewrite (cond_in_length _ _ _ _ Hs); auto).
    destruct (IH (assign_where (split_condition_in s) w b)) as (b'&Eb&Lb&Gb).
    + intros k Hk. apply Hin. simpl; auto.
    + rewrite assign_where_length; auto.
    + exists b'. split; auto. split; auto. intros i Hi. rewrite Gb by auto.
      assert (Hr: forall v, v < mx_ncols X -> cell (nth i (mx_rows X) []) v <> FNaN).
      { intros v Hv. apply Hnan; auto. apply nth_In; auto. }
      rewrite assign_where_nth by (auto; lia). rewrite (cond_in _ _ _ _ _ Hs Hi).
      rewrite (region_kept _ _ _ _ _ Hr _ _ _ _ _ Hok Hn Hj). simpl.
      destruct (Nat.eqb_spec (aleaf_of a (nth i (mx_rows X) [])) j) as [Ej|]; simpl; auto.
      rewrite Ej. unfold mem. destruct (existsb _ L); auto. unfold hvalue, leaf_value. now rewrite E.
Qed.
(** the value each training row currently has *)
Definition insample (h : heap) (X : matrix) (a : atree) : list R := map (walk (astree h a)) (mx_rows X).
Lemma insample_nth h X a i : i < length (mx_rows X) ->
  nth i (insample h X a) 0%R = hvalue h (aleaf_of a (nth i (mx_rows X) [])).
Proof. intros H. unfold insample. rewrite nth_map_in with (d := []) by auto. apply walk_leaf. Qed.
Lemma list_ext_nth (l m : list R) : length l = length m -> (forall i, i < length l -> nth i l 0%R = nth i m 0%R) -> l = m.
Proof.
  revert m; induction l as [|x l IH]; intros [|y m]; simpl; intros Hl H; try lia; auto.
  f_equal; [apply (H 0); lia|]. apply IH; [lia|]. intros i Hi. apply (H (S i)). lia.
Qed.
Lemma aleafids_nonempty a : exists j l, aleafids a = j :: l.
Proof. induction a; simpl; eauto. destruct IHa1 as (j&l&->). simpl; eauto. Qed.
(** buffer the loop starts from, once the first leaf is met *)
Definition start_buffer (h : heap) (t : tree) : option (list R) :=
  match tr_pred t with
  | Some b => Some b
  | None => match hd_error (tr_nodes t) with
            | None => None
            | Some i0 => match node_data h i0 with
                         | None => None
                         | Some d => Some (repeat 0%R (Z.to_nat (pz (cm_nobsv (d_X d)))))
                         end
            end
  end.
Lemma nonneg_nobsv X oy cs s : sinv X oy cs s -> (pz (cm_nobsv (d_X (sp_data s))) <? 0)%Z = false.
Proof. intros Hs. rewrite (cvd_n _ (si_c _ _ _ _ Hs)). apply Z.ltb_ge. lia. Qed.
Lemma tree_predict_spec h X oy t a : no_nan X -> tree_inv h X oy t a -> tr_fresh t = false ->
  exists b, start_buffer h t = Some b /\
  tree_predict h t = if length b =? length (mx_rows X)
    then Ok (insample h X a, Tr (tr_nodes t) true (Some (insample h X a))) else Raise EIndexError.
Proof.
  intros Hnan H Hf. unfold tree_predict, start_buffer. rewrite Hf.
  pose proof (leaf_nodes_perm _ _ _ _ _ H) as Hp.
  destruct (aleafids_nonempty a) as (j0&l0&El0).
  destruct (leaf_nodes h t) as [|j L] eqn:EL.
  { apply Permutation_nil in Hp. congruence. }
  assert (Hfull: forall b, length b = length (mx_rows X) -> 
    predict_loop h (hd_error (tr_nodes t)) (j :: L) (Some b) = Ok (Some (insample h X a))).
  { intros b Hb. destruct (predict_loop_spec h X oy a (hd_error (tr_nodes t)) Hnan (ti_ok _ _ _ _ _ H) (ti_nodup _ _ _ _ _ H) (j :: L) b)
      as (b'&E&Lb&G); auto.
    - intros k. apply Permutation_in, Hp.
    - rewrite E. f_equal. f_equal. apply list_ext_nth.
      + unfold insample. now rewrite map_length.
      + intros i Hi. rewrite Lb in Hi. rewrite G, insample_nth by auto.
        replace (mem _ (j :: L)) with true; auto. symmetry. apply mem_in.
        eapply Permutation_in; [symmetry; exact Hp|apply aleaf_of_in]. }
  assert (Hbad: forall b, length b <> length (mx_rows X) -> 
    predict_loop h (hd_error (tr_nodes t)) (j :: L) (Some b) = Raise EIndexError).
  { intros b Hb. simpl. destruct (aregions_of a [] 0 j) as (cj&dj&Hj).
    { eapply Permutation_in; [exact Hp|simpl; auto]. }
    destruct (aok_region _ _ _ _ _ _ _ _ _ (ti_ok _ _ _ _ _ H) Hj) as (w&s&E&Hs). rewrite E.
    rewrite (cond_in_length _ _ _ _ Hs). destruct (Nat.eqb_spec (length (mx_rows X)) (length b)); [lia|]. reflexivity. }
  assert (Hgo: forall b, (let! p := predict_loop h (hd_error (tr_nodes t)) (j :: L) (Some b) in
      match p with Some v => Ok (v, Tr (tr_nodes t) true (Some v)) | None => Raise ETypeError end) =
      if length b =? length (mx_rows X)
      then Ok (insample h X a, Tr (tr_nodes t) true (Some (insample h X a))) else Raise EIndexError).
  { intros b. destruct (Nat.eqb_spec (length b) (length (mx_rows X))) as [Eb|Eb].
    - rewrite Hfull by auto. reflexivity.
    - rewrite Hbad by auto. reflexivity. }
  destruct (tr_pred t) as [b|] eqn:Ep.
  - exists b. split; auto.
  - destruct (tr_nodes t) as [|i0 nodes] eqn:En.
    { unfold leaf_nodes in EL. rewrite En in EL. discriminate. }
    simpl hd_error in *. cbv iota beta.
    assert (Hi0 : In i0 (aids a)).
    { apply (ti_in _ _ _ _ _ _ H). rewrite En. simpl; auto. }
    destruct (ti_node _ _ _ _ _ _ _ (ti_ok _ _ _ _ _ H) Hi0) as (k&s&d'&cs'&E0&Hs0).
    unfold node_data, node_split. rewrite E0.
    eexists. split; [reflexivity|]. rewrite <- Hgo. cbn [predict_loop].
    unfold node_data, node_split. rewrite E0. rewrite (nonneg_nobsv _ _ _ _ Hs0). reflexivity.
Qed.

(** ** out of sample *)
Lemma cc_out X oy cs s X' : sinv X oy cs s -> mx_ncols X <= mx_ncols X' ->
  cc_condition (sp_cc s) X' = Ok (map (fun r => row_clean (mx_ncols X) r && kept cs r) (mx_rows X')).
Proof.
  intros Hs Hn. unfold cc_condition. 
  assert (Hv : forallb (fun vb => fst vb <? mx_ncols X') (cc_vars (sp_cc s)) = true).
  { rewrite (si_vars _ _ _ _ Hs). apply forallb_forall. intros [v b] Hin. unfold table in Hin.
    apply in_map_iff in Hin as (w&E&Hw). injection E as <- <-. apply in_seq in Hw. simpl. apply Nat.ltb_lt. lia. }
  rewrite Hv. f_equal. apply map_ext. intros r.
  assert (Hcc : sp_cc s = CC (table (fun v => bounds v (map rule_of (cc_conds (sp_cc s)))) (mx_ncols X)) (cc_conds (sp_cc s))).
  { rewrite (si_conds _ _ _ _ Hs), <- (si_vars _ _ _ _ Hs). destruct (sp_cc s); reflexivity. }
  rewrite Hcc. destruct (row_clean (mx_ncols X) r) eqn:Er.
  - simpl. rewrite row_selected_spec.
    + unfold kept. now rewrite (si_conds _ _ _ _ Hs).
    + apply row_clean_iff; auto.
    + rewrite (si_conds _ _ _ _ Hs). eapply sinv_rules_lt; eauto.
  - simpl. rewrite row_selected_exact by apply Hs. now rewrite Er.
Qed.
Definition out_value (n : nat) (h : heap) (a : atree) (r : row) : R :=
  if row_clean n r then walk (astree h a) r else 0%R.
Lemma out_loop_spec h X oy a X' : aok h X oy [] 0 a -> NoDup (aids a) -> mx_ncols X <= mx_ncols X' ->
  forall L f, incl L (aleafids a) ->
  out_loop h X' L (map f (mx_rows X')) = 
  Ok (map (fun r => if row_clean (mx_ncols X) r && mem (aleaf_of a r) L then hvalue h (aleaf_of a r) else f r) (mx_rows X')).
Proof.
  intros Hok Hn Hc. induction L as [|j L IH]; intros f Hin; simpl.
  - f_equal. apply map_ext. intros r. now rewrite andb_false_r.
  - destruct (aregions_of a [] 0 j) as (cj&dj&Hj); [apply Hin; simpl; auto|].
    destruct (aok_region _ _ _ _ _ _ _ _ _ Hok Hj) as (w&s&E&Hs). rewrite E. simpl.
    rewrite (cc_out _ _ _ _ X' Hs Hc). simpl. unfold assign_where. rewrite map2_map.
    rewrite IH by (intros k Hk; apply Hin; simpl; auto). f_equal. apply map_ext. intros r.
    destruct (row_clean (mx_ncols X) r) eqn:Er; simpl; auto.
    assert (Hr: forall v, v < mx_ncols X -> cell r v <> FNaN) by (intros v Hv; apply (proj1 (row_clean_iff _ _) Er v Hv)).
    rewrite (region_kept _ _ _ _ _ Hr _ _ _ _ _ Hok Hn Hj). simpl.
    unfold mem. destruct (Nat.eqb_spec (aleaf_of a r) j) as [->|]; simpl; auto.
    destruct (existsb _ L); auto. unfold hvalue, leaf_value. now rewrite E.
Qed.
Lemma tree_predict_out_spec h X oy t a X' : tree_inv h X oy t a -> mx_ncols X <= mx_ncols X' ->
  tree_predict_out h t X' = Ok (map (out_value (mx_ncols X) h a) (mx_rows X')).
Proof.
  intros H Hc. unfold tree_predict_out.
  assert (repeat 0%R (length (mx_rows X')) = map (fun _ => 0%R) (mx_rows X')) as ->.
  { clear. induction (mx_rows X'); simpl; congruence. }
  pose proof (leaf_nodes_perm _ _ _ _ _ H) as Hp.
  rewrite (out_loop_spec h X oy a X' (ti_ok _ _ _ _ _ H) (ti_nodup _ _ _ _ _ H) Hc).
  - f_equal. apply map_ext. intros r. unfold out_value. rewrite walk_leaf.
    replace (mem (aleaf_of a r) (leaf_nodes h t)) with true; [now rewrite andb_true_r|].
    symmetry. apply mem_in. eapply Permutation_in; [symmetry; exact Hp|apply aleaf_of_in].
  - intros k. apply Permutation_in, Hp.
Qed.
