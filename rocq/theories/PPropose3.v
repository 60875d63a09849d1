(** The proposal probabilities the code uses, against the exact ones. *)
From Coq Require Import Reals Lra Permutation.
From Verif Require Import Base Fl Ext MData MSplit MTree MSampler MHist MTreeHist Spec SpecTree SpecPropose LFl LList
  PData PSplit PDataProps PCond PTree PPred PTreeHist PTreeProps PTreeProps2 PSampler PSampler2 PSampler3 PPropose PPropose2 PCounts.
Local Open Scope R_scope.

Lemma filter_len_pos {A} (P : A -> bool) l : (0 < length (filter P l))%nat -> exists x, P x = true.
Proof. induction l as [|x l IH]; simpl; [lia|]. destruct (P x) eqn:E; eauto. Qed.
Lemma chance_pos P q : chance P q -> 0 < q -> exists ds, P ds = true.
Proof.
  intros (N&HN&H) Hq. destruct (H N HN (Nat.divide_refl N) q Hq) as (k&Hk). specialize (Hk k (le_n k)).
  unfold R_dist in Hk. destruct (length (filter P (streams N k))) as [|n] eqn:E.
  - exfalso. unfold share in Hk. rewrite E in Hk. simpl INR in Hk. unfold Rdiv in Hk. rewrite Rmult_0_l, Rminus_0_l, Rabs_Ropp, Rabs_pos_eq in Hk; lra.
  - apply (filter_len_pos P (streams N k)). lia.
Qed.

Lemma pick_exact h X y cs d v x e p l r ke s : no_nan X -> family h X y cs d v x e p l r -> chosen X cs v x -> h_get h e = Some (Nd ke (SFull s) d) ->
  In v (fst (splittable_variables (d_X (sp_data s)))) /\ (0 < rows_with X s v x)%nat /\ (0 < rows_in X s)%nat /\
  log_probability_split_within_node h e p =
    Ok (XFin (ln (/ INR (length (fst (splittable_variables (d_X (sp_data s))))) * (INR (rows_with X s v x) / INR (rows_in X s))))).
Proof.
  intros Hn Hf Hc Ee. destruct (family_recent _ _ _ _ _ _ _ _ _ _ _ Hf) as (c&Ec&<-&<-&_).
  destruct Hf as (ke'&se&sp&kl&sl&kr&sr&E1&E2&E3&E4&H1&_). rewrite Ee in E1. injection E1 as <- <-.
  unfold log_probability_split_within_node, node_data, node_split. rewrite Ee, Ec.
  destruct Hc as (Hv&(r0&Hr0&Hk0&Hx0)&Hvar).
  apply In_nth with (d := []) in Hr0 as (i&Hi&<-).
  assert (Hin : in_node s i) by (apply (in_node_kept _ _ _ _ _ H1); auto).
  assert (Hoff : In (sc_var c) (fst (splittable_variables (d_X (sp_data s))))).
  { apply (offered_iff X _ cs s Hn H1). split; auto. destruct Hvar as (k&i'&j&Hki&Hkj&Hk&Hi'&Hj&Hd).
    exists k, i', j. split; auto. split; auto. rewrite !(in_node_kept _ _ _ _ _ H1). auto. }
  destruct (proportion_occurring X _ cs s Hn H1 (sc_var c) (sc_val c) i Hv Hin Hx0) as (c'&Ep). rewrite Ep. cbn [rbind].
  fold (rows_in X s). fold (rows_with X s (sc_var c) (sc_val c)).
  assert (EV : fst (n_splittable_variables (d_X (sp_data s))) = length (fst (splittable_variables (d_X (sp_data s))))).
  { unfold n_splittable_variables. destruct (splittable_variables (d_X (sp_data s))) as [vs c1]. reflexivity. }
  assert (Hnv : (0 < length (fst (splittable_variables (d_X (sp_data s)))))%nat) by (destruct (fst (splittable_variables (d_X (sp_data s)))); [destruct Hoff|simpl; lia]).
  assert (Hb : in_nodeb s i = true) by (apply in_nodeb_iff; auto).
  assert (Hw : (0 < rows_with X s (sc_var c) (sc_val c))%nat).
  { apply count_pos with (i := i); auto. rewrite Hb. simpl. unfold value_in. rewrite Hx0. apply feqb_eq. split; auto. rewrite <- Hx0. apply Hn; auto. apply nth_In; auto. }
  assert (Hri : (0 < rows_in X s)%nat) by (apply count_pos with (i := i); auto).
  split; auto. split; auto. split; auto. rewrite EV. apply lt_0_INR in Hnv, Hw, Hri.
  rewrite xlog_fin by auto. simpl xneg. rewrite xlog_fin by (now apply Rdiv_lt_0_compat). simpl. f_equal. f_equal.
  rewrite ln_mult by (try (apply Rinv_0_lt_compat); try (apply Rdiv_lt_0_compat); auto). rewrite ln_Rinv by auto. reflexivity.
Qed.
(** rows on both sides of the split, in terms of the rows of the node *)
Lemma chosen_rows X oy cs s v x : no_nan X -> sinv X oy cs s -> chosen X cs v x -> (exists r, In r (mx_rows X) /\ kept (cs ++ [Rl v x false]) r = true) ->
  (exists j, in_node s j /\ value_in X j v = x) /\ (exists j, in_node s j /\ flt x (value_in X j v) = true).
Proof.
  intros Hn Hs (Hv&(r0&Hr0&Hk0&Hx0)&_) (r1&Hr1&Hk1). split.
  - apply In_nth with (d := []) in Hr0 as (i&Hi&<-). exists i. split; [apply (in_node_kept _ _ _ _ _ Hs); auto|exact Hx0].
  - apply In_nth with (d := []) in Hr1 as (i&Hi&<-). rewrite kept_snoc in Hk1. apply andb_true_iff in Hk1 as [Hk1 Hg].
    exists i. split; [apply (in_node_kept _ _ _ _ _ Hs); auto|].
    assert (Hxn : is_nan x = false) by (apply not_nan; rewrite <- Hx0; apply Hn; auto).
    assert (Hrn : is_nan (value_in X i v) = false) by (apply not_nan; apply Hn; auto; apply nth_In; auto).
    unfold excluded in Hg. simpl in Hg. fold (value_in X i v) in Hg. rewrite fle_negb, negb_involutive in Hg by auto. exact Hg.
Qed.
