(** Properties C16-C28, C39 and C40: node.py, mutation.py, tree.py and the proposal functions.
    A tree is reached from Tree([LeafNode(Split(Data(X, y)))]) by an arbitrary history of calls
    ([tree_reached], SpecTree.v); the heap may hold any other objects besides. *)
From Coq Require Import Reals Lra Permutation.
From Verif Require Import Base Fl Ext MData MSplit MTree MSampler MHist MTreeHist Spec SpecTree LFl LList
  PData PSplit PDataProps PCond PTree PPred PTreeHist PTreeProps.

(** A concrete history used to show that hypotheses can be met: two grows, values, a prediction,
    a rejected proposal, a prune, a new target. *)
Definition tx_X : matrix :=
  Mx 2 [[fz 1; fz 5]; [fz 2; fz 5]; [fz 3; fz 6]; [fz 4; fz 7]; [fz 4; fz 9]; [fz 6; fz 8]].
Definition tx_y : list R := [1; 2; 3; 4; 6; 5]%R.
Lemma tx_no_nan : no_nan tx_X.
Proof.
  intros r v Hr Hv. simpl in Hr, Hv.
  destruct v as [|[|v]]; [| |lia]; repeat (destruct Hr as [<-|Hr]; [discriminate|]); destruct Hr.
Qed.
Lemma tx_clean : forall r, In r (mx_rows tx_X) -> row_clean 2 r = true.
Proof. intros r Hr. simpl in Hr. repeat (destruct Hr as [<-|Hr]; [reflexivity|]); destruct Hr. Qed.
Definition tx_os : list tree_op :=
  [TPredict; TSampleGrow [0; 0; 2]; TSetValue 1 7%R; TPredict; TSampleGrow [1; 0; 0];
   TDiscardGrow [0; 0; 0]; TPredict].
Definition tx_state : heap * tree :=
  match root_split tx_X tx_y false with
  | Ok s => match tree_run (fst (start_tree h_empty s)) (snd (start_tree h_empty s)) tx_os with
            | Ok ht => ht | _ => (h_empty, make_tree []) end
  | _ => (h_empty, make_tree [])
  end.
Definition tx_h := fst tx_state.
Definition tx_t := snd tx_state.
Example tx_reached : tree_reached tx_X tx_y false h_empty tx_os tx_h tx_t.
Proof.
  split; [reflexivity|]. split; [repeat constructor|]. eexists. split; [reflexivity|]. reflexivity.
Qed.
Example tx_nodes : tr_nodes tx_t = [1; 3; 4; 5; 6].
Proof. vm_compute. reflexivity. Qed.

(** ** C16 *)
Theorem C16_proper_binary_tree : forall X y nrm h0 os h t,
  no_nan X -> tree_reached X y nrm h0 os h t ->
  exists root ids st, unfolds h root 0 ids st /\ NoDup ids /\ Permutation (tr_nodes t) ids.
Proof.
  intros X y nrm h0 os h t Hn Hr. destruct (tree_reached_inv _ _ _ _ _ _ _ Hn Hr) as (a&H&_).
  exists (aroot a), (aids a), (astree h a). split; [eapply aok_unfolds, ti_ok; eauto|]. split; apply H.
Qed.
Print Assumptions C16_proper_binary_tree.
Theorem C16_children_listed : forall X y nrm h0 os h t j l r s d,
  no_nan X -> tree_reached X y nrm h0 os h t -> In j (tr_nodes t) ->
  h_get h j = Some (Nd (KDec l r) s d) ->
  l <> r /\ In l (tr_nodes t) /\ In r (tr_nodes t) /\
  (exists kl sl, h_get h l = Some (Nd kl sl (S d))) /\ (exists kr sr, h_get h r = Some (Nd kr sr (S d))).
Proof.
  intros X y nrm h0 os h t j l r s d Hn Hr Hj E. destruct (tree_reached_inv _ _ _ _ _ _ _ Hn Hr) as (a&H&_).
  apply (ti_in _ _ _ _ _ _ H) in Hj. rewrite !(ti_in _ _ _ _ _ _ H).
  destruct (child_listed _ _ _ _ _ _ _ _ _ _ _ (ti_ok _ _ _ _ _ H) Hj E) as (A&B&C&D).
  split; [|auto]. intros ->.
  destruct (afind_in a [] 0 j Hj) as ([[ci di] ai]&Hf).
  pose proof (afind_aok _ _ _ _ _ _ _ _ _ _ (ti_ok _ _ _ _ _ H) Hf) as Ha.
  pose proof (afind_nodup _ _ _ _ _ _ _ (ti_nodup _ _ _ _ _ H) Hf) as Hnd.
  apply afind_sub in Hf as [Ej _]. destruct ai as [i|i v x tl tr]; simpl in *; subst i.
  - destruct Ha as (w&s'&E'&_). congruence.
  - destruct Ha as ((s'&E'&_)&_). rewrite E in E'. injection E' as E1 E2 _ _.
    inversion Hnd; subst. apply NoDup_app_disj in H3 as (_&_&Hd). apply (Hd (aroot tl)); [apply aroot_in|].
    rewrite E2. apply aroot_in.
Qed.
Print Assumptions C16_children_listed.
Theorem C16_leaf_count : forall X y nrm h0 os h t,
  no_nan X -> tree_reached X y nrm h0 os h t ->
  length (leaf_nodes h t) = S (length (decision_nodes h t)) /\
  length (tr_nodes t) = length (leaf_nodes h t) + length (decision_nodes h t).
Proof.
  intros X y nrm h0 os h t Hn Hr. destruct (tree_reached_inv _ _ _ _ _ _ _ Hn Hr) as (a&H&_).
  rewrite (Permutation_length (leaf_nodes_perm _ _ _ _ _ H)), (Permutation_length (decision_nodes_perm _ _ _ _ _ H)).
  rewrite (Permutation_length (ti_perm _ _ _ _ _ H)), (Permutation_length (aids_perm a)), app_length.
  split; auto. apply aleaf_count.
Qed.
Print Assumptions C16_leaf_count.
Example C16_case : length (leaf_nodes tx_h tx_t) = 3 /\ decision_nodes tx_h tx_t = [3; 6].
Proof. vm_compute. auto. Qed.

(** ** C17 *)
Theorem C17_rows_in_exactly_one_leaf : forall X y nrm h0 os h t i,
  no_nan X -> tree_reached X y nrm h0 os h t -> i < length (mx_rows X) ->
  exists j, In j (leaf_nodes h t) /\ leaf_holds h j i /\
    forall j', In j' (leaf_nodes h t) -> leaf_holds h j' i -> j' = j.
Proof.
  intros X y nrm h0 os h t i Hn Hr Hi. destruct (tree_reached_inv _ _ _ _ _ _ _ Hn Hr) as (a&H&_).
  exists (aleaf_of a (nth i (mx_rows X) [])).
  assert (Hin : In (aleaf_of a (nth i (mx_rows X) [])) (leaf_nodes h t)).
  { eapply Permutation_in; [symmetry; eapply leaf_nodes_perm; eauto|apply aleaf_of_in]. }
  split; auto. split; [eapply holds_iff; eauto|].
  intros j' Hj' Hh. eapply holds_iff in Hh; eauto. symmetry. apply Hh.
Qed.
Print Assumptions C17_rows_in_exactly_one_leaf.
Theorem C17_no_empty_leaf : forall X y nrm h0 os h t j,
  no_nan X -> mx_rows X <> [] -> tree_reached X y nrm h0 os h t -> Forall proposed_op os ->
  In j (leaf_nodes h t) -> exists i, leaf_holds h j i.
Proof.
  intros X y nrm h0 os h t j Hn Hne Hr Hp Hj. destruct (tree_reached_inv _ _ _ _ _ _ _ Hn Hr) as (a&H&Hf&_).
  eapply filled_holds; eauto.
Qed.
Print Assumptions C17_no_empty_leaf.
Example C17_case : Forall proposed_op tx_os /\ leaf_nodes tx_h tx_t = [1; 4; 5].
Proof. split; [repeat constructor|vm_compute; auto]. Qed.

(** ** C18 *)
Theorem C18_walks_down_the_tree : forall X y nrm h0 os h t,
  no_nan X -> tree_reached X y nrm h0 os h t ->
  exists root ids st, unfolds h root 0 ids st /\ Permutation (tr_nodes t) ids /\
    forall X', mx_ncols X <= mx_ncols X' ->
      (forall r, In r (mx_rows X') -> row_clean (mx_ncols X) r = true) ->
      tree_predict_out h t X' = Ok (map (walk st) (mx_rows X')).
Proof.
  intros X y nrm h0 os h t Hn Hr. destruct (tree_reached_inv _ _ _ _ _ _ _ Hn Hr) as (a&H&_).
  exists (aroot a), (aids a), (astree h a). split; [eapply aok_unfolds, ti_ok; eauto|]. split; [apply H|].
  intros X' Hc Hcl. rewrite (tree_predict_out_spec _ _ _ _ _ _ H Hc). f_equal. apply map_ext_in.
  intros r Hin. unfold out_value. now rewrite Hcl.
Qed.
Print Assumptions C18_walks_down_the_tree.
(** a new row with a NaN or -inf anywhere in the training columns is in no leaf: it predicts 0 *)
Theorem C18_unclean_row_predicts_zero : forall X y nrm h0 os h t X' p k,
  no_nan X -> tree_reached X y nrm h0 os h t -> mx_ncols X <= mx_ncols X' ->
  tree_predict_out h t X' = Ok p -> k < length (mx_rows X') ->
  row_clean (mx_ncols X) (nth k (mx_rows X') []) = false -> nth k p 1%R = 0%R.
Proof.
  intros X y nrm h0 os h t X' p k Hn Hr Hc E Hk Hcl. destruct (tree_reached_inv _ _ _ _ _ _ _ Hn Hr) as (a&H&_).
  rewrite (tree_predict_out_spec _ _ _ _ _ _ H Hc) in E. injection E as <-.
  rewrite nth_map_in with (d := []) by auto. unfold out_value. now rewrite Hcl.
Qed.
Print Assumptions C18_unclean_row_predicts_zero.
Theorem C18_too_few_columns : forall X y nrm h0 os h t X',
  no_nan X -> tree_reached X y nrm h0 os h t -> mx_ncols X' < mx_ncols X ->
  tree_predict_out h t X' = Raise EIndexError.
Proof.
  intros X y nrm h0 os h t X' Hn Hr Hc. destruct (tree_reached_inv _ _ _ _ _ _ _ Hn Hr) as (a&H&_).
  unfold tree_predict_out. pose proof (leaf_nodes_perm _ _ _ _ _ H) as Hp.
  destruct (leaf_nodes h t) as [|j L] eqn:EL.
  { apply Permutation_nil in Hp. destruct (aleafids_nonempty a) as (?&?&?). congruence. }
  destruct (leaf_region h X (Some (last_tree_target (start_target y nrm) os)) t a j H) as (cj&dj&w&s&_&E&Hs).
  { rewrite EL. simpl; auto. }
  simpl. rewrite E. simpl. unfold cc_condition.
  assert (Hv : forallb (fun vb => fst vb <? mx_ncols X') (cc_vars (sp_cc s)) = false).
  { rewrite (si_vars _ _ _ _ Hs). destruct (forallb _ _) eqn:Ef; auto. rewrite forallb_forall in Ef.
    specialize (Ef (mx_ncols X', bounds (mx_ncols X') cj)). simpl in Ef. rewrite Nat.ltb_irrefl in Ef.
    symmetry. apply Ef. unfold table. apply in_map_iff. exists (mx_ncols X'). split; auto. apply in_seq. lia. }
  rewrite Hv. reflexivity.
Qed.
Print Assumptions C18_too_few_columns.
Example C18_case : tree_predict_out tx_h tx_t (Mx 2 [[fz 2; fz 100]; [FNaN; fz 1]]) = Ok [7; 0]%R.
Proof. vm_compute. reflexivity. Qed.

(** ** C19, for one tree in any heap (also stored copies): for a fixed number of columns either every
    call raises the same exception or there is one function of a row that every call applies *)
Theorem C19_tree_rowwise : forall h t n,
  (exists f, forall rows, tree_predict_out h t (Mx n rows) = Ok (map f rows)) \/
  (exists e, forall rows, tree_predict_out h t (Mx n rows) = Raise e).
Proof.
  intros h t n. unfold tree_predict_out. simpl.
  assert (Hgen : forall L f, (exists g, forall rows, out_loop h (Mx n rows) L (map f rows) = Ok (map g rows)) \/
    (exists e, forall rows, out_loop h (Mx n rows) L (map f rows) = Raise e)).
  { induction L as [|j L IH]; intros f; simpl; [eauto|].
    destruct (h_get h j) as [[[w|l r] s d]|]; [|eauto|eauto].
    unfold cc_condition. simpl. destruct (forallb _ _); simpl; [|eauto].
    destruct (IH (fun r => if row_selected (nsplit_cc s) r then w else f r)) as [(g&Hg)|(e&He)]; [left; exists g|right; exists e];
    intros rows; unfold assign_where; rewrite map2_map; auto. }
  destruct (Hgen (leaf_nodes h t) (fun _ => 0%R)) as [(g&Hg)|(e&He)]; [left; exists g|right; exists e]; intros rows;
  (assert (repeat 0%R (length rows) = map (fun _ => 0%R) rows) as -> by (clear; induction rows; simpl; congruence)); auto.
Qed.
Print Assumptions C19_tree_rowwise.
