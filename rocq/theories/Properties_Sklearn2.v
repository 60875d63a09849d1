(** Properties C55-C58: see /verif/properties.jsonl. *)
From Coq Require Import Reals Lra Lia ZArith.
From Verif Require Import Base Fl Ext MData MSplit MTree MSampler MHist MTreeHist MModel MModelHist MSklearn Spec SpecTree SpecSampler SpecModel SpecSklearn.
From Verif Require Import LFl LList PData PSplit PDataProps PCond PTree PPred PTreeHist PModel PModel2 PModel7 PModel8 PModel12 PSklearn PSklearn2 PSklearn3
  Properties_Model Properties_Model2 Properties_Sklearn.
Local Open Scope R_scope.

(** ** C56 *)
(** block number [i] of [n] consecutive elements *)
Definition block {A} (n i : nat) (l : list A) : list A := firstn n (skipn (i * n) l).
Definition grouped {A} (n : nat) (done : list A) (groups : list (list A)) : Prop :=
  (done = [] /\ groups = []) \/
  exists full lst, groups = full ++ [lst] /\ Forall (fun g => length g = n) full /\ (1 <= length lst <= n)%nat /\ concat groups = done.
Lemma app_last_spec {A} (x : A) : forall full lst, app_last (full ++ [lst]) x = Ok (full ++ [lst ++ [x]]).
Proof. induction full as [|g full IH]; intros lst; [reflexivity|]. simpl. rewrite IH. destruct (full ++ [lst]) eqn:E; [destruct full; discriminate|reflexivity]. Qed.
Lemma full_length {A} n (full : list (list A)) : Forall (fun g => length g = n) full -> length (concat full) = (length full * n)%nat.
Proof. induction 1 as [|g l Hg Hl IH]; simpl; auto. rewrite app_length. lia. Qed.
Lemma group_loop_spec {A} n : (0 < n)%nat -> forall (todo done : list A) groups, grouped n done groups ->
  exists groups', group_loop n (length done) todo groups = Ok groups' /\ grouped n (done ++ todo) groups'.
Proof.
  intros Hn. induction todo as [|x todo IH]; intros done groups Hg; cbn [group_loop].
  - exists groups. rewrite app_nil_r. auto.
  - destruct (Nat.eqb_spec n 0); [lia|].
    assert (Hstep : exists g2, app_last (if (length done mod n =? 0)%nat then groups ++ [[]] else groups) x = Ok g2 /\ grouped n (done ++ [x]) g2).
    { destruct Hg as [[-> ->]|(full&lst&->&Hf&Hl&<-)].
      - simpl length. rewrite Nat.mod_0_l by lia. simpl. exists [[x]]. split; auto. right. exists [], [x]. simpl. repeat split; auto; lia.
      - rewrite concat_app, app_length, (full_length n) by auto. simpl. rewrite app_nil_r.
        replace ((length full * n + length lst) mod n) with (length lst mod n) by (rewrite Nat.add_comm; symmetry; apply Nat.mod_add; lia).
        destruct (Nat.eq_dec (length lst) n) as [E|E].
        + rewrite E, Nat.mod_same by lia. simpl. rewrite app_last_spec. eexists. split; [reflexivity|]. right. exists (full ++ [lst]), [x]. split; [reflexivity|].
          split; [apply Forall_app; auto|]. split; [simpl; lia|]. simpl. rewrite !concat_app. simpl. now rewrite !app_nil_r.
        + rewrite Nat.mod_small by lia. destruct (Nat.eqb_spec (length lst) 0); [lia|]. rewrite app_last_spec. eexists. split; [reflexivity|].
          right. exists full, (lst ++ [x]). split; [reflexivity|]. split; auto. rewrite app_length. simpl. split; [lia|]. rewrite !concat_app. simpl. now rewrite !app_nil_r, app_assoc. }
    destruct Hstep as (g2&->&H2). cbn [rbind]. destruct (IH (done ++ [x]) g2 H2) as (g3&E3&H3). rewrite app_length in E3. simpl in E3. rewrite Nat.add_1_r in E3.
    exists g3. rewrite <- app_assoc in H3. auto.
Qed.
Lemma block_full {A} n : forall (full : list (list A)) rest i, Forall (fun g => length g = n) full -> (i < length full)%nat -> block n i (concat full ++ rest) = nth i full [].
Proof.
  unfold block. induction full as [|g full IH]; intros rest i Hf Hi; [simpl in Hi; lia|]. inversion Hf; subst. simpl concat. rewrite <- app_assoc. destruct i as [|i]; simpl.
  - rewrite firstn_app, Nat.sub_diag. simpl. rewrite app_nil_r. apply firstn_all.
  - rewrite skipn_app. rewrite skipn_all2 by lia. simpl. replace (length g + i * length g - length g)%nat with (i * length g)%nat by lia. apply IH; auto. simpl in Hi; lia.
Qed.
Lemma grouped_block {A} n (done : list A) groups : (0 < n)%nat -> grouped n done groups -> concat groups = done /\ length groups = ((length done + n - 1) / n)%nat /\
  forall i, (i < length groups)%nat -> nth i groups [] = block n i done.
Proof.
  intros Hn [[-> ->]|(full&lst&->&Hf&Hl&Hc)].
  - split; auto. simpl. split; [rewrite Nat.div_small; lia|intros; lia].
  - split; auto. rewrite <- Hc. rewrite concat_app, !app_length, (full_length n) by auto. simpl. rewrite app_nil_r. split.
    + replace (length full * n + length lst + n - 1)%nat with ((length lst - 1) + (length full + 1) * n)%nat by lia. rewrite Nat.div_add by lia. rewrite Nat.div_small by lia. lia.
    + intros i Hi. destruct (Nat.eq_dec i (length full)) as [->|Hne].
      * rewrite app_nth2, Nat.sub_diag by lia. simpl. unfold block. rewrite skipn_app, skipn_all2 by (rewrite (full_length n); auto). rewrite (full_length n) by auto.
        rewrite Nat.sub_diag. simpl. symmetry. apply firstn_all2. lia.
      * rewrite app_nth1 by lia. symmetry. apply block_full; auto. lia.
Qed.
Theorem C56_groups : forall (n : nat) (chains : list extract), (0 < n)%nat ->
  exists groups, group_loop n 0 chains [] = Ok groups /\ concat groups = chains /\ length groups = ((length chains + n - 1) / n)%nat /\
    forall i, (i < length groups)%nat -> nth i groups [] = firstn n (skipn (i * n) chains).
Proof.
  intros n chains Hn. destruct (group_loop_spec n Hn chains [] [] (or_introl (conj eq_refl eq_refl))) as (groups&E&Hg).
  destruct (grouped_block n _ _ Hn Hg) as (A&B&C). exists groups. auto.
Qed.
Print Assumptions C56_groups.
(** with a whole number of groups, chain [j] of group [i] is chain number [i*n + j] *)
Theorem C56_chain_of_group : forall (n m : nat) (chains : list extract), (0 < n)%nat -> length chains = (m * n)%nat ->
  exists groups, group_loop n 0 chains [] = Ok groups /\ length groups = m /\
    forall i, (i < m)%nat -> length (nth i groups []) = n /\ forall j, (j < n)%nat -> nth_error (nth i groups []) j = nth_error chains (i * n + j).
Proof.
  intros n m chains Hn Hl. destruct (C56_groups n chains Hn) as (groups&E&_&L&H). exists groups. split; auto.
  assert (Hm : length groups = m) by (rewrite L, Hl; replace (m * n + n - 1)%nat with ((n - 1) + m * n)%nat by lia; rewrite Nat.div_add, Nat.div_small by lia; lia).
  split; auto. intros i Hi. rewrite H by lia. split.
  - rewrite firstn_length, skipn_length, Hl. assert (S i * n <= m * n)%nat by (apply Nat.mul_le_mono_r; lia). simpl in *. lia.
  - intros j Hj. transitivity (nth_error (skipn (i * n) chains) j); [|generalize (i * n)%nat; clear; intros k; revert k; induction chains as [|a l IH]; intros [|k]; simpl; auto; now destruct j].
    clear - Hj. generalize (skipn (i * n) chains). intros l. revert j n Hj. induction l as [|a l IH]; intros [|j] [|n] Hj; simpl; auto; try lia. apply IH. lia.
Qed.
Print Assumptions C56_chain_of_group.
Theorem C56_no_chains : forall s Xs ys e chains, sk_nchains s = 0%nat -> convert_chains_models s Xs ys (e :: chains) = Raise EZeroDivisionError.
Proof. intros s Xs ys e chains H. unfold convert_chains_models. now rewrite H. Qed.
Example C56_case : forall a b c d : extract, group_loop 2 0 [a; b; c; d] [] = Ok [[a; b]; [c; d]].
Proof. reflexivity. Qed.

(** ** C55 *)
(** the samples held by the objects after the call: the caller's old ones, then those of the groups *)
Definition held (s : sklearn) (groups : list (list extract)) : list (option (list stored_sample)) :=
  sk_samples s :: map (fun es => Some (all_samples es)) groups.
Lemma convert_loop_spec : forall groups Xs ys s ms s', length Xs = length groups -> length ys = length groups ->
  convert_loop s groups Xs ys = Ok (ms, s') ->
  length ms = length groups /\ settings s' = settings s /\ sk_samples s' = nth (length groups) (held s groups) None /\
  forall i mi, nth_error ms i = Some mi -> sk_samples mi = nth i (held s groups) None /\ settings mi = settings s /\
    exists d X y, nth_error Xs i = Some X /\ nth_error ys i = Some y /\ convert_to_data X y = Ok d /\ sk_data mi = Some d.
Proof.
  induction groups as [|es groups IH]; intros [|X Xs] [|y ys] s ms s' Hx Hy; try discriminate; cbn [convert_loop].
  - intros [= <- <-]. simpl. split; auto. split; auto. split; auto. intros [|i] mi; discriminate.
  - unfold from_extract, store_chains. destruct (combine_chains es) as [[[a b] c]| |] eqn:Ec; try discriminate. cbn [rbind].
    destruct (convert_to_data X y) as [d| |] eqn:Ed; try discriminate. cbn [rbind].
    destruct (convert_loop (sk_set_chains s a b c) groups Xs ys) as [[ms2 s2]| |] eqn:E2; try discriminate. cbn [rbind]. intros [= <- <-].
    destruct (IH Xs ys _ _ _ ltac:(simpl in Hx; lia) ltac:(simpl in Hy; lia) E2) as (L&Hset&Hs&Hi).
    assert (Ea : a = all_samples es) by (unfold combine_chains in Ec; destruct es; [discriminate|]; now injection Ec as <- _ _).
    split; [simpl; congruence|]. split; [rewrite Hset; reflexivity|].
    assert (Eh : forall k, nth k (held (sk_set_chains s a b c) groups) None = nth (S k) (held s (es :: groups)) None).
    { intros k. unfold held. cbn [nth map]. now rewrite Ea. }
    split; [rewrite Hs; apply Eh|]. intros [|i] mi Hm; simpl in Hm.
    + injection Hm as <-. split; [reflexivity|]. split; [reflexivity|]. exists d, X, y. simpl. auto.
    + destruct (Hi i mi Hm) as (A&B&C). rewrite A, Eh. split; auto.
Qed.
(** For every list of chain results: model number [i] holds the samples of group [i-1], model 0 the old samples of
    the caller's object, and the caller's object ends up with the samples of the last group.  Each model has
    the data of its own data set. *)
Theorem C55_models_hold_previous_samples : forall s Xs ys chains ms s' m,
  (0 < sk_nchains s)%nat -> length Xs = m -> length ys = m -> length chains = (m * sk_nchains s)%nat ->
  convert_chains_models s Xs ys chains = Ok (ms, s') ->
  length ms = m /\ settings s' = settings s /\
  (forall i mi, nth_error ms i = Some mi -> settings mi = settings s /\
     sk_samples mi = match i with O => sk_samples s | S j => Some (all_samples (block (sk_nchains s) j chains)) end /\
     exists d X y, nth_error Xs i = Some X /\ nth_error ys i = Some y /\ convert_to_data X y = Ok d /\ sk_data mi = Some d) /\
  sk_samples s' = match m with O => sk_samples s | S j => Some (all_samples (block (sk_nchains s) j chains)) end.
Proof.
  intros s Xs ys chains ms s' m Hn Hx Hy Hl. unfold convert_chains_models.
  destruct (C56_groups (sk_nchains s) chains Hn) as (groups&->&_&L&Hb). cbn [rbind]. intros E.
  assert (Hm : length groups = m).
  { rewrite L, Hl. replace (m * sk_nchains s + sk_nchains s - 1)%nat with ((sk_nchains s - 1) + m * sk_nchains s)%nat by lia. rewrite Nat.div_add, Nat.div_small by lia. lia. }
  destruct (convert_loop_spec groups Xs ys s ms s' ltac:(lia) ltac:(lia) E) as (L1&Hset&Hs&Hi).
  assert (Hh : forall k, (k <= m)%nat -> nth k (held s groups) None = match k with O => sk_samples s | S j => Some (all_samples (block (sk_nchains s) j chains)) end).
  { intros [|j] Hj; [reflexivity|]. unfold held. cbn [nth]. rewrite nth_map_in with (d := []) by lia. rewrite Hb by lia. reflexivity. }
  split; [congruence|]. split; auto. split.
  - intros i mi Hmi. destruct (Hi i mi Hmi) as (A&B&C). split; auto. split; auto. rewrite A. apply Hh.
    assert (i < length ms)%nat by (apply nth_error_Some; congruence). lia.
  - rewrite Hs, Hm. apply Hh. lia.
Qed.
Print Assumptions C55_models_hold_previous_samples.
(** the runs of chains made for the data sets *)
Lemma skipn_plus {A} a : forall b (l : list A), skipn a (skipn b l) = skipn (b + a) l.
Proof. induction b as [|b IH]; intros [|x l]; simpl; auto. apply skipn_nil. Qed.
Lemma run_processes_app : forall t1 t2 rs es, run_processes (t1 ++ t2) rs = Ok es ->
  exists e1 e2, es = e1 ++ e2 /\ run_processes t1 (firstn (length t1) rs) = Ok e1 /\ length e1 = length t1 /\ run_processes t2 (skipn (length t1) rs) = Ok e2.
Proof.
  induction t1 as [|[[[s h] X] y] t1 IH]; intros t2 rs es E; simpl in E; [exists [], es; auto|].
  destruct rs as [|r rs]; [discriminate|]. destruct (run_chain s h X y r) as [[[c s1] h1]| |] eqn:E1; try discriminate. cbn [rbind] in E.
  destruct (run_processes (t1 ++ t2) rs) as [es'| |] eqn:E2; try discriminate. cbn [rbind] in E. injection E as <-.
  destruct (IH t2 rs es' E2) as (e1&e2&->&A&L&B). exists ((h1, c) :: e1), e2. simpl. rewrite E1. cbn [rbind]. rewrite A. split; [auto|]. split; [auto|]. split; [simpl; congruence|auto].
Qed.
Definition ran (s : sklearn) (h : heap) (X : matrix) (y : list R) (e : extract) (r : rng) : Prop := exists s1, run_chain s h X y r = Ok (snd e, s1, fst e).
Lemma run_processes_ran s h X y : forall n rs es, run_processes (repeat (s, h, X, y) n) rs = Ok es -> Forall2 (ran s h X y) es (firstn n rs).
Proof.
  induction n as [|n IH]; intros rs es; simpl; [intros [= <-]; constructor|]. destruct rs as [|r rs]; [discriminate|].
  destruct (run_chain s h X y r) as [[[c s1] h1]| |] eqn:E1; try discriminate. cbn [rbind].
  destruct (run_processes (repeat (s, h, X, y) n) rs) as [es'| |] eqn:E2; try discriminate. cbn [rbind]. intros [= <-]. constructor; [exists s1; auto|apply IH; auto].
Qed.
Lemma all_tasks_ran s h : forall Xs ys rs es, length Xs = length ys -> run_processes (all_tasks s h Xs ys) rs = Ok es ->
  length es = (length Xs * sk_nchains s)%nat /\
  forall i X y, nth_error Xs i = Some X -> nth_error ys i = Some y -> Forall2 (ran s h X y) (block (sk_nchains s) i es) (block (sk_nchains s) i rs).
Proof.
  induction Xs as [|X Xs IH]; intros [|y ys] rs es Hl E; try discriminate; simpl in E.
  - injection E as <-. split; auto. intros [|i]; discriminate.
  - apply run_processes_app in E as (e1&e2&->&E1&L1&E2). rewrite repeat_length in *.
    destruct (IH ys _ _ ltac:(simpl in Hl; lia) E2) as (L2&H2). split; [rewrite app_length; simpl; lia|].
    apply run_processes_ran in E1. rewrite firstn_firstn, Nat.min_id in E1.
    intros [|i] X0 y0; simpl.
    + intros [= <-] [= <-]. unfold block. simpl. rewrite firstn_app, L1, Nat.sub_diag. simpl. rewrite app_nil_r, <- L1, firstn_all, L1. exact E1.
    + intros HX Hy. specialize (H2 i X0 y0 HX Hy). unfold block in *. simpl. rewrite skipn_app, L1. rewrite skipn_all2 by lia. simpl.
      replace (sk_nchains s + i * sk_nchains s - sk_nchains s)%nat with (i * sk_nchains s)%nat by lia.
      replace (skipn (sk_nchains s + i * sk_nchains s) rs) with (skipn (i * sk_nchains s) (skipn (sk_nchains s) rs)); auto.
      apply skipn_plus.
Qed.
Theorem C55_run_models : forall s h Xs ys rs ms s' m,
  (0 < sk_nchains s)%nat -> length Xs = m -> length ys = m -> run_models s h Xs ys rs = Ok (ms, s') ->
  exists runs, length runs = m /\
    (forall i X y, nth_error Xs i = Some X -> nth_error ys i = Some y -> length (nth i runs []) = sk_nchains s /\
       Forall2 (ran s h X y) (nth i runs []) (block (sk_nchains s) i rs)) /\
    length ms = m /\
    (forall i mi, nth_error ms i = Some mi ->
       sk_samples mi = match i with O => sk_samples s | S j => Some (all_samples (nth j runs [])) end /\
       exists d X y, nth_error Xs i = Some X /\ nth_error ys i = Some y /\ convert_to_data X y = Ok d /\ sk_data mi = Some d) /\
    sk_samples s' = match m with O => sk_samples s | S j => Some (all_samples (nth j runs [])) end.
Proof.
  intros s h Xs ys rs ms s' m Hn Hx Hy. unfold run_models. destruct (run_processes (all_tasks s h Xs ys) rs) as [chains| |] eqn:Er; try discriminate. cbn [rbind]. intros E.
  destruct (all_tasks_ran s h Xs ys rs chains ltac:(lia) Er) as (L&Hran). rewrite Hx in L.
  destruct (C55_models_hold_previous_samples s Xs ys chains ms s' m Hn Hx Hy L E) as (Lm&_&Hi&Hs).
  exists (map (fun i => block (sk_nchains s) i chains) (seq 0 m)). 
  assert (Hnth : forall i, (i < m)%nat -> nth i (map (fun i => block (sk_nchains s) i chains) (seq 0 m)) [] = block (sk_nchains s) i chains).
  { intros i Him. rewrite nth_map_in with (d := 0%nat) by (rewrite seq_length; auto). now rewrite seq_nth. }
  split; [now rewrite map_length, seq_length|]. split; [|split; [auto|split]].
  - intros i X y HX HY. assert (Him : (i < m)%nat) by (rewrite <- Hx; apply nth_error_Some; congruence). rewrite Hnth by auto. split; [|apply Hran; auto].
    unfold block. rewrite firstn_length, skipn_length, L. assert (S i * sk_nchains s <= m * sk_nchains s)%nat by (apply Nat.mul_le_mono_r; lia). simpl in *. lia.
  - intros i mi Hmi. destruct (Hi i mi Hmi) as (_&A&B). split; auto. rewrite A. destruct i as [|j]; auto. rewrite Hnth; auto.
    assert (S j < length ms)%nat by (apply nth_error_Some; congruence). lia.
  - rewrite Hs. destruct m as [|j]; auto. rewrite Hnth; auto.
Qed.
Print Assumptions C55_run_models.
(** so the first model of a run started from an unfitted object cannot predict *)
Theorem C55_first_model_unusable : forall s h Xs ys rs ms s' m0 X,
  (0 < sk_nchains s)%nat -> length Xs = length ys -> sk_samples s = None -> run_models s h Xs ys rs = Ok (ms, s') -> nth_error ms 0 = Some m0 ->
  sk_predict m0 (Some X) = Raise ETypeError.
Proof.
  intros s h Xs ys rs ms s' m0 X Hn Hl Hs E Hm. destruct (C55_run_models _ _ _ _ _ _ _ _ Hn eq_refl (eq_sym Hl) E) as (runs&_&_&_&Hi&_).
  destruct (Hi 0%nat m0 Hm) as (A&d&X0&y0&_&_&_&B). unfold sk_predict, out_of_sample_predict. now rewrite B, A, Hs.
Qed.
Print Assumptions C55_first_model_unusable.
(** the refutation of "each returned model carries the samples of its own data set", with runs that exist *)
Lemma run_models_ok s h : (0 < sk_nchains s)%nat -> forall Xs ys, length Xs = length ys -> (forall X y, In (X, y) (combine Xs ys) -> can_fit s X y) ->
  exists rs ms s', run_models s h Xs ys rs = Ok (ms, s').
Proof.
  intros Hn Xs ys Hl Hc.
  assert (G : exists rs es, run_processes (all_tasks s h Xs ys) rs = Ok es).
  { assert (Ht : forall t, In t (all_tasks s h Xs ys) -> exists X y, t = (s, h, X, y) /\ can_fit s X y).
    { clear Hl. revert ys Hc. induction Xs as [|X Xs IH]; intros [|y ys] Hc t Ht; simpl in Ht; try tauto. apply in_app_iff in Ht as [Ht|Ht].
      - apply repeat_spec in Ht. exists X, y. split; auto. apply Hc. simpl; auto.
      - apply (IH ys); auto. intros; apply Hc; simpl; auto. }
    induction (all_tasks s h Xs ys) as [|t ts IH]; [exists [], []; reflexivity|]. destruct (Ht t (or_introl eq_refl)) as (X&y&->&Hf).
    destruct (run_chain_ok s h X y Hf) as (r&c&s1&h1&E&_). destruct IH as (rs&es&E2); [intros; apply Ht; simpl; auto|].
    exists (r :: rs), ((h1, c) :: es). simpl. rewrite E. cbn [rbind]. now rewrite E2. }
  destruct G as (rs&es&E). exists rs. unfold run_models. rewrite E. cbn [rbind]. unfold convert_chains_models.
  destruct (all_tasks_ran s h Xs ys rs es Hl E) as (L&_). destruct (C56_chain_of_group (sk_nchains s) (length Xs) es Hn L) as (groups&->&Lg&Hg). cbn [rbind].
  assert (Hne : forall g, In g groups -> g <> []).
  { intros g Hin. apply In_nth with (d := []) in Hin as (i&Hi&<-). destruct (Hg i ltac:(lia)) as (Hgl&_). intros E0. rewrite E0 in Hgl. simpl in Hgl. lia. }
  assert (Hd : forall X y, In (X, y) (combine Xs ys) -> exists d, convert_to_data X y = Ok d).
  { intros X y Hin. destruct (Hc X y Hin) as (_&Hyl&_&(a&b&Ha&Hb&Hab)&_). destruct (start_model_ok X y h (sk_par s) a b Hyl Ha Hb Hab) as (d&m&H&_). eauto. }
  clear - Hl Lg Hne Hd. revert s ys groups Hl Lg Hne Hd. induction Xs as [|X Xs IH]; intros s [|y ys] [|es groups] Hl Lg Hne Hd; try discriminate; cbn [convert_loop]; [eauto|].
  unfold from_extract, store_chains, combine_chains. destruct es as [|e es]; [destruct (Hne [] (or_introl eq_refl) eq_refl)|]. cbn [rbind].
  destruct (Hd X y (or_introl eq_refl)) as (d&->). cbn [rbind].
  match goal with |- context [convert_loop ?s1 groups Xs ys] => destruct (IH s1 ys groups) as (ms&s'&->) end; [simpl in *; lia|simpl in *; lia|intros; apply Hne; simpl; auto|intros; apply Hd; simpl; auto|].
  cbn [rbind]. eauto.
Qed.
Theorem C55_own_samples_refuted : exists s h Xs ys rs ms s' m0, run_models s h Xs ys rs = Ok (ms, s') /\ length Xs = 2%nat /\ nth_error ms 0 = Some m0 /\
  sk_predict m0 (Some mx_X) = Raise ETypeError /\ exists ss, sk_samples s' = Some ss /\ ss <> [] /\ sk_samples s = None.
Proof.
  assert (Hf : forall X y, In (X, y) (combine [mx_X; mx_X] [mx_y; mx_y]) -> can_fit ex_sk X y).
  { assert (Hx : can_fit ex_sk mx_X mx_y).
    { split; [exact mx_no_nan|]. split; [reflexivity|]. split; [exact mx_varies|]. split; [exists 1, 2; simpl; repeat split; auto; lra|].
      split; [exact mx_sane|]. split; [simpl; lia|]. exists 2%Z, 1%positive. split; [reflexivity|discriminate]. }
    intros X y [[= <- <-]|[[= <- <-]|[]]]; exact Hx. }
  destruct (run_models_ok ex_sk ex_empty ltac:(simpl; lia) [mx_X; mx_X] [mx_y; mx_y] eq_refl Hf) as (rs&ms&s'&E).
  destruct (C55_run_models ex_sk ex_empty [mx_X; mx_X] [mx_y; mx_y] rs ms s' 2 ltac:(simpl; lia) eq_refl eq_refl E) as (runs&_&Hran&Lm&_&Hs).
  destruct ms as [|m0 ms]; [discriminate|]. exists ex_sk, ex_empty, [mx_X; mx_X], [mx_y; mx_y], rs, (m0 :: ms), s', m0.
  split; auto. split; auto. split; [reflexivity|]. split; [apply (C55_first_model_unusable ex_sk ex_empty [mx_X; mx_X] [mx_y; mx_y] rs (m0 :: ms) s' m0 mx_X); [simpl; lia|reflexivity|reflexivity|exact E|reflexivity]|].
  eexists. split; [exact Hs|]. split; [|reflexivity]. destruct (Hran 1%nat mx_X mx_y eq_refl eq_refl) as (L1&HF).
  destruct (nth 1 runs []) as [|e es]; [discriminate|]. inversion HF as [|? r ? ? (s1&Hr) _]; subst.
  assert (Hc : length (ch_models (snd e)) = 3%nat).
  { destruct (run_chain_spec ex_sk ex_empty mx_X mx_y r (snd e) s1 (fst e) mx_no_nan eq_refl Hr) as (_&(hs&m&m'&r'&kept&Hm&Hsmp&_)&_).
    eapply (C43_count mx_X mx_y true hs 1 mx_p [] m 5 2 2 1 2 1); eauto using mx_no_nan; try reflexivity; try lia.
    split; [reflexivity|]. split; [constructor|]. exists m. auto. }
  unfold all_samples. simpl. destruct (ch_models (snd e)); [discriminate|]. discriminate.
Qed.
Print Assumptions C55_own_samples_refuted.

(** ** C57 *)
Theorem C57_never_readable : forall limit s, prediction_samples limit s = Raise ERecursionError.
Proof. induction limit as [|limit IH]; intros s; simpl; auto. Qed.
Print Assumptions C57_never_readable.

(** ** C58 *)
(** predict is the sum of the two predictions; the tree part was fitted to what the base estimator left over *)
Theorem C58_predict_adds : forall learn b s h X y rs s', rb_fit learn b s h X y rs = Ok s' ->
  exists f base target, learn X y = Ok f /\ f X = Ok base /\ length base = length y /\
    (forall i, (i < length y)%nat -> nth i target 0 = nth i y 0 - nth i base 0) /\ length target = length y /\
    fit b (rb_bart s) h X target rs = Ok (rb_bart s') /\
    forall X' v, rb_predict s' X' = Ok v <->
      exists p q, f X' = Ok p /\ sk_predict (rb_bart s') (Some X') = Ok q /\ length p = length q /\ length v = length p /\
        forall i, (i < length v)%nat -> nth i v 0 = nth i p 0 + nth i q 0.
Proof.
  intros learn b s h X y rs s'. unfold rb_fit. destruct (learn X y) as [f| |]; try discriminate. cbn [rbind].
  destruct (f X) as [base| |] eqn:Eb; try discriminate. cbn [rbind]. destruct (vop Rminus y base) as [target| |] eqn:Ev; try discriminate. cbn [rbind].
  destruct (fit b (rb_bart s) h X target rs) as [s1| |] eqn:Ef; try discriminate. cbn [rbind]. intros [= <-]. destruct (vop_length _ _ _ _ Ev) as [L1 L2].
  exists f, base, target. split; auto. split; auto. split; auto. split; [|split; [auto|split; [auto|]]].
  - intros i Hi. unfold vop in Ev. rewrite L1, Nat.eqb_refl in Ev. injection Ev as <-. apply (nth_map2 Rminus 0 0 0); lia.
  - intros X' v. unfold rb_predict. cbn [rb_base rb_bart]. split.
    + destruct (f X') as [p| |]; try discriminate. cbn [rbind]. destruct (sk_predict s1 (Some X')) as [q| |]; try discriminate. cbn [rbind]. intros Hv.
      destruct (vop_length _ _ _ _ Hv) as [A B]. exists p, q. split; auto. split; auto. split; auto. split; auto. intros i Hi.
      unfold vop in Hv. rewrite A, Nat.eqb_refl in Hv. injection Hv as <-. apply (nth_map2 Rplus 0 0 0); lia.
    + intros (p&q&->&->&A&B&H). cbn [rbind]. unfold vop. rewrite A, Nat.eqb_refl. f_equal. apply nth_ext with 0 0; [rewrite map2_length; congruence|].
      intros i Hi. rewrite map2_length in Hi by auto. rewrite (nth_map2 Rplus 0 0 0) by lia. symmetry. apply H. lia.
Qed.
Print Assumptions C58_predict_adds.
(** the error of the whole on the training data is the error of the tree part on its own target *)
Theorem C58_error_is_tree_error : forall learn b s h X y rs s' e,
  no_nan X -> length y = length (mx_rows X) -> rb_fit learn b s h X y rs = Ok s' -> rb_residuals s' X (Some y) = Ok e ->
  sk_residuals (rb_bart s') (Some X) None = Ok e.
Proof.
  intros learn b s h X y rs s' e Hn Hl Hf He. destruct (C58_predict_adds _ _ _ _ _ _ _ _ Hf) as (f&base&target&_&Hbase&Lb&Ht&Lt&Hfit&Hp).
  rewrite (C53_training_residuals _ _ _ _ _ _ _ (Some X) Hn (eq_trans Lt Hl) Hfit).
  unfold rb_residuals, residuals_with in He. destruct (rb_predict s' X) as [v| |] eqn:Ev; try discriminate. cbn [rbind] in He.
  destruct (proj1 (Hp X v) Ev) as (p&q&Hpp&Hq&L1&L2&Hv). rewrite Hbase in Hpp. injection Hpp as <-.
  destruct (vop_length _ _ _ _ He) as [A B]. unfold vop in He. rewrite A, Nat.eqb_refl in He. injection He as <-.
  unfold sk_residuals, residuals_with. rewrite Hq. cbn [rbind]. unfold vop. replace (length target =? length q)%nat with true by (symmetry; apply Nat.eqb_eq; congruence).
  f_equal. apply nth_ext with 0 0; [rewrite !map2_length; congruence|]. intros i Hi. rewrite map2_length in Hi by congruence.
  rewrite !(nth_map2 Rminus 0 0 0) by congruence. rewrite Ht, Hv by congruence. lra.
Qed.
Print Assumptions C58_error_is_tree_error.
(** residuals(X) without y, on the training data: the base prediction is subtracted twice *)
Theorem C58_residuals_subtract_base_twice : forall learn b s h X y rs s' e,
  no_nan X -> length y = length (mx_rows X) -> rb_fit learn b s h X y rs = Ok s' -> rb_residuals s' X None = Ok e ->
  exists f base d, learn X y = Ok f /\ f X = Ok base /\ rb_residuals s' X (Some y) = Ok d /\ length e = length y /\
    forall i, (i < length y)%nat -> nth i e 0 = nth i d 0 - nth i base 0.
Proof.
  intros learn b s h X y rs s' e Hn Hl Hf He. destruct (C58_predict_adds _ _ _ _ _ _ _ _ Hf) as (f&base&target&Hlearn&Hbase&Lb&Ht&Lt&Hfit&Hp).
  destruct (fit_data _ _ _ _ _ _ _ Hn (eq_trans Lt Hl) Hfit) as (d&m&lo&hi&ny&_&Hm&Hmd&_&_&_&Hrng&Hny&Hu).
  unfold rb_residuals, residuals_with in *. rewrite Hm, Hmd in He. unfold unnormalized_y, unnormalize_y in He. rewrite Hny, Hrng, Hu in He. cbn [rbind] in He.
  destruct (rb_predict s' X) as [v| |] eqn:Ev; try discriminate. cbn [rbind] in *. destruct (vop_length _ _ _ _ He) as [A B]. unfold vop in *.
  rewrite A, Nat.eqb_refl in He. injection He as <-. exists f, base, (map2 Rminus y v). split; auto. split; auto.
  replace (length y =? length v)%nat with true by (symmetry; apply Nat.eqb_eq; congruence). split; auto. split; [congruence|]. intros i Hi.
  rewrite !(nth_map2 Rminus 0 0 0) by congruence. rewrite Ht by auto. lra.
Qed.
Print Assumptions C58_residuals_subtract_base_twice.
(** extensions/ols.py: the same for any regression whose residuals are y minus its fitted values *)
Theorem C58_ols : forall regress b s h X y rs s',
  (forall resid f, regress X y = Ok (resid, f) -> exists base, f X = Ok base /\ vop Rminus y base = Ok resid) ->
  (ols_fit regress b s h X y rs = Ok s' <-> rb_fit (fun X y => let! (_, f) := regress X y in Ok f) b s h X y rs = Ok s').
Proof.
  intros regress b s h X y rs s' H. unfold ols_fit, rb_fit. destruct (regress X y) as [[resid f]| |]; cbn [rbind]; [|tauto|tauto].
  destruct (H resid f eq_refl) as (base&->&E). cbn [rbind]. rewrite E. cbn [rbind]. tauto.
Qed.
Print Assumptions C58_ols.
(** "residuals() are y minus the prediction" is refuted: a base estimator that predicts 1 everywhere *)
Definition ones (X : matrix) : res (list R) := Ok (map (fun _ => 1) (mx_rows X)).
Theorem C58_residuals_refuted : exists learn b s h rs s' e d, rb_fit learn b s h mx_X mx_y rs = Ok s' /\
  rb_residuals s' mx_X None = Ok e /\ rb_residuals s' mx_X (Some mx_y) = Ok d /\ nth 0 e 0 = nth 0 d 0 - 1.
Proof.
  assert (Hf : exists rs s1, length rs = 2%nat /\ fit ThisProcess ex_sk ex_empty mx_X [1 - 1; 2 - 1; 6 - 1] rs = Ok s1).
  { apply (C66_fit_possible ThisProcess ex_sk ex_empty mx_X [1 - 1; 2 - 1; 6 - 1] 2 1); try reflexivity; try exact mx_no_nan; try exact mx_varies; try exact mx_sane; try discriminate; try (simpl; lia).
    exists (1 - 1), (2 - 1). simpl. repeat split; auto. lra. }
  destruct Hf as (rs&s1&_&Hf). set (learn := fun (X : matrix) (y : list R) => Ok ones).
  assert (E : rb_fit learn ThisProcess (Rb None ex_sk) ex_empty mx_X mx_y rs = Ok (Rb (Some ones) s1)).
  { unfold rb_fit, learn. cbn [rbind]. unfold ones at 1. cbn [rbind map mx_rows mx_X]. change (vop Rminus mx_y [1; 1; 1]) with (Ok [1 - 1; 2 - 1; 6 - 1]). cbn [rbind rb_bart].
    change (Mx 1 [[fz 1]; [fz 2]; [fz 3]]) with mx_X. rewrite Hf. reflexivity. }
  destruct (C50_one_in_k ThisProcess ex_sk ex_empty mx_X [1 - 1; 2 - 1; 6 - 1] rs s1 2 mx_no_nan eq_refl Hf eq_refl ltac:(lia)) as (ss&Hss&Hlen).
  destruct (C50_mean_of_samples ThisProcess ex_sk ex_empty mx_X [1 - 1; 2 - 1; 6 - 1] rs s1 mx_X mx_no_nan eq_refl Hf (le_n _)) as (lo&hi&ss'&ps&_&Hss'&_&_&_&H). rewrite Hss in Hss'. injection Hss' as <-.
  change (length ss = 6%nat) in Hlen. destruct H as (v&Hv&Hl&_); [intros ->; discriminate|]. change (length v = 3%nat) in Hl.
  assert (Ep : exists w, rb_predict (Rb (Some ones) s1) mx_X = Ok w /\ length w = 3%nat).
  { unfold rb_predict. cbn [rb_base rb_bart]. unfold ones. cbn [rbind]. rewrite Hv. cbn [rbind]. unfold vop. rewrite Hl. cbn [map length mx_X mx_rows Nat.eqb]. 
    eexists. split; [reflexivity|]. rewrite map2_length; rewrite ?Hl; reflexivity. }
  destruct Ep as (w&Ew&Lw).
  assert (Ee : exists e, rb_residuals (Rb (Some ones) s1) mx_X None = Ok e).
  { destruct (fit_data ThisProcess ex_sk ex_empty mx_X [1 - 1; 2 - 1; 6 - 1] rs s1 mx_no_nan eq_refl Hf) as (d&m&lo'&hi'&ny&_&Hm&Hmd&_&_&_&Hrng&Hny&Hu).
    unfold rb_residuals, residuals_with. cbn [rb_bart]. rewrite Hm, Hmd. unfold unnormalized_y, unnormalize_y. rewrite Hny, Hrng, Hu. cbn [rbind]. rewrite Ew. cbn [rbind].
    unfold vop. rewrite Lw. cbn [length Nat.eqb]. eauto. }
  destruct Ee as (e&Ee). destruct (C58_residuals_subtract_base_twice learn _ _ _ mx_X mx_y rs _ e mx_no_nan eq_refl E Ee) as (f&base&d&Hlearn&Hb&Hd&_&Hi).
  exists learn, ThisProcess, (Rb None ex_sk), ex_empty, rs, (Rb (Some ones) s1), e, d. split; auto. split; auto. split; auto.
  rewrite Hi by (simpl; lia). unfold learn in Hlearn. injection Hlearn as <-. unfold ones in Hb. injection Hb as <-. reflexivity.
Qed.
Print Assumptions C58_residuals_refuted.
