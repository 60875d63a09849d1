(** Several chains are several estimators of one chain each. *)
From Coq Require Import Reals Lra Lia Permutation.
From Verif Require Import Base Fl Ext MData MSplit MTree MSampler MModel MSklearn MObModel MObSklearn Spec SpecModel SpecSklearn SpecInvariance SpecChains LList PHeap PRel PPred PModel PModel2 PSklearn2.
Local Open Scope R_scope.

Lemma rsum_app l l' : rsum (l ++ l') = rsum l + rsum l'.
Proof. induction l as [|x l IH]; unfold rsum in *; simpl; [lra|]. rewrite IH. lra. Qed.
(** the mean of equally many groups of equal size *)
Lemma mean_groups c : (0 < c)%nat -> forall xss, xss <> [] -> Forall (fun xs => length xs = c) xss -> mean (concat xss) = mean (map mean xss).
Proof.
  intros Hc xss Hne F. assert (E : forall yss, Forall (fun xs : list R => length xs = c) yss -> rsum (concat yss) = INR c * rsum (map mean yss) /\ length (concat yss) = (c * length yss)%nat).
  { induction 1 as [|xs yss L F2 IH]; [unfold rsum; simpl; split; [lra|lia]|]. destruct IH as [A B]. cbn [concat map length]. rewrite rsum_app, app_length, A, B, L. split; [|lia].
    unfold rsum at 3. cbn [fold_right]. fold (rsum (map mean yss)). unfold mean at 2. rewrite L. field. apply not_0_INR. lia. }
  destruct (E xss F) as [A B]. unfold mean at 1 2. rewrite A, B, map_length, mult_INR. field. split; apply not_0_INR; [destruct xss; [congruence|discriminate]|lia].
Qed.

(** ** predictions *)
Lemma each_map {A B} (f : A -> B) (l : list (res A)) : each (map (fun m => let! a := m in Ok (f a)) l) = let! xs := each l in Ok (map f xs).
Proof. induction l as [|m l IH]; auto. cbn [map each]. rewrite IH. destruct m; cbn [rbind]; auto. destruct (each l); auto. Qed.
Lemma each_length {A} : forall (l : list (res A)) xs, each l = Ok xs -> length xs = length l.
Proof. induction l as [|m l IH]; intros xs; cbn [each]; [now intros [= <-]|]. destruct m; cbn [rbind]; try discriminate. destruct (each l); cbn [rbind]; try discriminate. intros [= <-]. cbn [length]. f_equal. now apply IH. Qed.
Lemma each_ext {A} (l l' : list (res A)) : Forall2 eq l l' -> each l = each l'.
Proof. induction 1; auto. cbn [each]. now rewrite H, IHForall2. Qed.
Lemma predict_samples_app X : forall ss ss', predict_samples (ss ++ ss') X = let! vs := predict_samples ss X in let! vs' := predict_samples ss' X in Ok (vs ++ vs').
Proof.
  induction ss as [|[h s] ss IH]; intros ss'; cbn [app predict_samples rbind]; [now destruct (predict_samples ss' X)|].
  rewrite IH. destruct (sample_predict h s X); cbn [rbind]; auto. destruct (predict_samples ss X); cbn [rbind]; auto. destruct (predict_samples ss' X); auto.
Qed.
Lemma predict_samples_concat X : forall sss, predict_samples (concat sss) X = let! vss := each (map (fun ss => predict_samples ss X) sss) in Ok (concat vss).
Proof.
  induction sss as [|ss sss IH]; auto. cbn [concat map each]. rewrite predict_samples_app, IH. destruct (predict_samples ss X); cbn [rbind]; auto. destruct (each _); auto.
Qed.
Lemma predict_samples_len X : forall ss vs, predict_samples ss X = Ok vs -> length vs = length ss /\ Forall (fun v => length v = length (mx_rows X)) vs.
Proof.
  induction ss as [|[h s] ss IH]; intros vs; cbn [predict_samples]; [intros [= <-]; auto|]. destruct (sample_predict h s X) as [v| |] eqn:E; try discriminate. cbn [rbind].
  destruct (predict_samples ss X) as [vs'| |]; try discriminate. intros [= <-]. destruct (IH vs' eq_refl). split; [cbn [length]; congruence|]. constructor; auto.
  unfold sample_predict, trees_predict_out in E. destruct (predict_out_all h (sm_trees s) X); try discriminate. now apply vsum_lengths in E.
Qed.
(** the prediction made from samples in the units [lo, hi] *)
Definition predicted (lo hi : R) (ss : list stored_sample) (X : matrix) : res (list R) :=
  let! vs := predict_samples ss X in let! v := vmean vs in Ok (unnormalize_with lo hi v).
Lemma predicted_groups lo hi X c sss : sss <> [] -> Forall (fun ss => length ss = c) sss ->
  match each (map (fun ss => predicted lo hi ss X) sss) with
  | Ok vs => exists v, predicted lo hi (concat sss) X = Ok v /\ length v = length (mx_rows X) /\ average_of vs v
  | Raise e => predicted lo hi (concat sss) X = Raise e
  | NoDraws => predicted lo hi (concat sss) X = NoDraws
  end.
Proof.
  intros Hne F. destruct c as [|c].
  - assert (E : concat sss = []) by (clear Hne; induction F as [|ss sss L F IH]; auto; destruct ss; [auto|discriminate]). rewrite E. destruct sss as [|ss sss]; [congruence|]. inversion F; subst. destruct ss; [|discriminate]. reflexivity.
  - set (avg := fun vs => match vmean vs with Ok v => unnormalize_with lo hi v | _ => [] end).
    assert (G : Forall2 eq (map (fun ss => predicted lo hi ss X) sss) (map (fun m => let! vs := m in Ok (avg vs)) (map (fun ss => predict_samples ss X) sss))).
    { rewrite map_map. clear Hne. induction F as [|ss sss L F IH]; constructor; auto. unfold predicted, avg. destruct (predict_samples ss X) as [vs| |] eqn:E; cbn [rbind]; auto.
      destruct (predict_samples_len X ss vs E) as [A B]. destruct (vmean_spec vs (length (mx_rows X))) as (u&Hu&_); [destruct vs; [rewrite L in A; discriminate|discriminate]|now apply Forall_forall|].
      rewrite Hu. reflexivity. }
    rewrite (each_ext _ _ G), each_map. unfold predicted. rewrite predict_samples_concat.
    destruct (each (map (fun ss => predict_samples ss X) sss)) as [vss|e|] eqn:E; cbn [rbind]; auto.
    assert (H : Forall (fun vs => length vs = S c /\ Forall (fun v => length v = length (mx_rows X)) vs) vss /\ vss <> []).
    { split; [|apply each_length in E; rewrite map_length in E; destruct vss; [destruct sss; [congruence|discriminate]|discriminate]].
      clear Hne G. revert vss E. induction F as [|ss sss L F IH]; intros vss; cbn [map each]; [intros [= <-]; constructor|]. destruct (predict_samples ss X) as [vs| |] eqn:E1; try discriminate. cbn [rbind].
      destruct (each _) as [vss'| |]; try discriminate. intros [= <-]. constructor; auto. destruct (predict_samples_len X ss vs E1). split; [congruence|auto]. }
    destruct H as [H Hv]. set (n := length (mx_rows X)) in *.
    assert (Hcat : forall v, In v (concat vss) -> length v = n).
    { intros v I. apply in_concat in I as (vs&I1&I2). rewrite Forall_forall in H. destruct (H vs I1) as [_ B]. rewrite Forall_forall in B. auto. }
    destruct (vmean_spec (concat vss) n) as (u&Hu&Lu&Nu); auto.
    { destruct vss as [|vs vss]; [congruence|]. inversion H as [|? ? [A _]]; subst. destruct vs; [discriminate|]. discriminate. }
    rewrite Hu. cbn [rbind]. assert (Len : length (unnormalize_with lo hi u) = n) by (unfold unnormalize_with; now rewrite map_length).
    eexists. split; [reflexivity|]. split; auto. split.
    + apply Forall_forall. intros w I. rewrite Len. apply in_map_iff in I as (vs&<-&I). rewrite Forall_forall in H. destruct (H vs I) as [A B]. unfold avg.
      destruct (vmean_spec vs n) as (u'&Hu'&Lu'&_); [destruct vs; discriminate|now apply Forall_forall|]. rewrite Hu'. unfold unnormalize_with. now rewrite map_length.
    + rewrite Len. intros i Hi. assert (Un : forall w, length w = n -> nth i (unnormalize_with lo hi w) 0 = in_units lo hi (nth i w 0)).
      { intros w L. unfold unnormalize_with. rewrite nth_map_in with (d := 0) by lia. unfold in_units. lra. }
      rewrite Un, Nu by auto. rewrite mean_units by (destruct vss as [|vs vss]; [congruence|]; inversion H as [|? ? [A _]]; subst; destruct vs; [discriminate|]; discriminate).
      rewrite map_map, !concat_map. rewrite (mean_groups (S c)); [|lia|destruct vss; [congruence|discriminate]|].
      * f_equal. rewrite !map_map. apply map_ext_in. intros vs I. rewrite Forall_forall in H. destruct (H vs I) as [A B]. unfold avg.
        destruct (vmean_spec vs n) as (u'&Hu'&Lu'&Nu'); [destruct vs; discriminate|now apply Forall_forall|]. rewrite Hu', Un, Nu', mean_units, map_map by (auto; destruct vs; discriminate). reflexivity.
      * apply Forall_forall. intros xs I. apply in_map_iff in I as (vs&<-&I). rewrite map_length. rewrite Forall_forall in H. now apply H.
Qed.

(** ** one chain *)
Lemma sample_loop_count num den sp sa : forall todo ss m r c m' r', sample_loop ss todo num den sp sa m r = Ok (c, m', r') ->
  length (ch_models c) = length (filter (fun k => keeps_sample k num den) (seq ss todo)).
Proof.
  induction todo as [|todo IH]; intros ss m r c m' r'; cbn [sample_loop]; [now intros [= <- _ _]|]. destruct (sample_iter ss num den sp sa m r) as [[[c1 m1] r1]| |] eqn:E; try discriminate. cbn [rbind].
  destruct (sample_loop (S ss) todo num den sp sa m1 r1) as [[[c2 m2] r2]| |] eqn:E2; try discriminate. intros [= <- _ _]. apply IH in E2. cbn [seq filter]. unfold sample_iter in E.
  destruct (gibbs_step m r) as [[[[d a] m0] r0]| |]; try discriminate. cbn [rbind] in E. destruct (num =? 0)%Z; try discriminate. destruct (keeps_sample ss num den).
  - destruct (if sp then _ else _) as [[ps m3]| |]; try discriminate. cbn [rbind] in E. destruct (deep_copy_model m3) as [[s m4]| |]; try discriminate. injection E as <- _ _. cbn [ch_app ch_models app length]. now rewrite E2.
  - injection E as <- _ _. exact E2.
Qed.
Definition kept_of (ns : nat) (th : thinning) : nat := match th with TZero => 0%nat | TInv num den => length (filter (fun k => keeps_sample k num den) (seq 0 ns)) end.
Lemma samples_count m ns nb th sp sa r c m' r' : samples m ns nb th sp sa r = Ok (c, m', r') -> length (ch_models c) = kept_of ns th.
Proof. unfold samples. destruct (burn nb m r) as [[m1 r1]| |]; try discriminate. cbn [rbind]. destruct th as [|num den]; try discriminate. apply sample_loop_count. Qed.
Lemma construct_one s h X y : construct_model (one_chain s) h X y = rmap one_chain (construct_model s h X y).
Proof.
  unfold construct_model. destruct (_ || _)%bool; auto. destruct (convert_to_data X y) as [d| |]; cbn [rbind]; auto. destruct (normalizing_scale (d_y d)); cbn [rbind]; auto.
  change (sk_par (one_chain s)) with (sk_par s). destruct (make_model h d 1 (sk_par s)); auto.
Qed.
Lemma construct_facts s h X y s1 : construct_model s h X y = Ok s1 -> exists d m lo hi, sk_data s1 = Some d /\ sk_model s1 = Some m /\ t_range (d_y d) = Some (lo, hi) /\
  sk_nchains s1 = sk_nchains s /\ sk_nsamples s1 = sk_nsamples s /\ sk_thin s1 = sk_thin s /\ (exists h', m_heap m = h').
Proof.
  unfold construct_model. destruct (_ || _)%bool; try discriminate. destruct (convert_to_data X y) as [d| |]; try discriminate. cbn [rbind]. unfold normalizing_scale. destruct (t_range (d_y d)) as [[lo hi]|] eqn:E; try discriminate. cbn [rbind].
  destruct (make_model h d 1 (sk_par s)) as [m| |]; try discriminate. intros [= <-]. exists d, m, lo, hi. repeat split; eauto.
Qed.
Lemma run_chain_one s h X y r : run_chain (one_chain s) h X y r = rmap (fun q => (fst (fst q), one_chain (snd (fst q)), snd q)) (run_chain s h X y r).
Proof.
  unfold run_chain. rewrite construct_one. destruct (construct_model s h X y) as [s1| |]; cbn [rbind rmap]; auto. change (sk_model (one_chain s1)) with (sk_model s1). change (sk_data (one_chain s1)) with (sk_data s1).
  destruct (sk_model s1) as [m|]; auto. destruct (sk_data s1) as [d|]; auto. cbn [one_chain sk_nsamples sk_nburn sk_thin sk_store_preds sk_store_accept]. destruct (samples m _ _ _ _ _ r) as [[[c m1] r1]| |]; reflexivity.
Qed.
Lemma run_chain_count s h X y r c s1 h1 : run_chain s h X y r = Ok (c, s1, h1) -> length (ch_models c) = kept_of (sk_nsamples s) (sk_thin s).
Proof.
  unfold run_chain. destruct (construct_model s h X y) as [s2| |]; try discriminate. cbn [rbind]. destruct (sk_model s2) as [m|]; try discriminate. destruct (sk_data s2) as [d|]; try discriminate.
  destruct (samples m _ _ _ _ _ r) as [[[c1 m1] r1]| |] eqn:E; try discriminate. intros [= <- _ _]. eapply samples_count; eauto.
Qed.
(** an object with the extracts of its chains *)
Definition stored (s : sklearn) (es : list extract) : sklearn :=
  sk_set_chains s (flat_map (fun e : extract => map (fun sm => (fst e, sm)) (ch_models (snd e))) es) (flat_map (fun e : extract => ch_preds (snd e)) es) (flat_map (fun e : extract => ch_accept (snd e)) es).
Lemma store_stored s es : es <> [] -> store_chains s es = Ok (stored s es).
Proof. unfold store_chains, combine_chains. destruct es; [congruence|reflexivity]. Qed.
Lemma stored_made s d lo hi es : sk_data s = Some d -> t_range (d_y d) = Some (lo, hi) -> es <> [] -> Forall (fun e : extract => length (ch_models (snd e)) = kept_of (sk_nsamples s) (sk_thin s)) es ->
  made_of (map (fun e => stored (one_chain s) [e]) es) (stored s es).
Proof.
  intros Hd Hr Hne F. set (of := fun e : extract => map (fun sm => (fst e, sm)) (ch_models (snd e))). split; [|split].
  - intros X. rewrite map_map. assert (P : forall es, sk_predict (stored s es) (Some X) = predicted lo hi (concat (map of es)) X).
    { intros es'. unfold sk_predict, out_of_sample_predict. cbn [stored sk_set_chains sk_data sk_samples]. rewrite Hd, flat_map_concat_map. unfold predicted. fold of. destruct (predict_samples _ X) as [vs| |]; cbn [rbind]; auto. destruct (vmean vs); cbn [rbind]; auto. unfold unnormalize_y. now rewrite Hr. }
    rewrite P. rewrite (map_ext _ (fun e => predicted lo hi (of e) X)).
    2:{ intros e. transitivity (predicted lo hi (concat (map of [e])) X); [exact (P [e])|]. cbn [map concat]. now rewrite app_nil_r. }
    rewrite <- (map_map of (fun ss => predicted lo hi ss X)). apply (predicted_groups lo hi X (kept_of (sk_nsamples s) (sk_thin s))); [destruct es; [congruence|discriminate]|].
    apply Forall_forall. intros ss I. apply in_map_iff in I as (e&<-&I). unfold of. rewrite map_length. rewrite Forall_forall in F. auto.
  - unfold sigmas. cbn [stored sk_set_chains sk_samples listed]. rewrite (flat_map_concat_map _ (map _ es)), map_map. rewrite !flat_map_concat_map, concat_map, map_map. f_equal. apply map_ext. intros e. cbn [stored sk_set_chains sk_samples sk_accept flat_map listed]. now rewrite app_nil_r.
  - cbn [stored sk_set_chains sk_accept listed]. rewrite (flat_map_concat_map _ (map _ es)), map_map, flat_map_concat_map. f_equal. apply map_ext. intros e. cbn [stored sk_set_chains sk_samples sk_accept flat_map listed]. now rewrite app_nil_r.
Qed.
Lemma processes_each s h X y : forall rs, run_processes (repeat (s, h, X, y) (length rs)) rs = each (map (fun r => let! (c, _, h1) := run_chain s h X y r in Ok (h1, c)) rs).
Proof. induction rs as [|r rs IH]; auto. cbn [length repeat run_processes map each]. rewrite IH. destruct (run_chain s h X y r) as [[[c s1] h1]| |]; reflexivity. Qed.
Lemma fit_one s h X y r s1 m : construct_model s h X y = Ok s1 -> sk_model s1 = Some m ->
  fit Processes (one_chain s) h X y [r] = let! e := (let! (c, _, h1) := run_chain s1 (m_heap m) X y r in Ok (h1, c)) in Ok (stored (one_chain s1) [e]).
Proof.
  intros E Em. unfold fit. rewrite construct_one, E. cbn [rmap rbind]. change (sk_model (one_chain s1)) with (sk_model s1). rewrite Em.
  assert (G : forall r, run_chain (one_chain s1) (m_heap m) X y r = rmap (fun q => (fst (fst q), one_chain (snd (fst q)), snd q)) (run_chain s1 (m_heap m) X y r)) by (intros; apply run_chain_one).
  cbn [one_chain sk_nchains repeat run_processes]. fold (one_chain s1). rewrite G. destruct (run_chain s1 (m_heap m) X y r) as [[[c s2] h1]| |]; reflexivity.
Qed.
Lemma fit_each s h X y rs : sk_nchains s = length rs -> rs <> [] ->
  match each (map (fun r => fit Processes (one_chain s) h X y [r]) rs) with
  | Ok fs => exists f, fit Processes s h X y rs = Ok f /\ made_of fs f
  | Raise e => fit Processes s h X y rs = Raise e
  | NoDraws => fit Processes s h X y rs = NoDraws
  end.
Proof.
  intros N Hne. destruct (construct_model s h X y) as [s1|e|] eqn:E.
  2,3: destruct rs as [|r rs]; [congruence|]; cbn [map each]; unfold fit; rewrite construct_one, E; reflexivity.
  destruct (construct_facts _ _ _ _ _ E) as (d&m&lo&hi&Hd&Hm&Hr&Nc&_&_&_). rewrite (map_ext _ _ (fun r => fit_one s h X y r s1 m E Hm)).
  rewrite <- (map_map (fun r => let! (c, _, h1) := run_chain s1 (m_heap m) X y r in Ok (h1, c)) (fun q => let! e := q in Ok (stored (one_chain s1) [e]))), each_map.
  unfold fit. rewrite E. cbn [rbind]. rewrite Hm, Nc, N, processes_each.
  destruct (each (map (fun r => let! (c, _, h1) := run_chain s1 (m_heap m) X y r in Ok (h1, c)) rs)) as [es|e|] eqn:Ee; cbn [rbind]; auto.
  assert (Hes : es <> []) by (apply each_length in Ee; rewrite map_length in Ee; destruct es; [destruct rs; [congruence|discriminate]|discriminate]).
  exists (stored s1 es). split; [now apply store_stored|]. apply (stored_made s1 d lo hi); auto.
  clear - Ee. revert es Ee. induction rs as [|r rs IH]; intros es; cbn [map each]; [intros [= <-]; constructor|]. destruct (run_chain s1 (m_heap m) X y r) as [[[c s2] h1]| |] eqn:E; try discriminate. cbn [rbind].
  destruct (each _) as [es'| |]; try discriminate. intros [= <-]. constructor; auto. cbn [snd]. eapply run_chain_count; eauto.
Qed.

(** ** the oblivious sampler *)
Lemma ob_sample_loop_count num den sp sa : forall todo ss m r c m' r', ob_sample_loop ss todo num den sp sa m r = Ok (c, m', r') ->
  length (ch_models c) = length (filter (fun k => keeps_sample k num den) (seq ss todo)).
Proof.
  induction todo as [|todo IH]; intros ss m r c m' r'; cbn [ob_sample_loop]; [now intros [= <- _ _]|]. destruct (ob_sample_iter ss num den sp sa m r) as [[[c1 m1] r1]| |] eqn:E; try discriminate. cbn [rbind].
  destruct (ob_sample_loop (S ss) todo num den sp sa m1 r1) as [[[c2 m2] r2]| |] eqn:E2; try discriminate. intros [= <- _ _]. apply IH in E2. cbn [seq filter]. unfold ob_sample_iter in E.
  destruct (ob_gibbs_step m r) as [[[[d a] m0] r0]| |]; try discriminate. cbn [rbind] in E. destruct (num =? 0)%Z; try discriminate. destruct (keeps_sample ss num den).
  - destruct (if sp then _ else _) as [[ps m3]| |]; try discriminate. cbn [rbind] in E. destruct (deep_copy_model m3) as [[s m4]| |]; try discriminate. injection E as <- _ _. cbn [ch_app ch_models app length]. now rewrite E2.
  - injection E as <- _ _. exact E2.
Qed.
Lemma ob_samples_count m ns nb th sp sa r c m' r' : ob_samples m ns nb th sp sa r = Ok (c, m', r') -> length (ch_models c) = kept_of ns th.
Proof. unfold ob_samples. destruct (ob_burn nb m r) as [[m1 r1]| |]; try discriminate. cbn [rbind]. destruct th as [|num den]; try discriminate. apply ob_sample_loop_count. Qed.
Lemma ob_run_chain_one s h X y r : ob_run_chain (one_chain s) h X y r = rmap (fun q => (fst (fst q), one_chain (snd (fst q)), snd q)) (ob_run_chain s h X y r).
Proof.
  unfold ob_run_chain. rewrite construct_one. destruct (construct_model s h X y) as [s1| |]; cbn [rbind rmap]; auto. change (sk_model (one_chain s1)) with (sk_model s1). change (sk_data (one_chain s1)) with (sk_data s1).
  destruct (sk_model s1) as [m|]; auto. destruct (sk_data s1) as [d|]; auto. cbn [one_chain sk_nsamples sk_nburn sk_thin sk_store_preds sk_store_accept]. destruct (ob_samples m _ _ _ _ _ r) as [[[c m1] r1]| |]; reflexivity.
Qed.
Lemma ob_run_chain_count s h X y r c s1 h1 : ob_run_chain s h X y r = Ok (c, s1, h1) -> length (ch_models c) = kept_of (sk_nsamples s) (sk_thin s).
Proof.
  unfold ob_run_chain. destruct (construct_model s h X y) as [s2| |]; try discriminate. cbn [rbind]. destruct (sk_model s2) as [m|]; try discriminate. destruct (sk_data s2) as [d|]; try discriminate.
  destruct (ob_samples m _ _ _ _ _ r) as [[[c1 m1] r1]| |] eqn:E; try discriminate. intros [= <- _ _]. eapply ob_samples_count; eauto.
Qed.
Lemma ob_processes_each s h X y : forall rs, ob_run_processes (repeat (s, h, X, y) (length rs)) rs = each (map (fun r => let! (c, _, h1) := ob_run_chain s h X y r in Ok (h1, c)) rs).
Proof. induction rs as [|r rs IH]; auto. cbn [length repeat ob_run_processes map each]. rewrite IH. destruct (ob_run_chain s h X y r) as [[[c s1] h1]| |]; reflexivity. Qed.
Lemma ob_fit_one s h X y r s1 m : construct_model s h X y = Ok s1 -> sk_model s1 = Some m ->
  ob_fit Processes (one_chain s) h X y [r] = let! e := (let! (c, _, h1) := ob_run_chain s1 (m_heap m) X y r in Ok (h1, c)) in Ok (stored (one_chain s1) [e]).
Proof.
  intros E Em. unfold ob_fit. rewrite construct_one, E. cbn [rmap rbind]. change (sk_model (one_chain s1)) with (sk_model s1). rewrite Em.
  assert (G : forall r, ob_run_chain (one_chain s1) (m_heap m) X y r = rmap (fun q => (fst (fst q), one_chain (snd (fst q)), snd q)) (ob_run_chain s1 (m_heap m) X y r)) by (intros; apply ob_run_chain_one).
  cbn [one_chain sk_nchains repeat ob_run_processes]. fold (one_chain s1). rewrite G. destruct (ob_run_chain s1 (m_heap m) X y r) as [[[c s2] h1]| |]; reflexivity.
Qed.
Lemma ob_fit_each s h X y rs : sk_nchains s = length rs -> rs <> [] ->
  match each (map (fun r => ob_fit Processes (one_chain s) h X y [r]) rs) with
  | Ok fs => exists f, ob_fit Processes s h X y rs = Ok f /\ made_of fs f
  | Raise e => ob_fit Processes s h X y rs = Raise e
  | NoDraws => ob_fit Processes s h X y rs = NoDraws
  end.
Proof.
  intros N Hne. destruct (construct_model s h X y) as [s1|e|] eqn:E.
  2,3: destruct rs as [|r rs]; [congruence|]; cbn [map each]; unfold ob_fit; rewrite construct_one, E; reflexivity.
  destruct (construct_facts _ _ _ _ _ E) as (d&m&lo&hi&Hd&Hm&Hr&Nc&_&_&_). rewrite (map_ext _ _ (fun r => ob_fit_one s h X y r s1 m E Hm)).
  rewrite <- (map_map (fun r => let! (c, _, h1) := ob_run_chain s1 (m_heap m) X y r in Ok (h1, c)) (fun q => let! e := q in Ok (stored (one_chain s1) [e]))), each_map.
  unfold ob_fit. rewrite E. cbn [rbind]. rewrite Hm, Nc, N, ob_processes_each.
  destruct (each (map (fun r => let! (c, _, h1) := ob_run_chain s1 (m_heap m) X y r in Ok (h1, c)) rs)) as [es|e|] eqn:Ee; cbn [rbind]; auto.
  assert (Hes : es <> []) by (apply each_length in Ee; rewrite map_length in Ee; destruct es; [destruct rs; [congruence|discriminate]|discriminate]).
  exists (stored s1 es). split; [now apply store_stored|]. apply (stored_made s1 d lo hi); auto.
  clear - Ee. revert es Ee. induction rs as [|r rs IH]; intros es; cbn [map each]; [intros [= <-]; constructor|]. destruct (ob_run_chain s1 (m_heap m) X y r) as [[[c s2] h1]| |] eqn:E; try discriminate. cbn [rbind].
  destruct (each _) as [es'| |]; try discriminate. intros [= <-]. constructor; auto. cbn [snd]. eapply ob_run_chain_count; eauto.
Qed.
