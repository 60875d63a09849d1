(** Property C82: see /verif/properties.jsonl. *)
From Coq Require Import Lia.
From Verif Require Import Base MSeed.

(** how often sampler [i] was asked *)
Definition asked (i : nat) (os : list world_op) : nat := length (filter (fun o => match o with Sample j => Nat.eqb j i | _ => false end) os).
(** numbers left over in a cache of the size [n] after [k] calls *)
Definition left_over (n k : nat) : nat := (n - k mod n) mod n.

Section Seeding.
  Context {G A : Type} (batch : nat -> G -> nat -> list A * G) (seeded : nat -> G) (size : nat -> nat).
  Hypothesis batch_length : forall i g n, length (fst (batch i g n)) = n.
  Hypothesis size_pos : forall i, 0 < size i.
  Notation run := (world_run batch seeded size).
  Notation sample := (world_sample batch size).

  Lemma sample_ok w i : exists x c g, sample w i = Ok (x, put_cache w g i c) /\
    ((wo_cache w i = c ++ [x] /\ g = wo_gen w) \/ (wo_cache w i = [] /\ batch i (wo_gen w) (size i) = (c ++ [x], g))).
  Proof.
    unfold world_sample. destruct (wo_cache w i) as [|a l] eqn:E.
    - destruct (batch i (wo_gen w) (size i)) as [c g] eqn:Eb. assert (L : length c = size i) by (rewrite <- (batch_length i (wo_gen w) (size i)), Eb; reflexivity).
      destruct (rev c) as [|x xs] eqn:Er.
      + apply (f_equal (@length A)) in Er. rewrite rev_length in Er. simpl in Er. specialize (size_pos i). lia.
      + exists x, (rev xs), g. split; auto. right. split; auto. f_equal. rewrite <- (rev_involutive c), Er. reflexivity.
    - destruct (rev (a :: l)) as [|x xs] eqn:Er; [apply (f_equal (@length A)) in Er; rewrite rev_length in Er; discriminate|].
      exists x, (rev xs), (wo_gen w). split; auto. left. split; auto. rewrite <- (rev_involutive (a :: l)), Er. reflexivity.
  Qed.
  Lemma run_app w os os' : run w (os ++ os') = let! (xs, w1) := run w os in let! (ys, w2) := run w1 os' in Ok (xs ++ ys, w2).
  Proof.
    revert w. induction os as [|o os IH]; intros w; cbn [app world_run rbind].
    - destruct (run w os') as [[ys w2]| |]; reflexivity.
    - destruct (world_do batch seeded size w o) as [[xs w1]| |]; cbn [rbind]; auto. rewrite IH. destruct (run w1 os) as [[ys w2]| |]; cbn [rbind]; auto.
      destruct (run w2 os') as [[zs w3]| |]; cbn [rbind]; auto. now rewrite app_assoc.
  Qed.
  (** every program gets its numbers *)
  Lemma run_total os : forall w, exists xs w', run w os = Ok (xs, w').
  Proof.
    induction os as [|o os IH]; intros w; cbn [world_run]; [eauto|]. destruct o as [i|i n|s]; cbn [world_do].
    - destruct (sample_ok w i) as (x&c&g&->&_). cbn [rbind]. destruct (IH (put_cache w g i c)) as (xs&w'&->). cbn [rbind]. eauto.
    - destruct (batch i (wo_gen w) n) as [xs g]. cbn [rbind]. destruct (IH (Wo g (wo_cache w))) as (ys&w'&->). cbn [rbind]. eauto.
    - cbn [rbind]. destruct (IH (Wo (seeded s) (wo_cache w))) as (ys&w'&->). cbn [rbind]. eauto.
  Qed.
  Lemma left_step n k : 0 < n -> left_over n (S k) = match left_over n k with O => n - 1 | S q => q end.
  Proof.
    intros Hn. unfold left_over. pose proof (Nat.mod_upper_bound k n ltac:(lia)) as B.
    assert (E : S k mod n = if Nat.eqb (S (k mod n)) n then 0 else S (k mod n)).
    { replace (S k) with (k mod n + 1 + (k / n) * n) by (pose proof (Nat.div_mod k n ltac:(lia)); lia). rewrite Nat.mod_add by lia.
      destruct (Nat.eqb_spec (S (k mod n)) n) as [E|E]; [replace (k mod n + 1) with n by lia; apply Nat.mod_same; lia|rewrite Nat.mod_small by lia; lia]. }
    rewrite E. clear E. generalize dependent (k mod n). intros r B. destruct (Nat.eqb_spec (S r) n) as [E1|E1].
    - rewrite Nat.sub_0_r, Nat.mod_same by lia. destruct (Nat.eq_dec r 0) as [Z|Z].
      + rewrite Z, Nat.sub_0_r, Nat.mod_same by lia. lia.
      + rewrite Nat.mod_small by lia. replace (n - r) with 1 by lia. reflexivity.
    - destruct (Nat.eq_dec r 0) as [Z|Z].
      + rewrite Z, Nat.sub_0_r, Nat.mod_same by lia. rewrite Nat.mod_small; lia.
      + rewrite !Nat.mod_small by lia. destruct (n - r) as [|q] eqn:Q; lia.
  Qed.
  Lemma caches_after os : forall w k xs w' i, length (wo_cache w i) = left_over (size i) k -> run w os = Ok (xs, w') ->
    length (wo_cache w' i) = left_over (size i) (k + asked i os).
  Proof.
    induction os as [|o os IH]; intros w k xs w' i Hk; cbn [world_run].
    - intros [= <- <-]. unfold asked. simpl. now rewrite Nat.add_0_r.
    - destruct o as [j|j n|s]; cbn [world_do].
      + destruct (sample_ok w j) as (x&c&g&->&Hc). cbn [rbind]. destruct (run (put_cache w g j c) os) as [[ys w2]| |] eqn:E; try discriminate. cbn [rbind]. intros [= <- <-].
        unfold asked. cbn [filter]. destruct (Nat.eqb_spec j i) as [->|Hj].
        * cbn [length]. rewrite <- plus_n_Sm. rewrite <- plus_Sn_m. eapply IH; [|exact E]. simpl. rewrite Nat.eqb_refl.
          rewrite left_step by auto. rewrite <- Hk. destruct Hc as [[Hc _]|[Hc Hb]]; rewrite Hc.
          -- rewrite app_length. simpl. rewrite Nat.add_comm. reflexivity.
          -- simpl. pose proof (batch_length i (wo_gen w) (size i)) as L. rewrite Hb in L. simpl in L. rewrite app_length in L. simpl in L. lia.
        * eapply IH; [|exact E]. simpl. destruct (Nat.eqb_spec i j); [congruence|auto].
      + destruct (batch j (wo_gen w) n) as [zs g]. cbn [rbind]. destruct (run (Wo g (wo_cache w)) os) as [[ys w2]| |] eqn:E; try discriminate. cbn [rbind]. intros [= <- <-].
        eapply IH; [|exact E]. auto.
      + cbn [rbind]. destruct (run (Wo (seeded s) (wo_cache w)) os) as [[ys w2]| |] eqn:E; try discriminate. cbn [rbind]. intros [= <- <-].
        eapply IH; [|exact E]. auto.
  Qed.
  Lemma same_caches os : forall w w', wo_gen w' = wo_gen w -> (forall i, wo_cache w' i = wo_cache w i) ->
    match run w os, run w' os with Ok (xs, _), Ok (xs', _) => xs' = xs | _, _ => False end.
  Proof.
    induction os as [|o os IH]; intros w w' Hg Hc; cbn [world_run]; auto. destruct o as [i|i n|s]; cbn [world_do].
    - unfold world_sample. rewrite Hc, Hg. destruct (match wo_cache w i with [] => _ | _ => _ end) as [c g] eqn:E.
      destruct (sample_ok w i) as (x0&c0&g0&E0&_). unfold world_sample in E0. rewrite E in E0. destruct (rev c) as [|x xs]; try discriminate. cbn [rbind].
      specialize (IH (put_cache w g i (rev xs)) (put_cache w' g i (rev xs)) eq_refl).
      destruct (run (put_cache w g i (rev xs)) os) as [[ys w1]| |]; destruct (run (put_cache w' g i (rev xs)) os) as [[ys' w1']| |]; cbn [rbind];
        try (apply IH; intros j; simpl; destruct (Nat.eqb j i); auto). f_equal. apply IH. intros j. simpl. destruct (Nat.eqb j i); auto.
    - rewrite Hg. destruct (batch i (wo_gen w) n) as [zs g]. cbn [rbind]. specialize (IH (Wo g (wo_cache w)) (Wo g (wo_cache w')) eq_refl Hc).
      destruct (run (Wo g (wo_cache w)) os) as [[ys w1]| |]; destruct (run (Wo g (wo_cache w')) os) as [[ys' w1']| |]; cbn [rbind]; auto. now f_equal.
    - cbn [rbind]. specialize (IH (Wo (seeded s) (wo_cache w)) (Wo (seeded s) (wo_cache w')) eq_refl Hc).
      destruct (run (Wo (seeded s) (wo_cache w)) os) as [[ys w1]| |]; destruct (run (Wo (seeded s) (wo_cache w')) os) as [[ys' w1']| |]; cbn [rbind]; auto.
  Qed.
  Lemma stale_run i : forall n (w : world G A) s c, n <= length (wo_cache w i) -> c = wo_cache w i ->
    match run (Wo (seeded s) (wo_cache w)) (repeat (Sample i) n) with Ok (xs, _) => xs = firstn n (rev c) | _ => False end.
  Proof.
    intros n w s. generalize (seeded s). clear s. revert w. induction n as [|n IH]; intros w g c Hn ->; cbn [repeat world_run]; [reflexivity|]. cbn [world_do].
    destruct (sample_ok (Wo g (wo_cache w)) i) as (x&c&g'&->&[[Hc Hg]|[Hc _]]); simpl in Hc; [|rewrite Hc in Hn; simpl in Hn; lia]. simpl in Hg. subst g'. cbn [rbind].
    unfold put_cache. simpl. specialize (IH (Wo g (fun j => if Nat.eqb j i then c else wo_cache w j)) g c). simpl in IH. rewrite Nat.eqb_refl in IH.
    rewrite Hc, app_length in Hn. simpl in Hn. specialize (IH ltac:(lia) eq_refl).
    destruct (run (Wo g (fun j => if Nat.eqb j i then c else wo_cache w j)) (repeat (Sample i) n)) as [[ys w2]| |]; try contradiction. cbn [rbind app].
    rewrite Hc, rev_unit. cbn [firstn]. now f_equal.
  Qed.
End Seeding.

(** what the theorems assume of NumPy: it returns as many numbers as it is asked for *)
Definition numpy_like {G A} (batch : nat -> G -> nat -> list A * G) : Prop := forall i g n, length (fst (batch i g n)) = n.
(** Each cache holds what was left over of its last batch: the history of the process decides how much that is. *)
Theorem C82_left_over : forall {G A} (batch : nat -> G -> nat -> list A * G) seeded size g os, numpy_like batch -> (forall i, 0 < size i) ->
  exists xs w, world_run batch seeded size (new_process g) os = Ok (xs, w) /\ forall i, length (wo_cache w i) = left_over (size i) (asked i os).
Proof.
  intros G A batch seeded size g os Hb Hs. destruct (run_total batch seeded size Hb Hs os (new_process g)) as (xs&w&E). exists xs, w. split; auto. intros i.
  apply (caches_after batch seeded size Hb Hs os (new_process g) 0 xs w i); auto. simpl. unfold left_over. specialize (Hs i). rewrite Nat.mod_0_l, Nat.sub_0_r, Nat.mod_same by lia. reflexivity.
Qed.
Print Assumptions C82_left_over.
(** Seeding makes a program reproducible, whatever ran before, if every sampler had been asked a multiple of its
    cache size: in a new process in particular. *)
Theorem C82_reproducible : forall {G A} (batch : nat -> G -> nat -> list A * G) seeded size g g' os xs w s program, numpy_like batch -> (forall i, 0 < size i) ->
  world_run batch seeded size (new_process g) os = Ok (xs, w) -> (forall i, asked i os mod size i = 0) ->
  exists ys w1 w2, world_run batch seeded size (new_process g') (Seed s :: program) = Ok (ys, w1) /\ world_run batch seeded size w (Seed s :: program) = Ok (ys, w2).
Proof.
  intros G A batch seeded size g g' os xs w s program Hb Hs E Hm.
  destruct (C82_left_over batch seeded size g os Hb Hs) as (xs0&w0&E0&Hl). rewrite E in E0. injection E0 as <- <-.
  assert (Hc : forall i, wo_cache w i = []). { intros i. specialize (Hl i). unfold left_over in Hl. rewrite Hm, Nat.sub_0_r, Nat.mod_same in Hl by (specialize (Hs i); lia). now destruct (wo_cache w i). }
  cbn [world_run world_do rbind]. pose proof (same_caches batch seeded size Hb Hs program (Wo (seeded s) (wo_cache (new_process g'))) (Wo (seeded s) (wo_cache w)) eq_refl Hc) as H.
  destruct (world_run batch seeded size (Wo (seeded s) (wo_cache (new_process g'))) program) as [[ys w1]| |]; try contradiction.
  destruct (world_run batch seeded size (Wo (seeded s) (wo_cache w)) program) as [[ys' w2]| |]; try contradiction. subst ys'. cbn [rbind]. eauto 10.
Qed.
Print Assumptions C82_reproducible.
(** Otherwise the seed has no effect on the next numbers of a sampler: as many as are left over are the same for
    every seed, and are numbers drawn before the seed was set. *)
Theorem C82_seed_ignored : forall {G A} (batch : nat -> G -> nat -> list A * G) seeded size g os xs w i n, numpy_like batch -> (forall i, 0 < size i) ->
  world_run batch seeded size (new_process g) os = Ok (xs, w) -> n <= left_over (size i) (asked i os) ->
  forall s, exists w', world_run batch seeded size w (Seed s :: repeat (Sample i) n) = Ok (firstn n (rev (wo_cache w i)), w').
Proof.
  intros G A batch seeded size g os xs w i n Hb Hs E Hn s.
  destruct (C82_left_over batch seeded size g os Hb Hs) as (xs0&w0&E0&Hl). rewrite E in E0. injection E0 as <- <-. rewrite <- Hl in Hn.
  pose proof (stale_run batch seeded size Hb Hs i n w s _ Hn eq_refl) as H. cbn [world_run world_do rbind].
  destruct (world_run batch seeded size (Wo (seeded s) (wo_cache w)) (repeat (Sample i) n)) as [[ys w2]| |]; try contradiction. subst ys. cbn [rbind]. eauto.
Qed.
Print Assumptions C82_seed_ignored.
(** "seed, draw, seed, draw" does not give the same number twice, with a generator that counts up from its seed and the
    cache size of the tree samplers *)
Definition counting : nat -> nat -> nat -> list nat * nat := fun _ g n => (seq g n, g + n).
Lemma counting_like : numpy_like counting.
Proof. intros i g n. apply seq_length. Qed.
Theorem C82_reseeding_refuted : exists s a b w, a <> b /\
  world_run counting (fun s => s) (fun _ => 1000) (new_process 0) [Seed s; Sample 0; Seed s; Sample 0] = Ok ([a; b], w).
Proof. exists 42, 1041, 1040. eexists. split; [discriminate|]. vm_compute. reflexivity. Qed.
Print Assumptions C82_reseeding_refuted.
Example C82_case : exists xs w, world_run counting (fun s => s) (fun _ => 3) (new_process 0) [Seed 10; Sample 0; Sample 1; Direct 2 2; Sample 0] = Ok (xs, w) /\ xs = [12; 15; 16; 17; 11] /\
  left_over 3 2 = 1 /\ wo_cache w 0 = [10] /\ wo_cache w 1 = [13; 14].
Proof. do 2 eexists. split; [vm_compute; reflexivity|]. repeat split. Qed.
