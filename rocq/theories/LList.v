(** List lemmas used by the proofs. *)
From Verif Require Import Base.

Lemma map2_length {A B C} (f : A -> B -> C) xs ys :
  length xs = length ys -> length (map2 f xs ys) = length xs.
Proof. revert ys; induction xs; destruct ys; simpl; intros; try discriminate; auto. Qed.
Lemma map2_nth_error {A B C} (f : A -> B -> C) xs ys i :
  nth_error (map2 f xs ys) i =
  match nth_error xs i, nth_error ys i with Some a, Some b => Some (f a b) | _, _ => None end.
Proof.
  revert ys i; induction xs as [|x xs IH]; destruct ys as [|y ys], i as [|i]; simpl; auto;
    try (destruct (nth_error xs i); reflexivity).
Qed.
Lemma map2_map {A B C D} (f : A -> B -> C) (g : D -> A) (k : D -> B) l :
  map2 f (map g l) (map k l) = map (fun x => f (g x) (k x)) l.
Proof. induction l; simpl; congruence. Qed.
Lemma map2_map_l {A B C D} (f : A -> B -> C) (g : D -> A) l ys :
  map2 f (map g l) ys = map2 (fun x y => f (g x) y) l ys.
Proof. revert ys; induction l; destruct ys; simpl; congruence. Qed.
Lemma map2_map_r {A B C D} (f : A -> B -> C) (g : D -> B) xs l :
  map2 f xs (map g l) = map2 (fun x y => f x (g y)) xs l.
Proof. revert l; induction xs; destruct l; simpl; congruence. Qed.
Lemma map_map2 {A B C D} (g : C -> D) (f : A -> B -> C) xs ys :
  map g (map2 f xs ys) = map2 (fun x y => g (f x y)) xs ys.
Proof. revert ys; induction xs; destruct ys; simpl; congruence. Qed.

Lemma nth_error_ext {A} (l1 l2 : list A) :
  (forall i, nth_error l1 i = nth_error l2 i) -> l1 = l2.
Proof.
  revert l2; induction l1 as [|a l1 IH]; destruct l2 as [|b l2]; intros H; auto.
  - specialize (H 0); discriminate.
  - specialize (H 0); discriminate.
  - f_equal. + specialize (H 0); simpl in H; congruence.
    + apply IH; intros i; apply (H (S i)).
Qed.

Lemma nth_error_nth_iff {A} (l : list A) i x d :
  nth_error l i = Some x <-> i < length l /\ nth i l d = x.
Proof.
  split.
  - intros H. split. + apply nth_error_Some; congruence. + now apply nth_error_nth.
  - intros [H <-]. now apply nth_error_nth'.
Qed.

Lemma in_select {A} (m : list bool) (xs : list A) x :
  In x (select m xs) <-> exists i, nth_error m i = Some false /\ nth_error xs i = Some x.
Proof.
  revert xs; induction m as [|b m IH]; intros xs; simpl.
  - split; [tauto|]. intros (i&H&_); destruct i; discriminate.
  - destruct xs as [|a xs]; simpl.
    + split; [tauto|]. intros (i&_&H); destruct i; discriminate.
    + destruct b; simpl; rewrite IH.
      * split; [intros (i&H1&H2); exists (S i); auto|].
        intros ([|i]&H1&H2); simpl in *; [discriminate|eauto].
      * split.
        -- intros [<-|(i&H1&H2)]; [exists 0; auto|exists (S i); auto].
        -- intros ([|i]&H1&H2); simpl in *; [left; congruence|right; eauto].
Qed.
Lemma in_tl_select {A} (m : list bool) (xs : list A) x :
  In x (tl (select m xs)) <->
  exists k i, k < i /\ nth_error m k = Some false /\ nth_error m i = Some false /\ nth_error xs i = Some x.
Proof.
  revert xs; induction m as [|b m IH]; intros xs; simpl.
  - split; [tauto|]. intros (k&i&_&H&_); destruct k; discriminate.
  - destruct xs as [|a xs]; simpl.
    + split; [tauto|]. intros (k&i&_&_&_&H); destruct i; discriminate.
    + destruct b; simpl.
      * rewrite IH. split.
        -- intros (k&i&H1&H2&H3&H4). exists (S k), (S i). repeat split; auto; lia.
        -- intros ([|k]&[|i]&H1&H2&H3&H4); simpl in *; try discriminate.
           exists k, i; repeat split; auto; lia.
      * rewrite in_select. split.
        -- intros (i&H1&H2). exists 0, (S i). repeat split; auto; lia.
        -- intros (k&[|i]&H1&H2&H3&H4); simpl in *; [lia|eauto].
Qed.
Lemma select_length {A} (m : list bool) (xs : list A) :
  length m = length xs -> length (select m xs) = count_false m.
Proof.
  revert xs; induction m as [|[] m IH]; destruct xs; simpl; intros; try discriminate; auto.
Qed.
Lemma select_map {A B} (f : A -> B) m xs : select m (map f xs) = map f (select m xs).
Proof. revert xs; induction m as [|[] m IH]; destruct xs; simpl; auto; now rewrite IH. Qed.

(** the sub-mask of a mask keeps a subsequence *)
Inductive subseq {A} : list A -> list A -> Prop :=
| ss_nil : subseq [] []
| ss_skip x l1 l2 : subseq l1 l2 -> subseq l1 (x :: l2)
| ss_keep x l1 l2 : subseq l1 l2 -> subseq (x :: l1) (x :: l2).
Lemma subseq_nil {A} (l : list A) : subseq [] l.
Proof. induction l; constructor; auto. Qed.
Lemma subseq_refl {A} (l : list A) : subseq l l.
Proof. induction l; [constructor|apply ss_keep; auto]. Qed.
Lemma subseq_in {A} (l1 l2 : list A) x : subseq l1 l2 -> In x l1 -> In x l2.
Proof. induction 1; simpl; intuition. Qed.
Lemma subseq_tl {A} (l1 l2 : list A) : subseq l1 l2 -> subseq (tl l1) (tl l2).
Proof.
  induction 1; simpl; auto using subseq_nil.
  destruct l2; simpl in *; auto.
  apply ss_skip. exact IHsubseq.
Qed.
Lemma subseq_map {A B} (f : A -> B) l1 l2 : subseq l1 l2 -> subseq (map f l1) (map f l2).
Proof. induction 1; simpl; [apply ss_nil|apply ss_skip; auto|apply ss_keep; auto]. Qed.
Lemma subseq_nodup {A} (l1 l2 : list A) : subseq l1 l2 -> NoDup l2 -> NoDup l1.
Proof.
  induction 1; intros Hn; auto; inversion Hn; subst; auto.
  constructor; auto. intros Hi; eapply subseq_in in Hi; eauto.
Qed.
Lemma select_subseq {A} (m1 m2 : list bool) (xs : list A) :
  subseq (select (map2 orb m1 m2) xs) (select m1 xs).
Proof.
  revert m2 xs; induction m1 as [|b m1 IH]; intros [|c m2] [|x xs]; simpl; try constructor;
    destruct b; simpl; auto using subseq_nil.
  destruct c; [apply ss_skip|apply ss_keep]; apply IH.
Qed.

Lemma count_false_app m1 m2 : count_false (m1 ++ m2) = count_false m1 + count_false m2.
Proof. induction m1 as [|[] m1 IH]; simpl; lia. Qed.
Lemma count_false_le m : count_false m <= length m.
Proof. induction m as [|[] m IH]; simpl; lia. Qed.
Lemma count_false_repeat n : count_false (repeat false n) = n.
Proof. induction n; simpl; lia. Qed.
Lemma count_false_pos m : 0 < count_false m <-> exists i, nth_error m i = Some false.
Proof.
  induction m as [|[] m IH]; simpl.
  - split; [lia|]. intros ([|i]&H); discriminate.
  - rewrite IH. split; [intros (i&H); exists (S i); auto|]. intros ([|i]&H); [discriminate|eauto].
  - split; [|lia]. intros _; exists 0; auto.
Qed.

Lemma forallb_nth_error {A} (f : A -> bool) l :
  forallb f l = true <-> forall i x, nth_error l i = Some x -> f x = true.
Proof.
  rewrite forallb_forall. split; intros H.
  - intros i x Hi. apply H. eapply nth_error_In; eauto.
  - intros x Hx. apply In_nth_error in Hx as (i&Hi). eauto.
Qed.

Lemma set_nth_length {A} i (x : A) l : length (set_nth i x l) = length l.
Proof. revert i; induction l; destruct i; simpl; auto. Qed.
Lemma set_nth_nth_error_eq {A} i (x : A) l : i < length l -> nth_error (set_nth i x l) i = Some x.
Proof. revert i; induction l; destruct i; simpl; intros; try lia; auto. apply IHl; lia. Qed.
Lemma set_nth_nth_error_neq {A} i j (x : A) l : i <> j -> nth_error (set_nth i x l) j = nth_error l j.
Proof. revert i j; induction l; destruct i, j; simpl; intros; auto; try congruence. Qed.
Lemma set_nth_nth {A} i j (x d : A) l :
  nth j (set_nth i x l) d = if (i =? j) && (i <? length l) then x else nth j l d.
Proof.
  revert i j; induction l as [|a l IH]; intros [|i] [|j]; simpl; auto.
  - now rewrite andb_false_r.
  - rewrite IH. destruct (i =? j); simpl; auto.
Qed.
Lemma set_nth_same {A} i (x : A) l : nth_error l i = Some x -> set_nth i x l = l.
Proof.
  revert i; induction l as [|a l IH]; intros [|i] H; simpl in *; auto; try congruence.
  f_equal; auto.
Qed.

Lemma last_opt_app {A} (l : list A) x : last_opt (l ++ [x]) = Some x.
Proof. unfold last_opt. now rewrite rev_app_distr. Qed.
Lemma last_opt_nil {A} (l : list A) : last_opt l = None <-> l = [].
Proof.
  unfold last_opt. split; [|intros ->; auto].
  destruct l using rev_ind; auto. rewrite rev_app_distr; discriminate.
Qed.
Lemma last_opt_map {A B} (f : A -> B) l :
  last_opt (map f l) = match last_opt l with Some x => Some (f x) | None => None end.
Proof.
  destruct l as [|x l] using rev_ind; auto. rewrite map_app. simpl. now rewrite !last_opt_app.
Qed.

Lemma choose_in {A} (d : A) xs k : xs <> [] -> In (choose d xs k) xs.
Proof.
  intros H. unfold choose. apply nth_In. apply Nat.mod_upper_bound.
  destruct xs; simpl; congruence.
Qed.
Lemma choose_nth {A} (d : A) xs k : k < length xs -> choose d xs k = nth k xs d.
Proof. intros. unfold choose. now rewrite Nat.mod_small. Qed.

Lemma remove_first_spec x l :
  match remove_first x l with
  | Some r => exists l1 l2, l = l1 ++ x :: l2 /\ r = l1 ++ l2 /\ ~ In x l1
  | None => ~ In x l
  end.
Proof.
  induction l as [|y l IH]; simpl; auto.
  destruct (Nat.eqb_spec x y) as [<-|Hn].
  - exists [], l; auto.
  - destruct (remove_first x l) as [r|].
    + destruct IH as (l1&l2&->&->&Hi). exists (y :: l1), l2. simpl. repeat split; auto.
      intros [->|?]; auto.
    + intros [->|?]; auto.
Qed.

Lemma filter_length_le {A} (f : A -> bool) l : length (filter f l) <= length l.
Proof. induction l as [|a l IH]; simpl; auto. destruct (f a); simpl; lia. Qed.
Lemma filter_ext_in' {A} (f g : A -> bool) l :
  (forall a, In a l -> f a = g a) -> filter f l = filter g l.
Proof. apply filter_ext_in. Qed.
Lemma nth_repeat' {A} (x d : A) n i : nth i (repeat x n) d = if i <? n then x else d.
Proof.
  revert i; induction n; intros [|i]; simpl; auto. rewrite IHn. reflexivity.
Qed.
Lemma nth_map_seq {A} (f : nat -> A) n i d : i < n -> nth i (map f (seq 0 n)) d = f i.
Proof.
  intros H. rewrite nth_indep with (d' := f 0) by now rewrite map_length, seq_length.
  rewrite map_nth, seq_nth; auto.
Qed.
Lemma nth_map_d {A B} (f : A -> B) l i d d' : f d = d' -> nth i (map f l) d' = f (nth i l d).
Proof. intros <-. apply map_nth. Qed.
