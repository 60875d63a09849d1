(** C117: the acceptance ratio of the oblivious sampler in double precision. *)
From Coq Require Import ZArith Reals List Lra Lia Psatz Permutation.
From Flocq Require Import Core.Core IEEE754.BinarySingleNaN.
From Verif Require Import Base Fl Ext MData MSplit MTree MSampler MScalar MHist MTreeHist MOblivious Spec PSampler SpecSampler SpecOblivious Properties_Sampler Properties_Oblivious MFloat MFloat2 MFloat3 MFloat4 MFloat5 MFloat9
  SpecDouble SpecDouble3 SpecDouble4 SpecDouble5 SpecDouble9 PFloat PFloat2 PFloat3 PFloat5 PFloat6 PFloat7 PFloat8 PFloat9 PFloat10 PFloat11 PFloat12 PFloat16
  Properties_Double Properties_Drift Properties_Double2 Properties_Double3 Properties_Double4 Properties_Double5.
Import ListNotations.
Local Open Scope R_scope.

(** The log acceptance ratio of splitting a whole level, or of undoing it, as computed in whatever order, is finite and close to
    the exact one, in which the probabilities of the cuts cancel; [d] and [dd] are 1 and 2 more than the depth of the level. *)
Theorem C117_accurate : forall (grow : bool) alpha beta pgrow pprune sigma tau d dd depth qs r,
  usual_settings alpha beta pgrow pprune -> counts d (S depth) -> counts dd (S (S depth)) -> (depth <= 1022)%nat ->
  Forall (usual_cut sigma tau) qs -> INR (length qs) <= bpow radix2 52 ->
  ob_total_f grow alpha beta pgrow pprune sigma tau d dd qs r ->
  let exact q := exact_level grow (val pgrow) (val pprune) (val alpha) (val beta) depth (exact_cut sigma tau q) in
  finite r /\
  Rabs (val r - rtotal (map exact qs)) <=
    rtotal (map (cut_error alpha sigma tau) qs) +
    INR (length qs) * bpow radix2 (-52) * rtotal (map (fun q => Rabs (exact q) + cut_error alpha sigma tau q) qs).
Proof. intros gr alpha beta pg pp sigma tau d dd depth qs r U D1 D2 Dp Q L T exact. exact (level_accuracy _ _ _ _ U _ _ _ _ _ D1 D2 Dp gr qs r Q L T). Qed.

(** A ratio that close to the exact one leads to the same decision, unless the draw is within the error of the exact ratio. *)
Theorem C117_decision : forall w r exact error,
  finite w -> finite r -> Rabs (val r - exact) <= error -> error < Rabs (val w - exact) -> ob_accepted_f w r = accepts (val w) (XFin exact).
Proof.
  intros w r ex er Fw Fr E G. unfold ob_accepted_f. apply abs_interval in E. apply Bool.eq_iff_eq_true. rewrite (fless_finite w _ Fw Fr). unfold accepts. cbn [xltb].
  unfold val in *. destruct (Rlt_dec (fr w) ex) as [L|L].
  - rewrite Rabs_left in G by lra. split; [reflexivity|]. intros _. lra.
  - rewrite Rabs_pos_eq in G by lra. split; [lra|discriminate].
Qed.

(** The exact ratios are those of the exact model, for the proposals in every tree that can be reached (C63): *)
Lemma level_sum (gr : bool) a b c e k Ls : rtotal (map (exact_level gr a b c e k) Ls) =
  (if gr then rsum Ls else rsum (map Ropp Ls)) + INR (length Ls) * (if gr then ln (b / a) + log_structure_odds c e k else ln (a / b) - log_structure_odds c e k).
Proof.
  unfold rtotal, rsum. induction Ls as [|x Ls IH]; [destruct gr; cbn; lra|]. cbn [map fold_right length]. rewrite IH, S_INR. unfold exact_level. destruct gr; ring.
Qed.
Theorem C117_exact_model_grow : forall X y nrm h0 os h t idx ms h1 idx1 sigma p k, no_nan X -> mx_rows X <> [] -> ob_reached X y nrm h0 os h t ->
  perfect_tree h t k -> ob_grow_mutations h t idx = Ok (ms, h1, idx1) -> (forall j, In j (leaf_nodes h t) -> scorable X h j) -> usual p -> 0 < sigma ->
  exists Ls, Forall2 (fun m L => log_likihood_ratio h1 m sigma p = Ok (XFin L)) ms Ls /\ length Ls = (2 ^ k)%nat /\
    ob_ratio h1 ms sigma p = Ok (XFin (rtotal (map (exact_level true (pa_pgrow p) (pa_pprune p) (pa_alpha p) (pa_beta p) k) Ls))).
Proof.
  intros X y nrm h0 os h t idx ms h1 idx1 sigma p k Hn Hne Hr Hp E Hs Hu H0. destruct (C63_grow_ratio _ _ _ _ _ _ _ _ _ _ _ sigma p k Hn Hne Hr Hp E Hs Hu H0) as (Ls & A & B & C).
  exists Ls. split; [exact A|]. split; [exact B|]. rewrite C, level_sum, B. reflexivity.
Qed.
Theorem C117_exact_model_prune : forall X y nrm h0 os h t ms h1 sigma p k, no_nan X -> mx_rows X <> [] -> ob_reached X y nrm h0 os h t ->
  perfect_tree h t (S k) -> ob_prune_mutations h t = Ok (ms, h1) -> (forall j, In j (prunable_decision_nodes h t) -> scorable X h j) -> usual p -> 0 < sigma ->
  exists Ls, Forall2 (fun m L => log_likihood_ratio h1 m sigma p = Ok (XFin (- L))) ms Ls /\ length Ls = (2 ^ k)%nat /\
    ob_ratio h1 ms sigma p = Ok (XFin (rtotal (map (exact_level false (pa_pgrow p) (pa_pprune p) (pa_alpha p) (pa_beta p) k) Ls))).
Proof.
  intros X y nrm h0 os h t ms h1 sigma p k Hn Hne Hr Hp E Hs Hu H0. destruct (C63_prune_ratio _ _ _ _ _ _ _ _ _ sigma p k Hn Hne Hr Hp E Hs Hu H0) as (Ls & A & B & C).
  assert (I : map Ropp (map Ropp Ls) = Ls) by (rewrite map_map; rewrite <- (map_id Ls) at 2; apply map_ext; intros; ring).
  exists (map Ropp Ls). split; [|split].
  - clear - A. induction A; constructor; auto. now rewrite Ropp_involutive.
  - now rewrite map_length.
  - rewrite C, level_sum, map_length, B, I. reflexivity.
Qed.
(** and the exact log likelihood ratio of a cut is that of the exact model, also when one side of the cut is empty. *)
Theorem C117_exact_cut : forall sigma tau q n nl nr, 0 < val sigma -> 0 < val tau -> counts0 (fc_n q) n -> counts0 (fc_nl q) nl -> counts0 (fc_nr q) nr ->
  log_grow_ratio (Z.of_nat n) (Z.of_nat nl) (Z.of_nat nr) (val (fc_s q)) (val (fc_sl q)) (val (fc_sr q)) (val sigma) (XFin (val tau)) = XFin (exact_cut sigma tau q).
Proof.
  intros sigma tau q n nl nr Hs Ht (_ & A & _) (_ & B & _) (_ & C & _). rewrite C111_exact_model by auto. unfold exact_cut. now rewrite A, B, C.
Qed.

(** *** where it breaks down *)
Definition down (x : b64) : Prop := nan x \/ x = B754_infinity true.
Lemma down_cases x : down x -> x = B754_nan \/ x = B754_infinity true.
Proof. intros [H| ->]; [left; now apply is_nan_eq|auto]. Qed.
Lemma down_add x z : down x \/ down z -> down (fadd x z).
Proof.
  unfold down. intros [H|H]; apply down_cases in H as [-> | ->].
  - now left.
  - destruct z as [[]|[]| |[] ? ? ?]; (now left) || (now right).
  - destruct x as [[]|[]| |[] ? ? ?]; now left.
  - destruct x as [[]|[]| |[] ? ? ?]; (now left) || (now right).
Qed.
Lemma down_sums l s : sums l s -> forall x, In x l -> down x -> down s.
Proof.
  induction 1 as [|z|l1 l2 l s1 s2 N1 N2 S1 IH1 S2 IH2 P]; intros x I D; [destruct I|destruct I as [->|[]]; exact D|].
  apply down_add. apply (Permutation_in _ (Permutation_sym P)) in I. apply in_app_iff in I as [I|I]; eauto.
Qed.
Lemma down_rejected w r : down r -> ob_accepted_f w r = false.
Proof. unfold ob_accepted_f. intros H; apply down_cases in H as [-> | ->]; destruct w as [[]|[]| |[] ? ? ?]; reflexivity. Qed.
Lemma cut_in gr alpha beta pg pp sigma tau d dd qs r q : ob_total_f gr alpha beta pg pp sigma tau d dd qs r -> In q qs ->
  exists rq, ob_ratio_f gr alpha beta pg pp sigma tau d dd q rq /\ (down rq -> down r) /\ (nan rq -> nan r).
Proof.
  intros (rs & H & S) I. assert (E : exists rq, In rq rs /\ ob_ratio_f gr alpha beta pg pp sigma tau d dd q rq).
  { clear S. induction H; [destruct I|]. destruct I as [->|I]; [eexists; split; [now left|eassumption]|]. destruct (IHForall2 I) as (rq & J & K). exists rq. split; [now right|exact K]. }
  destruct E as (rq & J & K). exists rq. split; [exact K|]. split; [eauto using down_sums|]. intros N. apply is_nan_eq in N. subst. now rewrite (sums_nan _ _ S J).
Qed.
(** One cut at a value that no row of its node has spoils the whole level, whatever the other numbers are: the ratio is NaN and the
    proposal is rejected. *)
Lemma zero_cut q g : finite (fc_n q) -> (exists b, fc_cnt q = B754_zero b) -> ob_split_f q g -> down g.
Proof.
  unfold ob_split_f. intros F (b & ->) L. destruct (fc_n q) as [c|c| |c m e bd]; try discriminate; cbn in L; [left; now subst g|right; exact L].
Qed.
Lemma up_or_nan lr g : down g -> let a := fadd lr (fsub (B754_zero true) g) in nan a \/ a = B754_infinity false.
Proof. intros H. apply down_cases in H as [-> | ->]; destruct lr as [[]|[]| |[] ? ? ?]; (now left) || (now right). Qed.
Lemma up_then_down a x c : nan a \/ a = B754_infinity false -> down c -> nan (fadd (fadd a x) c).
Proof.
  intros [A| ->] D; [apply is_nan_eq in A; subst; reflexivity|]. apply down_cases in D as [-> | ->]; destruct x as [[]|[]| |[] ? ? ?]; reflexivity.
Qed.
Lemma down_sub x z : down x -> down (fsub x z).
Proof. unfold down. intros H; apply down_cases in H as [-> | ->]; [now left|]. destruct z as [[]|[]| |[] ? ? ?]; (now left) || (now right). Qed.
Lemma sub_down x z : down z -> nan (fsub x z) \/ fsub x z = B754_infinity false.
Proof. intros H; apply down_cases in H as [-> | ->]; destruct x as [[]|[]| |[] ? ? ?]; (now left) || (now right). Qed.
Lemma down_then_up a x c : down a -> nan c \/ c = B754_infinity false -> nan (fadd (fadd a x) c).
Proof.
  intros D [A| ->].
  - apply is_nan_eq in A. subst. destruct (fadd a x); reflexivity.
  - apply down_cases in D as [-> | ->]; destruct x as [[]|[]| |[] ? ? ?]; reflexivity.
Qed.
Theorem C117_impossible_cut : forall (grow : bool) alpha beta pgrow pprune sigma tau d dd qs r q,
  ob_total_f grow alpha beta pgrow pprune sigma tau d dd qs r -> In q qs -> finite (fc_n q) -> (exists b, fc_cnt q = B754_zero b) ->
  nan r /\ forall w, ob_accepted_f w r = false.
Proof.
  intros gr alpha beta pg pp sigma tau d dd qs r q T I F Z. destruct (cut_in _ _ _ _ _ _ _ _ _ _ _ _ T I) as (rq & (a & x & c & La & _ & Lc & ->) & _ & N).
  assert (K : nan r).
  { apply N. unfold ratio_f. destruct gr.
    - destruct La as (g & lr & Lg & _ & ->). destruct Lc as (den & l & rt & up & ch & _ & _ & _ & _ & Lh & ->).
      apply up_then_down; [apply up_or_nan; eauto using zero_cut|]. apply down_sub, down_add. eauto using zero_cut.
    - destruct La as (g & lr & Lg & _ & ->). destruct Lc as (num & l & rt & up & ch & _ & _ & _ & _ & Lh & ->).
      apply down_then_up; [apply down_add; eauto using zero_cut|]. apply sub_down, down_add. eauto using zero_cut. }
  split; [exact K|]. intros w. apply down_rejected. now left.
Qed.
(** So does a sum that is NaN in one of the cuts, *)
Lemma like_nan (gr : bool) a x c : nan x -> nan (ratio_f gr a x c).
Proof. intros H. apply is_nan_eq in H. subst. unfold ratio_f. destruct gr, a as [[]|[]| |[] ? ? ?]; reflexivity. Qed.
Theorem C117_missing : forall (grow : bool) alpha beta pgrow pprune sigma tau d dd qs r q,
  ob_total_f grow alpha beta pgrow pprune sigma tau d dd qs r -> In q qs -> nan (fc_s q) \/ nan (fc_sl q) \/ nan (fc_sr q) \/ nan sigma \/ nan tau ->
  nan r /\ forall w, ob_accepted_f w r = false.
Proof.
  intros gr alpha beta pg pp sigma tau d dd qs r q T I H. destruct (cut_in _ _ _ _ _ _ _ _ _ _ _ _ T I) as (rq & (a & x & c & _ & Lx & _ & ->) & _ & N).
  assert (K : nan r) by (apply N, like_nan, (proj1 (C111_missing true a c a _ _ _ _ _ _ _ _ _ H Lx))). split; [exact K|]. intros w. apply down_rejected. now left.
Qed.
(** and a sigma whose square overflows, if one of the cuts has rows on both sides. *)
Theorem C117_exploding : forall (grow : bool) alpha beta pgrow pprune sigma tau d dd qs r q k kl kr,
  ob_total_f grow alpha beta pgrow pprune sigma tau d dd qs r -> In q qs -> counts (fc_n q) k -> counts (fc_nl q) kl -> counts (fc_nr q) kr ->
  ~ nan sigma -> (finite sigma -> bpow radix2 512 <= Rabs (val sigma)) -> finite tau -> 0 < val tau ->
  nan r /\ forall w, ob_accepted_f w r = false.
Proof.
  intros gr alpha beta pg pp sigma tau d dd qs r q k kl kr T I Cn Cl Cr Ns Hs Ft Pt. destruct (cut_in _ _ _ _ _ _ _ _ _ _ _ _ T I) as (rq & (a & x & c & _ & Lx & _ & ->) & _ & N).
  assert (K : nan r) by (apply N, like_nan, (proj1 (C111_exploding true a c a _ _ _ _ _ _ _ _ _ _ _ _ Cn Cl Cr Ns Hs Ft Pt Lx))). split; [exact K|]. intros w. apply down_rejected. now left.
Qed.
(** Once the square of sigma is below the smallest double no level is added, if one of the cuts has rows on both sides; in exact
    arithmetic little noise makes the sampler add every level one of whose cuts tells something about the target (C110). *)
Theorem C117_vanishing_grow : forall alpha beta pgrow pprune sigma tau d dd qs r q k kl kr,
  ob_total_f true alpha beta pgrow pprune sigma tau d dd qs r -> In q qs -> counts (fc_n q) k -> counts (fc_nl q) kl -> counts (fc_nr q) kr ->
  finite sigma -> Rabs (val sigma) < bpow radix2 (-538) -> moderate tau ->
  forall w, ob_accepted_f w r = false.
Proof.
  intros alpha beta pg pp sigma tau d dd qs r q k kl kr T I Cn Cl Cr Fs Hs Mt w. destruct (cut_in _ _ _ _ _ _ _ _ _ _ _ _ T I) as (rq & (a & x & c & _ & Lx & _ & ->) & D & _).
  apply down_rejected, D. unfold ratio_f. apply down_add. left. apply down_add. right. exact (proj1 (C111_vanishing_grow a c w _ _ _ _ _ _ _ _ _ _ _ _ Cn Cl Cr Fs Hs Mt Lx)).
Qed.
(** Proposing nothing, which pruning a tree of one leaf does, has the ratio 0: it is accepted for every negative draw and no other. *)
Theorem C117_nothing : forall (grow : bool) alpha beta pgrow pprune sigma tau d dd r,
  ob_total_f grow alpha beta pgrow pprune sigma tau d dd [] r -> r = B754_zero false /\ forall w, finite w -> ob_accepted_f w r = accepts (val w) (XFin 0).
Proof.
  intros gr alpha beta pg pp sigma tau d dd r (rs & H & S). inversion H; subst. assert (E : r = B754_zero false).
  { remember [] as l eqn:El. destruct S as [|x|l1 l2 l s1 s2 N1 N2 S1 S2 P]; [reflexivity|discriminate|]. subst. apply Permutation_sym, Permutation_nil in P. destruct l1; [congruence|discriminate]. }
  split; [exact E|]. intros w Fw. subst r. apply Bool.eq_iff_eq_true. unfold ob_accepted_f. rewrite fless_finite by auto. unfold accepts. cbn [xltb B2R]. unfold val.
  destruct (Rlt_dec (fr w) 0) as [L|L]; split; intros K; auto; try contradiction; discriminate.
Qed.

(** *** there are such numbers *)
Lemma cut_exists gr alpha beta pg pp sigma tau d dd q : exists r, ob_ratio_f gr alpha beta pg pp sigma tau d dd q r.
Proof.
  destruct (log_exists (fdiv (fc_cnt q) (fc_n q))) as (g & Lg). destruct (log_exists (fdiv pp pg)) as (l1 & L1). destruct (log_exists (fdiv pg pp)) as (l2 & L2).
  destruct (C111_value_exists sigma tau (fc_n q) (fc_nl q) (fc_nr q) (fc_s q) (fc_sl q) (fc_sr q)) as (x & Lx).
  destruct (power_exists d (fneg beta)) as (p1 & P1). destruct (power_exists dd (fneg beta)) as (p2 & P2).
  destruct (log_exists (fmul alpha p1)) as (u1 & U1). destruct (log_exists (fsub fone (fmul alpha p1))) as (v1 & V1). destruct (log_exists (fsub fone (fmul alpha p2))) as (v2 & V2).
  assert (A1 : node_split_f alpha beta d u1) by (exists p1; auto). assert (A2 : node_not_split_f alpha beta d v1) by (exists p1; auto). assert (A3 : node_not_split_f alpha beta dd v2) by (exists p2; auto).
  destruct gr; eexists; eexists _, x, _; (split; [|split; [exact Lx|split; [|reflexivity]]]).
  - exists g, l1. auto.
  - exists v1, v2, v2, u1, g. repeat split; auto.
  - exists g, l2. auto.
  - exists v1, v2, v2, u1, g. repeat split; auto.
Qed.
Theorem C117_value_exists : forall (grow : bool) alpha beta pgrow pprune sigma tau d dd qs, exists r, ob_total_f grow alpha beta pgrow pprune sigma tau d dd qs r.
Proof.
  intros gr alpha beta pg pp sigma tau d dd qs. assert (E : exists rs, Forall2 (ob_ratio_f gr alpha beta pg pp sigma tau d dd) qs rs).
  { induction qs as [|q qs (rs & IH)]; [exists []; constructor|]. destruct (cut_exists gr alpha beta pg pp sigma tau d dd q) as (r & H). exists (r :: rs). now constructor. }
  destruct E as (rs & H). destruct rs as [|z rs]; [exists (B754_zero false), []; split; [exact H|constructor]|]. destruct (any_sum (z :: rs)) as (s & S); [discriminate|]. exists s, (z :: rs). auto.
Qed.
(** two cuts of the second level: three rows into one and two, and two rows into two and none *)
Definition cut_a : fcut := FCut d3 d1 d2 d2 dm1 d3 d1.
Definition cut_b : fcut := FCut d2 d2 d0 d1 d1 d0 d1.
Example C117_case : usual_settings half_f d2 half_f half_f /\ counts d2 2 /\ counts d3 3 /\ Forall (usual_cut d1 d1) [cut_a; cut_b] /\ INR (length [cut_a; cut_b]) <= bpow radix2 52 /\
  (exists r, ob_total_f true half_f d2 half_f half_f d1 d1 d2 d3 [cut_a; cut_b] r) /\ exists r, ob_total_f false half_f d2 half_f half_f d1 d1 d2 d3 [cut_a; cut_b] r.
Proof.
  destruct C111_case as (A1 & A2 & A3 & A4 & A5 & A6 & A7 & A8 & A9 & A10 & _). pose proof C112_case as (S & _). pose proof two52 as T.
  assert (Z : counts0 d0 0) by (split; [reflexivity|split; [reflexivity|cbn; lra]]).
  assert (O : Rabs (val d1) <= bpow radix2 100) by (rewrite (val_d1 : val d1 = 1), Rabs_pos_eq by lra; change 1 with (bpow radix2 0); apply bpow_le; lia).
  assert (N : Rabs (val d0) <= bpow radix2 100) by (rewrite val_d0, Rabs_R0; apply bpow_ge_0).
  split; [exact S|]. split; [exact A4|]. split; [exact A2|]. split.
  - constructor; [|constructor; [|constructor]]; unfold usual_cut; cbn [fc_n fc_nl fc_nr fc_s fc_sl fc_sr fc_cnt cut_a cut_b]; (split; [exact A1|]); (split; [exact A1|]).
    + split; [exists 3%nat; exact A2|]. split; [exists 1%nat; exact (counts_any _ _ A3)|]. split; [exists 2%nat; exact (counts_any _ _ A4)|]. split; [exists 1%nat; exact A3|]. auto 10.
    + split; [exists 2%nat; exact A4|]. split; [exists 2%nat; exact (counts_any _ _ A4)|]. split; [exists 0%nat; exact Z|]. split; [exists 1%nat; exact A3|].
      split; [reflexivity|]. split; [reflexivity|]. split; [reflexivity|]. auto.
  - split; [cbn; lra|]. split; apply C117_value_exists.
Qed.
(** a cut at a value no row has, one with a NaN sum, and a sigma for [C117_vanishing_grow] *)
Example C117_extremes : (exists r, ob_total_f true half_f d2 half_f half_f d1 d1 d2 d3 [cut_a; FCut d2 d2 d0 d1 d1 d0 d0] r) /\ finite d2 /\ (exists b, d0 = B754_zero b) /\
  (exists r, ob_total_f true half_f d2 half_f half_f d_m600 d1 d2 d3 [cut_a; cut_b] r) /\ counts (fc_n cut_a) 3 /\ counts (fc_nl cut_a) 1 /\ counts (fc_nr cut_a) 2 /\
  finite d_m600 /\ Rabs (val d_m600) < bpow radix2 (-538) /\ ~ nan d_p600 /\ bpow radix2 512 <= Rabs (val d_p600).
Proof. destruct C108_extremes as (A & B & _ & C & D & _). split; [apply C117_value_exists|]. split; [reflexivity|]. split; [eexists; reflexivity|]. split; [apply C117_value_exists|]. split; [exact counts_3|]. split; [exact counts_1|]. split; [exact counts_2|]. auto. Qed.

Print Assumptions C117_accurate.
Print Assumptions C117_decision.
Print Assumptions C117_exact_model_grow.
Print Assumptions C117_exact_model_prune.
Print Assumptions C117_exact_cut.
Print Assumptions C117_impossible_cut.
Print Assumptions C117_missing.
Print Assumptions C117_exploding.
Print Assumptions C117_vanishing_grow.
Print Assumptions C117_nothing.
Print Assumptions C117_value_exists.
