(** * Checking LL(k) (proofs) *)

From Verif Require Import BaseFacts GrammarFacts DerivFacts ExactFacts.
From Verif Require Export FitSpec.

Set Implicit Arguments.

Section Check.
  Context {T : Type} {E : EqDec T}.
  Variable eps : T.
  Variable ps : list (production T).
  Variable init : T.
  Variable k : nat.
  Variable firsts follows : T -> list (list T).
  Hypothesis Heps : ~ non_terminal ps eps.

  Notation derives := (derives eps ps).
  Notation word := (word eps ps).
  Notation join := (join k).
  Notation heads_of := (heads_of eps ps k firsts).
  Notation heads := (heads eps ps k firsts).

  Lemma cut_left (a b : list T) : firstn k (firstn k a ++ b) = firstn k (a ++ b).
  Proof.
    rewrite !firstn_app, firstn_firstn, Nat.min_id, firstn_length.
    destruct (Nat.le_gt_cases k (length a)).
    - replace (k - Nat.min k (length a)) with 0 by lia. replace (k - length a) with 0 by lia. reflexivity.
    - replace (Nat.min k (length a)) with (length a) by lia. reflexivity.
  Qed.

  Lemma cut_right (a b : list T) : firstn k (a ++ firstn k b) = firstn k (a ++ b).
  Proof.
    rewrite !firstn_app, firstn_firstn. now replace (Nat.min (k - length a) k) with (k - length a) by lia.
  Qed.

  Lemma is_input_spec X : is_input ps X = true <-> non_terminal ps X.
  Proof.
    unfold is_input. rewrite existsb_exists. split.
    - intros (p & Hp & H). exists p. split; auto. now apply eqb_iff.
    - intros (p & Hp & H). exists p. split; auto. now apply eqb_iff.
  Qed.

  Lemma join_In (s : list T) (l1 l2 : list (list T)) : In s (join l1 l2) <-> exists a b, In a l1 /\ In b l2 /\ s = firstn k (a ++ b).
  Proof.
    unfold FitSpec.join. rewrite in_flat_map. split.
    - intros (a & Ha & Hs). apply in_map_iff in Hs as (b & <- & Hb). eauto.
    - intros (a & b & Ha & Hb & ->). exists a. split; auto. apply in_map_iff. eauto.
  Qed.

  Lemma within_spec (l1 l2 : list (list T)) : within l1 l2 = true <-> incl l1 l2.
  Proof.
    unfold within. rewrite forallb_forall. split; intros H s Hs.
    - specialize (H s Hs). apply existsb_exists in H as (s' & Hs' & He). apply same_output_iff in He. now subst.
    - apply existsb_exists. exists s. split; [exact (H s Hs)|now apply same_output_iff].
  Qed.

  Lemma heads_of_cut X s : In s (heads_of X) -> firstn k s = s.
  Proof.
    unfold FitSpec.heads_of. destruct (eqb X eps).
    - intros [<-|[]]. apply firstn_nil.
    - destruct (is_input ps X).
      + intros H. apply in_map_iff in H as (a & <- & _). now rewrite firstn_firstn, Nat.min_id.
      + intros [<-|[]]. now rewrite firstn_firstn, Nat.min_id.
  Qed.

  Lemma heads_cut w s : In s (heads w) -> firstn k s = s.
  Proof.
    destruct w as [|X w]; simpl.
    - intros [<-|[]]. apply firstn_nil.
    - intros H. apply join_In in H as (a & b & _ & _ & ->). now rewrite firstn_firstn, Nat.min_id.
  Qed.

  Lemma heads_app u v s : In s (heads (u ++ v)) <-> exists a b, In a (heads u) /\ In b (heads v) /\ s = firstn k (a ++ b).
  Proof.
    revert s. induction u as [|X u IH]; intros s; simpl.
    - split.
      + intros H. exists [], s. split; auto. split; auto. symmetry. exact (heads_cut _ _ H).
      + intros (a & b & [<-|[]] & Hb & ->). simpl. now rewrite (heads_cut _ _ Hb).
    - rewrite join_In. split.
      + intros (a & b & Ha & Hb & ->). apply IH in Hb as (b1 & b2 & H1 & H2 & ->).
        exists (firstn k (a ++ b1)), b2. split; [apply join_In; eauto|]. split; auto.
        now rewrite cut_left, cut_right, app_assoc.
      + intros (a & b & Ha & Hb & ->). apply join_In in Ha as (a1 & a2 & H1 & H2 & ->).
        exists a1, (firstn k (a2 ++ b)). split; auto. split; [apply IH; eauto|].
        now rewrite cut_left, cut_right, app_assoc.
  Qed.

  Lemma heads_single X s : In s (heads [X]) <-> In s (heads_of X).
  Proof.
    simpl. rewrite join_In. split.
    - intros (a & b & Ha & [<-|[]] & ->). rewrite app_nil_r. now rewrite (heads_of_cut _ _ Ha).
    - intros H. exists s, []. split; auto. split; [now left|]. rewrite app_nil_r. symmetry. exact (heads_of_cut _ _ H).
  Qed.

  Lemma heads_mono u v x y : incl (heads u) (heads v) -> incl (heads (x ++ u ++ y)) (heads (x ++ v ++ y)).
  Proof.
    intros H s Hs. apply heads_app in Hs as (a & b & Ha & Hb & ->). apply heads_app in Hb as (b1 & b2 & H1 & H2 & ->).
    apply heads_app. exists a, (firstn k (b1 ++ b2)). split; auto. split; auto. apply heads_app. exists b1, b2. split; [exact (H _ H1)|auto].
  Qed.

  Lemma heads_word v : word v -> In (firstn k v) (heads v).
  Proof.
    induction 1 as [|a v [H1 H2] _ IH]; simpl.
    - left. symmetry. apply firstn_nil.
    - apply join_In. exists (firstn k [a]), (firstn k v). split.
      + unfold FitSpec.heads_of. destruct (eqb a eps) eqn:He; [apply eqb_iff in He; contradiction|].
        destruct (is_input ps a) eqn:Hi; [apply is_input_spec in Hi; contradiction|]. now left.
      + split; auto. now rewrite cut_left, cut_right.
  Qed.

  Section Closed.
    Hypothesis Hfirsts : firsts_closed eps ps k firsts = true.

    Lemma heads_production p : In p ps -> incl (heads (p_output p)) (heads [p_input p]).
    Proof.
      intros Hp s Hs. apply heads_single. unfold FitSpec.heads_of.
      assert (Hn : non_terminal ps (p_input p)) by (exists p; auto).
      destruct (eqb (p_input p) eps) eqn:He; [apply eqb_iff in He; rewrite He in Hn; contradiction|].
      rewrite (proj2 (is_input_spec _) Hn). apply in_map_iff. exists s. split; [exact (heads_cut _ _ Hs)|].
      unfold firsts_closed in Hfirsts. rewrite forallb_forall in Hfirsts.
      exact (proj1 (within_spec _ _) (Hfirsts p Hp) s Hs).
    Qed.

    Lemma heads_epsilon : incl (heads []) (heads [eps]).
    Proof.
      intros s Hs. apply heads_single. unfold FitSpec.heads_of. now rewrite (proj2 (eqb_iff eps eps) eq_refl).
    Qed.

    Lemma heads_step u v : derive1 eps ps u v -> incl (heads v) (heads u).
    Proof.
      intros [x y p Hp|x y].
      - exact (@heads_mono _ _ x y (heads_production _ Hp)).
      - exact (@heads_mono _ _ x y heads_epsilon).
    Qed.

    Lemma heads_sound u v : derives u v -> word v -> In (firstn k v) (heads u).
    Proof.
      induction 1 as [w|w w1 v H1 _ IH]; intros Hv; [now apply heads_word|].
      exact (heads_step H1 _ (IH Hv)).
    Qed.

    Hypothesis Hfollows : follows_closed eps ps init k firsts follows = true.

    Lemma follows_sound x A y v : derives [init] (x ++ A :: y) -> non_terminal ps A ->
      derives y v -> word v -> In (firstn k v) (follows A).
    Proof.
      intros Hd HA Hy Hv. pose proof (heads_sound Hy Hv) as Hs. revert Hs. generalize (firstn k v). clear Hy Hv v.
      unfold follows_closed in Hfollows. apply andb_true_iff in Hfollows as [H0 H1].
      pose proof (proj1 (within_spec _ _) H0) as Hi. rewrite forallb_forall in H1.
      enough (G : forall u w, derives u w ->
        (forall x A y s, u = x ++ A :: y -> non_terminal ps A -> In s (heads y) -> In s (follows A)) ->
        forall x A y s, w = x ++ A :: y -> non_terminal ps A -> In s (heads y) -> In s (follows A)).
      { intros s Hs. apply (G _ _ Hd) with (x := x) (y := y); auto. intros x' A' y' s' He _ Hs'.
        destruct x' as [|z x']; [|destruct x'; discriminate]. inversion He; subst. apply Hi. exact Hs'. }
      clear x A y Hd HA. intros u w Hd. induction Hd as [|u w1 w Hs _ IH]; auto. intros HP. apply IH. clear IH.
      destruct Hs as [l r p Hp|l r]; intros x A y s He HA Hs.
      - apply app_cons_split in He as [(m & -> & ->)|(m & -> & Hm)].
        + apply (HP x A (m ++ p_input p :: r)); auto; [now rewrite <- app_assoc|].
          exact (@heads_mono _ _ m r (heads_production _ Hp) _ Hs).
        + apply app_cons_split in Hm as [(m' & Ho & ->)|(m' & -> & ->)].
          * apply heads_app in Hs as (a & b & Ha & Hb & ->).
            specialize (H1 p Hp). rewrite forallb_forall in H1.
            specialize (H1 (A, m') (proj2 (uses_spec _ _ _) (ex_intro _ m Ho))). cbn [fst snd] in H1.
            rewrite (proj2 (is_input_spec A) HA) in H1. cbn [negb orb] in H1.
            apply (proj1 (within_spec _ _) H1). apply join_In. exists a, b. split; auto. split; auto.
            apply (HP l (p_input p) r b); auto. exists p. auto.
          * apply (HP (l ++ p_input p :: m') A y); auto. now rewrite <- app_assoc.
      - apply app_cons_split in He as [(m & -> & ->)|(m & -> & ->)].
        + apply (HP x A (m ++ eps :: r)); auto; [now rewrite <- app_assoc|].
          exact (@heads_mono _ _ m r heads_epsilon _ Hs).
        + apply (HP (l ++ eps :: m) A y); auto. now rewrite <- app_assoc.
    Qed.

    Lemma lookaheads_sound p x y v : In p ps -> derives [init] (x ++ p_input p :: y) ->
      derives (p_output p ++ y) v -> word v -> In (firstn k v) (lookaheads eps ps k firsts follows p).
    Proof.
      intros Hp Hctx Hv Hw. apply derives_app_inv in Hv as (v1 & v2 & -> & H1 & H2).
      apply Forall_app in Hw as [Hw1 Hw2]. unfold lookaheads. apply join_In.
      exists (firstn k v1), (firstn k v2). split; [now apply heads_sound|]. split.
      - eapply follows_sound; eauto. exists p. auto.
      - now rewrite cut_left, cut_right.
    Qed.
  End Closed.

  Lemma begins_with_spec (w v : list T) : begins_with w v = true <-> begins w v.
  Proof.
    revert v. induction w as [|x w IH]; intros v; simpl.
    - split; auto. intros _. exists v. reflexivity.
    - destruct v as [|y v]; [split; [discriminate|intros (r & H); discriminate]|].
      rewrite andb_true_iff, IH, eqb_iff. split.
      + intros [-> (r & ->)]. exists r. reflexivity.
      + intros (r & H). inversion H; subst. split; auto. exists r. reflexivity.
  Qed.

  Lemma is_ll_k_sound : is_ll_k eps ps init k firsts follows = true -> ll_k eps ps init k.
  Proof.
    unfold is_ll_k. rewrite !andb_true_iff. intros [[Hf Hr] Ha].
    intros A out1 out2 x y v1 v2 H1 H2 Hctx _ Hd1 Hw1 Hd2 Hw2 Heq.
      unfold lookaheads_apart in Ha. rewrite forallb_forall in Ha. specialize (Ha _ H1).
      rewrite forallb_forall in Ha. specialize (Ha _ H2). cbn [p_input p_output] in Ha.
      rewrite (proj2 (eqb_iff A A) eq_refl) in Ha. cbn [negb orb] in Ha. apply orb_true_iff in Ha as [Ha|Ha];
        [now apply same_output_iff|].
      rewrite forallb_forall in Ha. specialize (Ha _ (lookaheads_sound Hf Hr _ _ _ H1 Hctx Hd1 Hw1)).
      apply negb_true_iff, not_true_iff_false in Ha. destruct Ha. apply existsb_exists.
      exists (firstn k v2). split; [exact (lookaheads_sound Hf Hr _ _ _ H2 Hctx Hd2 Hw2)|now apply same_output_iff].
  Qed.

  Lemma is_short_later_sound : is_ll_k eps ps init k firsts follows = true ->
    is_short_later eps ps k firsts follows ps = true -> short_later eps ps init k.
  Proof.
    unfold is_ll_k. rewrite !andb_true_iff. intros [[Hf Hr] _] Hs.
    intros before after A out1 out2 x y w v Hps H2 Hne Hctx _ Hdw Hww Hk Hdv Hwv Hb.
      assert (H1 : In (Production A out1) ps) by (rewrite Hps; apply in_or_app; right; now left).
      assert (H2' : In (Production A out2) ps) by (rewrite Hps; apply in_or_app; right; now right).
      assert (G : forall l, is_short_later eps ps k firsts follows (l ++ Production A out1 :: after) = true -> False).
      2:{ rewrite Hps in Hs at 2. exact (G before Hs). }
      induction l as [|q l IH]; simpl; rewrite andb_true_iff; intros [H Hrest]; auto.
      rewrite forallb_forall in H. specialize (H _ H2). cbn [p_input p_output] in H.
      rewrite (proj2 (eqb_iff A A) eq_refl) in H. cbn [negb orb] in H.
      apply orb_true_iff in H as [H|H]; [apply same_output_iff in H; contradiction|].
      rewrite forallb_forall in H. specialize (H _ (heads_sound Hf Hdw Hww)).
      rewrite (firstn_all2 w) in H by lia. rewrite (proj2 (Nat.ltb_lt _ _) Hk) in H. cbn [negb orb] in H.
      rewrite forallb_forall in H. specialize (H _ (lookaheads_sound Hf Hr _ _ _ H2' Hctx Hdv Hwv)).
      apply negb_true_iff, not_true_iff_false in H. apply H. apply begins_with_spec.
      destruct Hb as (r & ->). exists (firstn (k - length w) r).
      now rewrite firstn_app, (firstn_all2 w) by lia.
  Qed.
End Check.
