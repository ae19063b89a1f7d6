(** * LL(1) grammars whose wrong choices are noticed in time (proofs) *)

From Verif Require Import BaseFacts GrammarFacts DerivFacts FollowFacts TransitionsFacts.
From Verif Require Export LastSpec ChoiceSpec PastSpec ParserChoice ParserPastChoice ParserComplete ParserGuided LastFacts.

Set Implicit Arguments.

Lemma filled_covering {T : Type} (eps init : T) ps cands :
  covering eps init ps cands <-> textbook_cells_filled eps ps init cands.
Proof.
  split.
  - intros Hcov A a p (u & v & Hd) (Hp & <- & [Hs|(Hn & Hae & Han & u' & v' & Hd')]).
    + apply (Hcov p u v a Hp Hd). apply can_start_app. now left.
    + apply (Hcov p u' (a :: v') a Hp Hd'). apply can_start_app. right. split; auto.
      apply can_start_cons. left. split; auto. split; auto. exists []. apply derives_refl.
  - intros Hf p u v a Hp Hd Hs. apply (Hf _ _ _ (ex_intro _ u (ex_intro _ v Hd))).
    split; auto. split; auto. apply can_start_app in Hs as [Hs|[Hn Hs]]; auto.
    right. split; auto. destruct Hs as (Hae & Han & z & Hz). split; auto. split; auto.
    exists u, z. eapply derives_trans; [exact Hd|].
    apply (@derives_ctx _ eps ps (u ++ [p_input p]) [] v (a :: z)) in Hz.
    rewrite !app_nil_r, <- !app_assoc in Hz. exact Hz.
Qed.

Section Ending.
  Context {L T : Type} {E : EqDec T}.
  Variable eps init : T.
  Variable ps : list (production T).
  Variable cands : T -> T -> list (list T).
  Variable tokens : list (token L T).
  Hypothesis Heps : ~ non_terminal ps eps.
  Hypothesis Hcands : forall A a out, In out (cands A a) ->
    exists p, In p ps /\ p_input p = A /\ p_output p = out.
  Hypothesis Hcov : covering eps init ps cands.
  Hypothesis Hll : forall A a p q, reachable_from eps ps init A ->
    textbook_cell eps ps init A a p -> textbook_cell eps ps init A a q -> p = q.
  Hypothesis Hord : no_early_ending eps ps init cands.

  Notation choose := (choose eps ps tokens cands).
  Notation sequence := (sequence eps ps tokens cands).
  Notation branch := (branch eps ps tokens cands).
  Notation choose_past := (choose_past eps ps tokens cands).
  Notation sequence_past := (sequence_past eps ps tokens cands).
  Notation branch_past := (branch_past eps ps tokens cands).
  Notation derives := (derives eps ps).
  Notation types := (map (@tok_type L T)).
  Notation leaf := (@leaf L T eps ps).
  Notation placed := (placed eps init ps tokens).
  Notation set_out := (set_out eps init ps tokens).

  Lemma succ_forest Xs p ns q : sequence Xs p (Some (ns, q)) ->
    exists w v, forest_for eps ps Xs ns w /\ q = p + length w /\ skipn p tokens = w ++ v.
  Proof. intros H. exact (proj1 (proj2 (@choice_forests L T eps ps cands tokens Hcands)) _ _ _ H _ _ eq_refl). Qed.

  Lemma succ_vanishes Xs p tok ns : sequence Xs p (Some (ns, p)) -> nth_error tokens p = Some tok ->
    vanishes eps ps cands (tok_type tok) Xs.
  Proof. intros H Hn. exact (proj1 (proj2 (@choice_vanishes L T eps ps cands tokens Hcands)) _ _ _ H _ Hn _ eq_refl). Qed.

  (** a success reads nothing or starts with the next token *)
  Lemma succ_start Xs p tok ns q : sequence Xs p (Some (ns, q)) -> nth_error tokens p = Some tok ->
    can_start eps ps Xs (tok_type tok) \/ (q = p /\ vanishes eps ps cands (tok_type tok) Xs).
  Proof.
    intros H Hn. destruct (succ_forest H) as (w & v & Hf & Hq & Hs).
    rewrite (nth_skipn _ _ Hn) in Hs. destruct w as [|t0 w].
    - simpl in Hq. rewrite Nat.add_0_r in Hq. subst q. right. split; auto. eapply succ_vanishes; eauto.
    - left. inversion Hs; subst t0.
      pose proof (proj2 (@tree_leaves_all L T eps ps) _ _ _ Hf) as Hlw.
      pose proof (proj1 (proj2 (@tree_derives_all L T eps ps) _ _ _ Hf)) as Hd.
      inversion Hlw; subst. eapply types_can_start with (ws := w); eauto.
  Qed.

  Lemma past_start Xs p tok : sequence_past Xs p -> nth_error tokens p = Some tok ->
    can_start eps ps Xs (tok_type tok).
  Proof.
    intros H Hn. destruct (proj1 (proj2 (@past_derives L T eps ps cands tokens Hcands)) _ _ H) as (v & Hl & Hd).
    rewrite (nth_skipn _ _ Hn) in Hl, Hd. simpl in Hd.
    inversion Hl as [|? ? [H1 H2] _]; subst. split; auto. split; auto. eauto.
  Qed.

  (** an early candidate that vanishes is followed by nothing that starts with the token *)
  Lemma no_start_after X Xs u rest a out out0 : derives [init] (u ++ X :: Xs ++ rest) ->
    In out (cands X a) -> vanishes eps ps cands a out ->
    textbook_cell eps ps init X a (Production X out0) -> out <> out0 -> ~ can_start eps ps Xs a.
  Proof.
    intros Hctx Ho Hv H0 Hne (Hae & Han & v & Hd).
    destruct (Hcands _ _ _ Ho) as ([X' o] & Hp & Hi & Hoo). simpl in *. subst X' o.
    assert (Ht : textbook_cell eps ps init X a (Production X out)).
    { split; auto. split; auto. right. split; [exact (vanishes_nullable Hcands Hv)|].
      split; auto. split; auto. exists u, (v ++ rest). eapply derives_trans; [exact Hctx|].
      apply (@derives_ctx _ eps ps (u ++ [X]) rest Xs (a :: v)) in Hd.
      rewrite <- !app_assoc in Hd. exact Hd. }
    assert (Hr : reachable_from eps ps init X) by (exists u, (Xs ++ rest); exact Hctx).
    pose proof (Hll Hr Ht H0) as Heq. inversion Heq. auto.
  Qed.

  (** [Xs] is the end of a production in use *)
  Definition ends_production (Xs : list T) : Prop :=
    exists q before, In q ps /\ reachable_from eps ps init (p_input q) /\ p_output q = before ++ Xs.

  Lemma ends_tail X Xs : ends_production (X :: Xs) -> ends_production Xs.
  Proof.
    intros (q & before & Hq & Hr & Ho). exists q, (before ++ [X]). rewrite <- app_assoc. auto.
  Qed.

  Lemma placed_ends X out ns w u rest1 pos : placed X out ns w u rest1 pos -> ends_production out.
  Proof.
    intros (Hp & _ & Hctx & _). exists (Production X out), []. splits4; auto. exists u, (types rest1). auto.
  Qed.

  Lemma placed_textbook X out ns w u rest1 pos tok v : placed X out ns w u rest1 pos ->
    w ++ rest1 = tok :: v -> textbook_cell eps ps init X (tok_type tok) (Production X out).
  Proof.
    intros (Hp & Hf & Hctx & Hl & _) Hw.
    exact (@tree_in_textbook L T eps init ps (Production X out) ns w u rest1 tok v Hp Hf Hctx Hl Hw).
  Qed.

  Lemma placed_reachable X out ns w u rest1 pos : placed X out ns w u rest1 pos -> reachable_from eps ps init X.
  Proof. intros (_ & _ & Hctx & _). exists u, (types rest1). auto. Qed.

  (** a wrong candidate in a cell does not start with the token *)
  Lemma wrong_no_start X out ns w u rest1 pos tok v o : placed X out ns w u rest1 pos ->
    w ++ rest1 = tok :: v -> In o (cands X (tok_type tok)) -> o <> out -> ~ can_start eps ps o (tok_type tok).
  Proof.
    intros Hpl Hw Ho Hne Hs.
    pose proof (Hll (placed_reachable Hpl) (placed_textbook Hpl Hw) (start_textbook init cands Hcands _ Ho Hs)) as Heq.
    inversion Heq. auto.
  Qed.

  Lemma late_wins :
    (forall X pos outs r, choose X pos outs r -> forall out ns w u rest1 tok v l1,
       placed X out ns w u rest1 pos -> w ++ rest1 = tok :: v -> nth_error tokens pos = Some tok ->
       cands X (tok_type tok) = l1 ++ outs -> In out outs -> ~ In out l1 ->
       (exists outs', r = Some (Node ns (Token None X), pos + length w, outs')) \/
       exists n l2 o outs', r = Some (n, pos, outs') /\ outs = l2 ++ o :: outs' /\
         ~ In out (l2 ++ [o]) /\ vanishes eps ps cands (tok_type tok) o) /\
    (forall Xs pos r, sequence Xs pos r -> forall ns w u rest1, set_out Xs ns w u rest1 pos ->
       ends_production Xs -> r = Some (ns, pos + length w)) /\
    (forall X pos outs Xs r, branch X pos outs Xs r -> forall out ns w u tok v l1 ns2 w2 rest1,
       placed X out ns w u (w2 ++ rest1) pos -> w ++ w2 ++ rest1 = tok :: v ->
       nth_error tokens pos = Some tok ->
       cands X (tok_type tok) = l1 ++ outs -> In out outs -> ~ In out l1 ->
       set_out Xs ns2 w2 (u ++ types w) rest1 (pos + length w) ->
       derives [init] (u ++ X :: Xs ++ types rest1) -> ends_production (X :: Xs) ->
       r = Some (Node ns (Token None X) :: ns2, pos + length w + length w2)).
  Proof.
    apply choice_mutind.
    - intros X p out ns w u rest1 tok v l1 _ _ _ _ [].
    - intros X p o outs ns q Hseq IH out ns0 w u rest1 tok v l1 Hpl Hw Hn Hc Hin Hnot.
      destruct (list_eq_dec eq_dec o out) as [->|Hne].
      + specialize (IH _ _ _ _ (placed_set_out Hpl) (placed_ends Hpl)). inversion IH; subst. eauto.
      + right.
        assert (Ho : In o (cands X (tok_type tok))) by (rewrite Hc; apply in_or_app; right; now left).
        destruct (succ_start Hseq Hn) as [Hs|[-> Hv]]; [now destruct (wrong_no_start Hpl Hw Ho Hne)|].
        eexists _, [], o, outs. splits4; auto. intros [?|[]]; auto.
    - intros X p o outs r Hseq IH1 _ IH2 out ns0 w u rest1 tok v l1 Hpl Hw Hn Hc Hin Hnot.
      destruct (list_eq_dec eq_dec o out) as [->|Hne].
      + specialize (IH1 _ _ _ _ (placed_set_out Hpl) (placed_ends Hpl)). discriminate.
      + destruct Hin as [->|Hin]; [congruence|].
        destruct (IH2 out ns0 w u rest1 tok v (l1 ++ [o])) as [H|(n & l2 & o' & outs' & -> & -> & Hni & Hv)]; auto.
        * now rewrite <- app_assoc.
        * intros Hi. apply in_app_or in Hi as [|[|[]]]; auto.
        * right. exists n, (o :: l2), o', outs'. splits4; auto. intros [?|?]; auto.
    - intros p ns w u rest1 (Hf & _) _. inversion Hf; subst. now rewrite Nat.add_0_r.
    - intros Xs p r _ IH ns w u rest1 Hs He. apply (set_out_epsilon Heps) in Hs as (ns2 & -> & Hs).
      rewrite (IH _ _ _ _ Hs (ends_tail He)). reflexivity.
    - intros Xs p tok r Hnt Hne Hn _ IH ns w u rest1 Hs He.
      apply set_out_not_terminal in Hs as (tok' & ns2 & w2 & Ht & -> & -> & Hn' & Hs); auto.
      rewrite Hn in Hn'. inversion Hn'; subst tok'. rewrite (IH _ _ _ _ Hs (ends_tail He)). simpl.
      now rewrite <- Nat.add_assoc.
    - intros X Xs p Hnt Hne Hm ns w u rest1 Hs _.
      apply set_out_not_terminal in Hs as (tok' & ns2 & w2 & Ht & -> & -> & Hn' & Hs); auto.
      exfalso. apply (Hm tok'); auto.
    - intros X Xs p tok r Hnt Hn _ IH ns w u rest1 Hs He.
      assert (Hctx : derives [init] (u ++ X :: Xs ++ types rest1)) by (destruct Hs as (_ & Hctx & _); exact Hctx).
      apply (set_out_head Heps Hcov Hnt) in Hs
        as (out & ns1 & ns2 & w1 & w2 & tok' & v & -> & -> & Hpl & Hw & Hn' & Hin & Hs).
      rewrite Hn in Hn'. inversion Hn'; subst tok'. rewrite app_length, Nat.add_assoc.
      eapply (IH out ns1 w1 u tok v [] ns2 w2 rest1); eauto.
    - intros X p outs Xs _ IH out ns w u tok v l1 ns2 w2 rest1 Hpl Hw Hn Hc Hin Hnot _ _ _.
      destruct (IH out ns w u _ tok v l1 Hpl Hw Hn Hc Hin Hnot) as [[? H]|(? & ? & ? & ? & H & _)]; discriminate.
    - intros X p outs Xs n q outs' ns' q' _ IH1 Hseq IH2 out ns w u tok v l1 ns2 w2 rest1 Hpl Hw Hn Hc Hin Hnot Hs Hctx He.
      destruct (IH1 out ns w u _ tok v l1 Hpl Hw Hn Hc Hin Hnot)
        as [[? H]|(? & l2 & o & ? & H & -> & Hni & Hv)]; inversion H; subst.
      + specialize (IH2 _ _ _ _ Hs (ends_tail He)). now inversion IH2; subst.
      + exfalso.
        assert (Ho : In o (cands X (tok_type tok))) by (rewrite Hc; apply in_or_app; right; apply in_or_app; right; now left).
        assert (Hne : o <> out) by (intros ->; apply Hni, in_or_app; right; now left).
        pose proof (placed_textbook Hpl Hw) as Htb.
        destruct (succ_start Hseq Hn) as [Hst|[-> Hvx]].
        * exact (@no_start_after X Xs u (types rest1) (tok_type tok) o out Hctx Ho Hv Htb Hne Hst).
        * destruct He as (pq & before & Hq & Hr & Hqo).
          refine (@Hord pq before X Xs (tok_type tok) (l1 ++ l2) o _ (Production X out) Hq Hr Hqo _ _ _ Htb Hv Hvx).
          -- rewrite <- app_assoc. exact Hc.
          -- simpl. rewrite <- app_assoc. intros Hi. apply in_app_or in Hi as [|]; auto.
          -- simpl. apply in_app_or in Hin as [Hi|[->|Hi]]; auto; exfalso; auto.
             apply Hni, in_or_app. auto.
    - intros X p outs Xs n q outs' r _ IH1 _ IH2 _ IH3 out ns w u tok v l1 ns2 w2 rest1 Hpl Hw Hn Hc Hin Hnot Hs Hctx He.
      destruct (IH1 out ns w u _ tok v l1 Hpl Hw Hn Hc Hin Hnot)
        as [[? H]|(? & l2 & o & ? & H & -> & Hni & Hv)]; inversion H; subst.
      + specialize (IH2 _ _ _ _ Hs (ends_tail He)). discriminate.
      + eapply (IH3 out ns w u tok v (l1 ++ l2 ++ [o])); eauto.
        * rewrite Hc. now rewrite <- !app_assoc.
        * apply in_app_or in Hin as [Hi|[->|Hi]]; auto; exfalso; apply Hni, in_or_app; auto. right. now left.
        * intros Hi. apply in_app_or in Hi as [|]; auto.
  Qed.

  Lemma late_not_past :
    (forall X pos outs, choose_past X pos outs -> forall out ns w u rest1 tok v l1,
       placed X out ns w u rest1 pos -> w ++ rest1 = tok :: v -> nth_error tokens pos = Some tok ->
       cands X (tok_type tok) = l1 ++ outs -> In out outs -> ~ In out l1 -> False) /\
    (forall Xs pos, sequence_past Xs pos -> forall ns w u rest1, ends_production Xs -> ~ set_out Xs ns w u rest1 pos) /\
    (forall X pos outs Xs, branch_past X pos outs Xs -> forall out ns w u tok v l1 ns2 w2 rest1,
       placed X out ns w u (w2 ++ rest1) pos -> w ++ w2 ++ rest1 = tok :: v ->
       nth_error tokens pos = Some tok ->
       cands X (tok_type tok) = l1 ++ outs -> In out outs -> ~ In out l1 ->
       derives [init] (u ++ X :: Xs ++ types rest1) -> ends_production (X :: Xs) ->
       ~ set_out Xs ns2 w2 (u ++ types w) rest1 (pos + length w)).
  Proof.
    apply past_choice_mutind.
    - intros X p o outs Hseq IH out ns0 w u rest1 tok v l1 Hpl Hw Hn Hc Hin Hnot.
      destruct (list_eq_dec eq_dec o out) as [->|Hne].
      + exact (IH _ _ _ _ (placed_ends Hpl) (placed_set_out Hpl)).
      + assert (Ho : In o (cands X (tok_type tok))) by (rewrite Hc; apply in_or_app; right; now left).
        exact (wrong_no_start Hpl Hw Ho Hne (past_start Hseq Hn)).
    - intros X p o outs Hseq _ IH out ns0 w u rest1 tok v l1 Hpl Hw Hn Hc Hin Hnot.
      destruct (list_eq_dec eq_dec o out) as [->|Hne].
      + pose proof (proj1 (proj2 late_wins) _ _ _ Hseq _ _ _ _ (placed_set_out Hpl) (placed_ends Hpl)). discriminate.
      + destruct Hin as [->|Hin]; [congruence|].
        apply (IH out ns0 w u rest1 tok v (l1 ++ [o])); auto; [now rewrite <- app_assoc|].
        intros Hi. apply in_app_or in Hi as [|[|[]]]; auto.
    - intros X Xs p Hnt Hn ns w u rest1 He Hs.
      apply (set_out_head Heps Hcov Hnt) in Hs
        as (out & ns1 & ns2 & w1 & w2 & tok' & v & -> & -> & Hpl & Hw & Hn' & Hin & Hs). congruence.
    - intros Xs p _ IH ns w u rest1 He Hs. apply (set_out_epsilon Heps) in Hs as (ns2 & -> & Hs).
      eapply IH; eauto. eapply ends_tail; eauto.
    - intros Xs p tok Hnt Hne Hn _ IH ns w u rest1 He Hs.
      apply set_out_not_terminal in Hs as (tok' & ns2 & w2 & Ht & -> & -> & Hn' & Hs); auto.
      eapply IH; eauto. eapply ends_tail; eauto.
    - intros X Xs p tok Hnt Hn _ IH ns w u rest1 He Hs.
      assert (Hctx : derives [init] (u ++ X :: Xs ++ types rest1)) by (destruct Hs as (_ & Hctx & _); exact Hctx).
      apply (set_out_head Heps Hcov Hnt) in Hs
        as (out & ns1 & ns2 & w1 & w2 & tok' & v & -> & -> & Hpl & Hw & Hn' & Hin & Hs).
      rewrite Hn in Hn'. inversion Hn'; subst tok'.
      eapply (IH out ns1 w1 u tok v [] ns2 w2 rest1); eauto.
    - intros X p outs Xs _ IH out ns w u tok v l1 ns2 w2 rest1 Hpl Hw Hn Hc Hin Hnot _ _ _.
      exact (IH out ns w u _ tok v l1 Hpl Hw Hn Hc Hin Hnot).
    - intros X p outs Xs n q outs' Hch Hseq IH2 out ns w u tok v l1 ns2 w2 rest1 Hpl Hw Hn Hc Hin Hnot Hctx He Hs.
      destruct (proj1 late_wins _ _ _ _ Hch out ns w u _ tok v l1 Hpl Hw Hn Hc Hin Hnot)
        as [[? H]|(? & l2 & o & ? & H & -> & Hni & Hv)]; inversion H; subst.
      + eapply IH2; eauto. eapply ends_tail; eauto.
      + assert (Ho : In o (cands X (tok_type tok))) by (rewrite Hc; apply in_or_app; right; apply in_or_app; right; now left).
        assert (Hne : o <> out) by (intros ->; apply Hni, in_or_app; right; now left).
        exact (@no_start_after X Xs u (types rest1) (tok_type tok) o out Hctx Ho Hv (placed_textbook Hpl Hw) Hne (past_start Hseq Hn)).
    - intros X p outs Xs n q outs' Hch Hseq _ IH3 out ns w u tok v l1 ns2 w2 rest1 Hpl Hw Hn Hc Hin Hnot Hctx He Hs.
      destruct (proj1 late_wins _ _ _ _ Hch out ns w u _ tok v l1 Hpl Hw Hn Hc Hin Hnot)
        as [[? H]|(? & l2 & o & ? & H & -> & Hni & Hv)]; inversion H; subst.
      + pose proof (proj1 (proj2 late_wins) _ _ _ Hseq _ _ _ _ Hs (ends_tail He)). discriminate.
      + eapply (IH3 out ns w u tok v (l1 ++ l2 ++ [o])); eauto.
        * rewrite Hc. now rewrite <- !app_assoc.
        * apply in_app_or in Hin as [Hi|[->|Hi]]; auto; exfalso; apply Hni, in_or_app; auto. right. now left.
        * intros Hi. apply in_app_or in Hi as [|]; auto.
  Qed.
End Ending.
