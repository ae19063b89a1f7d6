(** * LL(1) grammars with nullable alternatives last: no wrong candidate survives (proofs) *)

From Verif Require Import BaseFacts GrammarFacts DerivFacts FollowFacts TransitionsFacts.
From Verif Require Export LastSpec ChoiceSpec PastSpec ParserChoice ParserPastChoice ParserComplete ParserGuided.

Set Implicit Arguments.

Ltac splits4 := lazymatch goal with |- _ /\ _ => split; [|splits4] | _ => idtac end.

Section Last.
  Context {L T : Type} {E : EqDec T}.
  Variable eps init : T.
  Variable ps : list (production T).
  Variable cands : T -> T -> list (list T).
  Variable tokens : list (token L T).
  Hypothesis Heps : ~ non_terminal ps eps.
  Hypothesis Hcands : forall A a out, In out (cands A a) ->
    exists p, In p ps /\ p_input p = A /\ p_output p = out.
  Hypothesis Hcov : covering eps init ps cands.
  Notation choose := (choose eps ps tokens cands).
  Notation sequence := (sequence eps ps tokens cands).
  Notation branch := (branch eps ps tokens cands).
  Notation choose_past := (choose_past eps ps tokens cands).
  Notation sequence_past := (sequence_past eps ps tokens cands).
  Notation branch_past := (branch_past eps ps tokens cands).
  Notation derives := (derives eps ps).
  Notation types := (map (@tok_type L T)).
  Notation leaf := (@leaf L T eps ps).

  (** successes are forests *)
  Lemma choice_forests :
    (forall X p outs r, choose X p outs r -> forall n q outs', r = Some (n, q, outs') ->
       exists out ns w v, In out outs /\ n = Node ns (Token None X) /\ forest_for eps ps out ns w /\
         q = p + length w /\ skipn p tokens = w ++ v /\ incl outs' outs) /\
    (forall Xs p r, sequence Xs p r -> forall ns q, r = Some (ns, q) ->
       exists w v, forest_for eps ps Xs ns w /\ q = p + length w /\ skipn p tokens = w ++ v) /\
    (forall X p outs Xs r, branch X p outs Xs r ->
       (forall out, In out outs -> exists pr, In pr ps /\ p_input pr = X /\ p_output pr = out) ->
       forall ns q, r = Some (ns, q) ->
       exists w v, forest_for eps ps (X :: Xs) ns w /\ q = p + length w /\ skipn p tokens = w ++ v).
  Proof.
    apply choice_mutind.
    - discriminate.
    - intros X p out outs ns q _ IH n q' outs' H. inversion H; subst n q' outs'.
      destruct (IH ns q eq_refl) as (w & v & Hf & Hq & Hs).
      exists out, ns, w, v. repeat split; auto; [now left|]. intros x Hx. now right.
    - intros X p out outs r _ _ _ IH n q outs' H.
      destruct (IH _ _ _ H) as (o & ns & w & v & Hin & Hn & Hf & Hq & Hs & Hi).
      exists o, ns, w, v. repeat split; auto; [now right|]. intros x Hx. right. auto.
    - intros p ns q H. inversion H; subst. exists [], (skipn q tokens). split; [constructor|]. simpl. auto.
    - intros Xs p r _ IH ns q H. destruct r as [[ns' q']|]; [|discriminate]. simpl in H. inversion H; subst ns q.
      destruct (IH _ _ eq_refl) as (w & v & Hf & Hq & Hs). exists w, v. split; auto.
      change w with ([] ++ w). constructor; [constructor|auto].
    - intros Xs p tok r Hnt Hne Hn _ IH ns q H.
      destruct r as [[ns' q']|]; [|discriminate]. simpl in H. inversion H; subst ns q.
      destruct (IH _ _ eq_refl) as (w & v & Hf & Hq & Hs). exists (tok :: w), v.
      split; [|split; [simpl; lia|]].
      + change (tok :: w) with ([tok] ++ w). constructor; [now constructor|auto].
      + rewrite (nth_skipn _ _ Hn). rewrite Nat.add_1_r in Hs. rewrite Hs. reflexivity.
    - discriminate.
    - intros X Xs p tok r Hnt Hn _ IH. apply IH. apply Hcands.
    - discriminate.
    - intros X p outs Xs n q outs' ns q' _ IH1 _ IH2 Ho ns0 q0 H. inversion H; subst ns0 q0.
      destruct (IH1 _ _ _ eq_refl) as (o & ns1 & w & v & Hin & -> & Hf & Hq & Hs & _).
      destruct (IH2 _ _ eq_refl) as (w' & v' & Hf' & Hq' & Hs').
      destruct (Ho o Hin) as (pr & Hp & <- & <-).
      exists (w ++ w'), v'. split; [constructor; auto; now constructor|].
      rewrite app_length. split; [lia|]. subst q.
      rewrite (skipn_app_len _ _ _ _ Hs) in Hs'. now rewrite Hs, Hs', app_assoc.
    - intros X p outs Xs n q outs' r _ IH1 _ _ _ IH3 Ho ns0 q0 H.
      destruct (IH1 _ _ _ eq_refl) as (_ & _ & _ & _ & _ & _ & _ & _ & _ & Hi).
      apply IH3; auto.
  Qed.

  (** a success that reads nothing vanishes *)
  Lemma choice_vanishes :
    (forall X p outs r, choose X p outs r -> forall tok, nth_error tokens p = Some tok ->
       forall n outs', r = Some (n, p, outs') -> exists out, In out outs /\ vanishes eps ps cands (tok_type tok) out) /\
    (forall Xs p r, sequence Xs p r -> forall tok, nth_error tokens p = Some tok ->
       forall ns, r = Some (ns, p) -> vanishes eps ps cands (tok_type tok) Xs) /\
    (forall X p outs Xs r, branch X p outs Xs r ->
       forall tok, nth_error tokens p = Some tok -> non_terminal ps X -> incl outs (cands X (tok_type tok)) ->
       forall ns, r = Some (ns, p) -> vanishes eps ps cands (tok_type tok) (X :: Xs)).
  Proof.
    apply choice_mutind.
    - discriminate.
    - intros X p out outs ns q _ IH tok Hn n outs' H. inversion H; subst. exists out. split; [now left|]. eapply IH; eauto.
    - intros X p out outs r _ _ _ IH tok Hn n outs' H. destruct (IH tok Hn _ _ H) as (o & Ho & Hv). exists o. split; [now right|auto].
    - intros p tok Hn ns H. constructor.
    - intros Xs p r _ IH tok Hn ns H. destruct r as [[ns' q']|]; [|discriminate]. simpl in H. inversion H; subst.
      constructor. eapply IH; eauto.
    - intros Xs p tok r Hnt Hne Hn Hseq _ tok' Hn' ns H. destruct r as [[ns' q']|]; [|discriminate]. simpl in H. inversion H; subst.
      destruct (proj1 (proj2 choice_forests) _ _ _ Hseq _ _ eq_refl) as (w & v & _ & Hq & _). lia.
    - discriminate.
    - intros X Xs p tok r HX Hn _ IH tok' Hn' ns H. rewrite Hn in Hn'. inversion Hn'; subst tok'.
      eapply IH; eauto. apply incl_refl.
    - discriminate.
    - intros X p outs Xs n q outs' ns q' Hch IH1 Hseq IH2 tok Hn HX Hi ns0 H. inversion H; subst ns0 q'.
      destruct (proj1 choice_forests _ _ _ _ Hch _ _ _ eq_refl) as (o & ns1 & w & v & _ & _ & _ & Hq & _).
      destruct (proj1 (proj2 choice_forests) _ _ _ Hseq _ _ eq_refl) as (w' & v' & _ & Hq' & _).
      assert (Hqp : q = p) by lia. clear Hq Hq'. subst q.
      destruct (IH1 tok Hn _ _ eq_refl) as (out & Ho & Hv).
      eapply vanishes_symbol; eauto.
    - intros X p outs Xs n q outs' r Hch _ _ _ _ IH3 tok Hn HX Hi ns0 H.
      destruct (proj1 choice_forests _ _ _ _ Hch _ _ _ eq_refl) as (_ & _ & _ & _ & _ & _ & _ & _ & _ & Ho).
      eapply IH3; eauto. intros x Hx. auto.
  Qed.

  (** reading past the end consumes all the tokens first *)
  Lemma past_derives :
    (forall X p outs, choose_past X p outs -> exists out v, In out outs /\ Forall leaf (skipn p tokens) /\
       derives out (types (skipn p tokens) ++ v)) /\
    (forall Xs p, sequence_past Xs p -> exists v, Forall leaf (skipn p tokens) /\
       derives Xs (types (skipn p tokens) ++ v)) /\
    (forall X p outs Xs, branch_past X p outs Xs ->
       (forall out, In out outs -> exists pr, In pr ps /\ p_input pr = X /\ p_output pr = out) ->
       exists v, Forall leaf (skipn p tokens) /\ derives (X :: Xs) (types (skipn p tokens) ++ v)).
  Proof.
    apply past_choice_mutind.
    - intros X p out outs _ (v & Hl & Hd). exists out, v. split; [now left|auto].
    - intros X p out outs _ _ (o & v & Hin & Hd). exists o, v. split; [now right|auto].
    - intros X Xs p _ Hn. exists (X :: Xs). apply nth_error_None in Hn.
      rewrite skipn_all2 by auto. split; [constructor|apply derives_refl].
    - intros Xs p _ (v & Hl & Hd). exists v. split; auto.
      eapply derives_trans; [|exact Hd]. eapply Relation_Operators.rt1n_trans; [|constructor].
      apply (@derive1_epsilon _ eps ps [] Xs).
    - intros Xs p tok Hnt Hne Hn _ (v & Hl & Hd). rewrite Nat.add_1_r in *. exists v.
      rewrite (nth_skipn _ _ Hn). split; [constructor; auto; split; auto|]. simpl.
      apply (@derives_app _ eps ps [tok_type tok] [tok_type tok] Xs); [apply derives_refl|auto].
    - intros X Xs p tok Hnt Hn _ IH. apply IH. apply Hcands.
    - intros X p outs Xs _ (o & v & Hin & Hl & Hd) Ho. destruct (Ho o Hin) as (pr & Hp & <- & <-).
      exists (v ++ Xs). split; auto. rewrite app_assoc.
      apply (@derives_app _ eps ps [p_input pr] _ Xs Xs); [|apply derives_refl].
      eapply derives_trans; [now apply derives_production|exact Hd].
    - intros X p outs Xs n q outs' Hc _ (v & Hl & Hd) Ho.
      destruct (proj1 choice_forests _ _ _ _ Hc _ _ _ eq_refl) as (o & ns1 & w & v' & Hin & -> & Hf & -> & Hs & _).
      destruct (Ho o Hin) as (pr & Hp & <- & <-).
      rewrite (skipn_app_len _ _ _ _ Hs) in *. exists v. rewrite Hs. split.
      + apply Forall_app. split; auto. exact (proj2 (@tree_leaves_all L T eps ps) _ _ _ Hf).
      + rewrite map_app, <- app_assoc.
        apply (@derives_app _ eps ps [p_input pr] _ Xs); auto.
        eapply derives_trans; [now apply derives_production|].
        apply (proj2 (@tree_derives_all L T eps ps) _ _ _ Hf).
    - intros X p outs Xs n q outs' Hc _ _ IH Ho. apply IH.
      destruct (proj1 choice_forests _ _ _ _ Hc _ _ _ eq_refl) as (_ & _ & _ & _ & _ & _ & _ & _ & _ & Hi). auto.
  Qed.

  (** [Xs] is followed by [rest1], or ends in a terminal *)
  Definition ended (Xs : list T) (rest1 : list (token L T)) : Prop :=
    Xs = [] \/ rest1 <> [] \/ exists u t, Xs = u ++ [t] /\ t <> eps /\ ~ non_terminal ps t.

  Lemma ended_tail X Xs rest1 : ended (X :: Xs) rest1 -> ended Xs rest1.
  Proof.
    intros [H|[H|(u & t & H & Ht)]]; [discriminate|right; now left|].
    destruct u as [|y u]; simpl in H; inversion H; subst; [now left|].
    right; right. exists u, t. auto.
  Qed.

  Lemma ended_rest X Xs ns ws rest1 : non_terminal ps X -> ended (X :: Xs) rest1 ->
    forest_for eps ps Xs ns ws -> ws ++ rest1 <> [].
  Proof.
    intros HX [H|[H|(u & t & H & Hte & Htn)]] Hf Hnil; [discriminate| |].
    - apply app_eq_nil in Hnil as [_ ?]. auto.
    - apply app_eq_nil in Hnil as [-> _].
      destruct u as [|y u]; simpl in H; inversion H; subst; [contradiction|].
      apply forest_split in Hf as (ns1 & ns2 & w1 & w2 & _ & Hw & _ & Hf2).
      symmetry in Hw. apply app_eq_nil in Hw as [_ ->].
      inversion Hf2 as [|X' Xs' nt' ns' wt ws' Htt Hf3 HX1 HX2 HX3]; subst.
      apply app_eq_nil in HX3 as [-> _]. inversion Htt; subst; try contradiction.
      apply Htn. exists p. auto.
  Qed.

  (** the cell of the tree's production *)
  Lemma tree_in_textbook p children w u rest1 tok v :
    In p ps -> forest_for eps ps (p_output p) children w ->
    derives [init] (u ++ p_input p :: types rest1) -> Forall leaf rest1 ->
    w ++ rest1 = tok :: v -> textbook_cell eps ps init (p_input p) (tok_type tok) p.
  Proof.
    intros Hp Hf Hctx Hleaf Hw. split; auto. split; auto.
    pose proof (proj2 (@tree_leaves_all L T eps ps) _ _ _ Hf) as Hlw.
    pose proof (proj1 (proj2 (@tree_derives_all L T eps ps) _ _ _ Hf)) as Hd.
    destruct w as [|t0 w]; simpl in Hw.
    - right. split; [exact Hd|]. subst rest1. inversion Hleaf as [|? ? [Hl1 Hl2] _]; subst.
      split; auto. split; auto. exists u, (types v). exact Hctx.
    - inversion Hw; subst. left. inversion Hlw; subst. eapply types_can_start with (ws := w); eauto.
  Qed.

  Lemma start_textbook X out a : In out (cands X a) -> can_start eps ps out a ->
    textbook_cell eps ps init X a (Production X out).
  Proof.
    intros Hin Hs. destruct (Hcands _ _ _ Hin) as ([X' o] & Hp & Hi & Ho). simpl in *. subst.
    split; auto.
  Qed.

  (** the situation of a production of a tree, in a tree of the initial symbol *)
  Definition placed (X : T) (out : list T) (ns : list (node L T)) (w : list (token L T))
             (u : list T) (rest1 : list (token L T)) (pos : nat) : Prop :=
    In (Production X out) ps /\ forest_for eps ps out ns w /\
    derives [init] (u ++ X :: types rest1) /\ Forall leaf rest1 /\ ended out rest1 /\
    at_pos tokens pos (w ++ rest1).

  Lemma placed_out X out ns w u rest1 pos : placed X out ns w u rest1 pos ->
    derives [init] (u ++ out ++ types rest1).
  Proof.
    intros (Hp & _ & Hctx & _). eapply derives_trans; [exact Hctx|].
    apply (@derives_ctx _ eps ps u (types rest1) [X] out). now apply (derives_production eps _ _ Hp).
  Qed.

  (** the situation of a sequence of symbols *)
  Definition set_out (Xs : list T) (ns : list (node L T)) (w : list (token L T))
             (u : list T) (rest1 : list (token L T)) (pos : nat) : Prop :=
    forest_for eps ps Xs ns w /\ derives [init] (u ++ Xs ++ types rest1) /\ Forall leaf rest1 /\
    ended Xs rest1 /\ at_pos tokens pos (w ++ rest1).

  Lemma placed_set_out X out ns w u rest1 pos : placed X out ns w u rest1 pos ->
    set_out out ns w u rest1 pos.
  Proof.
    intros H. pose proof (placed_out H) as Ho. destruct H as (Hp & Hf & Hctx & Hl & He & Hpos).
    repeat split; auto.
  Qed.

  Lemma set_out_tail X Xs n ns w ws u rest1 pos :
    tree_for eps ps X n w -> forest_for eps ps Xs ns ws ->
    derives [init] (u ++ X :: Xs ++ types rest1) -> Forall leaf rest1 -> ended (X :: Xs) rest1 ->
    at_pos tokens pos ((w ++ ws) ++ rest1) ->
    set_out Xs ns ws (u ++ types w) rest1 (pos + length w).
  Proof.
    intros Ht Hf Hctx Hl He Hpos. repeat split; auto.
    - eapply derives_trans; [exact Hctx|]. rewrite <- (app_assoc u (types w)).
      change (X :: Xs ++ types rest1) with ([X] ++ Xs ++ types rest1).
      apply derives_ctx. now apply tree_derives with (n := n).
    - eapply ended_tail; eauto.
    - rewrite <- app_assoc in Hpos. now apply at_pos_app in Hpos as [_ Hpos].
  Qed.

  (** a non-terminal at the head *)
  Lemma set_out_head X Xs ns w u rest1 pos : non_terminal ps X ->
    set_out (X :: Xs) ns w u rest1 pos ->
    exists out ns1 ns2 w1 w2 tok v, ns = Node ns1 (Token None X) :: ns2 /\ w = w1 ++ w2 /\
      placed X out ns1 w1 u (w2 ++ rest1) pos /\ w1 ++ w2 ++ rest1 = tok :: v /\
      nth_error tokens pos = Some tok /\ In out (cands X (tok_type tok)) /\
      set_out Xs ns2 w2 (u ++ types w1) rest1 (pos + length w1).
  Proof.
    intros HX (Hf & Hctx & Hl & He & Hpos).
    inversion Hf as [|X' Xs' n ns' w1 w2 Ht Hf2]; subst.
    assert (Hp : exists p ch, In p ps /\ p_input p = X /\ n = Node ch (Token None X) /\
                 forest_for eps ps (p_output p) ch w1).
    { inversion Ht as [tok H1 H2 Hx|H1|p ch w' Hp Hfp Hx]; subst.
      - contradiction.
      - contradiction.
      - exists p, ch. auto. }
    destruct Hp as ([X0 out] & ch & Hp & Hi & -> & Hfp). simpl in *. subst X0.
    pose proof (ended_rest HX He Hf2) as Hrest.
    assert (Hlw : Forall leaf w2) by exact (proj2 (@tree_leaves_all L T eps ps) _ _ _ Hf2).
    assert (Hl2 : Forall leaf (w2 ++ rest1)) by now apply Forall_app.
    assert (Hctx2 : derives [init] (u ++ X :: types (w2 ++ rest1))).
    { eapply derives_trans; [exact Hctx|]. rewrite map_app.
      change (X :: Xs ++ types rest1) with ([X] ++ Xs ++ types rest1).
      change (X :: types w2 ++ types rest1) with ([X] ++ types w2 ++ types rest1).
      rewrite (app_assoc u), (app_assoc u [X] (_ ++ _)).
      apply derives_ctx. apply (proj2 (@tree_derives_all L T eps ps) _ _ _ Hf2). }
    destruct (w1 ++ w2 ++ rest1) as [|tok v] eqn:Hw.
    { apply app_eq_nil in Hw as [_ Hw]. contradiction. }
    exists out, ch, ns', w1, w2, tok, v. splits4; auto.
    - repeat split; auto.
      + right. now left.
      + now rewrite app_assoc.
    - apply at_pos_nth with (w := v). rewrite <- Hw, app_assoc. exact Hpos.
    - pose proof (@Hcov (Production X out) u (types (w2 ++ rest1)) (tok_type tok) Hp Hctx2) as Hc. simpl in Hc.
      apply Hc.
      assert (Htok : leaf tok).
      { assert (H : Forall leaf (w1 ++ w2 ++ rest1)).
        { apply Forall_app. split; auto. exact (proj2 (@tree_leaves_all L T eps ps) _ _ _ Hfp). }
        rewrite Hw in H. now inversion H. }
      eapply types_can_start with (ws := v); auto.
      change (tok_type tok :: types v) with (types (tok :: v)). rewrite <- Hw, !map_app.
      apply derives_app; [|apply derives_refl].
      apply (proj2 (@tree_derives_all L T eps ps) _ _ _ Hfp).
    - eapply set_out_tail; eauto.
  Qed.

  Lemma set_out_not_terminal X Xs ns w u rest1 pos : ~ non_terminal ps X -> X <> eps ->
    set_out (X :: Xs) ns w u rest1 pos ->
    exists tok ns2 w2, X = tok_type tok /\ ns = Node [] tok :: ns2 /\ w = tok :: w2 /\
      nth_error tokens pos = Some tok /\ set_out Xs ns2 w2 (u ++ [X]) rest1 (pos + 1).
  Proof.
    intros HX Hne (Hf & Hctx & Hl & He & Hpos).
    inversion Hf as [|X' Xs' n ns' w1 w2 Ht Hf2]; subst.
    pose proof (set_out_tail _ Ht Hf2 Hctx Hl He Hpos) as Hs.
    inversion Ht as [tok H1 H2 Hx|H1|p ch w' Hp Hfp Hx]; subst.
    - exists tok, ns', w2. splits4; auto. apply at_pos_nth with (w := w2 ++ rest1). exact Hpos.
    - contradiction.
    - exfalso. apply HX. exists p. auto.
  Qed.

  Lemma set_out_epsilon Xs ns w u rest1 pos :
    set_out (eps :: Xs) ns w u rest1 pos ->
    exists ns2, ns = Node [] (Token None eps) :: ns2 /\ set_out Xs ns2 w u rest1 pos.
  Proof.
    intros (Hf & Hctx & Hl & He & Hpos).
    inversion Hf as [|X' Xs' n ns' w1 w2 Ht Hf2]; subst.
    pose proof (set_out_tail _ Ht Hf2 Hctx Hl He Hpos) as Hs.
    inversion Ht as [tok H1 H2 Hx|H1|p ch w' Hp Hfp Hx]; subst.
    - contradiction.
    - exists ns'. split; auto. simpl in Hs. rewrite app_nil_r, Nat.add_0_r in Hs. exact Hs.
    - exfalso. apply Heps. exists p. auto.
  Qed.

  Section Root.
  Hypothesis Hend : initial_ends_in_terminal eps ps init.

  (** the root of a tree over a prefix of the input is placed *)
  Lemma root_placed root w : non_terminal ps init ->
    tree_for eps ps init root w -> prefix w tokens ->
    exists out ns tok v, root = Node ns (Token None init) /\ placed init out ns w [] [] 0 /\
      w = tok :: v /\ nth_error tokens 0 = Some tok /\ In out (cands init (tok_type tok)).
  Proof.
    intros Hinit Ht [post Htok].
    assert (Hroot : exists p children, In p ps /\ p_input p = init /\
              root = Node children (Token None init) /\ forest_for eps ps (p_output p) children w).
    { inversion Ht as [tok H1 H2 Hx|H1|p children w' Hp Hf Hx].
      - exfalso. apply H2. now rewrite Hx.
      - exfalso. apply Heps. now rewrite H1.
      - exists p, children. rewrite Hx. auto. }
    destruct Hroot as ([X out] & ns & Hp & Hpi & -> & Hf). simpl in *. subst X.
    destruct (Hend _ Hp eq_refl) as (u & t & Ho & Hte & Htn). simpl in Ho.
    assert (Hpos : at_pos tokens 0 (w ++ [])) by (exists [], post; rewrite app_nil_r; auto).
    assert (Hw : exists tok v, w = tok :: v).
    { destruct w as [|tok v]; [exfalso|eauto]. subst out.
      apply forest_split in Hf as (ns1 & ns2 & w1 & w2 & _ & Hw & _ & Hf2).
      symmetry in Hw. apply app_eq_nil in Hw as [_ ->].
      inversion Hf2 as [|X' Xs' nt' ns' wt ws' Htt Hf3 HX1 HX2 HX3]; subst.
      apply app_eq_nil in HX3 as [-> _]. inversion Htt; subst; try contradiction.
      apply Htn. exists p. auto. }
    destruct Hw as (tok & v & ->).
    exists out, ns, tok, v. splits4; auto.
    - unfold placed. splits4; auto; [simpl; apply derives_refl|].
      right; right. exists u, t. auto.
    - now rewrite Htok.
    - pose proof (@Hcov (Production init out) [] [] (tok_type tok) Hp (derives_refl _ _ _)) as Hc. simpl in Hc.
      apply Hc. rewrite app_nil_r.
      pose proof (proj2 (@tree_leaves_all L T eps ps) _ _ _ Hf) as Hlw. inversion Hlw; subst.
      eapply types_can_start with (ws := v); auto.
      apply (proj2 (@tree_derives_all L T eps ps) _ _ _ Hf).
  Qed.
  End Root.

  (** no candidate before the right one succeeds *)
  Definition others_fail : Prop := forall X u rest1 pos tok v l1 out l2 out0 ns0 w0 ns q,
    cands X (tok_type tok) = l1 ++ out :: l2 -> In out0 l2 -> out <> out0 ->
    placed X out0 ns0 w0 u rest1 pos -> w0 ++ rest1 = tok :: v -> nth_error tokens pos = Some tok ->
    ~ sequence out pos (Some (ns, q)).

  (** the right candidate wins then *)
  Section Wins.
  Hypothesis Hno : others_fail.

  Lemma right_candidate_wins_if :
    (forall X pos outs r, choose X pos outs r -> forall out ns w u rest1 tok v l1,
       placed X out ns w u rest1 pos -> w ++ rest1 = tok :: v -> nth_error tokens pos = Some tok ->
       cands X (tok_type tok) = l1 ++ outs -> In out outs ->
       exists outs', r = Some (Node ns (Token None X), pos + length w, outs')) /\
    (forall Xs pos r, sequence Xs pos r -> forall ns w u rest1, set_out Xs ns w u rest1 pos ->
       r = Some (ns, pos + length w)) /\
    (forall X pos outs Xs r, branch X pos outs Xs r -> forall out ns w u tok v l1 ns2 w2 rest1,
       placed X out ns w u (w2 ++ rest1) pos -> w ++ w2 ++ rest1 = tok :: v ->
       nth_error tokens pos = Some tok ->
       cands X (tok_type tok) = l1 ++ outs -> In out outs ->
       set_out Xs ns2 w2 (u ++ types w) rest1 (pos + length w) ->
       r = Some (Node ns (Token None X) :: ns2, pos + length w + length w2)).
  Proof.
    apply choice_mutind.
    - intros X p out ns w u rest1 tok v l1 _ _ _ _ [].
    - intros X p o outs ns q Hseq IH out ns0 w u rest1 tok v l1 Hpl Hw Hn Hc Hin.
      destruct (list_eq_dec eq_dec o out) as [->|Hne].
      + specialize (IH _ _ _ _ (placed_set_out Hpl)). inversion IH; subst. eauto.
      + exfalso. destruct Hin as [->|Hin]; [congruence|]. unfold others_fail in Hno. eapply Hno; eauto.
    - intros X p o outs r Hseq IH1 _ IH2 out ns0 w u rest1 tok v l1 Hpl Hw Hn Hc Hin.
      destruct (list_eq_dec eq_dec o out) as [->|Hne].
      + specialize (IH1 _ _ _ _ (placed_set_out Hpl)). discriminate.
      + destruct Hin as [->|Hin]; [congruence|].
        apply (IH2 out ns0 w u rest1 tok v (l1 ++ [o])); auto. now rewrite <- app_assoc.
    - intros p ns w u rest1 (Hf & _). inversion Hf; subst. now rewrite Nat.add_0_r.
    - intros Xs p r _ IH ns w u rest1 Hs. apply set_out_epsilon in Hs as (ns2 & -> & Hs).
      rewrite (IH _ _ _ _ Hs). reflexivity.
    - intros Xs p tok r Hnt Hne Hn _ IH ns w u rest1 Hs.
      apply set_out_not_terminal in Hs as (tok' & ns2 & w2 & Ht & -> & -> & Hn' & Hs); auto.
      rewrite Hn in Hn'. inversion Hn'; subst tok'. rewrite (IH _ _ _ _ Hs). simpl.
      now rewrite <- Nat.add_assoc.
    - intros X Xs p Hnt Hne Hm ns w u rest1 Hs.
      apply set_out_not_terminal in Hs as (tok' & ns2 & w2 & Ht & -> & -> & Hn' & Hs); auto.
      exfalso. apply (Hm tok'); auto.
    - intros X Xs p tok r Hnt Hn _ IH ns w u rest1 Hs.
      apply (set_out_head Hnt) in Hs
        as (out & ns1 & ns2 & w1 & w2 & tok' & v & -> & -> & Hpl & Hw & Hn' & Hin & Hs).
      rewrite Hn in Hn'. inversion Hn'; subst tok'. rewrite app_length, Nat.add_assoc.
      eapply (IH out ns1 w1 u tok v [] ns2 w2 rest1); eauto.
    - intros X p outs Xs _ IH out ns w u tok v l1 ns2 w2 rest1 Hpl Hw Hn Hc Hin _.
      destruct (IH out ns w u _ tok v l1 Hpl Hw Hn Hc Hin) as [? H]. discriminate.
    - intros X p outs Xs n q outs' ns' q' _ IH1 _ IH2 out ns w u tok v l1 ns2 w2 rest1 Hpl Hw Hn Hc Hin Hs.
      destruct (IH1 out ns w u _ tok v l1 Hpl Hw Hn Hc Hin) as [? H]. inversion H; subst.
      specialize (IH2 _ _ _ _ Hs). now inversion IH2; subst.
    - intros X p outs Xs n q outs' r _ IH1 _ IH2 _ _ out ns w u tok v l1 ns2 w2 rest1 Hpl Hw Hn Hc Hin Hs.
      destruct (IH1 out ns w u _ tok v l1 Hpl Hw Hn Hc Hin) as [? H]. inversion H; subst.
      specialize (IH2 _ _ _ _ Hs). discriminate.
  Qed.

  End Wins.

  Hypothesis Hll : forall A a p q, reachable_from eps ps init A ->
    textbook_cell eps ps init A a p -> textbook_cell eps ps init A a q -> p = q.
  Hypothesis Hord : nothing_vanishes_early eps ps init cands.


  (** a wrong candidate before the right one fails *)
  Lemma wrong_no_success X u rest1 pos tok v l1 out l2 out0 ns0 w0 ns q :
    cands X (tok_type tok) = l1 ++ out :: l2 -> In out0 l2 -> out <> out0 ->
    In (Production X out0) ps -> forest_for eps ps out0 ns0 w0 ->
    derives [init] (u ++ X :: types rest1) -> Forall leaf rest1 ->
    w0 ++ rest1 = tok :: v -> nth_error tokens pos = Some tok ->
    ~ sequence out pos (Some (ns, q)).
  Proof.
    intros Hc Hin Hne Hp Hf Hctx Hleaf Hw Hn Hseq.
    pose proof (@tree_in_textbook (Production X out0) ns0 w0 u rest1 tok v Hp Hf Hctx Hleaf Hw) as H0. simpl in H0.
    assert (Hnn : ~ vanishes eps ps cands (tok_type tok) out).
    { eapply (@Hord X (tok_type tok) l1 out l2 (Production X out0)); auto. exists u, (types rest1). auto. }
    destruct (proj1 (proj2 choice_forests) _ _ _ Hseq _ _ eq_refl) as (w & v' & Hf' & Hq & Hs).
    rewrite (nth_skipn _ _ Hn) in Hs.
    pose proof (proj2 (@tree_leaves_all L T eps ps) _ _ _ Hf') as Hlw.
    pose proof (proj1 (proj2 (@tree_derives_all L T eps ps) _ _ _ Hf')) as Hd.
    destruct w as [|t0 w].
    { apply Hnn. simpl in Hq. rewrite Nat.add_0_r in Hq. subst q.
      exact (proj1 (proj2 choice_vanishes) _ _ _ Hseq tok Hn _ eq_refl). }
    inversion Hs; subst t0.
    assert (Hcs : can_start eps ps out (tok_type tok)).
    { inversion Hlw; subst. eapply types_can_start with (ws := w); eauto. }
    assert (Ho : In out (cands X (tok_type tok))) by (rewrite Hc; apply in_or_app; right; now left).
    pose proof (Hll (ex_intro _ u (ex_intro _ (types rest1) Hctx)) H0 (start_textbook _ Ho Hcs)) as Heq. inversion Heq. auto.
  Qed.

  Lemma wrong_not_past X u rest1 pos tok v out out0 ns0 w0 :
    In out (cands X (tok_type tok)) -> out <> out0 ->
    In (Production X out0) ps -> forest_for eps ps out0 ns0 w0 ->
    derives [init] (u ++ X :: types rest1) -> Forall leaf rest1 ->
    w0 ++ rest1 = tok :: v -> nth_error tokens pos = Some tok ->
    ~ sequence_past out pos.
  Proof.
    intros Ho Hne Hp Hf Hctx Hleaf Hw Hn Hseq.
    destruct (proj1 (proj2 past_derives) _ _ Hseq) as (v' & Hl & Hd).
    rewrite (nth_skipn _ _ Hn) in Hl, Hd. simpl in Hd.
    assert (Hcs : can_start eps ps out (tok_type tok)).
    { inversion Hl as [|? ? [H1 H2] _]; subst. split; auto. split; auto. eauto. }
    pose proof (@tree_in_textbook (Production X out0) ns0 w0 u rest1 tok v Hp Hf Hctx Hleaf Hw) as H0. simpl in H0.
    pose proof (Hll (ex_intro _ u (ex_intro _ (types rest1) Hctx)) H0 (start_textbook _ Ho Hcs)) as Heq. inversion Heq. auto.
  Qed.

  Lemma order_others_fail : others_fail.
  Proof.
    intros X u rest1 pos tok v l1 out l2 out0 ns0 w0 ns q Hc Hin Hne Hpl Hw Hn.
    destruct Hpl as (Hp & Hf & Hctx & Hl & He & Hpos).
    exact (wrong_no_success _ _ _ Hc Hin Hne Hp Hf Hctx Hl Hw Hn).
  Qed.

  Lemma right_candidate_wins :
    (forall X pos outs r, choose X pos outs r -> forall out ns w u rest1 tok v l1,
       placed X out ns w u rest1 pos -> w ++ rest1 = tok :: v -> nth_error tokens pos = Some tok ->
       cands X (tok_type tok) = l1 ++ outs -> In out outs ->
       exists outs', r = Some (Node ns (Token None X), pos + length w, outs')) /\
    (forall Xs pos r, sequence Xs pos r -> forall ns w u rest1, set_out Xs ns w u rest1 pos ->
       r = Some (ns, pos + length w)) /\
    (forall X pos outs Xs r, branch X pos outs Xs r -> forall out ns w u tok v l1 ns2 w2 rest1,
       placed X out ns w u (w2 ++ rest1) pos -> w ++ w2 ++ rest1 = tok :: v ->
       nth_error tokens pos = Some tok ->
       cands X (tok_type tok) = l1 ++ outs -> In out outs ->
       set_out Xs ns2 w2 (u ++ types w) rest1 (pos + length w) ->
       r = Some (Node ns (Token None X) :: ns2, pos + length w + length w2)).
  Proof.
    exact (right_candidate_wins_if order_others_fail).
  Qed.

  Lemma right_candidate_not_past :
    (forall X pos outs, choose_past X pos outs -> forall out ns w u rest1 tok v l1,
       placed X out ns w u rest1 pos -> w ++ rest1 = tok :: v -> nth_error tokens pos = Some tok ->
       cands X (tok_type tok) = l1 ++ outs -> In out outs -> False) /\
    (forall Xs pos, sequence_past Xs pos -> forall ns w u rest1, ~ set_out Xs ns w u rest1 pos) /\
    (forall X pos outs Xs, branch_past X pos outs Xs -> forall out ns w u tok v l1 ns2 w2 rest1,
       placed X out ns w u (w2 ++ rest1) pos -> w ++ w2 ++ rest1 = tok :: v ->
       nth_error tokens pos = Some tok ->
       cands X (tok_type tok) = l1 ++ outs -> In out outs ->
       ~ set_out Xs ns2 w2 (u ++ types w) rest1 (pos + length w)).
  Proof.
    apply past_choice_mutind.
    - intros X p o outs Hseq IH out ns0 w u rest1 tok v l1 Hpl Hw Hn Hc Hin.
      destruct (list_eq_dec eq_dec o out) as [->|Hne].
      + exact (IH _ _ _ _ (placed_set_out Hpl)).
      + assert (Ho : In o (cands X (tok_type tok))) by (rewrite Hc; apply in_or_app; right; now left).
        destruct Hpl as (Hp & Hf & Hctx & Hl & He & Hpos).
        exact (wrong_not_past _ _ Ho Hne Hp Hf Hctx Hl Hw Hn Hseq).
    - intros X p o outs Hseq _ IH out ns0 w u rest1 tok v l1 Hpl Hw Hn Hc Hin.
      destruct (list_eq_dec eq_dec o out) as [->|Hne].
      + pose proof (proj1 (proj2 right_candidate_wins) _ _ _ Hseq _ _ _ _ (placed_set_out Hpl)). discriminate.
      + destruct Hin as [->|Hin]; [congruence|].
        apply (IH out ns0 w u rest1 tok v (l1 ++ [o])); auto. now rewrite <- app_assoc.
    - intros X Xs p Hnt Hn ns w u rest1 Hs.
      apply (set_out_head Hnt) in Hs
        as (out & ns1 & ns2 & w1 & w2 & tok' & v & -> & -> & Hpl & Hw & Hn' & Hin & Hs). congruence.
    - intros Xs p _ IH ns w u rest1 Hs. apply set_out_epsilon in Hs as (ns2 & -> & Hs). eapply IH; eauto.
    - intros Xs p tok Hnt Hne Hn _ IH ns w u rest1 Hs.
      apply set_out_not_terminal in Hs as (tok' & ns2 & w2 & Ht & -> & -> & Hn' & Hs); auto.
      eapply IH; eauto.
    - intros X Xs p tok Hnt Hn _ IH ns w u rest1 Hs.
      apply (set_out_head Hnt) in Hs
        as (out & ns1 & ns2 & w1 & w2 & tok' & v & -> & -> & Hpl & Hw & Hn' & Hin & Hs).
      rewrite Hn in Hn'. inversion Hn'; subst tok'.
      eapply (IH out ns1 w1 u tok v [] ns2 w2 rest1); eauto.
    - intros X p outs Xs _ IH out ns w u tok v l1 ns2 w2 rest1 Hpl Hw Hn Hc Hin _.
      exact (IH out ns w u _ tok v l1 Hpl Hw Hn Hc Hin).
    - intros X p outs Xs n q outs' Hch _ IH2 out ns w u tok v l1 ns2 w2 rest1 Hpl Hw Hn Hc Hin Hs.
      destruct (proj1 right_candidate_wins _ _ _ _ Hch out ns w u _ tok v l1 Hpl Hw Hn Hc Hin) as [? H].
      inversion H; subst. eapply IH2; eauto.
    - intros X p outs Xs n q outs' Hch Hseq _ _ out ns w u tok v l1 ns2 w2 rest1 Hpl Hw Hn Hc Hin Hs.
      destruct (proj1 right_candidate_wins _ _ _ _ Hch out ns w u _ tok v l1 Hpl Hw Hn Hc Hin) as [? H].
      inversion H; subst.
      pose proof (proj1 (proj2 right_candidate_wins) _ _ _ Hseq _ _ _ _ Hs). discriminate.
  Qed.

End Last.

Lemma vanishes_nullable {T : Type} (eps : T) ps (cands : T -> T -> list (list T)) a w :
  (forall A b out, In out (cands A b) -> exists p, In p ps /\ p_input p = A /\ p_output p = out) ->
  vanishes eps ps cands a w -> nullable eps ps w.
Proof.
  intros Hc. induction 1 as [|Xs _ IH|X out Xs _ Hin _ IH1 _ IH2].
  - apply derives_refl.
  - eapply derives_trans; [|exact IH]. apply derives_step, (derive1_epsilon eps ps [] Xs).
  - destruct (Hc _ _ _ Hin) as (p & Hp & <- & <-).
    apply (@derives_app _ eps ps [p_input p] [] Xs []); [|exact IH2].
    eapply derives_trans; [now apply derives_production|exact IH1].
Qed.
