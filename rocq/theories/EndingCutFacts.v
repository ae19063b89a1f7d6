(** * Inputs cut short, for grammars whose wrong choices are noticed in time (proofs) *)

From Verif Require Import BaseFacts GrammarFacts DerivFacts FollowFacts TransitionsFacts.
From Verif Require Import CutFacts.
From Verif Require Export EndingFacts.

Set Implicit Arguments.

Section EndingCut.
  Context {L T : Type} {E : EqDec T}.
  Variable eps init : T.
  Variable ps : list (production T).
  Variable cands : T -> T -> list (list T).
  Variable tokens : list (token L T).
  Hypothesis Heps : ~ non_terminal ps eps.
  Hypothesis Hcands : forall A a out, In out (cands A a) ->
    exists p, In p ps /\ p_input p = A /\ p_output p = out.
  Hypothesis Hcov : covering eps init ps cands.
  Hypothesis Hll : forall A a p q, reachable_from eps ps init A ->
    textbook_cell eps ps init A a p -> textbook_cell eps ps init A a q -> p = q.
  Hypothesis Hord : no_early_ending eps ps init cands.

  Notation choose := (choose eps ps tokens cands).
  Notation sequence := (sequence eps ps tokens cands).
  Notation branch := (branch eps ps tokens cands).
  Notation derives := (derives eps ps).
  Notation types := (map (@tok_type L T)).
  Notation leaf := (@leaf L T eps ps).
  Notation cut := (@cut L T eps ps).
  Notation ends_production := (ends_production eps init ps).

  (** [X] derives [w], then come the tokens [rest1], which are the last ones *)
  Definition before_end (X : T) (out : list T) (ns : list (node L T)) (w : list (token L T))
             (u : list T) (rest1 : list (token L T)) (pos : nat) : Prop :=
    In (Production X out) ps /\ forest_for eps ps out ns w /\
    (exists x, derives [init] (u ++ X :: types rest1 ++ x)) /\ Forall leaf rest1 /\
    skipn pos tokens = w ++ rest1.

  Definition set_before_end (Xs : list T) (ns : list (node L T)) (w : list (token L T))
             (u : list T) (rest1 : list (token L T)) (pos : nat) : Prop :=
    forest_for eps ps Xs ns w /\ (exists x, derives [init] (u ++ Xs ++ types rest1 ++ x)) /\
    Forall leaf rest1 /\ skipn pos tokens = w ++ rest1.

  Lemma before_end_set X out ns w u rest1 pos : before_end X out ns w u rest1 pos ->
    set_before_end out ns w u rest1 pos.
  Proof.
    intros (Hp & Hf & [x Hctx] & Hl & Hs). unfold set_before_end; splits4; auto. exists x.
    eapply derives_trans; [exact Hctx|].
    apply (@derives_ctx _ eps ps u (types rest1 ++ x) [X] out). now apply (derives_production eps _ _ Hp).
  Qed.

  Lemma before_end_ends X out ns w u rest1 pos : before_end X out ns w u rest1 pos -> ends_production out.
  Proof.
    intros (Hp & _ & [x Hctx] & _). exists (Production X out), []. unfold set_before_end; splits4; auto. exists u, (types rest1 ++ x). auto.
  Qed.

  Lemma before_end_reachable X out ns w u rest1 pos : before_end X out ns w u rest1 pos ->
    reachable_from eps ps init X.
  Proof. intros (_ & _ & [x Hctx] & _). exists u, (types rest1 ++ x). auto. Qed.

  Lemma before_end_textbook X out ns w u rest1 pos tok : before_end X out ns w u rest1 pos ->
    nth_error tokens pos = Some tok -> textbook_cell eps ps init X (tok_type tok) (Production X out).
  Proof.
    intros (Hp & Hf & [x Hctx] & Hl & Hs) Hn. rewrite (nth_skipn _ _ Hn) in Hs.
    split; auto. split; auto. simpl.
    pose proof (proj2 (@tree_leaves_all L T eps ps) _ _ _ Hf) as Hlw.
    pose proof (proj1 (proj2 (@tree_derives_all L T eps ps) _ _ _ Hf)) as Hd.
    destruct w as [|t0 w]; simpl in Hs.
    - right. split; [exact Hd|]. subst rest1. inversion Hl as [|? ? [Hl1 Hl2] _]; subst.
      split; auto. split; auto. exists u, (types (skipn (S pos) tokens) ++ x). exact Hctx.
    - inversion Hs; subst. left. inversion Hlw; subst. eapply types_can_start with (ws := w); eauto.
  Qed.

  Lemma other_no_start X tok out o : reachable_from eps ps init X ->
    textbook_cell eps ps init X (tok_type tok) (Production X out) ->
    In o (cands X (tok_type (L := L) tok)) -> o <> out -> ~ can_start eps ps o (tok_type tok).
  Proof.
    intros Hr Htb Ho Hne Hs.
    pose proof (Hll Hr Htb (start_textbook init cands Hcands _ Ho Hs)) as Heq.
    inversion Heq. auto.
  Qed.

  Lemma textbook_in X tok out : reachable_from eps ps init X ->
    textbook_cell eps ps init X (tok_type tok) (Production X out) ->
    In out (cands X (tok_type (L := L) tok)).
  Proof. intros Hr Htb. exact (proj1 (filled_covering _ _ _ _) Hcov _ _ _ Hr Htb). Qed.

  Lemma set_before_end_tail X Xs n ns w1 w2 u rest1 pos : tree_for eps ps X n w1 ->
    forest_for eps ps Xs ns w2 -> set_before_end (X :: Xs) (n :: ns) (w1 ++ w2) u rest1 pos ->
    set_before_end Xs ns w2 (u ++ types w1) rest1 (pos + length w1).
  Proof.
    intros Ht Hf (_ & [x Hctx] & Hl & Hs). unfold set_before_end; splits4; auto.
    - exists x. eapply derives_trans; [exact Hctx|]. rewrite <- (app_assoc u (types w1)).
      change ((X :: Xs) ++ types rest1 ++ x) with ([X] ++ Xs ++ types rest1 ++ x).
      apply derives_ctx. now apply tree_derives with (n := n).
    - rewrite <- app_assoc in Hs. exact (skipn_after tokens _ _ _ Hs).
  Qed.

  Lemma set_before_end_head X Xs ns w u rest1 pos : non_terminal ps X ->
    set_before_end (X :: Xs) ns w u rest1 pos ->
    exists out ns1 ns2 w1 w2, ns = Node ns1 (Token None X) :: ns2 /\ w = w1 ++ w2 /\
      before_end X out ns1 w1 u (w2 ++ rest1) pos /\
      set_before_end Xs ns2 w2 (u ++ types w1) rest1 (pos + length w1).
  Proof.
    intros HX Hset. pose proof Hset as (Hf & [x Hctx] & Hl & Hs).
    inversion Hf as [|X' Xs' n ns' w1 w2 Ht Hf2]; subst.
    assert (Hp : exists p ch, In p ps /\ p_input p = X /\ n = Node ch (Token None X) /\
                 forest_for eps ps (p_output p) ch w1).
    { inversion Ht as [tok H1 H2 Hx|H1|p ch w' Hp Hfp Hx]; subst; try contradiction. exists p, ch. auto. }
    destruct Hp as ([X0 out] & ch & Hp & Hi & -> & Hfp). simpl in *. subst X0.
    exists out, ch, ns', w1, w2. splits4; auto.
    - unfold before_end. splits4; auto.
      + exists x. eapply derives_trans; [exact Hctx|]. rewrite map_app, <- app_assoc.
        change (X :: Xs ++ types rest1 ++ x) with ([X] ++ Xs ++ types rest1 ++ x).
        change (X :: types w2 ++ types rest1 ++ x) with ([X] ++ types w2 ++ types rest1 ++ x).
        rewrite (app_assoc u), (app_assoc u [X] (_ ++ _ ++ _)).
        apply derives_ctx. apply (proj2 (@tree_derives_all L T eps ps) _ _ _ Hf2).
      + apply Forall_app. split; auto. exact (proj2 (@tree_leaves_all L T eps ps) _ _ _ Hf2).
      + now rewrite app_assoc.
    - eapply set_before_end_tail; eauto.
  Qed.

  Lemma set_before_end_token tok Xs ns w u rest1 pos : ~ non_terminal ps (tok_type tok) -> tok_type tok <> eps ->
    nth_error tokens pos = Some tok ->
    set_before_end (tok_type tok :: Xs) ns w u rest1 pos ->
    exists ns2 w2, ns = Node [] tok :: ns2 /\ w = tok :: w2 /\
      set_before_end Xs ns2 w2 (u ++ [tok_type tok]) rest1 (pos + 1).
  Proof.
    intros HX Hne Hn Hset. pose proof Hset as (Hf & [x Hctx] & Hl & Hs).
    inversion Hf as [|X' Xs' n ns' w1 w2 Ht Hf2]; subst.
    pose proof (set_before_end_tail Ht Hf2 Hset) as Hs2. rewrite (nth_skipn _ _ Hn) in Hs.
    inversion Ht as [tok' H1 H2 Hx|H1|p ch w' Hp Hfp Hx]; subst.
    - simpl in Hs. inversion Hs; subst tok'. exists ns', w2. auto.
    - congruence.
    - exfalso. apply HX. exists p. auto.
  Qed.

  Lemma set_before_end_mismatch X Xs ns w u rest1 pos : ~ non_terminal ps X -> X <> eps ->
    set_before_end (X :: Xs) ns w u rest1 pos -> exists tok, nth_error tokens pos = Some tok /\ tok_type tok = X.
  Proof.
    intros HX Hne (Hf & _ & Hl & Hs).
    inversion Hf as [|X' Xs' n ns' w1 w2 Ht Hf2]; subst.
    inversion Ht as [tok' H1 H2 Hx|H1|p ch w' Hp Hfp Hx]; subst.
    - exists tok'. split; auto. exact (proj1 (skipn_next tokens pos Hs)).
    - contradiction.
    - exfalso. apply HX. exists p. auto.
  Qed.

  Lemma set_before_end_epsilon Xs ns w u rest1 pos : set_before_end (eps :: Xs) ns w u rest1 pos ->
    exists ns2, ns = Node [] (Token None eps) :: ns2 /\ set_before_end Xs ns2 w u rest1 pos.
  Proof.
    intros (Hf & [x Hctx] & Hl & Hs). inversion Hf as [|X' Xs' n ns' w1 w2 Ht Hf2]; subst.
    inversion Ht as [tok' H1 H2 Hx|H1|p ch w' Hp Hfp Hx]; subst.
    - contradiction.
    - exists ns'. split; auto. unfold set_before_end; splits4; auto. exists x. eapply derives_trans; [exact Hctx|].
      change ((eps :: Xs) ++ types rest1 ++ x) with ([eps] ++ Xs ++ types rest1 ++ x).
      apply (@derives_ctx _ eps ps u (Xs ++ types rest1 ++ x) [eps] []). apply derives_eps.
    - exfalso. apply Heps. exists p. auto.
  Qed.

  (** the early candidate that vanished is followed by nothing that succeeds *)
  Lemma early_is_noticed X Xs u x pos tok l1 l2 o outs' out ns q : derives [init] (u ++ X :: Xs ++ x) ->
    ends_production (X :: Xs) ->
    cands X (tok_type tok) = l1 ++ l2 ++ o :: outs' -> In out (l2 ++ o :: outs') -> ~ In out l1 ->
    ~ In out (l2 ++ [o]) -> vanishes eps ps cands (tok_type tok) o ->
    textbook_cell eps ps init X (tok_type tok) (Production X out) ->
    nth_error tokens pos = Some tok -> sequence Xs pos (Some (ns, q)) -> False.
  Proof.
    intros Hctx He Hc Hin Hnot Hni Hv Htb Hn Hseq.
    assert (Ho : In o (cands X (tok_type tok))) by (rewrite Hc; apply in_or_app; right; apply in_or_app; right; now left).
    assert (Hne : o <> out) by (intros ->; apply Hni, in_or_app; right; now left).
    destruct (succ_start Hcands Hseq Hn) as [Hst|[-> Hvx]].
    - exact (no_start_after Hcands Hll _ _ Hctx Ho Hv Htb Hne Hst).
    - destruct He as (pq & before & Hq & Hr & Hqo).
      refine (@Hord pq before X Xs (tok_type tok) (l1 ++ l2) o outs' (Production X out) Hq Hr Hqo _ _ _ Htb Hv Hvx).
      + rewrite <- app_assoc. exact Hc.
      + simpl. rewrite <- app_assoc. intros Hi. apply in_app_or in Hi as [|]; auto.
      + simpl. apply in_app_or in Hin as [Hi|[->|Hi]]; auto; exfalso; auto.
        apply Hni, in_or_app. auto.
  Qed.

  (** where a whole tree comes before the end, the result is that tree, if there is one *)
  Lemma whole_wins :
    (forall X pos outs r, choose X pos outs r -> forall out ns w u rest1 tok l1,
       before_end X out ns w u rest1 pos -> nth_error tokens pos = Some tok ->
       cands X (tok_type tok) = l1 ++ outs -> In out outs -> ~ In out l1 ->
       (exists outs', r = Some (Node ns (Token None X), pos + length w, outs')) \/
       exists n l2 o outs', r = Some (n, pos, outs') /\ outs = l2 ++ o :: outs' /\
         ~ In out (l2 ++ [o]) /\ vanishes eps ps cands (tok_type tok) o) /\
    (forall Xs pos r, sequence Xs pos r -> forall ns w u rest1, set_before_end Xs ns w u rest1 pos ->
       ends_production Xs -> r = Some (ns, pos + length w)) /\
    (forall X pos outs Xs r, branch X pos outs Xs r -> forall out ns w u tok l1 ns2 w2 rest1 x,
       before_end X out ns w u (w2 ++ rest1) pos -> nth_error tokens pos = Some tok ->
       cands X (tok_type tok) = l1 ++ outs -> In out outs -> ~ In out l1 ->
       set_before_end Xs ns2 w2 (u ++ types w) rest1 (pos + length w) ->
       derives [init] (u ++ X :: Xs ++ x) -> ends_production (X :: Xs) ->
       r = Some (Node ns (Token None X) :: ns2, pos + length w + length w2)).
  Proof.
    apply choice_mutind.
    - intros X p out ns w u rest1 tok l1 _ _ _ [].
    - intros X p o outs ns q Hseq IH out ns0 w u rest1 tok l1 Hpl Hn Hc Hin Hnot.
      destruct (list_eq_dec eq_dec o out) as [->|Hne].
      + specialize (IH _ _ _ _ (before_end_set Hpl) (before_end_ends Hpl)). inversion IH; subst. eauto.
      + right.
        assert (Ho : In o (cands X (tok_type tok))) by (rewrite Hc; apply in_or_app; right; now left).
        destruct (succ_start Hcands Hseq Hn) as [Hs|[-> Hv]].
        * now destruct (@other_no_start X tok out o (before_end_reachable Hpl) (before_end_textbook Hpl Hn) Ho Hne).
        * eexists _, [], o, outs. splits4; auto. intros [?|[]]; auto.
    - intros X p o outs r Hseq IH1 _ IH2 out ns0 w u rest1 tok l1 Hpl Hn Hc Hin Hnot.
      destruct (list_eq_dec eq_dec o out) as [->|Hne].
      + specialize (IH1 _ _ _ _ (before_end_set Hpl) (before_end_ends Hpl)). discriminate.
      + destruct Hin as [->|Hin]; [congruence|].
        destruct (IH2 out ns0 w u rest1 tok (l1 ++ [o])) as [H|(n & l2 & o' & outs' & -> & -> & Hni & Hv)]; auto.
        * now rewrite <- app_assoc.
        * intros Hi. apply in_app_or in Hi as [|[|[]]]; auto.
        * right. exists n, (o :: l2), o', outs'. splits4; auto. intros [?|?]; auto.
    - intros p ns w u rest1 (Hf & _) _. inversion Hf; subst. now rewrite Nat.add_0_r.
    - intros Xs p r _ IH ns w u rest1 Hs He. apply set_before_end_epsilon in Hs as (ns2 & -> & Hs).
      rewrite (IH _ _ _ _ Hs (ends_tail He)). reflexivity.
    - intros Xs p tok r Hnt Hne Hn _ IH ns w u rest1 Hs He.
      apply set_before_end_token in Hs as (ns2 & w2 & -> & -> & Hs); auto.
      rewrite (IH _ _ _ _ Hs (ends_tail He)). simpl. now rewrite <- Nat.add_assoc.
    - intros X Xs p Hnt Hne Hm ns w u rest1 Hs _.
      destruct (set_before_end_mismatch Hnt Hne Hs) as (tok & Hn & Ht). now destruct (Hm tok).
    - intros X Xs p tok r Hnt Hn _ IH ns w u rest1 Hs He.
      pose proof Hs as (_ & [x Hctx] & _).
      apply (set_before_end_head Hnt) in Hs as (out & ns1 & ns2 & w1 & w2 & -> & -> & Hpl & Hs).
      rewrite app_length, Nat.add_assoc.
      apply (IH out ns1 w1 u tok [] ns2 w2 rest1 (types rest1 ++ x)); auto.
      exact (@textbook_in X tok out (before_end_reachable Hpl) (before_end_textbook Hpl Hn)).
    - intros X p outs Xs _ IH out ns w u tok l1 ns2 w2 rest1 x Hpl Hn Hc Hin Hnot _ _ _.
      destruct (IH out ns w u _ tok l1 Hpl Hn Hc Hin Hnot) as [[? H]|(? & ? & ? & ? & H & _)]; discriminate.
    - intros X p outs Xs n q outs' ns' q' _ IH1 Hseq IH2 out ns w u tok l1 ns2 w2 rest1 x Hpl Hn Hc Hin Hnot Hs Hctx He.
      destruct (IH1 out ns w u _ tok l1 Hpl Hn Hc Hin Hnot)
        as [[? H]|(? & l2 & o & ? & H & -> & Hni & Hv)]; inversion H; subst.
      + specialize (IH2 _ _ _ _ Hs (ends_tail He)). now inversion IH2; subst.
      + exfalso. exact (early_is_noticed _ _ _ _ _ Hctx He Hc Hin Hnot Hni Hv (before_end_textbook Hpl Hn) Hn Hseq).
    - intros X p outs Xs n q outs' r _ IH1 _ IH2 _ IH3 out ns w u tok l1 ns2 w2 rest1 x Hpl Hn Hc Hin Hnot Hs Hctx He.
      destruct (IH1 out ns w u _ tok l1 Hpl Hn Hc Hin Hnot)
        as [[? H]|(? & l2 & o & ? & H & -> & Hni & Hv)]; inversion H; subst.
      + specialize (IH2 _ _ _ _ Hs (ends_tail He)). discriminate.
      + eapply (IH3 out ns w u tok (l1 ++ l2 ++ [o])); eauto.
        * rewrite Hc. now rewrite <- !app_assoc.
        * apply in_app_or in Hin as [Hi|[->|Hi]]; auto; exfalso; apply Hni, in_or_app; auto. right. now left.
        * intros Hi. apply in_app_or in Hi as [|]; auto.
  Qed.

  (** what comes after a tree is cut: the tree is followed by tokens *)
  Lemma cut_context X Xs n w w' u x pos : tree_for eps ps X n w -> cut Xs w' ->
    derives [init] (u ++ X :: Xs ++ x) -> skipn pos tokens = w ++ w' -> non_terminal ps X ->
    exists out ns, n = Node ns (Token None X) /\ before_end X out ns w u w' pos.
  Proof.
    intros Ht Hc Hctx Hs HX.
    destruct (cut_derives Hc) as [v Hv].
    inversion Ht as [tok H1 H2 Hx|H1|[X0 out] ch w1 Hp Hfp Hx]; subst; try contradiction.
    exists out, ch. split; auto. unfold before_end. splits4; auto.
    - exists (v ++ x). eapply derives_trans; [exact Hctx|]. simpl.
      apply derives_app; [apply derives_refl|]. apply (@derives_app _ eps ps [X0] [X0]); [apply derives_refl|].
      rewrite app_assoc. apply derives_app; [exact Hv|apply derives_refl].
    - exact (cut_real Hc).
  Qed.

  Lemma after_tree X Xs n w u x : tree_for eps ps X n w -> derives [init] (u ++ X :: Xs ++ x) ->
    derives [init] ((u ++ types w) ++ Xs ++ x).
  Proof.
    intros Ht Hctx. eapply derives_trans; [exact Hctx|]. rewrite <- app_assoc.
    apply derives_app; [apply derives_refl|].
    apply (@derives_app _ eps ps [X] (types w)); [exact (tree_derives Ht)|apply derives_refl].
  Qed.

  (** a production in use, cut: its cell *)
  Lemma cut_textbook pr w u x pos tok : In pr ps -> cut (p_output pr) w ->
    derives [init] (u ++ p_input pr :: x) -> skipn pos tokens = w -> nth_error tokens pos = Some tok ->
    textbook_cell eps ps init (p_input pr) (tok_type tok) pr.
  Proof.
    intros Hp Hc Hctx Hs Hn. rewrite (nth_skipn _ _ Hn) in Hs. subst w.
    split; auto. split; auto. left. destruct (cut_derives Hc) as [v Hv].
    pose proof (cut_real Hc) as Hr. inversion Hr as [|? ? [H1 H2] _]; subst.
    split; auto. split; auto. eexists. exact Hv.
  Qed.

  (** an input cut short gives no result at all *)
  Lemma cut_no_result :
    (forall X pos outs r, choose X pos outs r -> forall out w u x tok l1,
       In (Production X out) ps -> cut out w -> derives [init] (u ++ X :: x) ->
       skipn pos tokens = w -> nth_error tokens pos = Some tok ->
       cands X (tok_type tok) = l1 ++ outs -> In out outs -> ~ In out l1 ->
       exists n l2 o outs', r = Some (n, pos, outs') /\ outs = l2 ++ o :: outs' /\
         ~ In out (l2 ++ [o]) /\ vanishes eps ps cands (tok_type tok) o) /\
    (forall Xs pos r, sequence Xs pos r -> forall w u x, cut Xs w -> derives [init] (u ++ Xs ++ x) ->
       skipn pos tokens = w -> ends_production Xs -> False) /\
    (forall X pos outs Xs r, branch X pos outs Xs r -> forall u x tok l1,
       derives [init] (u ++ X :: Xs ++ x) -> ends_production (X :: Xs) ->
       nth_error tokens pos = Some tok -> cands X (tok_type tok) = l1 ++ outs ->
       (exists out, In (Production X out) ps /\ cut out (skipn pos tokens) /\ In out outs /\ ~ In out l1) \/
       (exists out ns w w', before_end X out ns w u w' pos /\ cut Xs w' /\ In out outs /\ ~ In out l1) -> False).
  Proof.
    apply choice_mutind.
    - intros X p out w u x tok l1 _ _ _ _ _ _ [].
    - intros X p o outs ns q Hseq IH out w u x tok l1 Hp Hcut Hctx Hs Hn Hc Hin Hnot.
      assert (Hr : reachable_from eps ps init X) by (exists u, x; exact Hctx).
      pose proof (@cut_textbook (Production X out) w u x p tok Hp Hcut Hctx Hs Hn) as Htb. simpl in Htb.
      destruct (list_eq_dec eq_dec o out) as [->|Hne].
      + exfalso. apply (IH w u x Hcut); auto.
        * eapply derives_trans; [exact Hctx|]. apply (@derives_ctx _ eps ps u x [X] out).
          now apply (derives_production eps _ _ Hp).
        * exists (Production X out), []. auto.
      + assert (Ho : In o (cands X (tok_type tok))) by (rewrite Hc; apply in_or_app; right; now left).
        destruct (succ_start Hcands Hseq Hn) as [Hst|[-> Hv]].
        * now destruct (@other_no_start X tok out o Hr Htb Ho Hne).
        * eexists _, [], o, outs. splits4; auto. intros [?|[]]; auto.
    - intros X p o outs r Hseq IH1 _ IH2 out w u x tok l1 Hp Hcut Hctx Hs Hn Hc Hin Hnot.
      destruct (list_eq_dec eq_dec o out) as [->|Hne].
      + exfalso. apply (IH1 w u x Hcut); auto.
        * eapply derives_trans; [exact Hctx|]. apply (@derives_ctx _ eps ps u x [X] out).
          now apply (derives_production eps _ _ Hp).
        * exists (Production X out), []. splits4; auto. exists u, x. exact Hctx.
      + destruct Hin as [->|Hin]; [congruence|].
        destruct (IH2 out w u x tok (l1 ++ [o])) as (n & l2 & o' & outs' & -> & -> & Hni & Hv); auto.
        * now rewrite <- app_assoc.
        * intros Hi. apply in_app_or in Hi as [|[|[]]]; auto.
        * exists n, (o :: l2), o', outs'. splits4; auto. intros [?|?]; auto.
    - intros p w u x Hcut. inversion Hcut.
    - intros Xs p r _ IH w u x Hcut Hctx Hs He.
      revert Hs; inversion Hcut as [? ? HX|pr ? ? Hp Hc|? ? n w1 w2 Ht Hc]; subst; intros Hs.
      + contradiction.
      + apply Heps. exists pr; auto.
      + inversion Ht as [tok' Hz1 Hz2 Hx|Hz1|pr ch w' Hp Hfp Hx]; subst.
        * congruence.
        * apply (IH w2 u x Hc); auto; [|eapply ends_tail; eauto].
          pose proof (after_tree _ _ _ Ht Hctx) as H. simpl in H. now rewrite app_nil_r in H.
        * apply Heps. exists pr; auto.
    - intros Xs p tok r Hnt Hne Hn _ IH w u x Hcut Hctx Hs He.
      revert Hs; inversion Hcut as [? ? HX|pr ? ? Hp Hc|? ? n w1 w2 Ht Hc]; subst; intros Hs.
      + contradiction.
      + apply Hnt. exists pr; auto.
      + inversion Ht as [tok' Hz1 Hz2 Hx|Hz1|pr ch w' Hp Hfp Hx]; subst.
        * simpl in Hs. rewrite (nth_skipn _ _ Hn) in Hs. inversion Hs; subst tok'.
          apply (IH w2 (u ++ [tok_type tok]) x Hc); [exact (after_tree _ _ _ Ht Hctx)| |eapply ends_tail; eauto].
          rewrite Nat.add_1_r. auto.
        * congruence.
        * apply Hnt. exists pr; auto.
    - intros X Xs p Hnt Hne Hm w u x Hcut Hctx Hs He.
      revert Hs; inversion Hcut as [? ? HX|pr ? ? Hp Hc|? ? n w1 w2 Ht Hc]; subst; intros Hs.
      + contradiction.
      + apply Hnt. exists pr; auto.
      + inversion Ht as [tok' Hz1 Hz2 Hx|Hz1|pr ch w' Hp Hfp Hx]; subst.
        * apply (Hm tok'); auto. exact (proj1 (skipn_next tokens p Hs)).
        * congruence.
        * apply Hnt. exists pr; auto.
    - intros X Xs p tok r Hnt Hn _ IH w u x Hcut Hctx Hs He.
      revert Hs; inversion Hcut as [? ? HX|pr ? ? Hp Hc|? ? n w1 w2 Ht Hc]; subst; intros Hs.
      + rewrite (nth_skipn _ _ Hn) in *. discriminate.
      + apply (IH u x tok []); auto. left. exists (p_output pr).
        assert (Hpr : In (Production (p_input pr) (p_output pr)) ps) by (destruct pr; exact Hp).
        splits4; auto; [now rewrite Hs|].
        apply (@textbook_in (p_input pr) tok (p_output pr)).
        * exists u, (Xs ++ x). exact Hctx.
        * apply (@cut_textbook (Production (p_input pr) (p_output pr)) w u (Xs ++ x) p tok); auto.
      + apply (IH u x tok []); auto. right.
        destruct (cut_context _ _ _ Ht Hc Hctx Hs Hnt) as (out & ns & -> & Hb).
        exists out, ns, w1, w2. splits4; auto.
        exact (@textbook_in X tok out (before_end_reachable Hb) (before_end_textbook Hb Hn)).
    - intros X p outs Xs Hch IH u x tok l1 Hctx He Hn Hc [(out & Hp & Hcut & Hin & Hnot)|(out & ns & w & w' & Hb & Hcut & Hin & Hnot)].
      + destruct (IH out _ u (Xs ++ x) tok l1 Hp Hcut Hctx eq_refl Hn Hc Hin Hnot) as (? & ? & ? & ? & H & _). discriminate.
      + destruct (proj1 whole_wins _ _ _ _ Hch out ns w u w' tok l1 Hb Hn Hc Hin Hnot) as [[? H]|(? & ? & ? & ? & H & _)]; discriminate.
    - intros X p outs Xs n q outs' ns' q' Hch IH1 Hseq IH2 u x tok l1 Hctx He Hn Hc [(out & Hp & Hcut & Hin & Hnot)|(out & ns & w & w' & Hb & Hcut & Hin & Hnot)].
      + destruct (IH1 out _ u (Xs ++ x) tok l1 Hp Hcut Hctx eq_refl Hn Hc Hin Hnot) as (? & l2 & o & ? & H & -> & Hni & Hv).
        inversion H; subst.
        exact (early_is_noticed _ _ _ _ _ Hctx He Hc Hin Hnot Hni Hv
                 (@cut_textbook (Production X out) _ u (Xs ++ x) _ tok Hp Hcut Hctx eq_refl Hn) Hn Hseq).
      + destruct (proj1 whole_wins _ _ _ _ Hch out ns w u w' tok l1 Hb Hn Hc Hin Hnot)
          as [[? H]|(? & l2 & o & ? & H & -> & Hni & Hv)]; inversion H; subst.
        * pose proof Hb as (Hp & Hf & _ & _ & Hs).
          assert (Ht : tree_for eps ps X (Node ns (Token None X)) w) by (exact (tree_production (Production X out) Hp Hf)).
          apply (IH2 w' (u ++ types w) x Hcut); auto; [exact (after_tree _ _ _ Ht Hctx)| |eapply ends_tail; eauto].
          exact (skipn_after tokens _ _ _ Hs).
        * exact (early_is_noticed _ _ _ _ _ Hctx He Hc Hin Hnot Hni Hv (before_end_textbook Hb Hn) Hn Hseq).
    - intros X p outs Xs n q outs' r Hch IH1 Hseq IH2 _ IH3 u x tok l1 Hctx He Hn Hc [(out & Hp & Hcut & Hin & Hnot)|(out & ns & w & w' & Hb & Hcut & Hin & Hnot)].
      + destruct (IH1 out _ u (Xs ++ x) tok l1 Hp Hcut Hctx eq_refl Hn Hc Hin Hnot) as (? & l2 & o & ? & H & -> & Hni & Hv).
        inversion H; subst.
        apply (IH3 u x tok (l1 ++ l2 ++ [o])); auto; [rewrite Hc; now rewrite <- !app_assoc|].
        left. exists out. splits4; auto.
        * apply in_app_or in Hin as [Hi|[->|Hi]]; auto; exfalso; apply Hni, in_or_app; auto. right. now left.
        * intros Hi. apply in_app_or in Hi as [|]; auto.
      + destruct (proj1 whole_wins _ _ _ _ Hch out ns w u w' tok l1 Hb Hn Hc Hin Hnot)
          as [[? H]|(? & l2 & o & ? & H & -> & Hni & Hv)]; inversion H; subst.
        * pose proof Hb as (Hp & Hf & _ & _ & Hs).
          assert (Ht : tree_for eps ps X (Node ns (Token None X)) w) by (exact (tree_production (Production X out) Hp Hf)).
          apply (IH2 w' (u ++ types w) x Hcut); auto; [exact (after_tree _ _ _ Ht Hctx)| |eapply ends_tail; eauto].
          exact (skipn_after tokens _ _ _ Hs).
        * apply (IH3 u x tok (l1 ++ l2 ++ [o])); auto; [rewrite Hc; now rewrite <- !app_assoc|].
          right. exists out, ns, w, w'. splits4; auto.
          -- apply in_app_or in Hin as [Hi|[->|Hi]]; auto; exfalso; apply Hni, in_or_app; auto. right. now left.
          -- intros Hi. apply in_app_or in Hi as [|]; auto.
  Qed.
End EndingCut.
