(** * The parser and parsing expression grammars (proofs) *)

From Verif Require Import BaseFacts GrammarFacts DerivFacts.
From Verif Require Import ParserGuided.
From Verif Require Export PegSpec ChoiceSpec GuidedSpec QuietSpec.

Set Implicit Arguments.

Scheme peg_mut := Minimality for peg Sort Prop
  with peg_choice_mut := Minimality for peg_choice Sort Prop
  with peg_sequence_mut := Minimality for peg_sequence Sort Prop.
Combined Scheme peg_mutind from peg_mut, peg_choice_mut, peg_sequence_mut.

Scheme pc_choose := Minimality for choose Sort Prop
  with pc_sequence := Minimality for sequence Sort Prop
  with pc_branch := Minimality for branch Sort Prop.
Combined Scheme pc_mutind from pc_choose, pc_sequence, pc_branch.

Section Peg.
  Context {L T : Type}.
  Variable eps : T.
  Variable ps : list (production T).
  Variable tokens : list (token L T).
  Variable cands : T -> T -> list (list T).
  Hypothesis Heps : ~ non_terminal ps eps.
  Hypothesis Hcands : forall A a out, In out (cands A a) ->
    exists p, In p ps /\ p_input p = A /\ p_output p = out.

  Notation peg := (peg eps ps tokens cands).
  Notation pchoice := (peg_choice eps ps tokens cands).
  Notation pseq := (peg_sequence eps ps tokens cands).
  Notation guided := (guided eps ps tokens cands).
  Notation gforest := (guided_forest eps ps tokens cands).

  (** one result *)
  Lemma peg_unique :
    (forall X p r, peg X p r -> forall r', peg X p r' -> r' = r) /\
    (forall X p outs r, pchoice X p outs r -> forall r', pchoice X p outs r' -> r' = r) /\
    (forall Xs p r, pseq Xs p r -> forall r', pseq Xs p r' -> r' = r).
  Proof.
    apply peg_mutind.
    - intros p r' H. inversion H; subst; try contradiction; try congruence.
    - intros tok p H1 H2 H3 r' H. inversion H; subst; try contradiction; try congruence;
        exfalso; match goal with H' : forall tok', _ -> _ <> _ |- _ => exact (H' _ H3 eq_refl) end.
    - intros X p H1 H2 H3 r' H. inversion H; subst; try contradiction; try congruence; exfalso; eapply H3; eauto.
    - intros X p tok r HX Hn _ IH r' H. inversion H; subst; try contradiction.
      rewrite Hn in H1. inversion H1; subst. auto.
    - intros X p r' H. now inversion H.
    - intros X p out outs ns q _ IH r' H. inversion H as [|? ? ? ? ns' q' Hs|? ? ? ? ? Hs]; subst.
      + apply IH in Hs. now inversion Hs.
      + apply IH in Hs. discriminate.
    - intros X p out outs r _ IH1 _ IH2 r' H. inversion H as [|? ? ? ? ns' q' Hs|? ? ? ? ? Hs]; subst; auto.
      apply IH1 in Hs. discriminate.
    - intros p r' H. now inversion H.
    - intros X Xs p _ IH r' H. inversion H as [|? ? ? H1|? ? ? n' q1 H1 H2|? ? ? n' q1 ns' q2 H1 H2]; subst; auto.
      apply IH in H1. discriminate.
    - intros X Xs p n q _ IH1 _ IH2 r' H.
      inversion H as [|? ? ? H1|? ? ? n' q1 H1 H2|? ? ? n' q1 ns' q2 H1 H2]; subst; auto.
      apply IH1 in H1. inversion H1; subst. apply IH2 in H2. discriminate.
    - intros X Xs p n q ns q' _ IH1 _ IH2 r' H.
      inversion H as [|? ? ? H1|? ? ? n' q1 H1 H2|? ? ? n' q1 ns' q2 H1 H2]; subst; apply IH1 in H1.
      + discriminate.
      + inversion H1; subst. apply IH2 in H2. discriminate.
      + inversion H1; subst. apply IH2 in H2. now inversion H2.
  Qed.

  (** trees are guided *)
  Lemma peg_guided :
    (forall X p r, peg X p r -> forall n q, r = Some (n, q) -> guided X p n q) /\
    (forall X p outs r, pchoice X p outs r -> forall tok n q, r = Some (n, q) ->
       non_terminal ps X -> nth_error tokens p = Some tok -> incl outs (cands X (tok_type tok)) -> guided X p n q) /\
    (forall Xs p r, pseq Xs p r -> forall ns q, r = Some (ns, q) -> gforest Xs p ns q).
  Proof.
    apply peg_mutind.
    - intros p n q H. inversion H; subst. constructor.
    - intros tok p H1 H2 H3 n q H. inversion H; subst. now constructor.
    - discriminate.
    - intros X p tok r HX Hn _ IH n q Hr. eapply IH; eauto. apply incl_refl.
    - discriminate.
    - intros X p out outs ns q _ IH tok n q' H HX Hn Hi. inversion H; subst.
      eapply guided_production; eauto. apply Hi. now left.
    - intros X p out outs r _ _ _ IH tok n q H HX Hn Hi. eapply IH; eauto. intros o Ho. apply Hi. now right.
    - intros p ns q H. inversion H; subst. constructor.
    - discriminate.
    - discriminate.
    - intros X Xs p n q ns q' _ IH1 _ IH2 ns' q'' H. inversion H; subst. econstructor; eauto.
  Qed.

  Hypothesis Hone : fixed_extents eps ps tokens cands \/ forall A a, length (cands A a) <= 1.

  Definition ends_production (Xs : list T) : Prop := exists p u, In p ps /\ p_output p = u ++ Xs.

  Definition rest_of {A : Type} (l : list A) (r : list A) : Prop := exists before, r = before ++ l.

  Lemma choose_left X p outs n q left : choose eps ps tokens cands X p outs (Some (n, q, left)) ->
    exists before out, outs = before ++ out :: left.
  Proof.
    intros H. remember (Some (n, q, left)) as r eqn:Hr. induction H; inversion Hr; subst.
    - exists [], out. reflexivity.
    - destruct (IHchoose eq_refl) as (b & o & ->). exists (out :: b), o. reflexivity.
  Qed.

  (** trying a symbol again never helps *)
  Lemma choice_peg :
    (forall X p outs r, choose eps ps tokens cands X p outs r -> forall tok,
       nth_error tokens p = Some tok -> rest_of outs (cands X (tok_type tok)) ->
       pchoice X p outs (match r with Some (n, q, _) => Some (n, q) | None => None end)) /\
    (forall Xs p r, sequence eps ps tokens cands Xs p r -> ends_production Xs -> pseq Xs p r) /\
    (forall X p outs Xs r, branch eps ps tokens cands X p outs Xs r -> forall tok,
       nth_error tokens p = Some tok -> non_terminal ps X -> ends_production (X :: Xs) ->
       rest_of outs (cands X (tok_type tok)) ->
       exists r0, pchoice X p outs r0 /\
         match r0 with
         | None => r = None
         | Some (n, q) => exists r1, pseq Xs q r1 /\ r = consed n r1
         end).
  Proof.
    assert (Hends : forall X (tok : token L T) out outs, rest_of (out :: outs) (cands X (tok_type tok)) -> ends_production out).
    { intros X tok out outs [b Hb]. destruct (@Hcands X (tok_type tok) out) as (p & Hp & _ & Ho).
      - rewrite Hb. apply in_or_app. right. now left.
      - exists p, []. auto. }
    assert (Htail : forall (A : Type) (x : A) l r, rest_of (x :: l) r -> rest_of l r).
    { intros A x l r [b ->]. exists (b ++ [x]). now rewrite <- app_assoc. }
    assert (Hincl : forall (A : Type) (l r : list A), rest_of l r -> incl l r).
    { intros A l r [b ->]. now apply incl_appr, incl_refl. }
    assert (Hsuf : forall X Xs, ends_production (X :: Xs) -> ends_production Xs).
    { intros X Xs (p & u & Hp & Ho). exists p, (u ++ [X]). split; auto. now rewrite <- app_assoc. }
    apply pc_mutind.
    - intros X p tok _ _. constructor.
    - intros X p out outs ns q _ IH tok Hn Hr. constructor. apply IH. eapply Hends; eauto.
    - intros X p out outs r _ IH1 _ IH2 tok Hn Hr. apply peg_next; [apply IH1; eapply Hends; eauto|].
      eapply IH2; eauto.
    - intros p _. constructor.
    - intros Xs p r _ IH He. apply Hsuf in He. specialize (IH He). destruct r as [[ns q]|]; simpl.
      + econstructor; [constructor|exact IH].
      + eapply peg_fails_later; [constructor|exact IH].
    - intros Xs p tok r H1 H2 H3 _ IH He. apply Hsuf in He. specialize (IH He). destruct r as [[ns q]|]; simpl.
      + econstructor; [constructor; auto|exact IH].
      + eapply peg_fails_later; [constructor; auto|exact IH].
    - intros X Xs p H1 H2 H3 _. apply peg_fails. constructor; auto.
    - intros X Xs p tok r HX Hn _ IH He. destruct (IH tok Hn HX He) as (r0 & Hp & Hr); [now exists []|].
      assert (Hx : peg X p r0) by (eapply peg_non_terminal; eauto).
      destruct r0 as [[n q]|]; [|subst r; now apply peg_fails].
      destruct Hr as (r1 & Hs & ->). destruct r1 as [[ns q']|]; simpl; [econstructor; eauto|eapply peg_fails_later; eauto].
    - intros X p outs Xs _ IH tok Hn HX He Hr. exists None. split; auto. exact (IH tok Hn Hr).
    - intros X p outs Xs n q outs' ns q' _ IH1 _ IH2 tok Hn HX He Hr. exists (Some (n, q)). split; [exact (IH1 tok Hn Hr)|].
      exists (Some (ns, q')). split; auto. apply IH2. eapply Hsuf; eauto.
    - intros X p outs Xs n q outs' r Hch IH1 Hsq IH2 _ IH3 tok Hn HX He Hr.
      exists (Some (n, q)). split; [exact (IH1 tok Hn Hr)|]. exists None. split; [apply IH2; eapply Hsuf; eauto|]. simpl.
      destruct (choose_left Hch) as (before & out & Ho).
      assert (Hr' : rest_of outs' (cands X (tok_type tok))).
      { destruct Hr as [b Hb]. exists (b ++ before ++ [out]). rewrite Hb, Ho, <- !app_assoc. reflexivity. }
      destruct (IH3 tok Hn HX He Hr') as (r0 & Hp & Hm). destruct r0 as [[n' q']|]; auto.
      destruct Hm as (r1 & Hs & ->).
      destruct Hone as [Hfx|Hlen].
      + assert (Hrs : has_right_sibling ps X).
        { destruct Xs as [|Y Ys]; [inversion Hsq|].
          destruct He as (pr & u & Hpr & Hout). exists pr, u, Y, Ys. auto. }
        assert (Hq : q' = q).
        { eapply Hfx; [exact Hrs| |].
          - eapply (proj1 (proj2 peg_guided)); [exact Hp|reflexivity|exact HX|exact Hn|now apply Hincl].
          - eapply (proj1 (proj2 peg_guided)); [exact (IH1 tok Hn Hr)|reflexivity|exact HX|exact Hn|now apply Hincl]. }
        subst q'. pose proof (proj2 (proj2 peg_unique) _ _ _ (IH2 (Hsuf _ _ He)) _ Hs) as ->. reflexivity.
      + exfalso. specialize (Hlen X (tok_type tok)). destruct Hr as [b Hb]. rewrite Hb, Ho, !app_length in Hlen. simpl in Hlen.
        destruct outs' as [|o outs']; [inversion Hp|simpl in Hlen; lia].
  Qed.

  (** and with one candidate there is nothing to try again *)
  Lemma peg_choose : (forall A a, length (cands A a) <= 1) ->
    (forall X p r, peg X p r ->
       match r with
       | None => forall Xs, sequence eps ps tokens cands (X :: Xs) p None
       | Some (n, q) => forall Xs r2, sequence eps ps tokens cands Xs q r2 ->
           sequence eps ps tokens cands (X :: Xs) p (consed n r2)
       end) /\
    (forall X p outs r, pchoice X p outs r ->
       match r with
       | None => choose eps ps tokens cands X p outs None
       | Some (n, q) => exists left, choose eps ps tokens cands X p outs (Some (n, q, left)) /\ length left < length outs
       end) /\
    (forall Xs p r, pseq Xs p r -> sequence eps ps tokens cands Xs p r).
  Proof.
    intros Hlen. apply peg_mutind.
    - intros p Xs r2 H. now apply sequence_epsilon.
    - intros tok p H1 H2 H3 Xs r2 H. now apply sequence_token.
    - intros X p H1 H2 H3 Xs. now apply sequence_mismatch.
    - intros X p tok r HX Hn _ IH. destruct r as [[n q]|].
      + destruct IH as (left & Hc & Hl). intros Xs r2 Hs. eapply sequence_non_terminal; eauto.
        destruct r2 as [[ns q']|]; simpl.
        * eapply branch_ok; eauto.
        * eapply branch_retry; eauto. specialize (Hlen X (tok_type tok)).
          destruct left; [|simpl in Hl; lia]. apply branch_fail. constructor.
      + intros Xs. eapply sequence_non_terminal; eauto. now apply branch_fail.
    - intros X p. constructor.
    - intros X p out outs ns q _ IH. exists outs. split; [now constructor|simpl; lia].
    - intros X p out outs r _ IH1 _ IH2. destruct r as [[n q]|].
      + destruct IH2 as (left & Hc & Hl). exists left. split; [now apply choose_next|simpl; lia].
      + now apply choose_next.
    - intros p. constructor.
    - intros X Xs p _ IH. apply IH.
    - intros X Xs p n q _ IH1 _ IH2. exact (IH1 _ _ IH2).
    - intros X Xs p n q ns q' _ IH1 _ IH2. exact (IH1 _ _ IH2).
  Qed.
End Peg.

(** ** a result depends on the tokens from its position on only *)
Section Move.
  Context {L T : Type}.
  Variable eps : T.
  Variable ps : list (production T).
  Variable tokens tokens' : list (token L T).
  Variable cands : T -> T -> list (list T).
  Variable a b : nat.
  Hypothesis Hsame : forall i, nth_error tokens (a + i) = nth_error tokens' (b + i).

  Definition moved {A : Type} (r r' : option (A * nat)) : Prop :=
    match r, r' with
    | None, None => True
    | Some (x, q), Some (x', q') => x = x' /\ exists j, q = a + j /\ q' = b + j
    | _, _ => False
    end.

  Lemma peg_move :
    (forall X p r, peg eps ps tokens cands X p r -> forall i, p = a + i ->
       exists r', moved r r' /\ peg eps ps tokens' cands X (b + i) r') /\
    (forall X p outs r, peg_choice eps ps tokens cands X p outs r -> forall i, p = a + i ->
       exists r', moved r r' /\ peg_choice eps ps tokens' cands X (b + i) outs r') /\
    (forall Xs p r, peg_sequence eps ps tokens cands Xs p r -> forall i, p = a + i ->
       exists r', moved r r' /\ peg_sequence eps ps tokens' cands Xs (b + i) r').
  Proof.
    apply peg_mutind.
    - intros p i ->. exists (Some (Node [] (Token None eps), b + i)). split; [simpl; eauto|constructor].
    - intros tok p H1 H2 H3 i ->. exists (Some (Node [] tok, b + i + 1)). split.
      + simpl. split; auto. exists (i + 1). lia.
      + constructor; auto. now rewrite <- Hsame.
    - intros X p H1 H2 H3 i ->. exists None. split; [exact I|]. constructor; auto. intros tok Ht. apply H3. now rewrite Hsame.
    - intros X p tok r HX Hn _ IH i ->. destruct (IH i eq_refl) as (r' & Hm & Hr). exists r'. split; auto.
      eapply peg_non_terminal; eauto. now rewrite <- Hsame.
    - intros X p i ->. exists None. split; [exact I|constructor].
    - intros X p out outs ns q _ IH i ->. destruct (IH i eq_refl) as ([[ns' q']|] & Hm & Hr); [|destruct Hm].
      destruct Hm as [<- Hq]. exists (Some (Node ns (Token None X), q')). split; [simpl; auto|]. now apply peg_first.
    - intros X p out outs r _ IH1 _ IH2 i ->. destruct (IH1 i eq_refl) as ([[? ?]|] & Hm & Hr); [destruct Hm|].
      destruct (IH2 i eq_refl) as (r' & Hm' & Hr'). exists r'. split; auto. now apply peg_next.
    - intros p i ->. exists (Some ([], b + i)). split; [simpl; eauto|constructor].
    - intros X Xs p _ IH i ->. destruct (IH i eq_refl) as ([[? ?]|] & Hm & Hr); [destruct Hm|].
      exists None. split; [exact I|]. now apply peg_fails.
    - intros X Xs p n q _ IH1 _ IH2 i ->. destruct (IH1 i eq_refl) as ([[n' q']|] & Hm & Hr); [|destruct Hm].
      destruct Hm as (<- & j & Hq & ->). destruct (IH2 j Hq) as ([[? ?]|] & Hm' & Hr'); [destruct Hm'|].
      exists None. split; [exact I|]. eapply peg_fails_later; eauto.
    - intros X Xs p n q ns q' _ IH1 _ IH2 i ->. destruct (IH1 i eq_refl) as ([[n' q1]|] & Hm & Hr); [|destruct Hm].
      destruct Hm as (<- & j & Hq & ->). destruct (IH2 j Hq) as ([[ns' q2]|] & Hm' & Hr'); [|destruct Hm'].
      destruct Hm' as [<- Hq2]. exists (Some (n :: ns, q2)). split; [simpl; auto|]. eapply peg_cons; eauto.
  Qed.
End Move.
