(** * What an accepted parse has read (proofs) *)

From Verif Require Import BaseFacts DerivFacts.
From Verif Require Export ParserChoice StartFacts.

Set Implicit Arguments.

Section Local.
  Context {L T : Type}.
  Variable eps : T.
  Variable ps : list (production T).
  Variable tokens tokens' : list (token L T).
  Variable cands : T -> T -> list (list T).
  Hypothesis Hone : forall A a, length (cands A a) <= 1.

  Notation choose := (choose eps ps tokens cands).
  Notation sequence := (sequence eps ps tokens cands).
  Notation branch := (branch eps ps tokens cands).
  Notation choose' := (ChoiceSpec.choose eps ps tokens' cands).
  Notation sequence' := (ChoiceSpec.sequence eps ps tokens' cands).
  Notation branch' := (ChoiceSpec.branch eps ps tokens' cands).

  Definition agree_below (q : nat) : Prop :=
    forall i tok, i < q -> nth_error tokens i = Some tok -> nth_error tokens' i = Some tok.

  Definition ends_in_terminal (Xs : list T) : Prop :=
    exists u t, Xs = u ++ [t] /\ t <> eps /\ ~ non_terminal ps t.

  Lemma ends_tail X Xs : ends_in_terminal (X :: Xs) -> Xs = [] \/ ends_in_terminal Xs.
  Proof.
    intros (u & t & Heq & Ht). destruct u as [|y u]; inversion Heq; subst; auto. right. exists u, t. auto.
  Qed.

  Lemma ends_single X : ends_in_terminal [X] -> X <> eps /\ ~ non_terminal ps X.
  Proof.
    intros (u & t & Heq & Ht). destruct u as [|y [|z u]]; inversion Heq; subst; auto.
  Qed.

  Lemma ends_nil : ~ ends_in_terminal [].
  Proof. intros (u & t & Heq & _). destruct u; discriminate. Qed.

  Lemma agree_mono q q' : q <= q' -> agree_below q' -> agree_below q.
  Proof. intros Hle H i tok Hi. apply H. lia. Qed.

  Lemma one_left X p outs n q o : length outs <= 1 -> choose X p outs (Some (n, q, o)) -> o = [].
  Proof.
    intros Hl H. inversion H as [|X' p' out outs' ns q' Hs|X' p' out outs' r Hs Hc]; subst.
    - destruct o; auto. simpl in Hl. lia.
    - destruct outs'; [|simpl in Hl; lia]. inversion Hc.
  Qed.

  Lemma local_all :
    (forall X p outs r, choose X p outs r -> length outs <= 1 -> forall n q o, r = Some (n, q, o) ->
       p <= q /\ (agree_below (S q) -> choose' X p outs r) /\
       (Forall ends_in_terminal outs -> agree_below q -> choose' X p outs r)) /\
    (forall Xs p r, sequence Xs p r -> forall ns q, r = Some (ns, q) ->
       p <= q /\ (agree_below (S q) -> sequence' Xs p r) /\
       (ends_in_terminal Xs -> p < q /\ (agree_below q -> sequence' Xs p r))) /\
    (forall X p outs Xs r, branch X p outs Xs r -> length outs <= 1 -> forall ns q, r = Some (ns, q) ->
       p <= q /\ (agree_below (S q) -> branch' X p outs Xs r) /\
       (ends_in_terminal Xs -> p < q /\ (agree_below q -> branch' X p outs Xs r))).
  Proof.
    apply choice_mutind.
    - intros; discriminate.
    - intros X p out outs ns q _ IH Hl n q0 o Heq. inversion Heq; subst. destruct (IH ns q0 eq_refl) as (Hle & H1 & H2).
      split; auto. split; [intros Ha; constructor; auto|]. intros Hf Ha. apply Forall_inv in Hf. constructor. now apply H2.
    - intros X p out outs r _ _ Hc _ Hl n q o ->. destruct outs; [inversion Hc|simpl in Hl; lia].
    - intros p ns q Heq. inversion Heq; subst. split; auto. split; [intros; constructor|].
      intros He. now apply ends_nil in He.
    - intros Xs p r _ IH ns q Heq. destruct r as [[ns' q']|]; inversion Heq; subst.
      destruct (IH ns' q eq_refl) as (Hle & H1 & H2). split; auto. split.
      + intros Ha. exact (sequence_epsilon (H1 Ha)).
      + intros He. destruct (ends_tail He) as [-> |He']; [apply ends_single in He; destruct He; congruence|].
        destruct (H2 He') as [Hlt H3]. split; auto. intros Ha. exact (sequence_epsilon (H3 Ha)).
    - intros Xs p tok r Hn Hne Ht Hseq IH ns q Heq. destruct r as [[ns' q']|]; inversion Heq; subst.
      destruct (IH ns' q eq_refl) as (Hle & H1 & H2). split; [lia|]. split.
      + intros Ha. refine (@sequence_token L T eps ps tokens' cands _ _ tok (Some (ns', q)) Hn Hne _ _); auto. apply Ha; auto; lia.
      + intros He. split; [lia|]. intros Ha. refine (@sequence_token L T eps ps tokens' cands _ _ tok (Some (ns', q)) Hn Hne _ _); auto.
        * apply Ha; auto; lia.
        * destruct (ends_tail He) as [-> |He'].
          -- inversion Hseq; subst. constructor.
          -- destruct (H2 He') as [_ H3]. auto.
    - intros; discriminate.
    - intros X Xs p tok r Hn Ht Hb IH ns q ->. destruct (IH (Hone _ _) ns q eq_refl) as (Hle & H1 & H2). split; auto. split.
      + intros Ha. eapply sequence_non_terminal; eauto. apply Ha; auto; lia.
      + intros He. destruct (ends_tail He) as [-> |He']; [apply ends_single in He; tauto|].
        destruct (H2 He') as [Hlt H3]. split; auto. intros Ha. eapply sequence_non_terminal; eauto.
    - intros; discriminate.
    - intros X p outs Xs n q outs' ns q' Hc IH1 _ IH2 Hl ns0 q0 Heq. inversion Heq; subst.
      destruct (IH1 Hl n q outs' eq_refl) as (Hle1 & H1 & _). destruct (IH2 ns q0 eq_refl) as (Hle2 & H2 & H3).
      split; [lia|]. split.
      + intros Ha. eapply branch_ok; [apply H1; eapply agree_mono; [|exact Ha]; lia|auto].
      + intros He. destruct (H3 He) as [Hlt H4]. split; [lia|]. intros Ha.
        eapply branch_ok; [apply H1; eapply agree_mono; [|exact Ha]; lia|auto].
    - intros X p outs Xs n q outs' r Hc _ _ _ Hb _ Hl ns q0 ->. apply one_left in Hc; auto. subst outs'. exfalso.
      inversion Hb as [|? ? ? ? ? ? ? ? ? Hc'|? ? ? ? ? ? ? ? Hc']; subst; inversion Hc'.
  Qed.
End Local.
