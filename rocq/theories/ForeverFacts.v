(** * Ordered choice: one outcome, no outcome and no descent for ever at once (proofs) *)

From Verif Require Import BaseFacts GrammarFacts DerivFacts.
From Verif Require Export ForeverSpec.

Set Implicit Arguments.

Section ForeverFacts.
  Context {L T : Type} {E : EqDec T}.
  Variable eps : T.
  Variable ps : list (production T).
  Hypothesis Heps : ~ non_terminal ps eps.
  Variable tokens : list (token L T).
  Variable cands : T -> T -> list (list T).
  Notation choose := (choose eps ps tokens cands).
  Notation sequence := (sequence eps ps tokens cands).
  Notation branch := (branch eps ps tokens cands).
  Notation choose_past := (choose_past eps ps tokens cands).
  Notation sequence_past := (sequence_past eps ps tokens cands).
  Notation branch_past := (branch_past eps ps tokens cands).
  Notation choose_forever := (choose_forever eps ps tokens cands).
  Notation sequence_forever := (sequence_forever eps ps tokens cands).
  Notation branch_forever := (branch_forever eps ps tokens cands).

  Scheme choose_mut := Minimality for ChoiceSpec.choose Sort Prop
    with sequence_mut := Minimality for ChoiceSpec.sequence Sort Prop
    with branch_mut := Minimality for ChoiceSpec.branch Sort Prop.
  Combined Scheme choice_mutind from choose_mut, sequence_mut, branch_mut.

  Scheme choose_past_mut := Minimality for PastSpec.choose_past Sort Prop
    with sequence_past_mut := Minimality for PastSpec.sequence_past Sort Prop
    with branch_past_mut := Minimality for PastSpec.branch_past Sort Prop.
  Combined Scheme past_mutind from choose_past_mut, sequence_past_mut, branch_past_mut.

  Ltac clash := match goal with
    | H : non_terminal _ ?x, H' : ~ non_terminal _ ?x |- _ => elim (H' H)
    | H : nth_error ?l ?p = Some ?a, H' : nth_error ?l ?p = Some ?b |- _ =>
        rewrite H in H'; inversion H'; subst; clear H'
    | H : ?x <> ?x |- _ => now elim H
    | H : non_terminal _ eps |- _ => elim (Heps H)
    end.

  Lemma choice_unique :
    (forall X p outs r, choose X p outs r -> forall r', choose X p outs r' -> r = r') /\
    (forall Xs p r, sequence Xs p r -> forall r', sequence Xs p r' -> r = r') /\
    (forall X p outs Xs r, branch X p outs Xs r -> forall r', branch X p outs Xs r' -> r = r').
  Proof.
    apply choice_mutind.
    - intros X p r' H. inversion H; auto.
    - intros X p out outs ns q _ IH r' H. inversion H as [|? ? ? ? ns' q' H1|? ? ? ? ? H1 H2]; subst.
      + apply IH in H1. inversion H1; subst; auto.
      + apply IH in H1. discriminate.
    - intros X p out outs r _ IH1 _ IH2 r' H. inversion H as [|? ? ? ? ns' q' H1|? ? ? ? ? H1 H2]; subst.
      + apply IH1 in H1. discriminate.
      + auto.
    - intros p r' H. inversion H; auto.
    - intros Xs p r _ IH r' H. inversion H; subst; repeat clash. f_equal; auto.
    - intros Xs p tok r H1 H2 H3 _ IH r' H. inversion H; subst; repeat clash.
      + f_equal; auto.
      + exfalso. match goal with H : forall tok, _ -> _ <> _ |- _ => eapply H; eauto end.
    - intros X Xs p H1 H2 H3 r' H. inversion H; subst; auto; repeat clash.
      exfalso. eapply H3; eauto.
    - intros X Xs p tok r H1 H2 _ IH r' H. inversion H; subst; repeat clash. auto.
    - intros X p outs Xs _ IH r' H. inversion H; subst; auto;
        match goal with H : ChoiceSpec.choose _ _ _ _ _ _ _ (Some _) |- _ => apply IH in H; discriminate end.
    - intros X p outs Xs n q outs' ns q' _ IH1 _ IH2 r' H. inversion H; subst;
        match goal with H : ChoiceSpec.choose _ _ _ _ _ _ _ _ |- _ => apply IH1 in H; inversion H; subst end.
      + match goal with H : ChoiceSpec.sequence _ _ _ _ _ _ (Some _) |- _ => apply IH2 in H; now inversion H end.
      + match goal with H : ChoiceSpec.sequence _ _ _ _ _ _ None |- _ => apply IH2 in H; now inversion H end.
    - intros X p outs Xs n q outs' r _ IH1 _ IH2 _ IH3 r' H. inversion H; subst;
        match goal with H : ChoiceSpec.choose _ _ _ _ _ _ _ _ |- _ => apply IH1 in H; inversion H; subst end; auto.
      match goal with H : ChoiceSpec.sequence _ _ _ _ _ _ (Some _) |- _ => apply IH2 in H; now inversion H end.
  Qed.

  Definition choose_unique X p outs r r' (H : choose X p outs r) (H' : choose X p outs r') : r = r' :=
    proj1 choice_unique _ _ _ _ H _ H'.
  Definition sequence_unique Xs p r r' (H : sequence Xs p r) (H' : sequence Xs p r') : r = r' :=
    proj1 (proj2 choice_unique) _ _ _ H _ H'.

  Ltac same_runs := repeat (clash || match goal with
    | H : ChoiceSpec.choose _ _ _ _ ?X ?p ?o ?r, H' : ChoiceSpec.choose _ _ _ _ ?X ?p ?o ?r' |- _ =>
        pose proof (choose_unique H H') as He; clear H'; try discriminate He; inversion He; subst; clear He
    | H : ChoiceSpec.sequence _ _ _ _ ?X ?p ?r, H' : ChoiceSpec.sequence _ _ _ _ ?X ?p ?r' |- _ =>
        pose proof (sequence_unique H H') as He; clear H'; try discriminate He; inversion He; subst; clear He
    end).

  Lemma choice_not_forever :
    (forall X p outs r, choose X p outs r -> ~ choose_forever X p outs) /\
    (forall Xs p r, sequence Xs p r -> ~ sequence_forever Xs p) /\
    (forall X p outs Xs r, branch X p outs Xs r -> ~ branch_forever X p outs Xs).
  Proof.
    apply choice_mutind; unfold not.
    - intros X p H. inversion H.
    - intros X p out outs ns q H IH Hf. inversion Hf; subst; eauto; same_runs.
    - intros X p out outs r H1 IH1 H2 IH2 Hf. inversion Hf; subst; eauto.
    - intros p H. inversion H.
    - intros Xs p r _ IH Hf. inversion Hf; subst; same_runs; auto; try congruence.
    - intros Xs p tok r H1 H2 H3 _ IH Hf. inversion Hf; subst; same_runs; auto; try congruence.
    - intros X Xs p H1 H2 H3 Hf. inversion Hf; subst; same_runs; try congruence; eapply H3; eauto.
    - intros X Xs p tok r H1 H2 _ IH Hf. inversion Hf; subst; same_runs; auto; try congruence.
    - intros X p outs Xs H IH Hf. inversion Hf; subst; eauto; same_runs.
    - intros X p outs Xs n q outs' ns q' H1 IH1 H2 IH2 Hf. inversion Hf; subst; eauto; same_runs; eauto; try congruence.
    - intros X p outs Xs n q outs' r H1 IH1 H2 IH2 H3 IH3 Hf. inversion Hf; subst; eauto; same_runs; eauto; try congruence.
  Qed.

  Lemma past_not_forever :
    (forall X p outs, choose_past X p outs -> ~ choose_forever X p outs) /\
    (forall Xs p, sequence_past Xs p -> ~ sequence_forever Xs p) /\
    (forall X p outs Xs, branch_past X p outs Xs -> ~ branch_forever X p outs Xs).
  Proof.
    pose proof (proj1 choice_not_forever) as HC. pose proof (proj1 (proj2 choice_not_forever)) as HS.
    assert (HSP : forall Xs p, sequence_past Xs p -> forall r, ~ sequence Xs p r).
    { assert (H : (forall X p outs, choose_past X p outs -> forall r, ~ choose X p outs r) /\
                  (forall Xs p, sequence_past Xs p -> forall r, ~ sequence Xs p r) /\
                  (forall X p outs Xs, branch_past X p outs Xs -> forall r, ~ branch X p outs Xs r)); [|tauto].
      apply past_mutind; unfold not.
      - intros X p out outs _ IH r H. inversion H; subst; eauto.
      - intros X p out outs H1 _ IH r H. inversion H; subst; eauto; same_runs.
      - intros X Xs p H1 H2 r H. inversion H; subst; same_runs; congruence.
      - intros Xs p _ IH r H. inversion H; subst; same_runs; eauto; try congruence.
      - intros Xs p tok H1 H2 H3 _ IH r H. inversion H; subst; same_runs; eauto; try congruence. eapply H9; eauto.
      - intros X Xs p tok H1 H2 _ IH r H. inversion H; subst; same_runs; eauto; try congruence.
      - intros X p outs Xs _ IH r H. inversion H; subst; eauto.
      - intros X p outs Xs n q outs' H1 _ IH r H. inversion H; subst; same_runs; eauto; try congruence.
      - intros X p outs Xs n q outs' H1 H2 _ IH r H. inversion H; subst; same_runs; eauto; try congruence. }
    assert (HCP : forall X p outs, choose_past X p outs -> forall r, ~ choose X p outs r).
    { intros X p outs H. induction H as [X p out outs H|X p out outs H1 H2 IH]; intros r Hc;
        inversion Hc; subst; same_runs; eauto; try congruence. eapply HSP; eauto. eapply HSP; eauto. eapply IH; eauto. }
    apply past_mutind; unfold not.
    - intros X p out outs H IH Hf. inversion Hf; subst; eauto. eapply HSP; eauto.
    - intros X p out outs H1 H2 IH Hf. inversion Hf; subst; eauto. eapply HS; eauto.
    - intros X Xs p H1 H2 Hf. inversion Hf; subst; same_runs; congruence.
    - intros Xs p _ IH Hf. inversion Hf; subst; same_runs; auto; try congruence.
    - intros Xs p tok H1 H2 H3 _ IH Hf. inversion Hf; subst; same_runs; auto; try congruence.
    - intros X Xs p tok H1 H2 _ IH Hf. inversion Hf; subst; same_runs; auto; try congruence.
    - intros X p outs Xs H IH Hf. inversion Hf; subst; eauto; eapply HCP; eauto.
    - intros X p outs Xs n q outs' H1 H2 IH Hf. inversion Hf; subst; same_runs; eauto; [eapply HC; eauto|eapply HSP; eauto].
    - intros X p outs Xs n q outs' H1 H2 H3 IH Hf. inversion Hf; subst; same_runs; eauto; [eapply HC; eauto|eapply HS; eauto].
  Qed.

End ForeverFacts.
