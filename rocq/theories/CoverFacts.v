(** * Candidates for every token that can come next (proofs) *)

From Verif Require Import BaseFacts GrammarFacts DerivFacts FirstFacts FollowFacts FollowRepeat TransitionsFacts.
From Verif Require Export SuppliedSpec ParserBuild.

Set Implicit Arguments.

Section Selects.
  Context {T : Type} {E : EqDec T}.
  Variables eps : T.
  Variable ps : list (production T).
  Hypothesis Hok : productions_ok eps ps.
  Notation selects_sem := (selects_sem (eps := eps) (ps := ps)).

  Lemma ok_eps_not_nt : ~ non_terminal ps eps.
  Proof. intros (p & Hp & Hi). apply Hok in Hp as (H & _). congruence. Qed.

  Lemma first_selects p a : In p ps -> can_start eps ps (p_output p) a ->
    selects_sem p a.
  Proof.
    intros Hp Ha. destruct (Hok p Hp) as (_ & Hne & He).
    destruct (p_output p) as [|X rest] eqn:Ho; [congruence|]. exists X, rest. split; auto.
    apply can_start_cons in Ha as [Ha|[Hn Ha]]; auto.
    destruct (eqb eps X) eqn:HeX.
    - apply eqb_iff in HeX. subst X. specialize (He (or_introl eq_refl)). inversion He; subst rest.
      exfalso. eapply can_start_nil; eauto.
    - apply eqb_ne_iff in HeX.
      assert (HX : non_terminal ps X).
      { destruct (non_terminal_dec ps X); auto. exfalso. apply HeX. symmetry. eapply nullable_terminal; eauto. }
      apply can_start_split in Ha as (mid & Z & v & -> & Hm & HZ).
      destruct (Forall_dec (eq X) (eq_dec X) (mid ++ [Z])) as [Hall|Hall].
      + left. apply Forall_app in Hall as [_ Hall]. inversion Hall; subst. exact HZ.
      + right. split; auto. eapply follow_by_first with (u := []); eauto.
  Qed.

  Lemma end_selects p a : In p ps -> nullable eps ps (p_output p) ->
    follow_rules (eps := eps) (ps := ps) (p_input p) a -> selects_sem p a.
  Proof.
    intros Hp Hn Ha. destruct (Hok p Hp) as (_ & Hne & _).
    destruct (p_output p) as [|X rest] eqn:Ho; [congruence|]. exists X, rest. split; auto.
    apply nullable_cons in Hn as [Hn1 Hn2]. right. split; auto.
    destruct (eqb eps X) eqn:HeX; auto. apply eqb_ne_iff in HeX.
    eapply follow_by_end with (u := []); eauto.
    destruct (non_terminal_dec ps X); auto. exfalso. apply HeX. symmetry. eapply nullable_terminal; eauto.
  Qed.
End Selects.

Section Covering.
  Context {L T : Type} {E : EqDec T}.
  Variable eps init : T.
  Variable ps : list (production T).
  Variable self : parser L T.

  Lemma built_covering solver :
    built_facts eps init ps solver self ->
    (forall u A v a, derives eps ps [init] (u ++ A :: v) -> non_terminal ps A ->
       nullable eps ps [A] -> can_start eps ps v a -> follow_rules (eps := eps) (ps := ps) A a) ->
    covering eps init ps (candidates self).
  Proof.
    intros B Hfol p u v a Hp Hctx Ha.
    pose proof (go_ok (po_grammar (bf_of B))) as Hok.
    assert (Hs : selects_sem (eps := eps) (ps := ps) p a).
    { apply can_start_app in Ha as [Ha|[Hn Ha]]; [now apply first_selects|].
      apply end_selects; auto. eapply Hfol; eauto; [exists p; auto|].
      eapply derives_trans; [now apply derives_production|exact Hn]. }
    unfold candidates.
    destruct (transitions_get_productions (pr_transitions self) (p_input p) a) as [l|] eqn:Hl.
    - apply in_map. apply (bf_cells B _ _ Hl p). auto.
    - exfalso. apply (bf_none B) in Hl. apply Hl. split; [exists p; auto|].
      eapply selects_sem_terminal; eauto.
  Qed.

  Lemma harmless_covering solver :
    built_facts eps init ps solver self -> repeats_harmless eps ps init -> non_terminal ps init ->
    covering eps init ps (candidates self).
  Proof.
    intros B Hrep Hi. apply (built_covering B).
    intros u A v a Hd HA Hnl Ha. eapply follow_rules_complete_nullable with (S := init); eauto.
  Qed.
End Covering.
