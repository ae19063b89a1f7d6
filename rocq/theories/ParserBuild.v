(** * Parsers built by the constructors (proofs) *)

From Verif Require Import BaseFacts GrammarFacts DerivFacts FirstFacts FollowFacts TransitionsFacts.
From Verif Require Export ParserSound.

Set Implicit Arguments.

Section Build.
  Context {L T : Type} {E : EqDec T}.

  Lemma filter_length_le (A : Type) (f : A -> bool) l : length (filter f l) <= length l.
  Proof. induction l as [|x l IH]; simpl; [lia|]. destruct (f x); simpl; lia. Qed.

  Lemma rdp_from_inv ho (g : grammar T) ffs solver (self : parser L T) :
    rdp_from ho g ffs solver = Done self ->
    pr_grammar self = g /\ pr_solver self = solver /\
    transitions_from ho g ffs = Done (pr_transitions self).
  Proof.
    unfold rdp_from. intros H. apply bind_done in H as (t & H1 & H2). inversion H2; subst. auto.
  Qed.

  Lemma rdp_from_parser_of eps init ps ho (g : grammar T) ffs solver (self : parser L T) :
    grammar_of eps init ps g -> rdp_from ho g ffs solver = Done self ->
    parser_of eps init ps self.
  Proof.
    intros G H. apply rdp_from_inv in H as (Hg & _ & Ht).
    pose proof (transitions_cells G _ _ Ht) as Hc.
    split.
    - now rewrite Hg.
    - intros A a l p Hl Hp. rewrite Hc in Hl.
      destruct (is_non_terminal g A && is_terminal g a); inversion Hl; subst l.
      apply filter_In in Hp as [Hp _]. now apply productions_of_In in Hp.
    - intros A a l Hl. rewrite Hc in Hl.
      destruct (is_non_terminal g A && is_terminal g a); inversion Hl; subst l.
      etransitivity; [apply filter_length_le|]. apply filter_length_le.
  Qed.

  (** everything known of a built parser *)
  Record constructed_facts (eps init : T) ps solver (self : parser L T) : Prop := {
    bf_of : parser_of eps init ps self;
    bf_solver : pr_solver self = solver;
    bf_none : forall A a, transitions_get_productions (pr_transitions self) A a = None <->
                          ~ (non_terminal ps A /\ terminal ps a)
  }.
  Record built_facts (eps init : T) ps solver (self : parser L T) : Prop := {
    bf_con :> constructed_facts eps init ps solver self;
    bf_cells : forall A a l, transitions_get_productions (pr_transitions self) A a = Some l ->
       forall p, In p l <-> In p ps /\ p_input p = A /\ selects_sem (eps := eps) (ps := ps) p a
  }.

  Lemma built_inv eps init ps solver (self : parser L T) :
    built_parser eps init ps solver self ->
    exists ho1 ho2 fuel g ffs, cfg_new ho1 eps init ps = Done g /\
      ffs_from ho2 fuel g = Done ffs /\ rdp_from ho2 g ffs solver = Done self.
  Proof.
    intros (ho1 & ho2 & fuel & g & Hg & H). exists ho1, ho2, fuel, g.
    destruct solver as [s|].
    - unfold from_grammar_and_solver in H. apply bind_done in H as (ffs & H1 & H2). eauto.
    - unfold from_grammar, from_grammar_and_first_follow_symbols in H.
      apply bind_done in H as (ffs & H1 & H2). eauto.
  Qed.

  Lemma rdp_from_facts eps init ps ho1 ho2 solver (g : grammar T) ffs (self : parser L T) :
    cfg_new ho1 eps init ps = Done g -> rdp_from ho2 g ffs solver = Done self ->
    constructed_facts eps init ps solver self.
  Proof.
    intros Hg Hs. apply cfg_new_grammar_of in Hg as G.
    destruct (rdp_from_inv _ _ _ _ Hs) as (Hgr & Hsol & Ht).
    split; auto.
    - eapply rdp_from_parser_of; eauto.
    - intros A a. rewrite (transitions_cells G _ _ Ht).
      destruct (is_non_terminal g A) eqn:HA; destruct (is_terminal g a) eqn:Ha; simpl;
        rewrite <- (is_non_terminal_spec G), <- (is_terminal_spec G), HA, Ha;
        split; try congruence; try (intros _ [? ?]; congruence).
      intros Hn. exfalso; apply Hn; auto.
  Qed.

  Lemma built_built eps init ps solver (self : parser L T) :
    built_parser eps init ps solver self -> built_facts eps init ps solver self.
  Proof.
    intros H. apply built_inv in H as (ho1 & ho2 & fuel & g & ffs & Hg & Hf & Hs).
    split; [eapply rdp_from_facts; eauto|].
    apply cfg_new_grammar_of in Hg as G.
    destruct (ffs_from_exact G _ _ Hf) as [Hx1 Hx2].
    destruct (rdp_from_inv _ _ _ _ Hs) as (Hgr & Hsol & Ht).
    intros A a l Hl. exact (cell_In G _ _ Hx1 Hx2 _ _ Ht Hl).
  Qed.

  Lemma constructed_built eps init ps solver (self : parser L T) :
    constructed_parser eps init ps solver self -> constructed_facts eps init ps solver self.
  Proof.
    intros (ho1 & ho2 & g & Hg & H). destruct solver as [s|].
    - destruct H as [fuel H]. unfold from_grammar_and_solver in H. apply bind_done in H as (ffs & _ & H2).
      eapply rdp_from_facts; eauto.
    - destruct H as [ffs H]. eapply rdp_from_facts; eauto.
  Qed.

  Lemma constructed_ok eps init ps solver (self : parser L T) :
    constructed_parser eps init ps solver self -> productions_ok eps ps.
  Proof. intros (ho1 & ho2 & g & Hg & _). apply cfg_new_grammar_of in Hg. exact (go_ok Hg). Qed.

  Lemma built_constructed eps init ps solver (self : parser L T) :
    built_parser eps init ps solver self -> constructed_parser eps init ps solver self.
  Proof.
    intros (ho1 & ho2 & fuel & g & Hg & H). exists ho1, ho2, g. split; auto.
    destruct solver as [s|]; [eauto|].
    unfold from_grammar in H. apply bind_done in H as (ffs & _ & H). eauto.
  Qed.
End Build.
Coercion built_constructed : built_parser >-> constructed_parser.
