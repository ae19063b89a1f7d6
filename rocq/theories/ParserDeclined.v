(** * A parse all of whose solver calls were declined (proofs) *)

From Verif Require Import BaseFacts GrammarFacts ParserReport.
From Verif Require Export ParserRel.

Set Implicit Arguments.

Section Declined.
  Context {L T : Type} {E : EqDec T}.
  Variables self self' : parser L T.
  Variable tokens : list (token L T).
  Hypothesis Hgr : pr_grammar self' = pr_grammar self.
  Hypothesis Htr : forall A a,
    inner_get_token_productions self' A a = inner_get_token_productions self A a.
  Hypothesis Hns : pr_solver self' = None.
  Variable H : list (solver_call L T).
  Hypothesis Hdecl : forall s h1 c h2, pr_solver self = Some s -> H = h1 ++ c :: h2 -> s h1 c = Reply None.

  Lemma declined_fix pos single child failed h fo h' :
    prefix h' H ->
    inner_parse_from_tokens_try_fix_productions self tokens pos single child failed h = Done (fo, h') ->
    fo = None.
  Proof.
    intros Hp Hf. unfold inner_parse_from_tokens_try_fix_productions in Hf.
    destruct (pr_solver self) as [s|] eqn:Hs; [|inversion Hf; auto].
    destruct single; [|inversion Hf; auto].
    assert (Hc : forall c, h' = h ++ [c] -> s h c = Reply None).
    { intros c ->. destruct Hp as [h2 Hp]. apply Hdecl with (h2 := h2); auto.
      rewrite Hp, <- app_assoc. reflexivity. }
    destruct child; [destruct failed as [|fp failed]; [discriminate|]|];
      apply await_done in Hf as [Hf Hh]; rewrite (Hc _ Hh) in Hf; congruence.
  Qed.

  Lemma declined_run :
    (forall X pos prods single h r h', RSym self tokens X pos prods single h r h' ->
       prefix h' H -> RSym self' tokens X pos prods single [] r []) /\
    (forall X pos child prods failed h r h', RTry self tokens X pos child prods failed h r h' ->
       prefix h' H -> RTry self' tokens X pos child prods failed [] r []) /\
    (forall X out child states pos h pr pos' h',
       RProd self tokens X out child states pos h pr pos' h' ->
       prefix h' H -> RProd self' tokens X out child states pos [] pr pos' []) /\
    (forall Y pos child h r h', RStep self tokens Y pos child h r h' ->
       prefix h' H -> RStep self' tokens Y pos child [] r []) /\
    (forall states child failed h states' popped h',
       RPop self tokens states child failed h states' popped h' ->
       prefix h' H -> RPop self' tokens states child failed [] states' popped []).
  Proof.
    destruct (@hist_ext _ _ _ self tokens) as (XSym & XTry & XProd & XStep & XPop).
    apply run_mutind; intros.
    - apply RSym_done; auto.
    - assert (fo = None) by (eapply declined_fix; eauto). subst fo.
      apply RSym_failed with (h' := []).
      + apply H1. eapply prefix_trans; [eapply fix_prefix; eauto|auto].
      + unfold inner_parse_from_tokens_try_fix_productions. now rewrite Hns.
    - constructor.
    - eapply RTry_ok; eauto.
    - eapply RTry_err; eauto. apply H1. eapply prefix_trans; eauto.
    - eapply RTry_fix; eauto.
    - apply RProd_done; auto.
    - eapply RProd_ok; eauto. apply H2. eapply prefix_trans; eauto.
    - eapply RProd_fix; eauto. apply H2. eapply prefix_trans; eauto.
    - eapply RProd_failed; eauto. apply H2. eapply prefix_trans; eauto.
    - eapply RProd_retry; eauto; [apply H2|apply H4]; eauto using prefix_trans.
    - eapply RStep_nt; eauto; [now rewrite Hgr|]. rewrite Htr. auto.
    - assert (Heq : inner_parse_terminal_symbol self Y tokens pos =
                    inner_parse_terminal_symbol self' Y tokens pos)
        by (unfold inner_parse_terminal_symbol; now rewrite Hgr).
      rewrite Heq. apply RStep_t. now rewrite Hgr.
    - constructor.
    - apply RPop_fixed; auto.
    - apply RPop_leaf; auto.
    - eapply RPop_ok; eauto.
    - eapply RPop_skip; eauto. apply H2. eapply prefix_trans; eauto.
  Qed.

  Lemma declined_parse fuel res :
    parse_from_tokens fuel self tokens = Done (res, H) ->
    exists n, forall fuel', n <= fuel' -> parse_from_tokens fuel' self' tokens = Done (res, []).
  Proof.
    intros Hp. apply parse_run in Hp as (tok & rest & r & Ht & Hr & HR).
    apply (proj1 declined_run) in HR; [|apply prefix_refl].
    assert (HS' : RSym self' (tok :: rest) (get_initial_symbol (pr_grammar self')) 0
       (inner_get_token_productions self' (get_initial_symbol (pr_grammar self')) (tok_type tok))
       true [] r []) by (rewrite Hgr, Htr, <- Ht; exact HR).
    apply run_parse in HS' as [n Hn]. exists n. rewrite Ht. subst res. exact Hn.
  Qed.
End Declined.
