(** * Where a solver is asked: C86 *)

From Verif Require Import BaseFacts GrammarFacts DerivFacts FirstFacts FollowFacts FollowRepeat TransitionsFacts CoverFacts.
From Verif Require Import ParserAsked Examples PropParse PropPrefix PropReports.

Set Implicit Arguments.

(** ** C86: until the solver answers, everything it is asked is about the first
    offending token.  [p] is the place of that token and [X] the symbol expected there;
    they are the same for all the calls, and what a parse without solver reports. *)
Theorem C86_asked_about_the_first_offending_token :
  forall (L T : Type) (E : EqDec T) (eps init : T) (ps : list (production T))
         (s : syntax_error_solver L T) (self self0 : parser L T) (tokens : list (token L T))
         (fuel : nat) res (c0 : solver_call L T) (h : list (solver_call L T)),
    built_parser eps init ps (Some s) self -> built_parser eps init ps None self0 ->
    conflict_free (pr_transitions self) ->
    repeats_harmless eps ps init -> initial_ends_in_terminal eps ps init -> non_terminal ps init ->
    parse_from_tokens fuel self tokens = Done (res, c0 :: h) ->
    exists p X, p <= length tokens /\
      Forall (fun t => real_terminal eps ps (tok_type t)) (firstn p tokens) /\
      (* the tokens before [p] are fine, and then [X] is expected *)
      (exists v, derives eps ps [init] (map (@tok_type L T) (firstn p tokens) ++ X :: v)) /\
      (productive eps ps -> viable_prefix eps ps init (map (@tok_type L T) (firstn p tokens))) /\
      (* token [p] is wrong: nothing that starts like this is a sentence *)
      (p < length tokens ->
         ~ viable_prefix eps ps init (map (@tok_type L T) (firstn (S p) tokens))) /\
      (p = length tokens -> ~ sentence eps ps init (map (@tok_type L T) tokens)) /\
      (* a call made when everything before was refused is for a symbol that starts at or
         before [p], and the report it is given ends at [X] *)
      (forall h1 c h2, c0 :: h = h1 ++ c :: h2 -> declined (Some s) h1 ->
         call_position c <= p /\
         forall f parsed pending rest,
           call_failures c = FailedProduction f parsed pending :: rest -> innermost f = X) /\
      (* if everything was refused the parse ends with an error report that ends at [X] *)
      (declined (Some s) (c0 :: h) -> exists f, res = ResultErr f /\ innermost f = X) /\
      (* and so does the parse without solver *)
      (exists f, terminates_with (fun fuel => parse_from_tokens fuel self0 tokens)
                                 (Done (ResultErr f, [])) /\ innermost f = X).
Proof.
  intros L T E eps init ps s self self1 tokens fuel res c0 h B B1 Hcf Hrep Hend Hn H.
  set (self0 := with_solver self None).
  assert (B0 : built_parser eps init ps None self0) by exact (built_with_solver None B).
  pose proof (built_built B) as BF. pose proof (built_built B0) as BF0. pose proof (bf_of BF0) as P0.
  assert (Hlen : forall A a, length (inner_get_token_productions self A a) <= 1).
  { intros A a. unfold inner_get_token_productions.
    destruct (transitions_get_productions (pr_transitions self) A a) eqn:Hc; simpl; [|lia].
    rewrite map_length. eapply Hcf; eauto. }
  assert (Hcf0 : conflict_free (pr_transitions self0)) by exact Hcf.
  apply parse_run in H as (tok & rest & r & Ht & Hr & HR).
  assert (Hi : get_initial_symbol (pr_grammar self) = init) by apply (go_init (po_grammar P0)).
  assert (Hi0 : get_initial_symbol (pr_grammar self0) = init) by exact Hi.
  destruct (proj1 (@asked_run L T E eps init ps self self0 s P0 (bf_solver BF) eq_refl eq_refl (fun _ _ => eq_refl) Hlen tokens)
              _ _ _ _ _ _ _ HR (Hlen _ _) (token_productions_good P0 _ _)) as (seg & Hseg & Hk);
    [subst tokens; simpl; lia|].
  simpl in Hseg. subst seg. rewrite Hi in *.
  assert (Hfacts : exists p f,
    fails eps ps tokens init 0 p f (fun ts' single h1 =>
      RSym self0 ts' init 0 (inner_get_token_productions self init (tok_type tok)) single h1 (SymErr f) h1) /\
    ParserAsked.asked s p (innermost f) [] (c0 :: h) /\
    (ParserAsked.clean s [] (c0 :: h) -> exists f', res = ResultErr f' /\ innermost f' = innermost f)).
  { destruct r as [st|f'|fs].
    - exfalso. destruct (@cf_all L T E self self eq_refl (fun _ _ => eq_refl) Hlen tokens tokens (fun _ _ H => H))
        as (CSym & _). destruct (CSym _ _ _ _ _ _ _ HR (Hlen _ _) st eq_refl) as (_ & _ & Hx & _). discriminate Hx.
    - destruct Hk as (p & f & H1 & H2 & H3). exists p, f. split; [exact H1|]. split; [exact H2|].
      intros Hc. exists f'. split; [exact Hr|auto].
    - destruct Hk as (p & f & H1 & H2 & H3). exists p, f. split; [exact H1|]. split; [exact H2|].
      intros Hc. contradiction. }
  destruct Hfacts as (p & f & (_ & (w & v & Hd & [Hp [tl Htl]] & Hw) & Hag) & Hasked & Herr).
  simpl in Hp, Htl.
  assert (Hclean : forall h', declined (Some s) h' -> ParserAsked.clean s [] h').
  { intros h' Hdec s1 c s2 He. apply (Hdec s s1 c s2 eq_refl He). }
  assert (Hfn : firstn p tokens = w).
  { rewrite Htl, Hp, firstn_app, Nat.sub_diag, firstn_all. simpl. now rewrite app_nil_r. }
  assert (Hple : p <= length tokens) by (rewrite Htl, app_length; lia).
  assert (Hret : forall ts', agree tokens p ts' ->
            terminates_with (fun fuel => parse_from_tokens fuel self0 ts') (Done (ResultErr f, []))).
  { intros ts' Ha. pose proof (Hag ts' true [] Ha) as HR'.
    assert (H0 : nth_error ts' 0 = Some tok) by (rewrite Ha by lia; subst tokens; reflexivity).
    destruct ts' as [|tok' ts']; [discriminate|]. simpl in H0. inversion H0; subst tok'.
    change (inner_get_token_productions self init (tok_type tok))
      with (inner_get_token_productions self0 init (tok_type tok)) in HR'.
    rewrite <- Hi0 in HR'. apply run_parse in HR' as [n Hn'].
    split; [discriminate|]. exists n. exact Hn'. }
  assert (Hno : forall ts', agree tokens p ts' ->
             Forall (fun t => real_terminal eps ps (tok_type t)) ts' ->
             ~ derives eps ps [init] (map (@tok_type L T) ts')).
  { intros ts' Ha Hreal Hder.
    destruct (covering_sentences B0 Hcf0 (harmless_covering BF0 Hrep Hn) Hend Hn Hder Hreal)
      as (root & _ & _ & Hacc).
    pose proof (terminates_unique Hacc (Hret ts' Ha)) as Heq. discriminate Heq. }
  exists p, (innermost f). rewrite Hfn.
  splits3; auto.
  - exists v. exact Hd.
  - intros Hprod. destruct (productive_form (innermost f :: v) Hprod) as (u & Hu & Hdu).
    exists u. split.
    + apply Forall_app. split; auto. apply Forall_map. exact Hw.
    + eapply derives_trans; [exact Hd|]. exact (derives_app (derives_refl _ _ _) Hdu).
  - intros Hlt (u & Hreal & Hder).
    apply (Hno (firstn (S p) tokens ++ map (Token None) u)).
    + intros i Hile.
      assert (Hl : length (firstn (S p) tokens) = S p) by (rewrite firstn_length; lia).
      rewrite nth_error_app1 by lia.
      rewrite <- (firstn_skipn (S p) tokens) at 2. rewrite nth_error_app1 by lia. reflexivity.
    + apply Forall_app in Hreal as [H1 H2]. apply Forall_app. split.
      * exact (proj1 (Forall_map _ _ _) H1).
      * apply Forall_map. exact H2.
    + rewrite map_app, map_map. simpl. rewrite map_id. exact Hder.
  - intros _ (Hreal & Hder). apply (Hno tokens); auto.
    + intros i _. reflexivity.
    + exact (proj1 (Forall_map _ _ _) Hreal).
  - intros h1 c h2 He Hdec. destruct (Hasked h1 c h2 He (Hclean _ Hdec)) as [H1 H2].
    split; [exact H1|]. intros f' parsed pending rest' Hf. exact (H2 _ _ Hf).
  - exists f. split; [|reflexivity].
    pose proof (Hret tokens (fun i _ => eq_refl)) as [_ (n & Hn')].
    split; [discriminate|]. exists n. intros fuel' Hf.
    rewrite (built_parse_eq tokens fuel' B1 B0). apply Hn'. exact Hf.
Qed.
Print Assumptions C86_asked_about_the_first_offending_token.

(** [id + * eof] with a solver that refuses the first call and answers the second: position 2
    (the star) is the first offending token, where [Term] is expected *)
Definition second_call_fixer : syntax_error_solver nat sym := fun h _ =>
  match h with [] => Reply None | _ => Reply (Some (FixResult 3 (FixedProduction []))) end.

Example C86_case :
  let tokens := [tk 1 Id; tk 2 Plus; tk 3 Star; tk 4 Eof] in
  built_parser Eps Prog expr_productions (Some second_call_fixer) (expr_parser_with second_call_fixer) /\
  built_parser (L := nat) Eps Prog expr_productions None expr_parser /\
  conflict_free (pr_transitions (expr_parser_with second_call_fixer)) /\
  repeats_harmless Eps expr_productions Prog /\ initial_ends_in_terminal Eps expr_productions Prog /\
  non_terminal expr_productions Prog /\
  exists f c1 c2 parsed pending f',
    parse_from_tokens 100 (expr_parser_with second_call_fixer) tokens = Done (ResultFix f, [c1; c2]) /\
    declined (Some second_call_fixer) [c1] /\
    call_position c1 = 2 /\ call_failures c1 = [] /\
    call_position c2 = 1 /\ call_failures c2 = [FailedProduction f' parsed pending] /\ innermost f' = Term.
Proof.
  split; [apply expr_built_with|]. split; [apply expr_built|]. split; [exact expr_conflict_free|].
  split; [exact expr_harmless|]. split; [exact expr_ends|]. split; [apply expr_nt; reflexivity|].
  do 6 eexists. split; [vm_compute; reflexivity|]. split.
  - intros s h1 c h2 Hs He. inversion Hs; subst. destruct h1 as [|x h1]; [reflexivity|].
    exfalso. simpl in He. inversion He as [[Hx Hy]]. destruct h1; discriminate Hy.
  - repeat split; reflexivity.
Qed.
