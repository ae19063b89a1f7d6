(** * Solver calls of all runs, returning or not: C33, C34, C44 *)

From Verif Require Import BaseFacts GrammarFacts DerivFacts ParserSound ParserReport.
From Verif Require Import ParserOff ParserContract ParserEscalate ExampleTools Examples PropParse PropReports.

Set Implicit Arguments.

(** ** C44: the outcome depends on the solver only through its replies to calls
    that are within the contract and follow a transcript.  In particular a
    solver that panics on every other call cannot be told apart: no run makes
    such a call, be it one that returns, panics or runs for ever. *)
Theorem C44_solver_sees_only_contract_calls :
  forall (L T : Type) (E : EqDec T) (eps init : T) (ps : list (production T))
         (s s' : syntax_error_solver L T) (self self' : parser L T) (tokens : list (token L T)),
    built_parser eps init ps (Some s) self -> built_parser eps init ps (Some s') self' ->
    (forall h c, transcript eps init ps tokens (candidates self) s h ->
                 call_in_contract eps init ps tokens (candidates self) s h c -> s' h c = s h c) ->
    forall fuel,
      parse_from_tokens fuel self' tokens = parse_from_tokens fuel self tokens /\
      (forall res h, parse_from_tokens fuel self tokens = Done (res, h) ->
         transcript eps init ps tokens (candidates self) s h).
Proof.
  intros L T E eps init ps s s' self self' tokens B B' Hag fuel.
  pose proof (built_with_solver (Some s') B) as B2.
  rewrite (built_parse_eq tokens fuel B' B2).
  apply built_built in B. pose proof (bf_solver B) as Hsol.
  apply (@parse_same L T E eps init ps self (with_solver self (Some s')) (bf_of B) tokens s s');
    auto.
Qed.
Print Assumptions C44_solver_sees_only_contract_calls.

(** two calls, both declined: they form a transcript *)
Example C44_case : exists res c1 c2 h,
  parse_from_tokens 50 (retry_parser (Some (fun _ _ => Reply None))) [nt 4; nt 5; nt 5; nt 7] =
    Done (res, c1 :: c2 :: h) /\
  transcript 0 1 retry_productions [nt 4; nt 5; nt 5; nt 7]
    (candidates (retry_parser (Some (fun _ _ => Reply None)))) (fun _ _ => Reply None) (c1 :: c2 :: h).
Proof.
  assert (B := retry_built (Some (fun _ _ => Reply None))).
  destruct (@C44_solver_sees_only_contract_calls _ _ _ _ _ _ _ _ _ _ [nt 4; nt 5; nt 5; nt 7] B B (fun _ _ _ _ => eq_refl) 50) as [_ H].
  eexists. eexists. eexists. eexists. split; [vm_compute; reflexivity|eapply H; vm_compute; reflexivity].
Qed.

(** ** C33, in every run: a solver that misbehaves on calls with other tokens,
    or with a position outside them, is never caught out. *)
Theorem C33_arguments_in_every_run :
  forall (L T : Type) (E : EqDec T) (eps init : T) (ps : list (production T))
         (s s' : syntax_error_solver L T) (self self' : parser L T) (tokens : list (token L T)),
    built_parser eps init ps (Some s) self -> built_parser eps init ps (Some s') self' ->
    (forall h c, call_tokens c = tokens -> call_position c < length tokens -> s' h c = s h c) ->
    forall fuel, parse_from_tokens fuel self' tokens = parse_from_tokens fuel self tokens.
Proof.
  intros L T E eps init ps s s' self self' tokens B B' Hag fuel.
  apply (C44_solver_sees_only_contract_calls B B').
  intros h c _ (X & tok & before & outs & Hn & _ & _ & Hm). apply Hag.
  - destruct c; simpl in *; tauto.
  - apply nth_error_Some. congruence.
Qed.
Print Assumptions C33_arguments_in_every_run.

(** a solver that panics when it is given other tokens or a position outside them *)
Definition touchy_solver (n : nat) : syntax_error_solver nat nat :=
  fun _ c => if andb (call_position c <? n) (length (call_tokens c) =? n) then Reply None else ReplyPanics.

Example C33_every_run_case : forall fuel,
  parse_from_tokens fuel (retry_parser (Some (touchy_solver 4))) [nt 4; nt 5; nt 5; nt 7] =
  parse_from_tokens fuel (retry_parser (Some (fun _ _ => Reply None))) [nt 4; nt 5; nt 5; nt 7].
Proof.
  apply (C33_arguments_in_every_run (retry_built (Some (fun _ _ => Reply None)))
           (retry_built (Some (touchy_solver 4)))).
  intros h c H1 H2. unfold touchy_solver. rewrite H1. simpl in *.
  destruct (call_position c <? 4) eqn:Hlt; [reflexivity|]. apply Nat.ltb_ge in Hlt. simpl in H2. lia.
Qed.

(** ** C34, in every run: what [C34_solver_contract_partial] says of the calls
    of parses that return, and the documented assumptions of the two methods:
    reports given to [fix_failed_production] quote only earlier answers, and the
    non-terminal that failed was offered to the solver before; reports given to
    [fix_failed_productions] contain no fix. *)
Theorem C34_contract_in_every_run_partial :
  forall (L T : Type) (E : EqDec T) (eps init : T) (ps : list (production T))
         (s s' : syntax_error_solver L T) (self self' : parser L T) (tokens : list (token L T)),
    built_parser eps init ps (Some s) self -> built_parser eps init ps (Some s') self' ->
    (forall h c X tok before outs,
       nth_error tokens (call_position c) = Some tok ->
       candidates self X (tok_type tok) = before ++ outs ->
       single_path eps init ps tokens (candidates self) (answered (candidates self) (Some s) h) X (call_position c) outs ->
       match c with
       | FixFailedProduction ts p fp =>
           ts = tokens /\ length outs = 1 /\
           failed_list eps ps tokens (candidates self) (answered (candidates self) (Some s) h) outs p [fp] /\
           forall fps Y parsed pending,
             fp = FailedProduction (FailedSymbol fps Y) parsed pending -> non_terminal ps Y ->
             refused s h fps
       | FixFailedProductions ts p fps =>
           ts = tokens /\ length outs <> 1 /\
           failed_list eps ps tokens (candidates self) (fun _ _ _ _ => False) outs p fps
       end -> s' h c = s h c) ->
    forall fuel, parse_from_tokens fuel self' tokens = parse_from_tokens fuel self tokens.
Proof.
  intros L T E eps init ps s s' self self' tokens B B' Hag fuel.
  apply (C44_solver_sees_only_contract_calls B B').
  intros h c _ (X & tok & before & outs & Hn & Hc & Hp & Hm). eapply Hag; eauto.
Qed.
Print Assumptions C34_contract_in_every_run_partial.

(** [p q q $] in the retry grammar: a call of [fix_failed_production] whose
    failed symbol is a non-terminal, after a refused call *)
Example C34_every_run_case : exists f ts p fps Y parsed pending h1 h2,
  parse_from_tokens 50 (retry_parser (Some (fun _ _ => Reply None))) [nt 4; nt 5; nt 5; nt 7] =
    Done (ResultErr f, h1 ++ FixFailedProduction ts p (FailedProduction (FailedSymbol fps Y) parsed pending) :: h2) /\
  non_terminal retry_productions Y /\ h1 <> [].
Proof.
  do 7 eexists. exists [FixFailedProductions [nt 4; nt 5; nt 5; nt 7] 1 [];
    FixFailedProductions [nt 4; nt 5; nt 5; nt 7] 2 []; FixFailedProductions [nt 4; nt 5; nt 5; nt 7] 0 []].
  eexists. split; [vm_compute; reflexivity|]. split; [|discriminate].
  exists (Production 3 [6]). split; [simpl; auto|reflexivity].
Qed.

(** ** C45: when the initial symbol does not have exactly one candidate for the
    first token, the solver is consulted at most once: after the solver-less
    parse has failed, for the initial symbol at position 0, with all its reports.
    The outcome is then exactly determined by its reply. *)
Theorem C45_solver_is_last_resort_under_choice :
  forall (L T : Type) (E : EqDec T) (eps init : T) (ps : list (production T))
         (s : syntax_error_solver L T) (self self0 : parser L T)
         (tok : token L T) (rest : list (token L T)),
    built_parser eps init ps (Some s) self -> built_parser eps init ps None self0 ->
    length (candidates self init (tok_type tok)) <> 1 ->
    forall fuel,
      match parse_from_tokens fuel self0 (tok :: rest) with
      | Done (ResultOk root, _) =>
          parse_from_tokens fuel self (tok :: rest) = Done (ResultOk root, [])
      | Done (ResultErr (FailedSymbol fps X), _) =>
          let c := FixFailedProductions (tok :: rest) 0 fps in
          X = init /\
          parse_from_tokens fuel self (tok :: rest) =
          match s [] c with
          | Reply None => Done (ResultErr (FailedSymbol fps init), [c])
          | Reply (Some fr) => Done (ResultFix (FixedSymbol (fr_production fr) init), [c])
          | ReplyPanics => Panicked PanicSolver
          | ReplyNever => OutOfFuel
          end
      | Done (ResultFix f, _) => False
      | Panicked q => parse_from_tokens fuel self (tok :: rest) = Panicked q
      | OutOfFuel => parse_from_tokens fuel self (tok :: rest) = OutOfFuel
      end.
Proof.
  intros L T E eps init ps s self self0 tok rest B B0 Hl fuel.
  pose proof (built_with_solver None B) as B2.
  rewrite (built_parse_eq (tok :: rest) fuel B0 B2).
  pose proof (built_built B) as F. pose proof (go_init (po_grammar (bf_of F))) as Hi.
  rewrite (@parse_off L T E self (with_solver self None) (tok :: rest) eq_refl (fun _ _ => eq_refl) eq_refl
             fuel s tok rest (bf_solver F) eq_refl) by (unfold get_initial_symbol; rewrite Hi; exact Hl).
  destruct (parse_from_tokens fuel (with_solver self None) (tok :: rest)) as [[[root|[fps X]|f] h]|q|] eqn:Hp;
    simpl; auto.
  - assert (HX : X = init).
    { destruct (parse_shape (bf_of (built_built B2)) _ _ Hp) as (t & r & _ & _ & fps' & Hf & _).
      now inversion Hf. }
    subst X. split; auto. destruct (s [] _) as [[fr|]| |]; reflexivity.
  - destruct (C29_fix_needs_answer _ _ B2 Hp) as [Hn _]. destruct (Hn eq_refl) as [_ Hf].
    now apply (Hf f).
Qed.
Print Assumptions C45_solver_is_last_resort_under_choice.

(** S = 1 -> a | a b; with the wrong second token, and without candidate *)
Definition two_ways : list (production nat) := [Production 1 [3; 4]; Production 1 [3; 5]].
Example C45_case : exists self fps,
  built_parser (L := nat) 0 1 two_ways None self /\
  length (candidates self 1 3) = 2 /\ length fps = 2 /\
  parse_from_tokens 20 self [nt 3; nt 3] = Done (ResultErr (FailedSymbol fps 1), []).
Proof.
  eexists. eexists. split; [apply build_built with (fuel := 50); vm_compute; reflexivity|].
  repeat split; vm_compute; reflexivity.
Qed.

(** ** C46: Err is only returned after the solver has refused the very failure
    that is reported, as the last thing it was asked. *)
Theorem C46_err_was_refused :
  forall (L T : Type) (E : EqDec T) (eps init : T) (ps : list (production T))
         (s : syntax_error_solver L T) (self : parser L T)
         (fuel : nat) (tokens : list (token L T)) fps X h,
    constructed_parser eps init ps (Some s) self ->
    parse_from_tokens fuel self tokens = Done (ResultErr (FailedSymbol fps X), h) ->
    X = init /\
    exists h0 c, h = h0 ++ [c] /\ call_tokens c = tokens /\ call_position c = 0 /\
                 call_failures c = fps /\ s h0 c = Reply None.
Proof.
  intros L T E eps init ps s self fuel tokens fps X h B H. apply constructed_built in B.
  pose proof H as H'. apply parse_run in H' as (tok & rest & r & Ht & Hres & Hrun).
  destruct r as [st|e|f]; simpl in Hres; try discriminate Hres. inversion Hres; subst e.
  split; [apply sym_error in Hrun; rewrite Hrun; apply (go_init (po_grammar (bf_of B)))|].
  apply (sym_offered (bf_solver B)) in Hrun as (h0 & c & -> & H1 & H2 & H3).
  exists h0, c. repeat split; auto.
  destruct (parse_shape (bf_of B) _ _ H) as (t & r & _ & Hall & _).
  rewrite Forall_forall in Hall. destruct (Hall c) as (X' & tk & before & outs & _ & _ & _ & Hm).
  - apply in_or_app. right. now left.
  - destruct c; simpl in *; tauto.
Qed.
Print Assumptions C46_err_was_refused.

Example C46_case : exists fps X c1 c2 c3 c4,
  parse_from_tokens 50 (retry_parser (Some (fun _ _ => Reply None))) [nt 4; nt 5; nt 5; nt 7] =
    Done (ResultErr (FailedSymbol fps X), [c1; c2; c3; c4]).
Proof. do 6 eexists. vm_compute. reflexivity. Qed.

(** ** C47: "any attempt to fix C -> E results in an attempt to fix A -> B C D if
    the attempt to fix C -> E is not successful": a refused call is followed by
    a call for an enclosing production, or was the last one and the parse
    failed.  False in general: a sibling may be tried again. *)
Definition C47_full_statement : Prop :=
  forall (L T : Type) (E : EqDec T) (eps init : T) (ps : list (production T))
         (s : syntax_error_solver L T) (self : parser L T)
         (fuel : nat) (tokens : list (token L T)) res h1 c h2,
    built_parser eps init ps (Some s) self ->
    parse_from_tokens fuel self tokens = Done (res, h1 ++ c :: h2) ->
    s h1 c = Reply None ->
    (exists ts p fp, In (FixFailedProduction ts p fp) h2) \/
    (h2 = [] /\ exists f, res = ResultErr f).

Theorem C47_full_statement_refuted : ~ C47_full_statement.
Proof.
  intros H.
  destruct (H _ _ _ _ _ _ _ _ 50 retry_tokens (ResultOk retry_tree) []
              (FixFailedProductions retry_tokens 1 []) [] (retry_built (Some (fun _ _ => Reply None))))
    as [(ts & p & fp & Hin)|[_ [f Hf]]].
  - vm_compute. reflexivity.
  - reflexivity.
  - destruct Hin.
  - discriminate Hf.
Qed.
Print Assumptions C47_full_statement_refuted.

(** What holds: on tables without conflicts, and then more precisely.  Either the refused
    call was the last one, and the parse returns Err with the reports of this call; or the
    next call that has reports is [fix_failed_production], for the production whose symbol
    failed with the reports of the refused call.  (Calls without reports are those for
    siblings that have no candidate left; a refused one is followed by the attempt for the
    production too.)  Missing: tables with several candidates in a cell. *)
Theorem C47_refused_fixes_escalate_partial :
  forall (L T : Type) (E : EqDec T) (eps init : T) (ps : list (production T))
         (s : syntax_error_solver L T) (self : parser L T)
         (fuel : nat) (tokens : list (token L T)) res h1 c h2,
    constructed_parser eps init ps (Some s) self -> conflict_free (pr_transitions self) ->
    parse_from_tokens fuel self tokens = Done (res, h1 ++ c :: h2) ->
    s h1 c = Reply None ->
    (exists empty p fp h3,
       h2 = empty ++ FixFailedProduction tokens p fp :: h3 /\
       Forall (fun d => exists q, d = FixFailedProductions tokens q []) empty /\
       (call_failures c = [] \/
        exists Y parsed pending, fp = FailedProduction (FailedSymbol (call_failures c) Y) parsed pending)) \/
    (h2 = [] /\ res = ResultErr (FailedSymbol (call_failures c) init)).
Proof.
  intros L T E eps init ps s self fuel tokens res h1 c h2 B Hcf H Hd. apply constructed_built in B.
  apply parse_run in H as (tok & rest & r & Ht & Hres & Hrun).
  assert (Hsize : forall A a, length (inner_get_token_productions self A a) <= 1).
  { intros A a. unfold inner_get_token_productions.
    destruct (transitions_get_productions _ A a) eqn:Hc; [|simpl; lia].
    rewrite map_length. eapply Hcf; eauto. }
  destruct (proj1 (escalate_all self tokens (bf_solver B) Hsize) _ _ _ _ _ _ _ Hrun (Hsize _ _)) as (seg & Hseg & _ & Hk).
  simpl in Hseg. subst seg.
  destruct r as [st|[fps X]|f]; simpl in Hk, Hres.
  - destruct h1; discriminate Hk.
  - destruct (Hk h1 c h2 eq_refl Hd) as [Hr|[-> Hl]]; [left; exact Hr|right; split; auto].
    inversion Hl; subst fps. rewrite Hres. do 2 f_equal.
    apply sym_error in Hrun. rewrite Hrun. apply (go_init (po_grammar (bf_of B))).
  - destruct (Hk h1 c h2 eq_refl Hd) as [Hr|[_ Hl]]; [left; exact Hr|discriminate].
Qed.
Print Assumptions C47_refused_fixes_escalate_partial.

(** [id + * eof]: every call is refused; the first is followed by others *)
Example C47_case : conflict_free (pr_transitions (expr_parser_with (fun _ _ => Reply None))) /\
  exists f c1 c2 h,
  parse_from_tokens 100 (expr_parser_with (fun _ _ => Reply None)) [tk 1 Id; tk 2 Plus; tk 3 Star; tk 4 Eof] =
    Done (ResultErr f, c1 :: c2 :: h).
Proof. split; [exact expr_conflict_free|]. do 4 eexists. vm_compute. reflexivity. Qed.
