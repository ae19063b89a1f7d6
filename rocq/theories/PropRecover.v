(** * What a parse returns, reports and asks, when it panics and when it does not
    end, for any solver: C59, C60, C61 *)

From Verif Require Import BaseFacts GrammarFacts TransitionsFacts.
From Verif Require Import ParserStopRecover StopFacts Examples PropParse PropReports PropLimits.

Set Implicit Arguments.

(** ** C59: for any grammar, input and solver, the answer of a parse and the calls it
    makes are those of RecoverSpec.v, which says it by recursion on the grammar *)
Theorem C59_exact_semantics :
  forall (L T : Type) (E : EqDec T) (eps init : T) (ps : list (production T))
         (solver : option (syntax_error_solver L T)) (self : parser L T)
         (tok : token L T) (rest : list (token L T))
         (res : parse_result L T) (calls : list (solver_call L T)),
    constructed_parser eps init ps solver self ->
    (terminates_with (fun fuel => parse_from_tokens fuel self (tok :: rest)) (Done (res, calls)) <->
     exists r, derive eps ps (tok :: rest) (candidates self) solver
                      true init 0 (candidates self init (tok_type tok)) [] r calls /\
               res = answer_of r).
Proof.
  intros L T E eps init ps solver self tok rest res calls B.
  pose proof (bf_of (constructed_built B)) as P.
  assert (Hi : get_initial_symbol (pr_grammar self) = init) by apply (go_init (po_grammar P)).
  pose proof (bf_solver (constructed_built B)) as Hs.
  split.
  - intros [_ [n Hn]]. specialize (Hn n (le_n n)).
    apply parse_run in Hn as (tok' & rest' & r & Ht & Hres & Hrun).
    inversion Ht; subst tok' rest'. rewrite Hi in Hrun.
    apply (proj1 (ParserRecover.code_to_spec P (tok :: rest))) in Hrun as (_ & d & Hd & Hdr).
    rewrite Hs in Hd. exists d. split; [exact Hd|]. subst res.
    destruct r as [st|e|f]; simpl in *.
    + destruct Hdr as (it & _ & ->). reflexivity.
    + subst d. reflexivity.
    + subst d. reflexivity.
  - intros (d & Hd & ->). rewrite <- Hs in Hd.
    apply (proj1 (ParserRecover.spec_to_code P (tok :: rest) PanicSolver)) in Hd as [_ Hrun].
    rewrite <- Hi in Hrun. apply run_parse in Hrun as [n Hn].
    split; [discriminate|]. exists n. intros fuel Hf. rewrite (Hn fuel Hf).
    destruct d; reflexivity.
Qed.
Print Assumptions C59_exact_semantics.

(** S = 1 -> X Y $; X = 2 -> p | p q; Y = 3 -> r on [p q r $] with a solver that skips two
    tokens: X is parsed, Y fails at 1 (the lookahead q has no candidate) and is fixed up to
    3, and $ follows: the answer is a fix, after one call, and it is the one specified *)
Example C59_case : exists fs c,
  let ask := FixFailedProductions retry_tokens 1 [] in
  let fixed := FixedSymbol (FixedProduction []) 3 in
  let answer := FixedSymbol (FixedProduction [FPartOk (ni 2 [nl 4]); FPartFixed fixed; FPartOk (nl 7)]) 1 in
  fs = answer /\ c = [ask] /\
  terminates_with (fun fuel => parse_from_tokens fuel (retry_parser (Some hasty_solver)) retry_tokens)
                  (Done (ResultFix fs, c)) /\
  derive 0 retry_productions retry_tokens (candidates (retry_parser (Some hasty_solver)))
         (Some hasty_solver) true 1 0
         (candidates (retry_parser (Some hasty_solver)) 1 4) [] (DFixed fs 4) c.
Proof.
  do 2 eexists. split; [reflexivity|]. split; [reflexivity|].
  set (ask := FixFailedProductions _ _ _). set (answer := FixedSymbol (FixedProduction _) 1).
  assert (H : parse_from_tokens 50 (retry_parser (Some hasty_solver)) retry_tokens =
              Done (ResultFix answer, [ask])) by (vm_compute; reflexivity).
  split; [exact (parse_terminates _ _ _ H ltac:(discriminate))|].
  apply derive_done. vm_compute candidates. simpl length. simpl andb.
  eapply attempt_first with (parts := [FPartOk (ni 2 [nl 4]); FPartFixed _; FPartOk (nl 7)]).
  eapply parse_non_terminal with (tok := nt 4); [eexists; split; [right; left; reflexivity|reflexivity]|reflexivity|].
  vm_compute candidates. simpl tok_type.
  eapply branch_tree with (q := 1) (parts := [FPartFixed _; FPartOk (nl 7)]).
  - apply derive_done. simpl andb.
    eapply attempt_first with (parts := [FPartOk (nl 4)]) (q := 1).
    apply (@parse_token nat nat) with (r := PParts [] 1) (tok := nt 4) (Xs := []);
      [intros (p & [<-|[<-|[<-|[<-|[]]]]] & Hp); discriminate|discriminate|reflexivity|constructor].
  - eapply parse_non_terminal with (tok := nt 5);
      [eexists; split; [do 3 right; left; reflexivity|reflexivity]|reflexivity|].
    vm_compute candidates. simpl tok_type.
    apply (@branch_fixed nat nat) with (q := 3) (h' := [ask]) (r := PParts [FPartOk (nl 7)] 4).
    + eapply (@derive_fixed nat nat) with (fps := []) (h' := []) (s := hasty_solver);
        [constructor|reflexivity|reflexivity].
    + apply (@parse_token nat nat) with (r := PParts [] 4) (tok := nt 7) (Xs := []);
        [intros (p & [<-|[<-|[<-|[<-|[]]]]] & Hp); discriminate|discriminate|reflexivity|constructor].
Qed.

(** ** C60: ... and it panics exactly when the computation of RecoverSpec.v stops because a
    lookahead beyond the last token is needed or because the solver panics *)
Theorem C60_panics_exact :
  forall (L T : Type) (E : EqDec T) (eps init : T) (ps : list (production T))
         (solver : option (syntax_error_solver L T)) (self : parser L T)
         (tok : token L T) (rest : list (token L T)) (q : panic),
    constructed_parser eps init ps solver self ->
    (terminates_with (fun fuel => parse_from_tokens fuel self (tok :: rest)) (Panicked q) <->
     (q = PanicTokenOutOfRange /\
      derive_stops eps ps (tok :: rest) (candidates self) solver PastTheEnd
                   true init 0 (candidates self init (tok_type tok)) []) \/
     (q = PanicSolver /\
      derive_stops eps ps (tok :: rest) (candidates self) solver SolverPanics
                   true init 0 (candidates self init (tok_type tok)) [])).
Proof.
  intros L T E eps init ps solver self tok rest q B.
  pose proof (bf_of (constructed_built B)) as P.
  assert (Hi : get_initial_symbol (pr_grammar self) = init) by apply (go_init (po_grammar P)).
  pose proof (bf_solver (constructed_built B)) as Hs.
  assert (Hiff : forall w, panic_of w q ->
    (terminates_with (fun fuel => parse_from_tokens fuel self (tok :: rest)) (Panicked q) <->
     derive_stops eps ps (tok :: rest) (candidates self) solver w
                   true init 0 (candidates self init (tok_type tok)) [])).
  { intros w Hw. split.
    - intros [_ [n Hn]]. specialize (Hn n (le_n n)). unfold parse_from_tokens in Hn.
      apply bind_panics in Hn as [Hn|([r h] & _ & Hn)]; [|discriminate].
      apply stop_sound in Hn; [|destruct Hw as [[_ Hw]|[_ Hw]]; auto].
      apply (proj1 (stop_code_to_spec P (tok :: rest) Hw)) in Hn.
      rewrite Hi, Hs in Hn. exact Hn.
    - intros Hd. rewrite <- Hs in Hd.
      apply (proj1 (stop_spec_to_code P (tok :: rest) Hw)) in Hd; auto.
      apply stop_complete in Hd as [n Hn]. split; [discriminate|].
      exists n. intros fuel Hf. unfold parse_from_tokens. rewrite Hi.
      unfold candidates, inner_get_token_productions in *. rewrite (Hn fuel Hf). reflexivity. }
  split.
  - intros H. assert (Hq : (q = PanicSolver) \/ (q = PanicTokenOutOfRange)).
    { destruct H as [_ [n Hn]]. specialize (Hn n (le_n n)).
      eapply C17_no_panic_partial in Hn; [|exact B|discriminate]. destruct Hn as [[-> _]|[-> _]]; auto. }
    destruct Hq as [-> | ->].
    + right. split; auto. apply Hiff; auto. now right.
    + left. split; auto. apply Hiff; auto. now left.
  - intros [[-> H]|[-> H]]; eapply Hiff; eauto; [now left|now right].
Qed.
Print Assumptions C60_panics_exact.

(** S = 1 -> B S | d; B = 2 -> b c on [b x]: B is fixed beyond the last token by a solver
    that skips two tokens, and S, next, needs a lookahead; or the solver panics when asked *)
Definition stuck_with (s : syntax_error_solver nat nat) : parser nat nat :=
  with_solver stuck_parser (Some s).
Lemma stuck_built s : built_parser 0 1 stuck_productions (Some s) (stuck_with s).
Proof.
  apply built_with_solver with (sol := Some stuck_solver).
  apply built_with_solver with (sol := None). apply build_built with (fuel := 100).
  vm_compute. reflexivity.
Qed.

Example C60_case :
  terminates_with (fun fuel => parse_from_tokens fuel (stuck_with hasty_solver) stuck_tokens)
                  (Panicked PanicTokenOutOfRange) /\
  derive_stops 0 stuck_productions stuck_tokens (candidates (stuck_with hasty_solver))
               (Some hasty_solver) PastTheEnd true 1 0 (candidates (stuck_with hasty_solver) 1 3) [] /\
  (let s : syntax_error_solver nat nat := fun _ _ => ReplyPanics in
   terminates_with (fun fuel => parse_from_tokens fuel (stuck_with s) stuck_tokens)
                   (Panicked PanicSolver) /\
   derive_stops 0 stuck_productions stuck_tokens (candidates (stuck_with s))
                (Some s) SolverPanics true 1 0 (candidates (stuck_with s) 1 3) []).
Proof.
  assert (H1 : terminates_with (fun fuel => parse_from_tokens fuel (stuck_with hasty_solver) stuck_tokens)
                               (Panicked PanicTokenOutOfRange)).
  { apply parse_terminates with (k := 50); [vm_compute; reflexivity|discriminate]. }
  split; [exact H1|]. split.
  { apply (C60_panics_exact (nt 3) [nt 6] _ (stuck_built hasty_solver)) in H1 as [[_ H1]|[H1 _]];
      [exact H1|discriminate]. }
  intros s.
  assert (H2 : terminates_with (fun fuel => parse_from_tokens fuel (stuck_with s) stuck_tokens)
                               (Panicked PanicSolver)).
  { apply parse_terminates with (k := 50); [vm_compute; reflexivity|discriminate]. }
  split; [exact H2|].
  apply (C60_panics_exact (nt 3) [nt 6] _ (stuck_built s)) in H2 as [[H2 _]|[_ H2]];
    [discriminate|exact H2].
Qed.

(** ** C61: ... and does not end exactly when that computation stops at a call that the
    solver never answers or nests derivations beyond any depth *)
Theorem C61_divergence_exact :
  forall (L T : Type) (E : EqDec T) (eps init : T) (ps : list (production T))
         (solver : option (syntax_error_solver L T)) (self : parser L T)
         (tok : token L T) (rest : list (token L T)),
    constructed_parser eps init ps solver self ->
    (diverges (fun fuel => parse_from_tokens fuel self (tok :: rest)) <->
     forall n,
       derive_stops eps ps (tok :: rest) (candidates self) solver SolverHangs
                    true init 0 (candidates self init (tok_type tok)) [] \/
       derive_stops eps ps (tok :: rest) (candidates self) solver (TooDeep n)
                    true init 0 (candidates self init (tok_type tok)) []).
Proof.
  intros L T E eps init ps solver self tok rest B.
  pose proof (go_ok (po_grammar (bf_of (constructed_built B)))) as Hps.
  assert (Heps : ~ non_terminal ps eps) by (intros (p & Hp & Hi); apply Hps in Hp as (H & _); congruence).
  split.
  - intros Hdiv n.
    assert (Hno : forall r, ~ terminates_with (fun fuel => parse_from_tokens fuel self (tok :: rest)) r).
    { intros r (Hr & m & Hm). apply Hr. now rewrite <- (Hm m (le_n _)). }
    destruct (@total_all L T E eps ps (tok :: rest) (candidates self) solver n
                true init 0 (candidates self init (tok_type tok)) []) as [(r & h & H)|([| | |m] & Hw & H)].
    + exfalso. apply (Hno (Done (answer_of r, h))). apply (C59_exact_semantics tok rest _ _ B). eauto.
    + exfalso. apply (Hno (Panicked PanicTokenOutOfRange)). apply (C60_panics_exact tok rest _ B). auto.
    + exfalso. apply (Hno (Panicked PanicSolver)). apply (C60_panics_exact tok rest _ B). auto.
    + auto.
    + right. destruct Hw as [Hw|Hw]; [exfalso; eapply Hw; eauto|]. now rewrite <- Hw.
  - intros Hall fuel.
    destruct (parse_from_tokens fuel self (tok :: rest)) as [[res calls]|q|] eqn:Hp; [| |reflexivity]; exfalso.
    + assert (Ht : terminates_with (fun fuel => parse_from_tokens fuel self (tok :: rest)) (Done (res, calls))).
      { split; [discriminate|]. exists fuel. intros n Hn. eapply parse_mono; eauto. discriminate. }
      apply (C59_exact_semantics tok rest _ _ B) in Ht as (r & Hd & _).
      destruct (proj1 (returns_no_stop Heps _ _ _) _ _ _ _ _ _ _ Hd) as [N HN].
      destruct (Hall N) as [H|H]; revert H; apply HN; simpl; auto.
    + assert (Ht : terminates_with (fun fuel => parse_from_tokens fuel self (tok :: rest)) (Panicked q)).
      { split; [discriminate|]. exists fuel. intros n Hn. eapply parse_mono; eauto. discriminate. }
      apply (C60_panics_exact tok rest _ B) in Ht as [[_ Hd]|[_ Hd]];
        (destruct (proj1 (stops_once Heps _ _ _) _ _ _ _ _ _ Hd) as [N HN]; [discriminate|];
         destruct (Hall N) as [H|H]; revert H; apply HN; simpl; auto; discriminate).
Qed.
Print Assumptions C61_divergence_exact.

(** the same grammar and input: a solver that stays where it is called nests S in S beyond any
    depth; one that never answers hangs *)
Example C61_case :
  (forall n h, derive_stops 0 stuck_productions stuck_tokens (candidates (stuck_with stuck_solver))
               (Some stuck_solver) (TooDeep n) true 1 0 (candidates (stuck_with stuck_solver) 1 3) h) /\
  diverges (fun fuel => parse_from_tokens fuel (stuck_with stuck_solver) stuck_tokens) /\
  (let s : syntax_error_solver nat nat := fun _ _ => ReplyNever in
   derive_stops 0 stuck_productions stuck_tokens (candidates (stuck_with s))
                (Some s) SolverHangs true 1 0 (candidates (stuck_with s) 1 3) [] /\
   diverges (fun fuel => parse_from_tokens fuel (stuck_with s) stuck_tokens)).
Proof.
  assert (HS : non_terminal stuck_productions 1) by (eexists; split; [left; reflexivity|reflexivity]).
  assert (HB : non_terminal stuck_productions 2) by (eexists; split; [do 2 right; left; reflexivity|reflexivity]).
  assert (Hb : forall x, 2 < x -> ~ non_terminal stuck_productions x)
    by (intros x Hx (p & [<-|[<-|[<-|[]]]] & Hp); simpl in Hp; lia).
  assert (Hfail : forall s h, attempt 0 stuck_productions stuck_tokens (candidates (stuck_with s)) (Some s)
            true 2 0 [[3; 4]] [] h
            (inr [FailedProduction (FailedSymbol [] 4) [ParsedOk (nl 3)] []]) h).
  { intros s h. eapply (@attempt_next nat nat) with (f := FailedSymbol [] 4) (before := [ParsedOk (nl 3)]) (h' := h).
    - apply (@parse_token nat nat) with (r := PFailed (FailedSymbol [] 4) []) (tok := nt 3) (Xs := [4]);
        [apply Hb; simpl; lia|discriminate|reflexivity|].
      apply parse_mismatch; [apply Hb; lia|discriminate|]. intros tok Ht. inversion Ht; subst. discriminate.
    - constructor. }
  assert (H1 : forall n h, derive_stops 0 stuck_productions stuck_tokens (candidates (stuck_with stuck_solver))
               (Some stuck_solver) (TooDeep n) true 1 0 (candidates (stuck_with stuck_solver) 1 3) h).
  { induction n as [|n IH]; intros h; [constructor|].
    apply derive_stops_inside. apply attempt_stops_first.
    eapply parse_stops_non_terminal with (tok := nt 3); [exact HB|reflexivity|].
    eapply (@branch_stops_fixed nat nat) with (q := 0).
    - eapply (@derive_fixed nat nat) with (s := stuck_solver); [apply Hfail|reflexivity|reflexivity].
    - eapply parse_stops_non_terminal with (tok := nt 3); [exact HS|reflexivity|].
      apply branch_stops_here. apply IH. }
  split; [exact H1|]. split.
  { apply (C61_divergence_exact (nt 3) [nt 6] (stuck_built stuck_solver)). intros n. right. apply H1. }
  intros s.
  assert (H2 : derive_stops 0 stuck_productions stuck_tokens (candidates (stuck_with s))
                (Some s) SolverHangs true 1 0 (candidates (stuck_with s) 1 3) []).
  { apply derive_stops_inside. apply attempt_stops_first.
    eapply parse_stops_non_terminal with (tok := nt 3); [exact HB|reflexivity|].
    apply branch_stops_here. eapply (@derive_stops_hang nat nat) with (s := s); [apply Hfail|reflexivity|reflexivity]. }
  split; [exact H2|].
  apply (C61_divergence_exact (nt 3) [nt 6] (stuck_built s)). intros n. left. exact H2.
Qed.
