(** * Limits of the parser: C21 (solvers), C25 (backtracking) *)

From Verif Require Import BaseFacts GrammarFacts DerivFacts FirstFacts FollowFacts TransitionsFacts.
From Verif Require Import ChoiceSpec ParserStall Examples LL1Check PropParse PropReports.

Set Implicit Arguments.

(** ** C21: termination for every solver -- false in general *)
Definition C21_full_statement : Prop :=
  forall (L T : Type) (E : EqDec T) (eps init : T) (ps : list (production T))
         (solver : option (syntax_error_solver L T)) (self : parser L T)
         (tokens : list (token L T)),
    built_parser eps init ps solver self -> no_left_recursion eps ps -> replying solver ->
    exists r, terminates_with (fun fuel => parse_from_tokens fuel self tokens) r.

(** 0 epsilon; S = 1 -> B S | d; B = 2 -> b c; b = 3, c = 4, d = 5; on [b x], with a
    solver that answers the position it was called with: B is fixed at position 0
    for ever. *)
Definition stuck_productions : list (production nat) :=
  [Production 1 [2; 1]; Production 1 [5]; Production 2 [3; 4]].
Definition stuck_solver : syntax_error_solver nat nat :=
  fun _ c => Reply (Some (FixResult (call_position c) (FixedProduction []))).
Definition stuck_parser : parser nat nat :=
  with_solver (get_done (no_parser 0) (build 0 1 stuck_productions None 100)) (Some stuck_solver).
Definition stuck_tokens : list (token nat nat) := [nt 3; nt 6].

Lemma stuck_no_left_recursion : no_left_recursion 0 stuck_productions.
Proof.
  apply rank_check_ok with (N := fun x => Nat.eqb x 0)
    (rank := fun x => match x with 1 => 2 | 2 => 1 | _ => 0 end). reflexivity.
Qed.

Definition stuck_cells := Eval vm_compute in pr_transitions stuck_parser.
Definition stuck_grammar := Eval vm_compute in pr_grammar stuck_parser.

Lemma stuck_parser_eq : stuck_parser =
  {| pr_grammar := stuck_grammar; pr_solver := Some stuck_solver; pr_transitions := stuck_cells |}.
Proof. vm_compute. reflexivity. Qed.

Lemma stuck_inner fuel : forall h,
  inner_parse_from_tokens fuel stuck_parser stuck_tokens 1 0 [[2; 1]] true h = OutOfFuel.
Proof.
  rewrite stuck_parser_eq.
  induction fuel as [|fuel IH]; intros h; [reflexivity|].
  cbn [inner_parse_from_tokens].
  unfold inner_parse_from_tokens_step, inner_parse_from_tokens_try_parse_productions.
  cbn [try_parse_productions_loop].
  destruct fuel as [|[|[|fuel]]]; [reflexivity..|].
  set (rec := inner_parse_from_tokens (S (S (S fuel))) _ _) in *.
  assert (HB : exists h', rec 2 0 [[3; 4]] true h =
     Done (SymFix {| fst_final_token_position := 0;
                     fst_fixed_symbol := FixedSymbol (FixedProduction []) 2 |}, h')).
  { eexists. subst rec. cbn [inner_parse_from_tokens].
    unfold inner_parse_from_tokens_step, inner_parse_from_tokens_try_parse_productions.
    cbn [try_parse_productions_loop]. vm_compute. reflexivity. }
  destruct HB as [h' HB].
  assert (Hprod : inner_parse_from_tokens_production
     {| pr_grammar := stuck_grammar; pr_solver := Some stuck_solver; pr_transitions := stuck_cells |}
     stuck_tokens rec (S (S (S fuel))) 1 [2; 1] (is_child_single_path true [[2; 1]]) [] 0 h = OutOfFuel).
  { cbn [inner_parse_from_tokens_production]. change (length [] <? length [2; 1]) with true.
    cbn iota. cbn [nth_error length unwrap bind].
    assert (H1 : forall single k, inner_parse_from_tokens_production_symbol
       {| pr_grammar := stuck_grammar; pr_solver := Some stuck_solver; pr_transitions := stuck_cells |}
       stuck_tokens rec 2 0 single k = rec 2 0 [[3; 4]] single k) by reflexivity.
    assert (H2 : forall single k, inner_parse_from_tokens_production_symbol
       {| pr_grammar := stuck_grammar; pr_solver := Some stuck_solver; pr_transitions := stuck_cells |}
       stuck_tokens rec 1 0 single k = rec 1 0 [[2; 1]] single k) by reflexivity.
    rewrite H1. change (is_child_single_path true [[2; 1]]) with true. rewrite HB. cbn [bind].
    cbn [length Nat.ltb Nat.leb nth_error unwrap bind fst_final_token_position].
    rewrite H2, IH. reflexivity. }
  rewrite Hprod. reflexivity.
Qed.

Theorem C21_full_statement_refuted : ~ C21_full_statement.
Proof.
  intros H.
  destruct (H _ _ _ 0 1 stuck_productions (Some stuck_solver) stuck_parser stuck_tokens) as [r [Hr [n Hn]]].
  - apply built_with_solver with (sol := None). apply build_built with (fuel := 100).
    vm_compute. reflexivity.
  - exact stuck_no_left_recursion.
  - intros s h c Hs. inversion Hs; subst s. eexists. reflexivity.
  - apply Hr. rewrite <- (Hn n (le_n _)).
    change (parse_from_tokens n stuck_parser stuck_tokens) with
      (bind (inner_parse_from_tokens n stuck_parser stuck_tokens 1 0 [[2; 1]] true [])
            (fun x => match x with (r, h) => Done (parse_symbol_result_to_parse_result r, h) end)).
    now rewrite stuck_inner.
Qed.
Print Assumptions C21_full_statement_refuted.

(** What holds: solvers that cannot stand still infinitely often on the input;
    these include the solvers that always advance (C19) and those that stand
    still a bounded number of times.  Missing: all other solvers. *)
Theorem C21_finitely_stalling_solvers_partial :
  forall (L T : Type) (E : EqDec T) (eps init : T) (ps : list (production T))
         (solver : option (syntax_error_solver L T)) (self : parser L T)
         (tokens : list (token L T)),
    constructed_parser eps init ps solver self -> no_left_recursion_from eps ps init ->
    finitely_stalling tokens solver ->
    exists r, terminates_with (fun fuel => parse_from_tokens fuel self tokens) r.
Proof.
  intros L T E eps init ps solver self tokens B Hl Hs. apply constructed_built in B.
  rewrite <- (bf_solver B) in Hs.
  destruct (parse_term_stall (bf_of B) Hs Hl) as [n Hn].
  exists (parse_from_tokens n self tokens). eapply parse_terminates; eauto.
Qed.
Print Assumptions C21_finitely_stalling_solvers_partial.

(** every solver that always advances is one of them *)
Theorem C21_progressing_solvers_included :
  forall (L T : Type) (tokens : list (token L T)) (solver : option (syntax_error_solver L T)),
    progressing solver -> finitely_stalling tokens solver.
Proof. exact @progressing_finitely_stalling. Qed.
Print Assumptions C21_progressing_solvers_included.

(** a solver that stands still, but never twice at the same position: it makes
    the parse that [stuck_solver] keeps busy for ever end *)
Definition once_solver : syntax_error_solver nat nat :=
  fun h c => if existsb (fun c' => Nat.eqb (call_position c') (call_position c)) h
             then Reply None
             else Reply (Some (FixResult (call_position c) (FixedProduction []))).

Lemma once_solver_finitely_stalling tokens : finitely_stalling tokens (Some once_solver).
Proof.
  intros s Hs. inversion Hs; subst s. split.
  { intros h c. unfold once_solver. destruct (existsb _ _); discriminate. }
  set (fresh := fun (h : list (solver_call nat nat)) p => negb (existsb (fun c => Nat.eqb (call_position c) p) h)).
  apply well_founded_lt_compat with (f := fun h => length (filter (fresh h) (seq 0 (length tokens)))).
  intros h' h (k & c & -> & Hk & fr & Hr & _).
  assert (Hc : fresh h (call_position c) = true).
  { unfold fresh. unfold once_solver in Hr. rewrite existsb_app in Hr.
    destruct (existsb (fun c' => Nat.eqb (call_position c') (call_position c)) h); [discriminate|reflexivity]. }
  assert (Hin : In (call_position c) (seq 0 (length tokens))).
  { apply Forall_app in Hk as [_ Hk]. inversion Hk; subst. apply in_seq. lia. }
  assert (Hsub : forall p, fresh (h ++ k ++ [c]) p = true -> fresh h p = true).
  { unfold fresh. intros p Hp. rewrite existsb_app in Hp.
    destruct (existsb (fun c => Nat.eqb (call_position c) p) h); [discriminate|reflexivity]. }
  assert (Hnot : fresh (h ++ k ++ [c]) (call_position c) = false).
  { unfold fresh. rewrite !existsb_app. simpl. rewrite Nat.eqb_refl, !orb_true_r. reflexivity. }
  clear - Hc Hin Hsub Hnot. revert Hin. generalize (seq 0 (length tokens)). intros l Hin.
  assert (Hle : forall l, length (filter (fresh (h ++ k ++ [c])) l) <= length (filter (fresh h) l)).
  { clear l Hin. induction l as [|x l IH]; simpl; auto.
    specialize (Hsub x). destruct (fresh (h ++ k ++ [c]) x), (fresh h x); simpl; try lia;
      specialize (Hsub eq_refl); discriminate. }
  induction l as [|x l IH]; [destruct Hin|].
  specialize (Hle l). specialize (Hsub x). simpl. destruct Hin as [->|Hin].
  - rewrite Hc, Hnot. simpl. lia.
  - specialize (IH Hin).
    destruct (fresh (h ++ k ++ [c]) x), (fresh h x); simpl; try lia;
      specialize (Hsub eq_refl); discriminate.
Qed.

Example C21_case :
  finitely_stalling stuck_tokens (Some once_solver) /\ ~ progressing (Some once_solver) /\
  exists r h, parse_from_tokens 20 (with_solver stuck_parser (Some once_solver)) stuck_tokens = Done (r, h) /\
              1 < length h.
Proof.
  split; [apply once_solver_finitely_stalling|]. split.
  - intros H. destruct (H once_solver [] (FixFailedProductions [] 0 []) eq_refl) as [_ H'].
    specialize (H' _ eq_refl). simpl in H'. lia.
  - vm_compute. eexists. eexists. split; [reflexivity|]. simpl. lia.
Qed.

(** ** C25: backtracking finds every parse -- false in general *)
Definition C25_full_statement : Prop :=
  forall (L T : Type) (E : EqDec T) (eps init eof : T) (ps : list (production T))
         (self : parser L T) (tokens : list (token L T)),
    built_parser eps init ps None self -> no_left_recursion eps ps ->
    eof_discipline eps ps init eof -> non_terminal ps init ->
    derives eps ps [init] (map (@tok_type L T) tokens) ->
    Forall (fun t => tok_type t <> eps /\ ~ non_terminal ps (tok_type t)) tokens ->
    exists root, terminates_with (fun fuel => parse_from_tokens fuel self tokens)
                                 (Done (ResultOk root, [])).

(** 0 epsilon; S = 1 -> X c $; X = 2 -> Y; Y = 3 -> a | a b; a = 4, b = 5, c = 6, $ = 7.
    The choice made for Y inside X is final: the sentence [a b c $] is rejected. *)
Definition final_choice_productions : list (production nat) :=
  [Production 1 [2; 6; 7]; Production 2 [3]; Production 3 [4]; Production 3 [4; 5]].
Definition final_choice_tokens : list (token nat nat) := [nt 4; nt 5; nt 6; nt 7].

Theorem C25_full_statement_refuted : ~ C25_full_statement.
Proof.
  intros H.
  destruct (build (L := nat) 0 1 final_choice_productions None 100) as [self| |] eqn:Hb;
    [|vm_compute in Hb; discriminate..].
  apply build_built in Hb as B.
  destruct (H _ _ _ _ _ 7 _ _ final_choice_tokens B) as [root Hr].
  - apply rank_check_ok with (N := fun x => Nat.eqb x 0)
      (rank := fun x => match x with 1 => 3 | 2 => 2 | 3 => 1 | _ => 0 end). reflexivity.
  - split; [discriminate|]. split; [apply non_terminalb_false; reflexivity|].
    split; [|split]; intros p Hp; simpl in Hp.
    + intros Hin. decompose [or] Hp; subst; simpl in Hin; intuition discriminate.
    + intros Hi. decompose [or] Hp; subst; try discriminate; try contradiction.
      exists [2; 6]. split; [reflexivity|simpl; intuition discriminate].
    + intros Hi Hin. decompose [or] Hp; subst; simpl in Hin, Hi; intuition discriminate.
  - apply non_terminalb_spec. reflexivity.
  - eapply derives_trans;
      [apply (@derives_production _ 0 final_choice_productions (Production 1 [2; 6; 7])); simpl; auto|].
    apply (@derives_app _ 0 final_choice_productions [2] [4; 5] [6; 7] [6; 7]); [|apply derives_refl].
    eapply derives_trans;
      [apply (@derives_production _ 0 final_choice_productions (Production 2 [3])); simpl; auto|].
    apply (@derives_production _ 0 final_choice_productions (Production 3 [4; 5])); simpl; auto 10.
  - repeat (apply Forall_cons; [split; [discriminate|apply non_terminalb_false; reflexivity]|]). apply Forall_nil.
  - destruct (parse_from_tokens 100 self final_choice_tokens) as [[r h]| |] eqn:Hp;
      [|vm_compute in Hb; inversion Hb; subst self; vm_compute in Hp; discriminate..].
    pose proof (terminates_unique (parse_terminates _ _ _ Hp ltac:(discriminate)) Hr) as Heq.
    inversion Heq; subst r h.
    vm_compute in Hb. inversion Hb; subst self. vm_compute in Hp. discriminate.
Qed.
Print Assumptions C25_full_statement_refuted.
