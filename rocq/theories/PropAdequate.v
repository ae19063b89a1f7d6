(** * Parsers for FIRST and FOLLOW sets that hold what they should: C95 *)

From Verif Require Import BaseFacts GrammarFacts DerivFacts ParserSound ParserComplete.
From Verif Require Import FollowSpec ProductiveSpec LastSpec PrefixSpec CoverFacts SuppliedFacts Examples ExampleTools LL1Check
  MoreFacts PropParse PropReports PropPrefix PropLast PropLeftRec PropRecover PropSupplied PropCut.

Set Implicit Arguments.

(** with the candidates needed and one candidate per cell, the grammar is LL(1) where it is reachable *)
Lemma covering_ll1 :
  forall (L T : Type) (E : EqDec T) (eps init : T) (ps : list (production T)) (self : parser L T),
    conflict_free (pr_transitions self) -> covering eps init ps (candidates self) ->
    forall A a p q, reachable_from eps ps init A ->
      textbook_cell eps ps init A a p -> textbook_cell eps ps init A a q -> p = q.
Proof.
  intros L T E eps init ps self Hcf Hcov.
  assert (Hin : forall A a p, reachable_from eps ps init A -> textbook_cell eps ps init A a p ->
                  In (p_output p) (candidates self A a)).
  { intros A a p (u & v & HR) (Hp & <- & [(Ha & Hn & x & Hx)|[Hnull (Ha & Hn & u' & v' & Hd)]]).
    - apply (Hcov p u v); auto. split; auto. split; auto. exists (x ++ v).
      apply (@derives_app _ eps ps (p_output p) (a :: x) v v); [exact Hx|apply derives_refl].
    - apply (Hcov p u' (a :: v')); auto. split; auto. split; auto. exists v'.
      apply (@derives_app _ eps ps (p_output p) [] (a :: v') (a :: v')); [exact Hnull|apply derives_refl]. }
  intros A a p q HR Hp Hq.
  pose proof (Hin _ _ _ HR Hp) as H1. pose proof (Hin _ _ _ HR Hq) as H2.
  unfold candidates in H1, H2.
  destruct (transitions_get_productions (pr_transitions self) A a) as [l|] eqn:Hl; [|contradiction].
  pose proof (Hcf _ _ _ Hl) as Hlen.
  destruct l as [|x [|y l]]; simpl in *; [contradiction| |lia].
  destruct Hp as (_ & Hpi & _), Hq as (_ & Hqi & _), p as [pi po], q as [qi qo]; simpl in *.
  destruct H1 as [H1|[]], H2 as [H2|[]]. congruence.
Qed.

(** ... so nothing reachable is left-recursive *)
Lemma covering_no_left_recursion :
  forall (L T : Type) (E : EqDec T) (eps init : T) (ps : list (production T))
         (solver : option (syntax_error_solver L T)) (self : parser L T),
    constructed_parser eps init ps solver self -> conflict_free (pr_transitions self) ->
    covering eps init ps (candidates self) ->
    initial_ends_in_terminal eps ps init -> all_productive eps ps init ->
    no_left_recursion_from eps ps init.
Proof.
  intros L T E eps init ps solver self B Hcf Hcov Hend Hprod.
  apply reachable_ll1_no_left_recursion; auto.
  { apply (go_ok (po_grammar (bf_of (constructed_built B)))). }
  exact (covering_ll1 Hcf Hcov).
Qed.

(** The outcome on every non-empty input, for sets that hold at least the textbook's, whatever the grammar *)
Theorem C95_every_outcome :
  forall (L T : Type) (E : EqDec T) (eps init : T) (ps : list (production T))
         (ffs : first_follow_symbols T) (self : parser L T) (tokens : list (token L T)),
    supplied_parser eps init ps ffs self -> at_least_textbook eps ps ffs init ->
    conflict_free (pr_transitions self) ->
    initial_ends_in_terminal eps ps init -> all_productive eps ps init ->
    non_terminal ps init -> tokens <> [] ->
    let sentence_first := fun root => exists w, prefix w tokens /\ tree_for eps ps init root w in
    let cut_short := Forall (fun t => real_terminal eps ps (tok_type t)) tokens /\
                     exists A v, non_terminal ps A /\ derives eps ps [init] (map (@tok_type L T) tokens ++ A :: v) in
    exists r, terminates_with (fun fuel => parse_from_tokens fuel self tokens) r /\
      (forall root, r = Done (ResultOk root, []) <-> sentence_first root) /\
      (r = Panicked PanicTokenOutOfRange <-> cut_short) /\
      ((exists f, r = Done (ResultErr f, [])) <-> (forall root, ~ sentence_first root) /\ ~ cut_short).
Proof.
  intros L T E eps init ps ffs self tokens B Ht Hcf Hend Hprod Hn Hne.
  pose proof (supplied_constructed B) as C. pose proof (supplied_covering B Ht) as Hcov.
  exact (covering_every_outcome C Hcf Hcov Hend (covering_no_left_recursion C Hcf Hcov Hend Hprod) Hn Hne).
Qed.
Print Assumptions C95_every_outcome.

(** The innermost symbol of an error is expected at the first token that no sentence has there *)
Theorem C95_first_offending_token :
  forall (L T : Type) (E : EqDec T) (eps init : T) (ps : list (production T))
         (ffs : first_follow_symbols T) (self : parser L T) (tokens : list (token L T)) (fuel : nat)
         (f : failed_symbol L T) (h : list (solver_call L T)),
    supplied_parser eps init ps ffs self -> at_least_textbook eps ps ffs init ->
    conflict_free (pr_transitions self) -> initial_ends_in_terminal eps ps init -> non_terminal ps init ->
    parse_from_tokens fuel self tokens = Done (ResultErr f, h) ->
    exists p, p <= length tokens /\
      Forall (fun t => real_terminal eps ps (tok_type t)) (firstn p tokens) /\
      (exists v, derives eps ps [init] (map (@tok_type L T) (firstn p tokens) ++ innermost f :: v)) /\
      (productive eps ps -> viable_prefix eps ps init (map (@tok_type L T) (firstn p tokens))) /\
      (p < length tokens ->
         ~ viable_prefix eps ps init (map (@tok_type L T) (firstn (S p) tokens))) /\
      (p = length tokens -> ~ sentence eps ps init (map (@tok_type L T) tokens)).
Proof.
  intros L T E eps init ps ffs self tokens fuel f h B Ht Hcf Hend Hn.
  exact (covering_first_offending _ _ (supplied_constructed B) Hcf (supplied_covering B Ht) Hend Hn).
Qed.
Print Assumptions C95_first_offending_token.

(** LL(1) grammars with nullable alternatives last, whether or not the table has conflicts: every
    parse tree of a prefix is found, and a sentence has only one *)
Theorem C95_ll1_sentences_accepted :
  forall (L T : Type) (E : EqDec T) (eps init : T) (ps : list (production T))
         (ffs : first_follow_symbols T) (self : parser L T) (tokens w : list (token L T)),
    supplied_parser eps init ps ffs self -> at_least_textbook eps ps ffs init ->
    ll1 eps ps init -> nullable_last eps ps -> all_productive eps ps init ->
    initial_ends_in_terminal eps ps init -> non_terminal ps init -> prefix w tokens ->
    derives eps ps [init] (map (@tok_type L T) w) ->
    Forall (fun t => tok_type t <> eps /\ ~ non_terminal ps (tok_type t)) w ->
    exists root, tree_for eps ps init root w /\
      (forall root', tree_for eps ps init root' w -> root' = root) /\
      terminates_with (fun fuel => parse_from_tokens fuel self tokens) (Done (ResultOk root, [])).
Proof.
  intros L T E eps init ps ffs self tokens w B Ht Hll Hlast Hprod Hend Hn Hpre Hd Hl.
  pose proof (supplied_constructed B) as C. pose proof (supplied_covering B Ht) as Hcov.
  assert (Hlr : no_left_recursion_from eps ps init).
  { apply ll1_no_left_recursion; auto. apply (go_ok (po_grammar (bf_of (constructed_built C)))). }
  destruct (derives_tree Hd Hl) as [root Hroot]. exists root. split; auto.
  pose proof (covering_last_exact C Hcov (ll1_reachable Hll) (nullable_last_reachable Hlast) Hlr Hend Hn Hroot Hpre) as H1.
  split; auto. intros root' Ht'.
  pose proof (covering_last_exact C Hcov (ll1_reachable Hll) (nullable_last_reachable Hlast) Hlr Hend Hn Ht' Hpre) as H2.
  pose proof (terminates_unique H2 H1) as Heq. now inversion Heq.
Qed.
Print Assumptions C95_ll1_sentences_accepted.

(** ** A case: 1 -> B B $, B = 2 -> b C, C = 3 -> c | epsilon with the sets of C63, for which the parser of
    [from_grammar] rejects [b b c $] *)
Notation twice := PropFirstFollow.twice_productions.

Lemma twice_adequate : supplied_parser 0 1 twice twice_sets twice_supplied /\ at_least_textbook 0 twice twice_sets 1 /\
  conflict_free (pr_transitions twice_supplied) /\ initial_ends_in_terminal 0 twice 1.
Proof.
  destruct C63_case as (B & Hr & Hcf & _ & He & _). splits; auto.
  - apply C63_textbook_rules_adequate; auto.
    intros p Hp. simpl in Hp. decompose [or] Hp; subst; try contradiction;
      (split; [discriminate|split; [discriminate|simpl; intuition discriminate]]).
  - intros p Hp Hi. simpl in Hp. decompose [or] Hp; subst; try discriminate; try contradiction.
    exists [2; 2], 6. split; [reflexivity|split; [discriminate|apply non_terminalb_false; reflexivity]].
Qed.

Lemma twice_productive : productive 0 twice.
Proof. apply productive_check_ok with (rank := fun x => match x with 1 => 3 | 2 => 2 | 3 => 1 | _ => 0 end). reflexivity. Qed.

Lemma twice_all_productive : all_productive 0 twice 1.
Proof. intros X HX _. destruct (twice_productive HX) as (w & Hw & Hr). exists w. split; auto. Qed.

Lemma twice_reachable A : non_terminal twice A -> reachable_from 0 twice 1 A.
Proof.
  intros HA. apply non_terminalb_spec in HA.
  assert (H2 : derives 0 twice [1] ([] ++ 2 :: [2; 6])).
  { apply (@derives_production _ 0 twice (Production 1 [2; 2; 6])). simpl; tauto. }
  destruct A as [|[|[|[|A]]]]; try discriminate.
  - exists [], []. apply derives_refl.
  - exists [], [2; 6]. exact H2.
  - exists [4], [2; 6]. eapply derives_trans; [exact H2|].
    apply (@derives_ctx _ 0 twice [] [2; 6] [2] [4; 3]).
    apply (@derives_production _ 0 twice (Production 2 [4; 3])). simpl; tauto.
Qed.

Lemma twice_nullable_last : nullable_last 0 twice.
Proof.
  intros before p after q Hps Hq Hi Hne.
  do 4 (destruct before as [|? before];
    [inversion Hps; subst p after; simpl in Hq; decompose [or] Hq; subst; try discriminate; try contradiction;
     intros Hnull; apply nullable_cons in Hnull as [Hnull _];
     (apply nullable_terminal in Hnull; [discriminate|apply non_terminalb_false; reflexivity])|
     apply (f_equal (@tl _)) in Hps; cbn [tl PropFirstFollow.twice_productions app] in Hps]).
  destruct before; discriminate.
Qed.

Example C95_case :
  supplied_parser 0 1 twice twice_sets twice_supplied /\ at_least_textbook 0 twice twice_sets 1 /\
  conflict_free (pr_transitions twice_supplied) /\ ll1 0 twice 1 /\ nullable_last 0 twice /\
  initial_ends_in_terminal 0 twice 1 /\ all_productive 0 twice 1 /\ PrefixSpec.productive 0 twice /\
  non_terminal twice 1 /\
  (* b b c $ $, and b b, cut short before C, and b b $ c instead of b b c $ *)
  let t := fun x => Token (Some x) x in
  (exists root, parse_from_tokens 60 twice_supplied [t 4; t 4; t 5; t 6; t 6] = Done (ResultOk root, [])) /\
  parse_from_tokens 60 twice_supplied [t 4; t 4] = Panicked PanicTokenOutOfRange /\
  (exists f, parse_from_tokens 60 twice_supplied [t 4; t 6; t 5] = Done (ResultErr f, []) /\ innermost f = 2) /\
  prefix [t 4; t 4; t 5; t 6] [t 4; t 4; t 5; t 6; t 6] /\
  derives 0 twice [1] [4; 4; 5; 6].
Proof.
  destruct twice_adequate as (B & Ha & Hcf & Hend).
  split; [exact B|]. split; [exact Ha|]. split; [exact Hcf|].
  split.
  { intros A a p q Hp Hq. apply (covering_ll1 Hcf (supplied_covering B Ha) (a := a) (A := A)); auto.
    apply twice_reachable. destruct Hp as (Hp & <- & _). exists p. auto. }
  split; [exact twice_nullable_last|]. split; [exact Hend|]. split; [exact twice_all_productive|].
  split; [exact twice_productive|]. split; [apply non_terminalb_spec; reflexivity|].
  cbv zeta. split; [eexists; vm_compute; reflexivity|]. split; [vm_compute; reflexivity|].
  split; [eexists; split; vm_compute; reflexivity|]. split; [exists [Token (Some 6) 6]; reflexivity|].
  assert (step : forall u v X out, In (Production X out) twice -> derives 0 twice (u ++ [X] ++ v) (u ++ out ++ v)).
  { intros u v X out Hin. apply derives_ctx. now apply (@derives_production _ 0 twice (Production X out)). }
  apply derives_trans with [2; 2; 6]; [apply (step [] [] 1 [2; 2; 6]); simpl; tauto|].
  apply derives_trans with [4; 3; 2; 6]; [apply (step [] [2; 6] 2 [4; 3]); simpl; tauto|].
  apply derives_trans with [4; 0; 2; 6]; [apply (step [4] [2; 6] 3 [0]); simpl; tauto|].
  apply derives_trans with [4; 2; 6]; [apply derives_step, (derive1_epsilon 0 twice [4] [2; 6])|].
  apply derives_trans with [4; 4; 3; 6]; [apply (step [4] [6] 2 [4; 3]); simpl; tauto|].
  apply (step [4; 4] [6] 3 [5]); simpl; tauto.
Qed.
