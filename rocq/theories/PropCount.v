(** * The work of a parse with a solver: C84 *)

From Verif Require Import BaseFacts GrammarFacts DerivFacts ParserRel.
From Verif Require Import ParserCount ParserBuild Examples PropParse PropReports PropWork PropAsks.

Set Implicit Arguments.

(** ** C84: each call of the recursive function makes at most one of the solver, whatever the solver does;
    and a counted parse that ends is the parse *)
Theorem C84_one_call_each :
  forall (L T : Type) (E : EqDec T) (self : parser L T) (tokens : list (token L T)) budget fuel r,
    parse_counted budget fuel self tokens = r -> r <> OutOfFuel ->
    terminates_with (fun fuel => parse_from_tokens fuel self tokens) r /\
    forall res h, r = Done (res, h) -> length h <= budget.
Proof.
  intros L T E self tokens budget fuel r H Hr. pose proof (parse_counts self tokens budget fuel) as Hc.
  rewrite H in Hc. destruct r as [[res h]|q|]; [| |now elim Hr]; destruct Hc as [Hp Hl].
  all: split; [|exact Hl]; split; [exact Hr|]; exists fuel; intros n Hn.
  all: destruct (parse_refines self tokens Hn) as [Hx|Hx]; congruence.
Qed.
Print Assumptions C84_one_call_each.

(** ** C84: at most exponentially many calls, if the solver always answers with a later position *)
Theorem C84_at_most_exponential :
  forall (L T : Type) (E : EqDec T) (eps init : T) (ps : list (production T))
         (solver : option (syntax_error_solver L T)) (self : parser L T) (tokens : list (token L T)),
    constructed_parser eps init ps solver self -> progressing solver ->
    no_left_recursion_from eps ps init -> non_terminal ps init ->
    exists r,
      terminates_with (fun fuel => parse_from_tokens fuel self tokens) r /\
      terminates_with
        (fun fuel => parse_counted (calls_factor ps ^ (non_terminal_count ps * length tokens))
                                   fuel self tokens) r /\
      (forall res h, r = Done (res, h) ->
         length h <= calls_factor ps ^ (non_terminal_count ps * length tokens)).
Proof.
  intros L T E eps init ps solver self tokens B Hpro Hno Hi.
  destruct (C19_parsing_terminates tokens B Hno Hpro) as (r & Hr & n & Hn).
  pose proof (constructed_built B) as F.
  exists r. split; [split; eauto|]. specialize (Hn n (le_n _)).
  assert (Hc : parse_counted (calls_factor ps ^ (non_terminal_count ps * length tokens)) n self tokens = r).
  { destruct tokens as [|tok rest]; [exact Hn|].
    unfold parse_counted. unfold parse_from_tokens in Hn. 
    assert (Hin : get_initial_symbol (pr_grammar self) = init) by apply (go_init (po_grammar (bf_of F))).
    rewrite Hin in *.
    assert (Hps : progress_solver self) by (unfold progress_solver; now rewrite (bf_solver F)).
    pose proof (@cnt_sym L T E eps init ps self (bf_of F) Hps Hno (tok :: rest) ltac:(discriminate)
                  (calls_factor ps ^ (non_terminal_count ps * length (tok :: rest))) n init 0
                  (inner_get_token_productions self init (tok_type tok)) true [] [] []
                  (non_terminal_count ps * length (tok :: rest))) as H.
    match type of H with _ -> _ -> _ -> _ -> _ -> _ -> _ -> ?c => assert (H' : c) end.
    { apply H.
      - exists [], []. apply derives_refl.
      - now apply on_path_nil.
      - simpl; lia.
      - apply (token_productions_good (bf_of F)).
      - rewrite Nat.sub_0_r, Nat.add_0_r. unfold nts, non_terminal_count. apply Nat.eq_le_incl, Nat.mul_comm.
      - apply le_n.
      - reflexivity. }
    clear H.
    match type of H' with orel _ ?a ?b => destruct a as [[x hx]|q|] eqn:Ha; destruct b as [[y hy]|q'|] end;
      simpl in *; try contradiction; [|now subst|now elim Hr].
    destruct H' as (Heq & _ & Hl & _). simpl in Heq, Hl. subst. reflexivity. }
  split; [now apply parse_counted_terminates with (n := n)|].
  exact (proj2 (@C84_one_call_each _ _ _ self tokens _ n r Hc Hr)).
Qed.
Print Assumptions C84_at_most_exponential.

(** the grammar and solver of [C84_answering_can_be_exponential] are a case: on a a d the recursive function
    is called 12 times *)
Example C84_exponential_case :
  built_parser 0 1 redo_productions (Some redo_solver) redo_parser /\ progressing (Some redo_solver) /\
  no_left_recursion_from 0 redo_productions 1 /\ non_terminal redo_productions 1 /\
  (exists res h, parse_from_tokens 100 redo_parser (redo_tokens 2) = Done (res, h) /\ 3 <= length h /\
     parse_counted 12 100 redo_parser (redo_tokens 2) = Done (res, h) /\
     parse_counted 11 100 redo_parser (redo_tokens 2) = OutOfFuel).
Proof.
  split; [exact redo_built|]. split; [exact redo_progressing|].
  split; [exact (no_left_recursion_anywhere (init := 1) redo_no_left_recursion)|].
  split; [exists (Production 1 [5]); simpl; auto|].
  do 2 eexists. split; [vm_compute; reflexivity|]. split; [|split; vm_compute; reflexivity].
  vm_compute. lia.
Qed.
