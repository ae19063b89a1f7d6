(** * How many calls a parse makes, whatever the table: C56 *)

From Verif Require Import BaseFacts GrammarFacts DerivFacts.
From Verif Require Import ParserExp WorkLog Examples PropParse PropReports PropWork.

Set Implicit Arguments.

(** ** C56: with conflicts the number of calls is at most exponential in the number of tokens *)
Theorem C56_at_most_exponential :
  forall (L T : Type) (E : EqDec T) (eps init : T) (ps : list (production T))
         (self : parser L T) (tokens : list (token L T)),
    constructed_parser eps init ps None self ->
    no_left_recursion_from eps ps init -> non_terminal ps init ->
    exists r,
      terminates_with (fun fuel => parse_from_tokens fuel self tokens) r /\
      terminates_with
        (fun fuel => parse_within (calls_factor ps ^ (non_terminal_count ps * length tokens))
                                  fuel self tokens) r.
Proof.
  intros L T E eps init ps self tokens B Hno Hi.
  destruct (C19_parsing_terminates tokens B Hno ltac:(intros s Hs; discriminate)) as (r & Hr & n & Hn).
  exists r. split; [split; eauto|]. specialize (Hn n (le_n _)).
  pose proof (constructed_built B) as F.
  apply parse_within_terminates with (n := n); auto.
  destruct tokens as [|tok rest]; [exact Hn|].
  unfold parse_within. unfold parse_from_tokens in Hn. rewrite (init_symbol B) in *.
  pose proof (@exp_sym L T E eps init ps self (bf_of F) (bf_solver F) Hno (tok :: rest)
                (calls_factor ps ^ (non_terminal_count ps * length (tok :: rest))) n init 0
                (inner_get_token_productions self init (tok_type tok)) true [] [] []
                (non_terminal_count ps * length (tok :: rest))) as H.
  match type of H with _ -> _ -> _ -> _ -> _ -> _ -> ?c => assert (H' : c) end.
  { apply H.
    - exists [], []. apply derives_refl.
    - now apply on_path_nil.
    - simpl; lia.
    - apply (token_productions_good (bf_of F)).
    - rewrite Nat.sub_0_r, Nat.add_0_r. unfold nts, non_terminal_count. apply Nat.eq_le_incl, Nat.mul_comm.
    - apply le_n. }
  clear H.
  match type of H' with orel _ ?a ?b => destruct a as [[x hx]|q|] eqn:Ha; destruct b as [[y hy]|q'|] end;
    simpl in *; try contradiction; [|now subst|now elim Hr].
  destruct H' as [Heq _]. simpl in Heq. subst.
  assert (Hh : hx = []); [|subst; reflexivity].
  apply (@parse_no_solver_calls L T E self (bf_solver F) (tok :: rest) n
           (parse_symbol_result_to_parse_result x)).
  unfold parse_from_tokens. rewrite (init_symbol B), Ha. reflexivity.
Qed.
Print Assumptions C56_at_most_exponential.

(** the grammar of [C56_backtracking_exponential], whose calls do grow so, is a case *)
Example C56_exponential_case :
  built_parser 0 1 slow_productions None slow_parser /\
  no_left_recursion_from 0 slow_productions 1 /\ non_terminal slow_productions 1 /\
  calls_factor slow_productions = 376 /\ non_terminal_count slow_productions = 1 /\
  parse_within 46 100 slow_parser (slow_tokens 4) =
  parse_from_tokens 100 slow_parser (slow_tokens 4) /\
  parse_within 45 100 slow_parser (slow_tokens 4) = OutOfFuel.
Proof.
  split; [exact slow_built|].
  split; [exact (no_left_recursion_anywhere (init := 1) slow_no_left_recursion)|].
  split; [exists (Production 1 [5]); simpl; auto|]. vm_compute. repeat split.
Qed.
