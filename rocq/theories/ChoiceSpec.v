(** * ChoiceSpec: ordered choice with sibling backtracking, as a semantics

    An executable-order specification of what "trying candidates in order and
    backtracking into earlier siblings" means, by recursion over the symbols of
    a production; no stack, no loop, no positions kept in states. *)

From Verif Require Export Spec.

Set Implicit Arguments.

Section ChoiceSpec.
  Context {L T : Type}.
  Variable eps : T.
  Variable ps : list (production T).
  Variable tokens : list (token L T).
  (** candidate outputs of a non-terminal for a lookahead type, in order *)
  Variable candidates : T -> T -> list (list T).

  Definition consed (n : node L T) (r : option (list (node L T) * nat))
    : option (list (node L T) * nat) :=
    match r with Some (ns, q) => Some (n :: ns, q) | None => None end.

  (** [choose X p outs r]: try the outputs [outs] for [X] at [p] in order;
      [r] is the tree of the first that succeeds, its end and the outputs left,
      or [None].
      [sequence Xs p r]: parse the symbols [Xs] from [p]; [r] is the list of
      trees and the end.
      [branch X p outs Xs r]: parse [X] with one of [outs], then [Xs]; if [Xs]
      fails after [X] succeeded, [X] is tried again with the outputs left. *)
  Inductive choose : T -> nat -> list (list T) ->
                     option (node L T * nat * list (list T)) -> Prop :=
  | choose_none X p : choose X p [] None
  | choose_first X p out outs ns q :
      sequence out p (Some (ns, q)) ->
      choose X p (out :: outs) (Some (Node ns (Token None X), q, outs))
  | choose_next X p out outs r :
      sequence out p None -> choose X p outs r -> choose X p (out :: outs) r
  with sequence : list T -> nat -> option (list (node L T) * nat) -> Prop :=
  | sequence_nil p : sequence [] p (Some ([], p))
  | sequence_epsilon Xs p r :
      sequence Xs p r ->
      sequence (eps :: Xs) p (consed (Node [] (Token None eps)) r)
  | sequence_token Xs p tok r :
      ~ non_terminal ps (tok_type tok) -> tok_type tok <> eps ->
      nth_error tokens p = Some tok -> sequence Xs (p + 1) r ->
      sequence (tok_type tok :: Xs) p (consed (Node [] tok) r)
  | sequence_mismatch X Xs p :
      ~ non_terminal ps X -> X <> eps ->
      (forall tok, nth_error tokens p = Some tok -> tok_type tok <> X) ->
      sequence (X :: Xs) p None
  | sequence_non_terminal X Xs p tok r :
      non_terminal ps X -> nth_error tokens p = Some tok ->
      branch X p (candidates X (tok_type tok)) Xs r ->
      sequence (X :: Xs) p r
  with branch : T -> nat -> list (list T) -> list T -> option (list (node L T) * nat) -> Prop :=
  | branch_fail X p outs Xs :
      choose X p outs None -> branch X p outs Xs None
  | branch_ok X p outs Xs n q outs' ns q' :
      choose X p outs (Some (n, q, outs')) -> sequence Xs q (Some (ns, q')) ->
      branch X p outs Xs (Some (n :: ns, q'))
  | branch_retry X p outs Xs n q outs' r :
      choose X p outs (Some (n, q, outs')) -> sequence Xs q None ->
      branch X p outs' Xs r -> branch X p outs Xs r.
End ChoiceSpec.
