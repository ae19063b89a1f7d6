(** * PegSpec: parsing expression grammars, one result for each symbol and position

    Prioritised choice without second thoughts: once an alternative of a symbol has succeeded, the
    others are not tried, whatever fails later. *)

From Verif Require Export Spec.

Set Implicit Arguments.

Section PegSpec.
  Context {L T : Type}.
  Variable eps : T.
  Variable ps : list (production T).
  Variable tokens : list (token L T).
  (** candidate outputs of a non-terminal for a lookahead type, in order *)
  Variable candidates : T -> T -> list (list T).

  (** [peg X p r]: [X] at [p] gives the tree and the end in [r], or fails *)
  Inductive peg : T -> nat -> option (node L T * nat) -> Prop :=
  | peg_epsilon p : peg eps p (Some (Node [] (Token None eps), p))
  | peg_token tok p :
      ~ non_terminal ps (tok_type tok) -> tok_type tok <> eps -> nth_error tokens p = Some tok ->
      peg (tok_type tok) p (Some (Node [] tok, p + 1))
  | peg_mismatch X p :
      ~ non_terminal ps X -> X <> eps -> (forall tok, nth_error tokens p = Some tok -> tok_type tok <> X) ->
      peg X p None
  | peg_non_terminal X p tok r :
      non_terminal ps X -> nth_error tokens p = Some tok ->
      peg_choice X p (candidates X (tok_type tok)) r -> peg X p r
  with peg_choice : T -> nat -> list (list T) -> option (node L T * nat) -> Prop :=
  | peg_none X p : peg_choice X p [] None
  | peg_first X p out outs ns q :
      peg_sequence out p (Some (ns, q)) ->
      peg_choice X p (out :: outs) (Some (Node ns (Token None X), q))
  | peg_next X p out outs r :
      peg_sequence out p None -> peg_choice X p outs r -> peg_choice X p (out :: outs) r
  with peg_sequence : list T -> nat -> option (list (node L T) * nat) -> Prop :=
  | peg_nil p : peg_sequence [] p (Some ([], p))
  | peg_fails X Xs p : peg X p None -> peg_sequence (X :: Xs) p None
  | peg_fails_later X Xs p n q :
      peg X p (Some (n, q)) -> peg_sequence Xs q None -> peg_sequence (X :: Xs) p None
  | peg_cons X Xs p n q ns q' :
      peg X p (Some (n, q)) -> peg_sequence Xs q (Some (ns, q')) ->
      peg_sequence (X :: Xs) p (Some (n :: ns, q')).
End PegSpec.
