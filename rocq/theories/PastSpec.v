(** * PastSpec: when ordered choice looks beyond the last token

    Companion of ChoiceSpec.v.  Deriving a non-terminal needs a lookahead
    token.  The predicates below say that trying candidates in order, with the
    same backtracking, gets to a non-terminal with no token left. *)

From Verif Require Export ChoiceSpec.

Set Implicit Arguments.

Section PastSpec.
  Context {L T : Type}.
  Variable eps : T.
  Variable ps : list (production T).
  Variable tokens : list (token L T).
  Variable candidates : T -> T -> list (list T).
  Notation choose := (choose eps ps tokens candidates).
  Notation sequence := (sequence eps ps tokens candidates).

  Inductive choose_past : T -> nat -> list (list T) -> Prop :=
  | choose_past_first X p out outs :
      sequence_past out p -> choose_past X p (out :: outs)
  | choose_past_next X p out outs :
      sequence out p None -> choose_past X p outs -> choose_past X p (out :: outs)
  with sequence_past : list T -> nat -> Prop :=
  | sequence_past_end X Xs p :
      non_terminal ps X -> nth_error tokens p = None -> sequence_past (X :: Xs) p
  | sequence_past_epsilon Xs p :
      sequence_past Xs p -> sequence_past (eps :: Xs) p
  | sequence_past_token Xs p tok :
      ~ non_terminal ps (tok_type tok) -> tok_type tok <> eps ->
      nth_error tokens p = Some tok -> sequence_past Xs (p + 1) ->
      sequence_past (tok_type tok :: Xs) p
  | sequence_past_non_terminal X Xs p tok :
      non_terminal ps X -> nth_error tokens p = Some tok ->
      branch_past X p (candidates X (tok_type tok)) Xs ->
      sequence_past (X :: Xs) p
  with branch_past : T -> nat -> list (list T) -> list T -> Prop :=
  | branch_past_here X p outs Xs : choose_past X p outs -> branch_past X p outs Xs
  | branch_past_after X p outs Xs n q outs' :
      choose X p outs (Some (n, q, outs')) -> sequence_past Xs q -> branch_past X p outs Xs
  | branch_past_retry X p outs Xs n q outs' :
      choose X p outs (Some (n, q, outs')) -> sequence Xs q None ->
      branch_past X p outs' Xs -> branch_past X p outs Xs.
End PastSpec.
