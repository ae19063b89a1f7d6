(** * ForeverSpec: when ordered choice never comes to an end

    Companion of ChoiceSpec.v and PastSpec.v.  The predicates below say that
    trying candidates in order, with the same backtracking, descends for ever.
    They are coinductive: an infinite descent is a proof of them, and nothing
    else is. *)

From Verif Require Export PastSpec.

Set Implicit Arguments.

Section ForeverSpec.
  Context {L T : Type}.
  Variable eps : T.
  Variable ps : list (production T).
  Variable tokens : list (token L T).
  Variable candidates : T -> T -> list (list T).
  Notation choose := (choose eps ps tokens candidates).
  Notation sequence := (sequence eps ps tokens candidates).

  CoInductive choose_forever : T -> nat -> list (list T) -> Prop :=
  | choose_forever_first X p out outs :
      sequence_forever out p -> choose_forever X p (out :: outs)
  | choose_forever_next X p out outs :
      sequence out p None -> choose_forever X p outs -> choose_forever X p (out :: outs)
  with sequence_forever : list T -> nat -> Prop :=
  | sequence_forever_epsilon Xs p :
      sequence_forever Xs p -> sequence_forever (eps :: Xs) p
  | sequence_forever_token Xs p tok :
      ~ non_terminal ps (tok_type tok) -> tok_type tok <> eps ->
      nth_error tokens p = Some tok -> sequence_forever Xs (p + 1) ->
      sequence_forever (tok_type tok :: Xs) p
  | sequence_forever_non_terminal X Xs p tok :
      non_terminal ps X -> nth_error tokens p = Some tok ->
      branch_forever X p (candidates X (tok_type tok)) Xs ->
      sequence_forever (X :: Xs) p
  with branch_forever : T -> nat -> list (list T) -> list T -> Prop :=
  | branch_forever_here X p outs Xs : choose_forever X p outs -> branch_forever X p outs Xs
  | branch_forever_after X p outs Xs n q outs' :
      choose X p outs (Some (n, q, outs')) -> sequence_forever Xs q -> branch_forever X p outs Xs
  | branch_forever_retry X p outs Xs n q outs' :
      choose X p outs (Some (n, q, outs')) -> sequence Xs q None ->
      branch_forever X p outs' Xs -> branch_forever X p outs Xs.
End ForeverSpec.
