(** * LoopSpec: which derivation ordered choice starts inside which

    Companion of ChoiceSpec.v.  A call is a symbol, a position, and the
    candidate outputs still to be tried there.  [calls c c'] says that ordered
    choice, working on [c], gets to work on [c'] directly below it. *)

From Verif Require Export ChoiceSpec.

Set Implicit Arguments.

Section LoopSpec.
  Context {L T : Type}.
  Variable eps : T.
  Variable ps : list (production T).
  Variable tokens : list (token L T).
  Variable candidates : T -> T -> list (list T).
  Notation choose := (choose eps ps tokens candidates).
  Notation sequence := (sequence eps ps tokens candidates).

  Definition call : Type := T * nat * list (list T).

  (** some output is reached, the ones before it having failed ... *)
  Inductive calls : call -> call -> Prop :=
  | calls_first X p out outs c' :
      sequence_calls out p c' -> calls (X, p, out :: outs) c'
  | calls_next X p out outs c' :
      sequence out p None -> calls (X, p, outs) c' -> calls (X, p, out :: outs) c'
  (** ... some symbol of it is reached, the ones before it having succeeded ... *)
  with sequence_calls : list T -> nat -> call -> Prop :=
  | sequence_calls_epsilon Xs p c' :
      sequence_calls Xs p c' -> sequence_calls (eps :: Xs) p c'
  | sequence_calls_token Xs p tok c' :
      ~ non_terminal ps (tok_type tok) -> tok_type tok <> eps ->
      nth_error tokens p = Some tok -> sequence_calls Xs (p + 1) c' ->
      sequence_calls (tok_type tok :: Xs) p c'
  | sequence_calls_non_terminal X Xs p tok c' :
      non_terminal ps X -> nth_error tokens p = Some tok ->
      branch_calls X p (candidates X (tok_type tok)) Xs c' ->
      sequence_calls (X :: Xs) p c'
  (** ... and this symbol is derived, perhaps once more after the rest has failed *)
  with branch_calls : T -> nat -> list (list T) -> list T -> call -> Prop :=
  | branch_calls_here X p outs Xs : branch_calls X p outs Xs (X, p, outs)
  | branch_calls_after X p outs Xs n q outs' c' :
      choose X p outs (Some (n, q, outs')) -> sequence_calls Xs q c' ->
      branch_calls X p outs Xs c'
  | branch_calls_retry X p outs Xs n q outs' c' :
      choose X p outs (Some (n, q, outs')) -> sequence Xs q None ->
      branch_calls X p outs' Xs c' -> branch_calls X p outs Xs c'.

  (** some call at or below [c] is made again below itself *)
  Definition loops (c : call) : Prop :=
    exists d, clos_refl_trans_1n _ calls c d /\ clos_trans_1n _ calls d d.
End LoopSpec.
