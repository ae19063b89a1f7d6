(** * FirstChoiceSpec: trees that follow the first candidate everywhere *)

From Verif Require Export Spec.

Set Implicit Arguments.

Section FirstChoiceSpec.
  Context {L T : Type}.
  Variable eps : T.
  Variable ps : list (production T).
  Variable tokens : list (token L T).
  (** candidate outputs of a non-terminal for a lookahead type, in order *)
  Variable candidates : T -> T -> list (list T).

  (** [first_tree X n p q]: [n] is a tree of [X] over the tokens from [p] up to [q], in which
      every inner node uses the first of the candidates for its symbol and the token it starts at *)
  Inductive first_tree : T -> node L T -> nat -> nat -> Prop :=
  | first_token tok p :
      tok_type tok <> eps -> ~ non_terminal ps (tok_type tok) -> nth_error tokens p = Some tok ->
      first_tree (tok_type tok) (Node [] tok) p (p + 1)
  | first_epsilon p : ~ non_terminal ps eps ->
      first_tree eps (Node [] (Token None eps)) p p
  | first_candidate X tok out others children p q :
      non_terminal ps X -> nth_error tokens p = Some tok -> candidates X (tok_type tok) = out :: others ->
      first_forest out children p q ->
      first_tree X (Node children (Token None X)) p q
  with first_forest : list T -> list (node L T) -> nat -> nat -> Prop :=
  | first_nil p : first_forest [] [] p p
  | first_cons X Xs n ns p q q' :
      first_tree X n p q -> first_forest Xs ns q q' -> first_forest (X :: Xs) (n :: ns) p q'.
End FirstChoiceSpec.
