(** * EndSpec: trees that end in an empty non-terminal *)

From Verif Require Export Spec.

Set Implicit Arguments.

Section EndSpec.
  Context {L T : Type}.
  Variable eps : T.

  (** no token under this node *)
  Inductive tokenless : node L T -> Prop :=
  | tokenless_leaf lex : tokenless (Node [] (Token lex eps))
  | tokenless_inner children tok :
      children <> [] -> Forall tokenless children -> tokenless (Node children tok).

  (** the tree has a node with children after all its tokens *)
  Inductive ends_empty : node L T -> Prop :=
  | ends_empty_here children tok :
      children <> [] -> tokenless (Node children tok) -> ends_empty (Node children tok)
  | ends_empty_below before n after tok :
      ends_empty n -> Forall tokenless after -> ends_empty (Node (before ++ n :: after) tok).
End EndSpec.
