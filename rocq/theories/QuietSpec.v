(** * QuietSpec: parses that need no second thoughts *)

From Verif Require Export Spec ChoiceSpec GuidedSpec.

Set Implicit Arguments.

Section QuietSpec.
  Context {L T : Type}.
  Variable eps : T.
  Variable ps : list (production T).
  Variable tokens : list (token L T).
  (** candidate outputs of a non-terminal for a lookahead type, in order *)
  Variable candidates : T -> T -> list (list T).

  (** [settled X p n q]: [n] is a tree of [X] over the tokens [p], ..., [q - 1], and
      from its root down, as long as each symbol has just one candidate, the
      symbols of a production are parsed one after the other, none of them twice.
      Below a symbol with several candidates they are tried in order, with
      backtracking ([choose] of ChoiceSpec.v), and [n] has what that gives. *)
  Inductive settled : T -> nat -> node L T -> nat -> Prop :=
  | settled_token tok p :
      tok_type tok <> eps -> ~ non_terminal ps (tok_type tok) ->
      nth_error tokens p = Some tok ->
      settled (tok_type tok) p (Node [] tok) (p + 1)
  | settled_epsilon p : settled eps p (Node [] (Token None eps)) p
  | settled_single X p tok out ns q :
      non_terminal ps X -> nth_error tokens p = Some tok ->
      candidates X (tok_type tok) = [out] -> settled_forest out p ns q ->
      settled X p (Node ns (Token None X)) q
  | settled_choice X p tok n q left :
      non_terminal ps X -> nth_error tokens p = Some tok ->
      length (candidates X (tok_type tok)) <> 1 ->
      choose eps ps tokens candidates X p (candidates X (tok_type tok)) (Some (n, q, left)) ->
      settled X p n q
  with settled_forest : list T -> nat -> list (node L T) -> nat -> Prop :=
  | settled_nil p : settled_forest [] p [] p
  | settled_cons X Xs p n q ns q' :
      settled X p n q -> settled_forest Xs q ns q' ->
      settled_forest (X :: Xs) p (n :: ns) q'.

  (** Where a symbol starts determines where it ends, for the symbols that stand
      before others in some production. *)
  Definition fixed_extents : Prop :=
    forall A p n q n' q',
      has_right_sibling ps A ->
      guided eps ps tokens candidates A p n q -> guided eps ps tokens candidates A p n' q' ->
      q = q'.
End QuietSpec.

(** In terms of the grammar alone: no sentence of a symbol that stands before
    others continues another sentence of it. *)
Definition prefix_free_symbols {T : Type} (eps : T) (ps : list (production T)) : Prop :=
  forall A u v, has_right_sibling ps A ->
    Forall (fun x => x <> eps /\ ~ non_terminal ps x) (u ++ v) ->
    derives eps ps [A] u -> derives eps ps [A] (u ++ v) -> v = [].
