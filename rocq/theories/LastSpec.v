(** * LastSpec: nullable alternatives declared last *)

From Verif Require Export Spec.

Set Implicit Arguments.

(** Of the alternatives of a non-terminal, one that derives the empty string comes after
    all the others: nothing but itself is declared after it for the same non-terminal. *)
Definition nullable_last {T : Type} (eps : T) (ps : list (production T)) : Prop :=
  forall before p after q,
    ps = before ++ p :: after -> In q after -> p_input q = p_input p -> q <> p ->
    ~ nullable eps ps (p_output p).

(** [vanishes a w]: with the next token of type [a] the table allows [w] to be parsed
    without reading anything *)
Section Vanish.
  Context {T : Type}.
  Variable eps : T.
  Variable ps : list (production T).
  (** candidate outputs of a non-terminal for a lookahead type *)
  Variable candidates : T -> T -> list (list T).
  Variable a : T.

  Inductive vanishes : list T -> Prop :=
  | vanishes_nil : vanishes []
  | vanishes_epsilon Xs : vanishes Xs -> vanishes (eps :: Xs)
  | vanishes_symbol X out Xs :
      non_terminal ps X -> In out (candidates X a) -> vanishes out -> vanishes Xs ->
      vanishes (X :: Xs).
End Vanish.

(** In no cell of the table does a candidate that vanishes stand before the production
    that belongs there by the textbook.  True of tables without conflicts, and of every
    table when nullable alternatives are declared last. *)
Definition nothing_vanishes_early {T : Type} (eps : T) (ps : list (production T)) (init : T)
           (candidates : T -> T -> list (list T)) : Prop :=
  forall A a l1 out l2 p,
    reachable_from eps ps init A -> candidates A a = l1 ++ out :: l2 ->
    In (p_output p) l2 -> p_output p <> out -> textbook_cell eps ps init A a p ->
    ~ vanishes eps ps candidates a out.

(** The table holds the productions the textbook puts into its cells, wherever [init]
    leads to. *)
Definition textbook_cells_filled {T : Type} (eps : T) (ps : list (production T)) (init : T)
           (candidates : T -> T -> list (list T)) : Prop :=
  forall A a p, reachable_from eps ps init A -> textbook_cell eps ps init A a p ->
    In (p_output p) (candidates A a).

(** Where a production that [init] leads to uses [A], and a candidate of [A] that vanishes
    stands before the textbook production of the cell, what comes after [A] in that
    production does not vanish: the next symbol fails and [A] is tried again. *)
Definition no_early_ending {T : Type} (eps : T) (ps : list (production T)) (init : T)
           (candidates : T -> T -> list (list T)) : Prop :=
  forall q before A after a l1 out l2 p,
    In q ps -> reachable_from eps ps init (p_input q) -> p_output q = before ++ A :: after ->
    candidates A a = l1 ++ out :: l2 -> ~ In (p_output p) (l1 ++ [out]) -> In (p_output p) l2 ->
    textbook_cell eps ps init A a p -> vanishes eps ps candidates a out ->
    ~ vanishes eps ps candidates a after.
