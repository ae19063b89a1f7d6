(** * GuidedSpec: parse trees a predictive parser could build

    A tree is guided if every production in it is among the candidates of its
    symbol for the token at the position where the subtree starts. *)

From Verif Require Export Spec.

Set Implicit Arguments.

Section GuidedSpec.
  Context {L T : Type}.
  Variable eps : T.
  Variable ps : list (production T).
  Variable tokens : list (token L T).
  (** candidate outputs of a non-terminal for a lookahead type *)
  Variable candidates : T -> T -> list (list T).

  (** [guided X p n q]: [n] is a guided parse tree of [X] over the tokens at
      positions [p], ..., [q - 1] *)
  Inductive guided : T -> nat -> node L T -> nat -> Prop :=
  | guided_token tok p :
      tok_type tok <> eps -> ~ non_terminal ps (tok_type tok) ->
      nth_error tokens p = Some tok ->
      guided (tok_type tok) p (Node [] tok) (p + 1)
  | guided_epsilon p : guided eps p (Node [] (Token None eps)) p
  | guided_production A p tok out ns q :
      non_terminal ps A -> nth_error tokens p = Some tok ->
      In out (candidates A (tok_type tok)) ->
      guided_forest out p ns q ->
      guided A p (Node ns (Token None A)) q
  with guided_forest : list T -> nat -> list (node L T) -> nat -> Prop :=
  | guided_nil p : guided_forest [] p [] p
  | guided_cons X Xs p n q ns q' :
      guided X p n q -> guided_forest Xs q ns q' ->
      guided_forest (X :: Xs) p (n :: ns) q'.

  (** [A] stands before another symbol in some production *)
  Definition has_right_sibling (A : T) : Prop :=
    exists p u Y v, In p ps /\ p_output p = u ++ A :: Y :: v.

  (** Where a candidate production of such a symbol starts determines where it
      ends: no two guided forests of the same production from the same
      position end at different positions. *)
  Definition determined_extents : Prop :=
    forall A p tok out ns q ns' q',
      has_right_sibling A -> nth_error tokens p = Some tok ->
      In out (candidates A (tok_type tok)) ->
      guided_forest out p ns q -> guided_forest out p ns' q' -> q = q'.
End GuidedSpec.

(** In terms of the grammar alone: the sentences of every production of a
    symbol with a right sibling are prefix-free. *)
Definition prefix_free_productions {T : Type} (eps : T) (ps : list (production T)) : Prop :=
  forall p u v, In p ps -> has_right_sibling ps (p_input p) ->
    Forall (fun x => x <> eps /\ ~ non_terminal ps x) (u ++ v) ->
    derives eps ps (p_output p) u -> derives eps ps (p_output p) (u ++ v) -> v = [].
