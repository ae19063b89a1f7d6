(** * EpsFreeSpec: grammars without epsilon productions *)

From Verif Require Export Spec.

Set Implicit Arguments.

Section EpsFreeSpec.
  Context {T : Type}.
  Variable eps : T.
  Variable ps : list (production T).

  (** no production mentions epsilon *)
  Definition epsilon_free : Prop := forall p, In p ps -> ~ In eps (p_output p).

  (** a simple grammar: every production starts with a terminal other than epsilon, no
      production is declared twice, and no two productions of a symbol start with the same
      terminal *)
  Definition simple_grammar : Prop :=
    epsilon_free /\ NoDup ps /\
    (forall p, In p ps -> exists a rest, p_output p = a :: rest /\ ~ non_terminal ps a) /\
    (forall p q a rest rest', In p ps -> In q ps -> p_input p = p_input q ->
       p_output p = a :: rest -> p_output q = a :: rest' -> p = q).
End EpsFreeSpec.
