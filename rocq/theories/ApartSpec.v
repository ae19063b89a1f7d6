(** * ApartSpec: productions that have nothing to do with a grammar *)

From Verif Require Export Spec FollowSpec RenameSpec.

Set Implicit Arguments.

(** [ps'] is [ps] with more productions, anywhere in the list, that
    - are not for a symbol of [ps] (non-terminal or terminal), and
    - do not mention a non-terminal of [ps] *)
Record adds_apart {T : Type} {E : EqDec T} (ps ps' : list (production T)) : Prop := {
  apart_same : forall A, non_terminal ps A -> declared_for ps' A = declared_for ps A;
  apart_terminals : forall x, terminal ps x -> ~ non_terminal ps' x;
  apart_unused : forall p x, In p ps' -> ~ non_terminal ps (p_input p) ->
    In x (p_output p) -> ~ non_terminal ps x
}.

(** [ps] is the part of [ps'] that can be reached from [init]: the productions of the
    symbols that occur in what [init] derives, in their order *)
Definition reachable_part_of {T : Type} (eps init : T) (ps ps' : list (production T)) : Prop :=
  sublist ps ps' /\
  forall p, In p ps' -> (In p ps <-> reachable_from eps ps' init (p_input p)).
