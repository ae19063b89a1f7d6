(** * SplitSpec: writing a grammar without repeated neighbours

    Where an output has the same non-terminal twice in a row, [B B], the second [B] is
    replaced by a fresh symbol [alias B] whose only production is [alias B -> B]. *)

From Verif Require Export Spec DepthSpec.

Set Implicit Arguments.

Section SplitSpec.
  Context {T : Type} {E : EqDec T}.
  Variable alias : T -> T.

  (** [A A] occurs in [out] *)
  Fixpoint twice (A : T) (out : list T) : bool :=
    match out with
    | X :: ((Y :: _) as out') => (eqb A X && eqb A Y) || twice A out'
    | _ => false
    end.

  (** the non-terminals that some output has twice in a row *)
  Definition repeated (ps : list (production T)) : list T :=
    filter (fun A => existsb (fun p => twice A (p_output p)) ps) (non_terminals ps).

  Section Output.
    Variable ps : list (production T).

    (** [last]: the symbol just before, unless it was replaced *)
    Fixpoint split_output (last : option T) (out : list T) : list T :=
      match out with
      | [] => []
      | X :: out' =>
          if match last with Some Y => eqb Y X && existsb (eqb X) (repeated ps) | None => false end
          then alias X :: split_output None out'
          else X :: split_output (Some X) out'
      end.
  End Output.

  (** the productions with the outputs split, then those of the aliases *)
  Definition split_repeats (ps : list (production T)) : list (production T) :=
    map (fun p => Production (p_input p) (split_output ps None (p_output p))) ps ++
    map (fun A => Production (alias A) [A]) (repeated ps).

  (** the aliases are new, and different for different symbols *)
  Definition fresh_aliases (eps : T) (ps : list (production T)) : Prop :=
    (forall A B, In A (repeated ps) -> In B (repeated ps) -> alias A = alias B -> A = B) /\
    (forall A, In A (repeated ps) ->
       alias A <> eps /\ ~ non_terminal ps (alias A) /\ ~ occurs_in_output ps (alias A)).

  Definition is_alias (ps : list (production T)) (X : T) : bool :=
    existsb (fun A => eqb (alias A) X) (repeated ps).

  (** the tree with every alias node replaced by its child *)
  Fixpoint merge_aliases {L : Type} (ps : list (production T)) (n : node L T) : node L T :=
    match n with
    | Node children tok =>
        if is_alias ps (tok_type tok) then
          match children with
          | [child] => merge_aliases ps child
          | _ => n
          end
        else Node (map (merge_aliases ps) children) tok
    end.
End SplitSpec.
