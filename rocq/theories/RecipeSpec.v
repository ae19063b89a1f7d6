(** * RecipeSpec: preparing an LL(1) grammar for the parser *)

From Verif Require Export Spec ProductiveSpec SplitSpec.

Set Implicit Arguments.

(** every non-terminal can be reached from the initial symbol and derives a token string *)
Definition reduced {T : Type} (eps : T) (ps : list (production T)) (init : T) : Prop :=
  forall A, non_terminal ps A -> reachable_from eps ps init A /\ productive eps ps A.

Section Recipe.
  Context {T : Type} {E : EqDec T}.

  (** every symbol of the output has epsilon in its FIRST set, as
      [FirstFollowSymbols::get_first_symbols] returns it *)
  Definition nullable_by (eps : T) (ffs : first_follow_symbols T) (out : list T) : bool :=
    forallb (fun X => match get_first_symbols ffs X with
                      | Some s => existsb (eqb eps) s
                      | None => false
                      end) out.

  (** the productions with a nullable output moved behind the others, orders kept otherwise *)
  Definition nullable_moved_last (eps : T) (ffs : first_follow_symbols T)
             (ps : list (production T)) : list (production T) :=
    filter (fun p => negb (nullable_by eps ffs (p_output p))) ps ++
    filter (fun p => nullable_by eps ffs (p_output p)) ps.

  (** both rewritings: nullable alternatives last, then aliases for repeated neighbours *)
  Definition prepared (alias : T -> T) (eps : T) (ffs : first_follow_symbols T)
             (ps : list (production T)) : list (production T) :=
    split_repeats alias (nullable_moved_last eps ffs ps).
End Recipe.
