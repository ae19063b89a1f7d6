(** * ReachSpec: where the symbols an error report names were looked for *)

From Verif Require Export ReportSpec.

Set Implicit Arguments.

Section ReachSpec.
  Context {L T : Type}.
  Variable eps : T.
  Variable ps : list (production T).
  Variable tokens : list (token L T).

  (** [named_at f p Y q]: [f], the report of a failure at position [p], names, at some depth, the
      symbol [Y] as failed at position [q]: a failed production of [f] got to the symbol that failed
      in it by reading what the symbols before it derive *)
  Inductive named_at : failed_symbol L T -> nat -> T -> nat -> Prop :=
  | named_itself fps Y p : named_at (FailedSymbol fps Y) p Y p
  | named_inside fps X f parsed pending u v ns w p q Y r :
      In (FailedProduction f parsed pending) fps ->
      In (Production X (u ++ failed_symbol_type f :: v)) ps ->
      forest_for eps ps u ns w -> between tokens p w q ->
      named_at f q Y r ->
      named_at (FailedSymbol fps X) p Y r.
End ReachSpec.
