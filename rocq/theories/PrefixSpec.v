(** * PrefixSpec: sentences and their prefixes *)

From Verif Require Export Spec.

Set Implicit Arguments.

Section PrefixSpec.
  Context {T : Type}.
  Variable eps : T.
  Variable ps : list (production T).

  (** a symbol that can be a token of a sentence *)
  Definition real_terminal (x : T) : Prop := x <> eps /\ ~ non_terminal ps x.

  (** [w] is a sentence of [S]: a string of terminals derived from it *)
  Definition sentence (S : T) (w : list T) : Prop :=
    Forall real_terminal w /\ derives eps ps [S] w.

  (** [w] can be continued to a sentence of [S] *)
  Definition viable_prefix (S : T) (w : list T) : Prop :=
    exists v, sentence S (w ++ v).

  (** every non-terminal has a sentence *)
  Definition productive : Prop :=
    forall A, non_terminal ps A -> exists w, sentence A w.
End PrefixSpec.

(** the symbol at the bottom of an error report: follow the first failed
    production of every failed symbol *)
Fixpoint innermost {L T : Type} (f : failed_symbol L T) : T :=
  match f with
  | FailedSymbol [] X => X
  | FailedSymbol (FailedProduction f' _ _ :: _) _ => innermost f'
  end.
