(** * ProductiveSpec: symbols that derive token strings *)

From Verif Require Export Spec.

Set Implicit Arguments.

Section ProductiveSpec.
  Context {T : Type}.
  Variable eps : T.
  Variable ps : list (production T).

  (** [X] derives a string of real terminals (perhaps the empty one) *)
  Definition productive (X : T) : Prop :=
    exists w, derives eps ps [X] w /\ Forall (fun a => a <> eps /\ ~ non_terminal ps a) w.

  (** every non-terminal that [S] leads to is productive *)
  Definition all_productive (S : T) : Prop :=
    forall X, non_terminal ps X -> reachable_from eps ps S X -> productive X.
End ProductiveSpec.
