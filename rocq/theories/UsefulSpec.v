(** * UsefulSpec: productions that can take part in the derivation of a token string *)

From Verif Require Export Spec FollowSpec.

Set Implicit Arguments.

Section UsefulSpec.
  Context {T : Type}.
  Variables eps init : T.
  Variable ps : list (production T).

  (** [p] is applied in some derivation of a string of real terminals from [init] *)
  Definition useful (p : production T) : Prop :=
    exists u v w, derives eps ps [init] (u ++ p_input p :: v) /\
                  derives eps ps (u ++ p_output p ++ v) w /\
                  Forall (fun a => a <> eps /\ ~ non_terminal ps a) w.
End UsefulSpec.

(** [ps] has, in their order, the useful productions of [ps'] and no other *)
Definition useful_part_of {T : Type} (eps init : T) (ps ps' : list (production T)) : Prop :=
  sublist ps ps' /\ forall p, In p ps' -> (In p ps <-> useful eps init ps' p).
