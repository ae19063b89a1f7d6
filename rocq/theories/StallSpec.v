(** * StallSpec: solvers that stand still only finitely often *)

From Verif Require Export Spec.

Set Implicit Arguments.

(** after the calls [h], the call [c] is answered with a fix that ends at or
    before the position of the call *)
Definition stalled {L T : Type} (s : syntax_error_solver L T) (h : list (solver_call L T))
           (c : solver_call L T) : Prop :=
  exists fr, s h c = Reply (Some fr) /\ fr_final_token_position fr <= call_position c.

(** [h'] continues [h] with calls on [tokens], and the last one stalled *)
Definition stalls_again {L T : Type} (tokens : list (token L T)) (s : syntax_error_solver L T)
           (h' h : list (solver_call L T)) : Prop :=
  exists k c, h' = h ++ k ++ [c] /\
    Forall (fun c => call_tokens c = tokens /\ call_position c < length tokens) (k ++ [c]) /\
    stalled s (h ++ k) c.

(** every call ends, and no endless sequence of calls on [tokens] stalls
    infinitely often *)
Definition finitely_stalling {L T : Type} (tokens : list (token L T))
           (solver : option (syntax_error_solver L T)) : Prop :=
  forall s, solver = Some s ->
  (forall h c, s h c <> ReplyNever) /\ well_founded (stalls_again tokens s).
