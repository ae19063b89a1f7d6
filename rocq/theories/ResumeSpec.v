(** * ResumeSpec: parses that run at the same time, compared with parses that run alone *)

From Verif Require Export Resume PropReports.

Set Implicit Arguments.

Section ResumeSpec.
  Context {L T : Type}.

  (** the same parser, with a private solver if it has one *)
  Definition privately (self : parser L T) (p : syntax_error_solver L T) : parser L T :=
    with_solver self (match pr_solver self with Some _ => Some p | None => None end).

  (** the calls of parse i, in the order in which it made them *)
  Definition own (i : nat) (calls : list (nat * solver_call L T)) : history L T :=
    map snd (filter (fun entry => Nat.eqb (fst entry) i) calls).

  (** a private solver that answers parse i as the shared one did *)
  Definition same_replies (s : shared_solver) (i : nat) (p : syntax_error_solver L T)
             (calls : list (nat * solver_call L T)) : Prop :=
    forall before c after,
      calls = before ++ (i, c) :: after -> p (own i before) c = s before i c.

  (** the replies to parse i depend on its own calls only: [p i] is its private solver.
      A solver without state is of this kind. *)
  Definition apart (s : shared_solver) (p : nat -> syntax_error_solver L T) : Prop :=
    forall calls i c, s calls i c = p i (own i calls) c.
End ResumeSpec.
