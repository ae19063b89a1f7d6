(** * SessionSpec: iterators and the repeated use of a parser *)

From Verif Require Export Spec Session.

Set Implicit Arguments.

Section SessionSpec.
  Context {L T : Type}.

  (** the iterator yields [tokens] and then ends *)
  Definition yields (it : token_iterator L T) (tokens : list (token L T)) : Prop :=
    (forall i tok, nth_error tokens i = Some tok -> it i = NextToken tok) /\
    it (length tokens) = NextEnd.

  (** it yields [n] tokens and then [reply] *)
  Definition breaks (it : token_iterator L T) (n : nat) (reply : next_reply L T) : Prop :=
    (forall i, i < n -> exists tok, it i = NextToken tok) /\ it n = reply.

  (** it never ends *)
  Definition endless (it : token_iterator L T) : Prop :=
    forall i, exists tok, it i = NextToken tok.

  (** a solver with the calls [earlier] already made *)
  Definition resumed (earlier : list (solver_call L T)) (s : syntax_error_solver L T)
    : syntax_error_solver L T := fun h c => s (earlier ++ h) c.

  Definition resumed_parser (earlier : list (solver_call L T)) (self : parser L T) : parser L T :=
    {| pr_grammar := pr_grammar self;
       pr_solver := option_map (resumed earlier) (pr_solver self);
       pr_transitions := pr_transitions self |}.

  (** the answer depends on the call only *)
  Definition stateless (solver : option (syntax_error_solver L T)) : Prop :=
    forall s h h' c, solver = Some s -> s h c = s h' c.
End SessionSpec.

(** each input of a session is parsed by itself *)
Inductive session {L T : Type} {E : EqDec T} (self : parser L T)
  : list (solver_call L T) -> list (list (token L T)) ->
    list (parse_result L T) -> list (solver_call L T) -> Prop :=
| session_end earlier : session self earlier [] [] earlier
| session_parse earlier tokens inputs r h rs h' :
    terminates_with (fun fuel => parse_from_tokens fuel (resumed_parser earlier self) tokens)
                    (Done (r, h)) ->
    session self (earlier ++ h) inputs rs h' ->
    session self earlier (tokens :: inputs) (r :: rs) h'.
