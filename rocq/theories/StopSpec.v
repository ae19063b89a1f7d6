(** * StopSpec: how the computation of RecoverSpec.v can fail to return

    Companion of RecoverSpec.v: the same recursion, stopped on its way because a
    lookahead beyond the last token is needed, because the solver panics or never
    replies to a call, or because non-terminals have been nested too deep. *)

From Verif Require Export RecoverSpec.

Set Implicit Arguments.

Inductive why : Type :=
| PastTheEnd
| SolverPanics
| SolverHangs
| TooDeep (n : nat).   (* [n] derivations nested below are too many *)

(** ... seen from one derivation further in *)
Definition below (w : why) : why :=
  match w with TooDeep (S n) => TooDeep n | _ => w end.

Section StopSpec.
  Context {L T : Type}.
  Variable eps : T.
  Variable ps : list (production T).
  Variable tokens : list (token L T).
  Variable candidates : T -> T -> list (list T).
  Variable solver : option (syntax_error_solver L T).

  Notation calls := (list (solver_call L T)).
  Notation derive := (derive eps ps tokens candidates solver).
  Notation attempt := (attempt eps ps tokens candidates solver).
  Notation parse := (parse eps ps tokens candidates solver).

  Inductive derive_stops : why -> bool -> T -> nat -> list (list T) -> calls -> Prop :=
  | derive_stops_deep single X p outs h : derive_stops (TooDeep 0) single X p outs h
  | derive_stops_inside w single X p outs h :
      attempt_stops (below w) (single && Nat.eqb (length outs) 1) X p outs h ->
      derive_stops w single X p outs h
  | derive_stops_panic X p outs h fps h' s :
      attempt (Nat.eqb (length outs) 1) X p outs [] h (inr fps) h' ->
      solver = Some s -> s h' (fix_call tokens p fps) = ReplyPanics ->
      derive_stops SolverPanics true X p outs h
  | derive_stops_hang X p outs h fps h' s :
      attempt (Nat.eqb (length outs) 1) X p outs [] h (inr fps) h' ->
      solver = Some s -> s h' (fix_call tokens p fps) = ReplyNever ->
      derive_stops SolverHangs true X p outs h
  with attempt_stops : why -> bool -> T -> nat -> list (list T) -> calls -> Prop :=
  | attempt_stops_first w single X p out outs h :
      parse_stops w single out p h -> attempt_stops w single X p (out :: outs) h
  | attempt_stops_next w single X p out outs h f before h' :
      parse single out p h (PFailed f before) h' ->
      attempt_stops w single X p outs h' ->
      attempt_stops w single X p (out :: outs) h
  with parse_stops : why -> bool -> list T -> nat -> calls -> Prop :=
  | parse_stops_past single X Xs p h :
      non_terminal ps X -> nth_error tokens p = None ->
      parse_stops PastTheEnd single (X :: Xs) p h
  | parse_stops_epsilon w single Xs p h :
      parse_stops w single Xs p h -> parse_stops w single (eps :: Xs) p h
  | parse_stops_token w single Xs p tok h :
      ~ non_terminal ps (tok_type tok) -> tok_type tok <> eps ->
      nth_error tokens p = Some tok -> parse_stops w single Xs (p + 1) h ->
      parse_stops w single (tok_type tok :: Xs) p h
  | parse_stops_non_terminal w single X Xs p tok h :
      non_terminal ps X -> nth_error tokens p = Some tok ->
      branch_stops w single X p (candidates X (tok_type tok)) Xs h ->
      parse_stops w single (X :: Xs) p h
  with branch_stops : why -> bool -> T -> nat -> list (list T) -> list T -> calls -> Prop :=
  | branch_stops_here w single X p outs Xs h :
      derive_stops w single X p outs h -> branch_stops w single X p outs Xs h
  | branch_stops_fixed w single X p outs Xs h fs q h' :
      derive single X p outs h (DFixed fs q) h' -> parse_stops w single Xs q h' ->
      branch_stops w single X p outs Xs h
  | branch_stops_tree w single X p outs Xs h n q left h' :
      derive single X p outs h (DTree n q left) h' -> parse_stops w single Xs q h' ->
      branch_stops w single X p outs Xs h
  | branch_stops_retry w single X p outs Xs h n q left h' f before h'' :
      derive single X p outs h (DTree n q left) h' -> parse single Xs q h' (PFailed f before) h'' ->
      retry_stops w single X p left Xs h'' ->
      branch_stops w single X p outs Xs h
  with retry_stops : why -> bool -> T -> nat -> list (list T) -> list T -> calls -> Prop :=
  | retry_stops_here w single X p outs Xs h :
      derive_stops w single X p outs h -> retry_stops w single X p outs Xs h
  | retry_stops_tree w single X p outs Xs h n q left h' :
      derive single X p outs h (DTree n q left) h' -> parse_stops w single Xs q h' ->
      retry_stops w single X p outs Xs h
  | retry_stops_again w single X p outs Xs h n q left h' f before h'' :
      derive single X p outs h (DTree n q left) h' -> parse single Xs q h' (PFailed f before) h'' ->
      retry_stops w single X p left Xs h'' ->
      retry_stops w single X p outs Xs h.
End StopSpec.
