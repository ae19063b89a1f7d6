(** * RecoverSpec: ordered choice with reports and a solver, as a semantics

    The counterpart of ChoiceSpec.v that also says what a failure reports,
    when the solver is called and with what, and what becomes of its answers.
    Recursion over the symbols of a production; no stack, no loop, no state.
    The calls of the solver are threaded through: [h] before, [h'] after. *)

From Verif Require Export Spec.

Set Implicit Arguments.

Section RecoverSpec.
  Context {L T : Type}.
  Variable eps : T.
  Variable ps : list (production T).
  Variable tokens : list (token L T).
  (** candidate outputs of a non-terminal for a lookahead type, in order *)
  Variable candidates : T -> T -> list (list T).
  Variable solver : option (syntax_error_solver L T).

  Notation calls := (list (solver_call L T)).

  (** what deriving a symbol leads to: a tree, its end and the outputs not
      tried; a fixed symbol and where to go on; or a report *)
  Inductive derived : Type :=
  | DTree (n : node L T) (q : nat) (left : list (list T))
  | DFixed (fs : fixed_symbol L T) (q : nat)
  | DFailed (f : failed_symbol L T).

  (** what parsing a sequence of symbols leads to: one part per symbol and the
      end; or the symbol that failed and what is listed as parsed before it *)
  Inductive parsed : Type :=
  | PParts (parts : list (fixed_production_part L T)) (q : nat)
  | PFailed (f : failed_symbol L T) (before : list (production_parsed_symbol L T)).

  (** ... with one more symbol in front *)
  Definition after_leaf (n : node L T) (r : parsed) : parsed :=
    match r with
    | PParts parts q => PParts (FPartOk n :: parts) q
    | PFailed f before => PFailed f (ParsedOk n :: before)
    end.
  Definition after_fixed (fs : fixed_symbol L T) (r : parsed) : parsed :=
    match r with
    | PParts parts q => PParts (FPartFixed fs :: parts) q
    | PFailed f before => PFailed f (ParsedFix fs :: before)
    end.

  (** the trees of a list of parts, if none is fixed *)
  Fixpoint trees (parts : list (fixed_production_part L T)) : option (list (node L T)) :=
    match parts with
    | [] => Some []
    | FPartOk n :: parts' =>
        match trees parts' with Some ns => Some (n :: ns) | None => None end
    | _ :: _ => None
    end.

  (** a production all of whose symbols were parsed or fixed *)
  Definition built (X : T) (parts : list (fixed_production_part L T)) (q : nat)
             (left : list (list T)) : derived :=
    match trees parts with
    | Some ns => DTree (Node ns (Token None X)) q left
    | None => DFixed (FixedSymbol (FixedProduction parts) X) q
    end.

  (** the report of a production one of whose symbols failed *)
  Definition production_report (out : list T) (f : failed_symbol L T)
             (before : list (production_parsed_symbol L T)) : failed_production L T :=
    FailedProduction f before (skipn (length before + 1) out).

  (** the call for the failed outputs [fps] of a symbol at [p] *)
  Definition fix_call (p : nat) (fps : list (failed_production L T)) : solver_call L T :=
    match fps with
    | [fp] => FixFailedProduction tokens p fp
    | _ => FixFailedProductions tokens p fps
    end.

  (** [derive single X p outs h r h']: derive [X] at [p] by one of [outs];
      [single]: nothing else is left to try above *)
  Inductive derive : bool -> T -> nat -> list (list T) -> calls -> derived -> calls -> Prop :=
  | derive_done single X p outs h r h' :
      attempt (single && Nat.eqb (length outs) 1) X p outs [] h (inl r) h' ->
      derive single X p outs h r h'
  | derive_failed single X p outs h fps h' :
      attempt (single && Nat.eqb (length outs) 1) X p outs [] h (inr fps) h' ->
      (single = false \/ solver = None) ->
      derive single X p outs h (DFailed (FailedSymbol fps X)) h'
  | derive_refused X p outs h fps h' s :
      attempt (Nat.eqb (length outs) 1) X p outs [] h (inr fps) h' ->
      solver = Some s -> s h' (fix_call p fps) = Reply None ->
      derive true X p outs h (DFailed (FailedSymbol fps X)) (h' ++ [fix_call p fps])
  | derive_fixed X p outs h fps h' s fp q :
      attempt (Nat.eqb (length outs) 1) X p outs [] h (inr fps) h' ->
      solver = Some s -> s h' (fix_call p fps) = Reply (Some (FixResult q fp)) ->
      derive true X p outs h (DFixed (FixedSymbol fp X) q) (h' ++ [fix_call p fps])
  (** [attempt single X p outs fps h r h']: try [outs] in order, [fps] being the
      reports of those tried before; the first that does not fail decides *)
  with attempt : bool -> T -> nat -> list (list T) -> list (failed_production L T) -> calls ->
                 derived + list (failed_production L T) -> calls -> Prop :=
  | attempt_none single X p fps h : attempt single X p [] fps h (inr fps) h
  | attempt_first single X p out outs fps h parts q h' :
      parse single out p h (PParts parts q) h' ->
      attempt single X p (out :: outs) fps h (inl (built X parts q outs)) h'
  | attempt_next single X p out outs fps h f before h' r h'' :
      parse single out p h (PFailed f before) h' ->
      attempt single X p outs (fps ++ [production_report out f before]) h' r h'' ->
      attempt single X p (out :: outs) fps h r h''
  (** [parse single Xs p h r h']: parse the symbols [Xs] from [p] *)
  with parse : bool -> list T -> nat -> calls -> parsed -> calls -> Prop :=
  | parse_nil single p h : parse single [] p h (PParts [] p) h
  | parse_epsilon single Xs p h r h' :
      parse single Xs p h r h' ->
      parse single (eps :: Xs) p h (after_leaf (Node [] (Token None eps)) r) h'
  | parse_token single Xs p tok h r h' :
      ~ non_terminal ps (tok_type tok) -> tok_type tok <> eps ->
      nth_error tokens p = Some tok -> parse single Xs (p + 1) h r h' ->
      parse single (tok_type tok :: Xs) p h (after_leaf (Node [] tok) r) h'
  | parse_mismatch single X Xs p h :
      ~ non_terminal ps X -> X <> eps ->
      (forall tok, nth_error tokens p = Some tok -> tok_type tok <> X) ->
      parse single (X :: Xs) p h (PFailed (FailedSymbol [] X) []) h
  | parse_non_terminal single X Xs p tok h r h' :
      non_terminal ps X -> nth_error tokens p = Some tok ->
      branch single X p (candidates X (tok_type tok)) Xs h r h' ->
      parse single (X :: Xs) p h r h'
  (** [branch single X p outs Xs h r h']: derive [X] by one of [outs], then parse [Xs] *)
  with branch : bool -> T -> nat -> list (list T) -> list T -> calls -> parsed -> calls -> Prop :=
  | branch_failed single X p outs Xs h f h' :
      derive single X p outs h (DFailed f) h' ->
      branch single X p outs Xs h (PFailed f []) h'
  | branch_fixed single X p outs Xs h fs q h' r h'' :
      derive single X p outs h (DFixed fs q) h' -> parse single Xs q h' r h'' ->
      branch single X p outs Xs h (after_fixed fs r) h''
  | branch_tree single X p outs Xs h n q left h' parts q' h'' :
      derive single X p outs h (DTree n q left) h' -> parse single Xs q h' (PParts parts q') h'' ->
      branch single X p outs Xs h (PParts (FPartOk n :: parts) q') h''
  | branch_retry single X p outs Xs h n q left h' f before h'' r h''' :
      derive single X p outs h (DTree n q left) h' -> parse single Xs q h' (PFailed f before) h'' ->
      retry single X p left Xs f before h'' r h''' ->
      branch single X p outs Xs h r h'''
  (** [retry single X p outs Xs f before h r h']: derive [X] again, by one of
      the outputs left, after the parse of [Xs] has failed with [f], [before];
      if that gives no tree this failure stands (and an answer is dropped) *)
  with retry : bool -> T -> nat -> list (list T) -> list T -> failed_symbol L T ->
               list (production_parsed_symbol L T) -> calls -> parsed -> calls -> Prop :=
  | retry_failed single X p outs Xs f before h r h' :
      derive single X p outs h r h' -> (forall n q left, r <> DTree n q left) ->
      retry single X p outs Xs f before h (PFailed f before) h'
  | retry_tree single X p outs Xs f before h n q left h' parts q' h'' :
      derive single X p outs h (DTree n q left) h' -> parse single Xs q h' (PParts parts q') h'' ->
      retry single X p outs Xs f before h (PParts (FPartOk n :: parts) q') h''
  | retry_again single X p outs Xs f before h n q left h' f' before' h'' r h''' :
      derive single X p outs h (DTree n q left) h' -> parse single Xs q h' (PFailed f' before') h'' ->
      retry single X p left Xs f' before' h'' r h''' ->
      retry single X p outs Xs f before h r h'''.

  (** what the user gets *)
  Definition answer_of (r : derived) : parse_result L T :=
    match r with
    | DTree n _ _ => ResultOk n
    | DFixed fs _ => ResultFix fs
    | DFailed f => ResultErr f
    end.
End RecoverSpec.

Arguments derived : clear implicits.
Arguments parsed : clear implicits.
