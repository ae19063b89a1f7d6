(** * ReportSpec: vocabulary for error reports, fixes and solver calls

    Like Spec.v, nothing here refers to how the parser computes; the
    parameters are the user's grammar, the tokens, the candidate outputs of a
    symbol for a lookahead type (in table order), and the solver's answers. *)

From Verif Require Export Spec.

Set Implicit Arguments.

(** the tokens from position [p] to position [q] are [w] *)
Definition between {A : Type} (tokens : list A) (p : nat) (w : list A) (q : nat) : Prop :=
  q = p + length w /\ prefix w (skipn p tokens).

(** the failed productions a call reports *)
Definition call_failures {L T : Type} (c : solver_call L T) : list (failed_production L T) :=
  match c with
  | FixFailedProduction _ _ fp => [fp]
  | FixFailedProductions _ _ fps => fps
  end.

(** [fp] has the shape of a report on the output [out]: it names a symbol of [out] as the
    one that failed, and what it lists as pending is the end of [out] *)
Definition report_on {L T : Type} (out : list T) (fp : failed_production L T) : Prop :=
  exists u Y v fps parsed, out = u ++ Y :: v /\
    fp = FailedProduction (FailedSymbol fps Y) parsed (skipn (length parsed + 1) out).

(** the call [c] is about the symbol [X]: it reports, one by one, on the last candidates of
    [X] for the token at the position of the call *)
Definition call_about {L T : Type} (candidates : T -> T -> list (list T)) (X : T)
           (c : solver_call L T) : Prop :=
  exists tok before outs,
    nth_error (call_tokens c) (call_position c) = Some tok /\
    candidates X (tok_type tok) = before ++ outs /\ Forall2 report_on outs (call_failures c).

(** [answered candidates solver H X p fp q]: among the calls [H], one about [X] and made for
    position [p] was answered with production [fp] and final position [q]. *)
Definition answered {L T : Type} (candidates : T -> T -> list (list T))
           (solver : option (syntax_error_solver L T)) (H : list (solver_call L T))
           (X : T) (p : nat) (fp : fixed_production L T) (q : nat) : Prop :=
  exists s h1 c h2, solver = Some s /\ H = h1 ++ c :: h2 /\ call_about candidates X c /\
    call_position c = p /\ s h1 c = Reply (Some (FixResult q fp)).

Section ReportSpec.
  Context {L T : Type}.
  Variable eps init : T.
  Variable ps : list (production T).
  Variable tokens : list (token L T).
  Variable candidates : T -> T -> list (list T).
  Variable answer : T -> nat -> fixed_production L T -> nat -> Prop.

  (** [fixed_for X p fs q]: [fs] describes a fixed derivation of [X] over the
      tokens from [p] to [q]: either the solver supplied it for [X], or it is a
      candidate production of [X] with one part per symbol, each part a valid
      tree or, for a non-terminal, a fixed symbol, at least one of them fixed. *)
  Inductive fixed_for : T -> nat -> fixed_symbol L T -> nat -> Prop :=
  | fixed_by_solver X p fp q :
      answer X p fp q -> fixed_for X p (FixedSymbol fp X) q
  | fixed_inside pr p tok parts q :
      In pr ps -> nth_error tokens p = Some tok ->
      In (p_output pr) (candidates (p_input pr) (tok_type tok)) ->
      fixed_parts (p_output pr) p parts q ->
      (exists fs, In (FPartFixed fs) parts) ->
      fixed_for (p_input pr) p (FixedSymbol (FixedProduction parts) (p_input pr)) q
  with fixed_parts : list T -> nat -> list (fixed_production_part L T) -> nat -> Prop :=
  | fixed_parts_nil p : fixed_parts [] p [] p
  | fixed_parts_ok X Xs n w p q parts r :
      tree_for eps ps X n w -> between tokens p w q -> fixed_parts Xs q parts r ->
      fixed_parts (X :: Xs) p (FPartOk n :: parts) r
  | fixed_parts_fixed X Xs fs p q parts r :
      non_terminal ps X -> fixed_for X p fs q -> fixed_parts Xs q parts r ->
      fixed_parts (X :: Xs) p (FPartFixed fs :: parts) r.

  (** [parsed_prefix Xs p parsed q]: the symbols [Xs] were parsed (or fixed)
      from [p] to [q], and of them [parsed] is listed in a failure report:
      terminals and fixed symbols are listed, parsed non-terminals are not. *)
  Inductive parsed_prefix : list T -> nat -> list (production_parsed_symbol L T) -> nat -> Prop :=
  | parsed_nil p : parsed_prefix [] p [] p
  | parsed_terminal X Xs n w p q parsed r :
      ~ non_terminal ps X -> tree_for eps ps X n w -> between tokens p w q ->
      parsed_prefix Xs q parsed r ->
      parsed_prefix (X :: Xs) p (ParsedOk n :: parsed) r
  | parsed_non_terminal X Xs n w p q parsed r :
      non_terminal ps X -> tree_for eps ps X n w -> between tokens p w q ->
      parsed_prefix Xs q parsed r ->
      parsed_prefix (X :: Xs) p parsed r
  | parsed_fixed X Xs fs p q parsed r :
      non_terminal ps X -> fixed_for X p fs q -> parsed_prefix Xs q parsed r ->
      parsed_prefix (X :: Xs) p (ParsedFix fs :: parsed) r.

  (** [failed_report X p f]: [f] reports the failure of symbol [X] at
      position [p]: a terminal that is not there, or a non-terminal all of
      whose candidates failed, one report per candidate in order. *)
  Inductive failed_report : T -> nat -> failed_symbol L T -> Prop :=
  | failed_terminal X p :
      ~ non_terminal ps X -> X <> eps ->
      (forall tok, nth_error tokens p = Some tok -> tok_type tok <> X) ->
      failed_report X p (FailedSymbol [] X)
  | failed_non_terminal X p tok fps :
      non_terminal ps X -> nth_error tokens p = Some tok ->
      failed_list (candidates X (tok_type tok)) p fps ->
      failed_report X p (FailedSymbol fps X)
  with failed_list : list (list T) -> nat -> list (failed_production L T) -> Prop :=
  | failed_list_nil p : failed_list [] p []
  | failed_list_cons out outs p fp fps :
      failed_production_report out p fp -> failed_list outs p fps ->
      failed_list (out :: outs) p (fp :: fps)
  with failed_production_report : list T -> nat -> failed_production L T -> Prop :=
  | failed_at u Y v p q parsed fs :
      parsed_prefix u p parsed q -> failed_report Y q fs ->
      failed_production_report (u ++ Y :: v) p
        (FailedProduction fs parsed (skipn (length parsed + 1) (u ++ Y :: v))).

  (** [single_path X p outs]: the outputs [outs] were tried for [X] at [p], and
      nothing else was left to try above: [X] is the initial symbol with all its
      candidates, or [X] occurs in a production that was the only one tried for
      its own symbol, itself on a single path, and the symbols before [X] were
      parsed or fixed from the start of that production up to [p].  [outs] are
      all the candidates of [X], or those left when [X] is tried again. *)
  Inductive single_path : T -> nat -> list (list T) -> Prop :=
  | single_path_initial tok :
      nth_error tokens 0 = Some tok -> single_path init 0 (candidates init (tok_type tok))
  | single_path_inside X p u Y v parts q tok before outs :
      single_path X p [u ++ Y :: v] -> fixed_parts u p parts q ->
      non_terminal ps Y -> nth_error tokens q = Some tok ->
      candidates Y (tok_type tok) = before ++ outs ->
      single_path Y q outs.

  (** A solver call: the whole token vector, a position inside it, and accurate
      reports for the outputs [outs] tried for some symbol at that position, on
      a single path: one failed production if one output was tried, or a list
      if none or several were. *)
  Definition call_ok (c : solver_call L T) : Prop :=
    exists X tok before outs,
      nth_error tokens (call_position c) = Some tok /\
      candidates X (tok_type tok) = before ++ outs /\
      single_path X (call_position c) outs /\
      match c with
      | FixFailedProduction ts p fp =>
          ts = tokens /\ length outs = 1 /\ failed_list outs p [fp]
      | FixFailedProductions ts p fps =>
          ts = tokens /\ length outs <> 1 /\ failed_list outs p fps
      end.
End ReportSpec.

(** the symbol of a parsed symbol in a report *)
Definition parsed_symbol_type {L T : Type} (s : production_parsed_symbol L T) : T :=
  match s with
  | ParsedOk n => tok_type (node_token n)
  | ParsedFix (FixedSymbol _ x) => x
  end.

(** the symbol of a failed symbol *)
Definition failed_symbol_type {L T : Type} (f : failed_symbol L T) : T :=
  match f with FailedSymbol _ x => x end.

(** [reported f fp]: [fp] is one of the failed productions of the report [f],
    at any depth *)
Inductive reported {L T : Type} : failed_symbol L T -> failed_production L T -> Prop :=
| reported_here fps x fp : In fp fps -> reported (FailedSymbol fps x) fp
| reported_inside fps x f parsed pending fp :
    In (FailedProduction f parsed pending) fps -> reported f fp ->
    reported (FailedSymbol fps x) fp.
