(** * LanguageSpec: the language of a grammar, and what a parser accepts *)

From Verif Require Export Spec LastSpec.
From Verif Require Import FollowSpec.

Set Implicit Arguments.

(** [w] is a sentence: derived from the initial symbol, made of terminals only *)
Definition sentence {T : Type} (eps init : T) (ps : list (production T)) (w : list T) : Prop :=
  derives eps ps [init] w /\ Forall (fun a => a <> eps /\ ~ non_terminal ps a) w.

(** two grammars, perhaps with different non-terminals, epsilon and initial symbols,
    describe the same sentences *)
Definition same_language {T : Type} (eps init : T) (ps : list (production T))
           (eps' init' : T) (ps' : list (production T)) : Prop :=
  forall w, sentence eps init ps w <-> sentence eps' init' ps' w.

(** the parse returns a tree *)
Definition accepts {L T : Type} {E : EqDec T} (self : parser L T) (tokens : list (token L T)) : Prop :=
  exists root h, terminates_with (fun fuel => parse_from_tokens fuel self tokens) (Done (ResultOk root, h)).

(** the tree returned is over exactly the tokens [w] *)
Definition consumes {L T : Type} {E : EqDec T} (eps init : T) (ps : list (production T))
           (self : parser L T) (tokens w : list (token L T)) : Prop :=
  exists root h, terminates_with (fun fuel => parse_from_tokens fuel self tokens) (Done (ResultOk root, h)) /\
                 tree_for eps ps init root w.

(** The parsers that C23, C69 and C99 prove exact, whatever the solver: the productions of the initial symbol end in
    a terminal, no production loses FOLLOW symbols because a non-terminal comes twice in a
    row, and either the table has no conflicts, or the grammar is LL(1) with nullable
    alternatives last and no left recursion. *)
Definition exact_parser {L T : Type} {E : EqDec T} (eps init : T) (ps : list (production T))
           (solver : option (syntax_error_solver L T)) (self : parser L T) : Prop :=
  built_parser eps init ps solver self /\ non_terminal ps init /\
  initial_ends_in_terminal eps ps init /\ repeats_harmless eps ps init /\
  (conflict_free (pr_transitions self) \/
   (ll1 eps ps init /\ nullable_last eps ps /\ no_left_recursion_from eps ps init)).
