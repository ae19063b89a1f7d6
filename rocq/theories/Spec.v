(** * Spec: the vocabulary in which the properties are stated

    Nothing here refers to how the code computes things.  The specification is
    about the data a user hands to the library: an epsilon symbol [eps], an
    initial symbol, a list of productions [ps], tokens, and results. *)

From Coq Require Export Relations.
From Verif Require Export Parser.

Set Implicit Arguments.

Section GrammarSpec.
  Context {T : Type}.
  Variable eps : T.
  Variable ps : list (production T).

  (** What [ContextFreeGrammar::new] documents as acceptable. *)
  Definition production_ok (p : production T) : Prop :=
    p_input p <> eps /\ p_output p <> [] /\
    (In eps (p_output p) -> p_output p = [eps]).

  Definition productions_ok : Prop := forall p, In p ps -> production_ok p.

  Definition non_terminal (x : T) : Prop := exists p, In p ps /\ p_input p = x.

  Definition occurs_in_output (x : T) : Prop := exists p, In p ps /\ In x (p_output p).

  (** terminal of the grammar: occurs in an output, is no production's input *)
  Definition terminal (x : T) : Prop := occurs_in_output x /\ ~ non_terminal x.

  (** ** Derivations.  The epsilon symbol denotes the empty string. *)
  Inductive derive1 : list T -> list T -> Prop :=
  | derive1_production u v p :
      In p ps -> derive1 (u ++ p_input p :: v) (u ++ p_output p ++ v)
  | derive1_epsilon u v : derive1 (u ++ eps :: v) (u ++ v).

  (** zero or more steps *)
  Definition derives : list T -> list T -> Prop := clos_refl_trans_1n _ derive1.

  Definition nullable (w : list T) : Prop := derives w [].

  (** [a] is a real terminal that can start a string derived from [w] *)
  Definition can_start (w : list T) (a : T) : Prop :=
    a <> eps /\ ~ non_terminal a /\ exists v, derives w (a :: v).

  (** [a] is a real terminal that can come right after [A] in a form derived from [X] *)
  Definition can_follow (X A a : T) : Prop :=
    a <> eps /\ ~ non_terminal a /\ exists u v, derives [X] (u ++ A :: a :: v).

  (** ... derived from the initial symbol or any other non-terminal *)
  Definition can_follow_somewhere (A a : T) : Prop :=
    exists X, non_terminal X /\ can_follow X A a.

  Definition reachable_from (S X : T) : Prop := exists u v, derives [S] (u ++ X :: v).

  (** ** Textbook predictive parsing (Algorithm 4.31 quoted in
      recursive_descent_parser_transitions.rs:57-75) *)
  Definition textbook_cell (S A a : T) (p : production T) : Prop :=
    In p ps /\ p_input p = A /\
    (can_start (p_output p) a \/ (nullable (p_output p) /\ can_follow S A a)).

  Definition ll1 (S : T) : Prop :=
    forall A a p q, textbook_cell S A a p -> textbook_cell S A a q -> p = q.

  (** ** Left recursion: A derives, in at least one step, a form starting with A *)
  Definition left_recursive (A : T) : Prop :=
    exists w v, derive1 [A] w /\ derives w (A :: v).

  Definition no_left_recursion : Prop := forall A, non_terminal A -> ~ left_recursive A.

  (** ... among the symbols that the initial symbol can lead to *)
  Definition no_left_recursion_from (S : T) : Prop :=
    forall A, non_terminal A -> reachable_from S A -> ~ left_recursive A.

  (** no production has the same non-terminal twice in a row *)
  Definition no_repeated_neighbours : Prop :=
    forall p u A v, In p ps -> p_output p = u ++ A :: A :: v -> ~ non_terminal A.

  (** every production of [S] ends in a terminal other than epsilon *)
  Definition initial_ends_in_terminal (S : T) : Prop :=
    forall p, In p ps -> p_input p = S ->
    exists u t, p_output p = u ++ [t] /\ t <> eps /\ ~ non_terminal t.

  (** [eof] is an end-of-input marker: it is a terminal, it ends every
      production of [S], occurs nowhere else, and [S] occurs in no output. *)
  Definition eof_discipline (S eof : T) : Prop :=
    eof <> eps /\ ~ non_terminal eof /\
    (forall p, In p ps -> ~ In S (p_output p)) /\
    (forall p, In p ps -> p_input p = S ->
       exists u, p_output p = u ++ [eof] /\ ~ In eof u) /\
    (forall p, In p ps -> p_input p <> S -> ~ In eof (p_output p)).
End GrammarSpec.

(** ** Parse trees *)
Section TreeSpec.
  Context {L T : Type}.
  Variable eps : T.
  Variable ps : list (production T).

  (** [tree_for X n w]: [n] is a parse tree of symbol [X] whose non-epsilon
      leaves are, in order, exactly the tokens [w]. *)
  Inductive tree_for : T -> node L T -> list (token L T) -> Prop :=
  | tree_token tok :
      tok_type tok <> eps -> ~ non_terminal ps (tok_type tok) ->
      tree_for (tok_type tok) (Node [] tok) [tok]
  | tree_epsilon :
      tree_for eps (Node [] (Token None eps)) []
  | tree_production p children w :
      In p ps -> forest_for (p_output p) children w ->
      tree_for (p_input p) (Node children (Token None (p_input p))) w
  with forest_for : list T -> list (node L T) -> list (token L T) -> Prop :=
  | forest_nil : forest_for [] [] []
  | forest_cons X Xs n ns w ws :
      tree_for X n w -> forest_for Xs ns ws ->
      forest_for (X :: Xs) (n :: ns) (w ++ ws).
End TreeSpec.

(** [prefix w ts]: [w] is an initial segment of [ts] *)
Definition prefix {A : Type} (w ts : list A) : Prop := exists rest, ts = w ++ rest.

(** Candidates of a parser for a symbol and a lookahead: the transition cell. *)
Definition conflict_free {T : Type} {E : EqDec T} (t : transitions T) : Prop :=
  forall A a l, transitions_get_productions t A a = Some l -> length l <= 1.

(** A call that never returns: out of fuel whatever the fuel. *)
Definition diverges {A : Type} (run : nat -> outcome A) : Prop :=
  forall fuel, run fuel = OutOfFuel.

(** A call that terminates: some fuel suffices, and more fuel changes nothing. *)
Definition terminates_with {A : Type} (run : nat -> outcome A) (r : outcome A) : Prop :=
  r <> OutOfFuel /\ exists n, forall fuel, n <= fuel -> run fuel = r.

(** ** Parsers obtained through the public constructors *)

(** [self] is a parser for the epsilon symbol, initial symbol and productions
    given to [ContextFreeGrammar::new], built by [from_grammar] (no solver) or
    [from_grammar_and_solver], with any hash iteration orders. *)
Definition built_parser {L T : Type} {E : EqDec T} (eps init : T)
           (ps : list (production T)) (solver : option (syntax_error_solver L T))
           (self : parser L T) : Prop :=
  exists (ho1 ho2 : hash_order T) (fuel : nat) (g : grammar T),
    cfg_new ho1 eps init ps = Done g /\
    match solver with
    | None => from_grammar ho2 fuel g
    | Some s => from_grammar_and_solver ho2 fuel g s
    end = Done self.

(** ... or, without solver, by [from_grammar_and_first_follow_symbols] from any FIRST and
    FOLLOW sets whatever: the caller may pass any [FirstFollowSymbols] (see also
    SuppliedSpec).  [from_grammar] passes those of [FirstFollowSymbols::from]. *)
Definition constructed_parser {L T : Type} {E : EqDec T} (eps init : T)
           (ps : list (production T)) (solver : option (syntax_error_solver L T))
           (self : parser L T) : Prop :=
  exists (ho1 ho2 : hash_order T) (g : grammar T),
    cfg_new ho1 eps init ps = Done g /\
    match solver with
    | None => exists ffs : first_follow_symbols T,
        from_grammar_and_first_follow_symbols ho2 g ffs = Done self
    | Some s => exists fuel : nat, from_grammar_and_solver ho2 fuel g s = Done self
    end.

(** the position a solver is called with *)
Definition call_position {L T : Type} (c : solver_call L T) : nat :=
  match c with
  | FixFailedProduction _ pos _ => pos
  | FixFailedProductions _ pos _ => pos
  end.

(** every call of the solver ends (with a reply or a panic), and every answer
    is a position beyond the one it was called with *)
Definition progressing {L T : Type} (solver : option (syntax_error_solver L T)) : Prop :=
  forall s h c, solver = Some s ->
  s h c <> ReplyNever /\
  forall fr, s h c = Reply (Some fr) -> call_position c < fr_final_token_position fr.

(** The candidate outputs of a parser for a symbol and a lookahead type, in
    order: the outputs of the transition table's cell. *)
Definition candidates {L T : Type} {E : EqDec T} (self : parser L T) (A a : T) : list (list T) :=
  match transitions_get_productions (pr_transitions self) A a with
  | Some l => map (fun p => p_output p) l
  | None => []
  end.

(** the token vector a solver is called with *)
Definition call_tokens {L T : Type} (c : solver_call L T) : list (token L T) :=
  match c with
  | FixFailedProduction ts _ _ => ts
  | FixFailedProductions ts _ _ => ts
  end.

(** every call of the solver returns *)
Definition replying {L T : Type} (solver : option (syntax_error_solver L T)) : Prop :=
  forall s h c, solver = Some s -> exists answer, s h c = Reply answer.

(** [declined solver H]: no call of [H] was answered *)
Definition declined {L T : Type} (solver : option (syntax_error_solver L T))
           (H : list (solver_call L T)) : Prop :=
  forall s h1 c h2, solver = Some s -> H = h1 ++ c :: h2 -> s h1 c = Reply None.
