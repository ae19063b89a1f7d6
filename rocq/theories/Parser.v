(** * Model of /repo/src/parser/recursive_descent_parser.rs and of the data
      types it uses (src/token, src/ast, src/parser/{failed,fixed,fix,...}*.rs) *)

From Verif Require Export Transitions.

Set Implicit Arguments.

(** ** Data types *)

(** src/token/token.rs:1-10 [Token] *)
Record token (L T : Type) : Type := Token {
  tok_lex : option L;
  tok_type : T
}.
Arguments Token {L T} _ _.

(** src/token/token.rs:18-22 [PartialEq::eq] *)
Definition token_eq {L T : Type} {E : EqImpl T} (a b : token L T) : bool :=
  eqb (tok_type a) (tok_type b).

(** src/token/token.rs:23-25 [PartialEq::ne] *)
Definition token_ne {L T : Type} {E : EqImpl T} (a b : token L T) : bool :=
  negb (eqb (tok_type a) (tok_type b)).

(** src/ast/abstract_syntax_node.rs:1-13 [AbstractSyntaxNode] (the tree of
    src/ast/abstract_syntax_tree.rs is a one-field wrapper around the root). *)
Inductive node (L T : Type) : Type :=
| Node (child_nodes : list (node L T)) (tok : token L T).
Arguments Node {L T} _ _.

Definition node_children {L T} (n : node L T) : list (node L T) :=
  match n with Node cs _ => cs end.
Definition node_token {L T} (n : node L T) : token L T :=
  match n with Node _ t => t end.

(** src/parser/fix_gap.rs, fixed_production_part.rs, fixed_production.rs,
    fixed_symbol.rs *)
Inductive fixed_production_part (L T : Type) : Type :=
| FPartOk (n : node L T)
| FPartFixed (fs : fixed_symbol L T)
| FPartGap (skipped_tokens : list L) (skipped_symbols : list T)
with fixed_production (L T : Type) : Type :=
| FixedProduction (fixed_parts : list (fixed_production_part L T))
with fixed_symbol (L T : Type) : Type :=
| FixedSymbol (fp : fixed_production L T) (symbol_to_derive : T).
Arguments FPartOk {L T} _.
Arguments FPartFixed {L T} _.
Arguments FPartGap {L T} _ _.
Arguments FixedProduction {L T} _.
Arguments FixedSymbol {L T} _ _.

(** src/parser/production_parsed_symbol.rs *)
Inductive production_parsed_symbol (L T : Type) : Type :=
| ParsedOk (n : node L T)
| ParsedFix (fs : fixed_symbol L T).
Arguments ParsedOk {L T} _.
Arguments ParsedFix {L T} _.

(** src/parser/failed_symbol.rs, failed_production.rs *)
Inductive failed_symbol (L T : Type) : Type :=
| FailedSymbol (failed_productions : list (failed_production L T)) (symbol_to_derive : T)
with failed_production (L T : Type) : Type :=
| FailedProduction (failed : failed_symbol L T)
                   (parsed_symbols : list (production_parsed_symbol L T))
                   (pending_symbols : list T).
Arguments FailedSymbol {L T} _ _.
Arguments FailedProduction {L T} _ _ _.

(** src/parser/fix_result.rs *)
Record fix_result (L T : Type) : Type := FixResult {
  fr_final_token_position : nat;
  fr_production : fixed_production L T
}.
Arguments FixResult {L T} _ _.

(** src/parser/parse_result.rs *)
Inductive parse_result (L T : Type) : Type :=
| ResultOk (root : node L T)
| ResultErr (fs : failed_symbol L T)
| ResultFix (fs : fixed_symbol L T).
Arguments ResultOk {L T} _.
Arguments ResultErr {L T} _.
Arguments ResultFix {L T} _.

(** src/parser/syntax_error_solver.rs:18-51 [SyntaxErrorSolver].
    The two trait methods are one function of the call made.  The methods take
    [&self], but an implementation may use interior mutability, so the answer
    may depend on all earlier calls of this parse ([history], oldest first).
    The user's code may return ([Reply]), panic or never return. *)
Inductive solver_call (L T : Type) : Type :=
| FixFailedProduction (tokens : list (token L T)) (tokens_position : nat)
                      (fp : failed_production L T)
| FixFailedProductions (tokens : list (token L T)) (tokens_position : nat)
                       (fps : list (failed_production L T)).
Arguments FixFailedProduction {L T} _ _ _.
Arguments FixFailedProductions {L T} _ _ _.

Inductive solver_reply (L T : Type) : Type :=
| Reply (answer : option (fix_result L T))
| ReplyPanics
| ReplyNever.
Arguments Reply {L T} _.
Arguments ReplyPanics {L T}.
Arguments ReplyNever {L T}.

Definition syntax_error_solver (L T : Type) : Type :=
  list (solver_call L T) -> solver_call L T -> solver_reply L T.

Section Parser.
  Context {L T : Type} {E : EqImpl T}.

  (** ** Internal states *)

  (** recursive_descent_parser.rs:46-51 [ParsingState]; the iterator over the
      remaining candidate productions is the list of what it has left. *)
  Record parsing_state : Type := ParsingState {
    ps_initial_token_position : nat;
    ps_final_token_position : nat;
    ps_prod_iter_option : option (list (list T));
    ps_node : node L T
  }.

  (** recursive_descent_parser.rs:32-35 [FixedState] *)
  Record fixed_state : Type := FixedState {
    fst_final_token_position : nat;
    fst_fixed_symbol : fixed_symbol L T
  }.

  (** recursive_descent_parser.rs:71-74 [State] *)
  Inductive state : Type :=
  | StParsing (ps : parsing_state)
  | StFixed (fs : fixed_state).

  (** recursive_descent_parser.rs:79-81 [State::is_fixed] *)
  Definition is_fixed (s : state) : bool :=
    match s with StFixed _ => true | StParsing _ => false end.

  (** recursive_descent_parser.rs:355-358 *)
  Definition state_final_token_position (s : state) : nat :=
    match s with
    | StParsing ps => ps_final_token_position ps
    | StFixed fs => fst_final_token_position fs
    end.

  (** recursive_descent_parser.rs:20-24 [ParseSymbolResult] *)
  Inductive parse_symbol_result : Type :=
  | SymOk (ps : parsing_state)
  | SymErr (fs : failed_symbol L T)
  | SymFix (fs : fixed_state).

  (** recursive_descent_parser.rs:26-30 [ParseProductionResult] *)
  Inductive parse_production_result : Type :=
  | ProdOk (n : node L T)
  | ProdErr (fp : failed_production L T)
  | ProdFix (fp : fixed_production L T).

  (** recursive_descent_parser.rs:84-89 [RecursiveDescentParser] *)
  Record parser : Type := Parser {
    pr_grammar : grammar T;
    pr_solver : option (syntax_error_solver L T);
    pr_transitions : transitions T
  }.

  Definition history : Type := list (solver_call L T).

  (** ** Leaf helpers *)

  (** recursive_descent_parser.rs:163-168 [build_token_failed_symbol] *)
  Definition build_token_failed_symbol (production_symbol : T) : parse_symbol_result :=
    SymErr (FailedSymbol [] production_symbol).

  (** recursive_descent_parser.rs:170-184 [inner_get_token_productions] *)
  Definition inner_get_token_productions (self : parser)
             (symbol_to_derive first_token : T) : list (list T) :=
    match transitions_get_productions (pr_transitions self) symbol_to_derive first_token with
    | Some productions => map (fun p => p_output p) productions
    | None => []
    end.

  (** recursive_descent_parser.rs:582-587 [is_child_single_path] *)
  Definition is_child_single_path (is_single_path : bool)
             (production_outputs : list (list T)) : bool :=
    is_single_path && Nat.eqb (length production_outputs) 1.

  (** recursive_descent_parser.rs:480-509 [inner_parse_non_epsilon_terminal_symbol] *)
  Definition inner_parse_non_epsilon_terminal_symbol (production_symbol : T)
             (tokens : list (token L T)) (token_position : nat) : parse_symbol_result :=
    match nth_error tokens token_position with
    | Some current_token_symbol =>
        if eqb production_symbol (tok_type current_token_symbol) then
          SymOk {| ps_initial_token_position := token_position;
                   ps_final_token_position := token_position + 1;
                   ps_prod_iter_option := None;
                   ps_node := Node [] current_token_symbol |}
        else build_token_failed_symbol production_symbol
    | None => build_token_failed_symbol production_symbol
    end.

  (** recursive_descent_parser.rs:459-478 [inner_parse_terminal_symbol] *)
  Definition inner_parse_terminal_symbol (self : parser) (production_symbol : T)
             (tokens : list (token L T)) (token_position : nat) : parse_symbol_result :=
    if eqb (get_epsilon_symbol (pr_grammar self)) production_symbol then
      SymOk {| ps_initial_token_position := token_position;
               ps_final_token_position := token_position;
               ps_prod_iter_option := None;
               ps_node := Node [] (Token None production_symbol) |}
    else inner_parse_non_epsilon_terminal_symbol production_symbol tokens token_position.

  (** recursive_descent_parser.rs:223-242
      [inner_parse_from_tokens_fix_option_to_parse_symbol_result] *)
  Definition inner_parse_from_tokens_fix_option_to_parse_symbol_result
             (failed_productions : list (failed_production L T))
             (fix_option : option (fix_result L T)) (symbol_to_derive : T)
    : parse_symbol_result :=
    match fix_option with
    | Some fr =>
        SymFix {| fst_final_token_position := fr_final_token_position fr;
                  fst_fixed_symbol := FixedSymbol (fr_production fr) symbol_to_derive |}
    | None => SymErr (FailedSymbol failed_productions symbol_to_derive)
    end.

  (** language semantics: the reply of the user's method, seen by its caller *)
  Definition await (r : solver_reply L T) : outcome (option (fix_result L T)) :=
    match r with
    | Reply answer => Done answer
    | ReplyPanics => Panicked PanicSolver
    | ReplyNever => OutOfFuel
    end.

  (** recursive_descent_parser.rs:244-273
      [inner_parse_from_tokens_try_fix_productions]; the history records the call. *)
  Definition inner_parse_from_tokens_try_fix_productions (self : parser)
             (tokens : list (token L T)) (tokens_position : nat)
             (is_single_path child_is_single_path : bool)
             (failed_productions : list (failed_production L T)) (h : history)
    : outcome (option (fix_result L T) * history) :=
    match pr_solver self with
    | Some solver =>
        if is_single_path then
          if child_is_single_path then
            match failed_productions with
            | [] => Panicked PanicNoFailedProduction
            | failed_production :: _ =>
                let c := FixFailedProduction tokens tokens_position failed_production in
                answer <- await (solver h c) ;; Done (answer, h ++ [c])
            end
          else
            let c := FixFailedProductions tokens tokens_position failed_productions in
            answer <- await (solver h c) ;; Done (answer, h ++ [c])
        else Done (None, h)
    | None => Done (None, h)
    end.

  (** recursive_descent_parser.rs:379-385: states to parsed symbols *)
  Definition state_to_parsed_symbol (s : state) : production_parsed_symbol L T :=
    match s with
    | StParsing ps => ParsedOk (ps_node ps)
    | StFixed fs => ParsedFix (fst_fixed_symbol fs)
    end.

  (** recursive_descent_parser.rs:372-395
      [inner_parse_from_tokens_production_build_failed_symbol];
      [for i in child_nodes.len() + 1..production_output.len()] collects the
      suffix of the output ([skipn]); the indexes are in range by construction. *)
  Definition inner_parse_from_tokens_production_build_failed_symbol
             (fs : failed_symbol L T) (production_output : list T)
             (production_states : list state) : parse_production_result :=
    let child_nodes := map state_to_parsed_symbol production_states in
    let pending_symbols := skipn (length child_nodes + 1) production_output in
    ProdErr (FailedProduction fs child_nodes pending_symbols).

  (** recursive_descent_parser.rs:421-427: unwrap every state into its node *)
  Fixpoint states_to_nodes (states : list state) : outcome (list (node L T)) :=
    match states with
    | [] => Done []
    | StParsing ps :: states' =>
        ns <- states_to_nodes states' ;; Done (ps_node ps :: ns)
    | StFixed _ :: _ => Panicked PanicUnexpectedState
    end.

  (** recursive_descent_parser.rs:408-413 *)
  Definition state_to_fixed_part (s : state) : fixed_production_part L T :=
    match s with
    | StFixed fs => FPartFixed (fst_fixed_symbol fs)
    | StParsing ps => FPartOk (ps_node ps)
    end.

  (** recursive_descent_parser.rs:397-434
      [inner_parse_from_tokens_production_build_node] *)
  Definition inner_parse_from_tokens_production_build_node (symbol_to_derive : T)
             (production_states : list state) : outcome parse_production_result :=
    if existsb is_fixed production_states then
      Done (ProdFix (FixedProduction (map state_to_fixed_part production_states)))
    else
      child_nodes <- states_to_nodes production_states ;;
      Done (ProdOk (Node child_nodes (Token None symbol_to_derive))).

  (** ** The mutually recursive core

      [inner_parse_from_tokens] calls itself through the functions below; they
      are written against [rec], the recursive call, and tied together on fuel
      in [inner_parse_from_tokens]. *)
  Section Rec.
    Variable self : parser.
    Variable tokens : list (token L T).
    (** symbol_to_derive, tokens_position, production_outputs, is_single_path *)
    Variable rec : T -> nat -> list (list T) -> bool -> history ->
                   outcome (parse_symbol_result * history).

    (** recursive_descent_parser.rs:436-457
        [inner_parse_from_tokens_production_non_terminal] *)
    Definition inner_parse_from_tokens_production_non_terminal
               (production_symbol : T) (token_position : nat) (is_single_path : bool)
               (h : history) : outcome (parse_symbol_result * history) :=
      match nth_error tokens token_position with
      | None => Panicked PanicTokenOutOfRange
      | Some current_token_symbol =>
          rec production_symbol token_position
              (inner_get_token_productions self production_symbol
                                           (tok_type current_token_symbol))
              is_single_path h
      end.

    (** recursive_descent_parser.rs:511-528
        [inner_parse_from_tokens_production_symbol] *)
    Definition inner_parse_from_tokens_production_symbol
               (production_symbol : T) (token_position : nat) (is_single_path : bool)
               (h : history) : outcome (parse_symbol_result * history) :=
      if is_non_terminal (pr_grammar self) production_symbol then
        inner_parse_from_tokens_production_non_terminal
          production_symbol token_position is_single_path h
      else
        Done (inner_parse_terminal_symbol self production_symbol tokens token_position, h).

    (** recursive_descent_parser.rs:530-580 [inner_parse_pop_states].
        [states] is the state vector as a stack, last element first.
        [reversed_failed_symbols] is also kept last-pushed first, so the final
        [reverse] of the Rust code is the identity here.
        Returns (new stack, None on success / Some failed states, history). *)
    Fixpoint inner_parse_pop_states (states : list state) (is_single_path : bool)
             (failed_symbols : list state) (h : history)
      : outcome (list state * option (list state) * history) :=
      match states with
      | [] => Done ([], Some failed_symbols, h)
      | StFixed fs :: states' =>
          inner_parse_pop_states states' is_single_path (StFixed fs :: failed_symbols) h
      | StParsing ps :: states' =>
          match ps_prod_iter_option ps with
          | Some productions_iterator =>
              '(r, h') <- rec (tok_type (node_token (ps_node ps)))
                              (ps_initial_token_position ps)
                              productions_iterator is_single_path h ;;
              match r with
              | SymOk ps' => Done (StParsing ps' :: states', None, h')
              | _ => inner_parse_pop_states states' is_single_path failed_symbols h'
              end
          | None =>
              inner_parse_pop_states states' is_single_path
                                     (StParsing ps :: failed_symbols) h
          end
      end.

    (** recursive_descent_parser.rs:320-370 [inner_parse_from_tokens_production]:
        the [while] loop, on fuel.  Returns the result, the final value of
        [*current_token_position], and the history. *)
    Fixpoint inner_parse_from_tokens_production (fuel : nat) (symbol_to_derive : T)
             (production_output : list T) (is_single_path : bool)
             (states : list state) (current_token_position : nat) (h : history)
      : outcome (parse_production_result * nat * history) :=
      match fuel with
      | O => OutOfFuel
      | S fuel' =>
          if Nat.ltb (length states) (length production_output) then
            production_symbol <- unwrap (nth_error production_output (length states)) ;;
            '(r, h') <- inner_parse_from_tokens_production_symbol
                          production_symbol current_token_position is_single_path h ;;
            match r with
            | SymOk ps =>
                inner_parse_from_tokens_production fuel' symbol_to_derive
                  production_output is_single_path (StParsing ps :: states)
                  (ps_final_token_position ps) h'
            | SymErr fs =>
                '(states', popped, h'') <-
                  inner_parse_pop_states states is_single_path [] h' ;;
                match popped with
                | Some production_parsing_states =>
                    Done (inner_parse_from_tokens_production_build_failed_symbol
                            fs production_output production_parsing_states,
                          current_token_position, h'')
                | None =>
                    match states' with
                    | [] => Panicked PanicSubUnderflow
                    | st :: _ =>
                        inner_parse_from_tokens_production fuel' symbol_to_derive
                          production_output is_single_path states'
                          (state_final_token_position st) h''
                    end
                end
            | SymFix fs =>
                inner_parse_from_tokens_production fuel' symbol_to_derive
                  production_output is_single_path (StFixed fs :: states)
                  (fst_final_token_position fs) h'
            end
          else
            pr <- inner_parse_from_tokens_production_build_node
                    symbol_to_derive (rev states) ;;
            Done (pr, current_token_position, h)
      end.

    (** recursive_descent_parser.rs:275-318
        [inner_parse_from_tokens_try_parse_productions]: [inl] is the Rust [Ok],
        [inr] the Rust [Err].  [child_is_single_path] is computed once, from the
        iterator before the loop starts (line 284). *)
    Fixpoint try_parse_productions_loop (fuel : nat) (symbol_to_derive : T)
             (tokens_position : nat) (child_is_single_path : bool)
             (production_outputs : list (list T))
             (failed_productions : list (failed_production L T)) (h : history)
      : outcome ((parse_symbol_result + list (failed_production L T)) * history) :=
      match production_outputs with
      | [] => Done (inr failed_productions, h)
      | production_output :: production_outputs' =>
          '(r, current_token_position, h') <-
            inner_parse_from_tokens_production fuel symbol_to_derive production_output
              child_is_single_path [] tokens_position h ;;
          match r with
          | ProdOk n =>
              Done (inl (SymOk {| ps_initial_token_position := tokens_position;
                                  ps_final_token_position := current_token_position;
                                  ps_prod_iter_option := Some production_outputs';
                                  ps_node := n |}), h')
          | ProdErr failed_production =>
              try_parse_productions_loop fuel symbol_to_derive tokens_position
                child_is_single_path production_outputs'
                (failed_productions ++ [failed_production]) h'
          | ProdFix fp =>
              Done (inl (SymFix {| fst_final_token_position := current_token_position;
                                   fst_fixed_symbol := FixedSymbol fp symbol_to_derive |}),
                    h')
          end
      end.

    Definition inner_parse_from_tokens_try_parse_productions (fuel : nat)
               (symbol_to_derive : T) (tokens_position : nat)
               (production_outputs : list (list T)) (is_single_path : bool) (h : history)
      : outcome ((parse_symbol_result + list (failed_production L T)) * history) :=
      try_parse_productions_loop fuel symbol_to_derive tokens_position
        (is_child_single_path is_single_path production_outputs)
        production_outputs [] h.

    (** recursive_descent_parser.rs:186-221 [inner_parse_from_tokens], one unfolding *)
    Definition inner_parse_from_tokens_step (fuel : nat)
               (symbol_to_derive : T) (tokens_position : nat)
               (production_outputs : list (list T)) (is_single_path : bool) (h : history)
      : outcome (parse_symbol_result * history) :=
      let child_is_single_path := is_child_single_path is_single_path production_outputs in
      '(r, h') <- inner_parse_from_tokens_try_parse_productions fuel symbol_to_derive
                    tokens_position production_outputs is_single_path h ;;
      match r with
      | inl parse_symbol_result => Done (parse_symbol_result, h')
      | inr failed_productions =>
          '(fix_option, h'') <-
            inner_parse_from_tokens_try_fix_productions self tokens tokens_position
              is_single_path child_is_single_path failed_productions h' ;;
          Done (inner_parse_from_tokens_fix_option_to_parse_symbol_result
                  failed_productions fix_option symbol_to_derive, h'')
      end.
  End Rec.

  (** recursive_descent_parser.rs:186-221 [inner_parse_from_tokens] *)
  Fixpoint inner_parse_from_tokens (fuel : nat) (self : parser)
           (tokens : list (token L T)) (symbol_to_derive : T) (tokens_position : nat)
           (production_outputs : list (list T)) (is_single_path : bool) (h : history)
    : outcome (parse_symbol_result * history) :=
    match fuel with
    | O => OutOfFuel
    | S fuel' =>
        inner_parse_from_tokens_step self tokens
          (inner_parse_from_tokens fuel' self tokens) fuel'
          symbol_to_derive tokens_position production_outputs is_single_path h
    end.

  (** recursive_descent_parser.rs:605-615 [parse_symbol_result_to_parse_result] *)
  Definition parse_symbol_result_to_parse_result (r : parse_symbol_result)
    : parse_result L T :=
    match r with
    | SymOk ps => ResultOk (ps_node ps)
    | SymErr fs => ResultErr fs
    | SymFix fs => ResultFix (fst_fixed_symbol fs)
    end.

  (** recursive_descent_parser.rs:120-148 [parse_from_tokens].  The token
      iterator is the list of the tokens it yields ([iterator_to_vec],
      :593-599, is then the identity).  Besides the result we return the
      sequence of solver calls made. *)
  Definition parse_from_tokens (fuel : nat) (self : parser) (tokens : list (token L T))
    : outcome (parse_result L T * history) :=
    match tokens with
    | [] => Panicked PanicNoTokens
    | first_token :: _ =>
        let symbol_to_derive := get_initial_symbol (pr_grammar self) in
        '(r, h) <- inner_parse_from_tokens fuel self tokens symbol_to_derive 0
                     (inner_get_token_productions self symbol_to_derive
                                                  (tok_type first_token))
                     true [] ;;
        Done (parse_symbol_result_to_parse_result r, h)
    end.

  (** ** Constructors *)

  (** recursive_descent_parser.rs:150-161 [from] *)
  Definition rdp_from (ho : hash_order T) (g : grammar T) (ffs : first_follow_symbols T)
             (solver : option (syntax_error_solver L T)) : outcome parser :=
    t <- transitions_from ho g ffs ;;
    Done {| pr_grammar := g; pr_solver := solver; pr_transitions := t |}.

  (** recursive_descent_parser.rs:104-109 [from_grammar_and_first_follow_symbols] *)
  Definition from_grammar_and_first_follow_symbols (ho : hash_order T) (g : grammar T)
             (ffs : first_follow_symbols T) : outcome parser := rdp_from ho g ffs None.

  (** recursive_descent_parser.rs:98-102 [from_grammar] *)
  Definition from_grammar (ho : hash_order T) (fuel : nat) (g : grammar T)
    : outcome parser :=
    ffs <- ffs_from ho fuel g ;;
    from_grammar_and_first_follow_symbols ho g ffs.

  (** recursive_descent_parser.rs:111-118 [from_grammar_and_solver] *)
  Definition from_grammar_and_solver (ho : hash_order T) (fuel : nat) (g : grammar T)
             (solver : syntax_error_solver L T) : outcome parser :=
    ffs <- ffs_from ho fuel g ;;
    rdp_from ho g ffs (Some solver).
End Parser.
Arguments parsing_state : clear implicits.
Arguments fixed_state : clear implicits.
Arguments state : clear implicits.
Arguments parse_symbol_result : clear implicits.
Arguments parse_production_result : clear implicits.
Arguments parser : clear implicits.
Arguments history : clear implicits.
