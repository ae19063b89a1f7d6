(** * The parser as code that waits for its solver

    [parse_from_tokens] borrows the parser ([&self]), so several parses may use one parser at
    the same time (threads, or a solver that parses itself).  Between two solver calls a
    parse touches nothing but its own data.  Here the parser of [Parser.v] is written as a
    computation that stops at every solver call and goes on with the answer, and programs
    that run several such computations in any order are modelled.  The functions that make
    no solver call are those of [Parser.v]. *)

From Verif Require Export Parser.

Set Implicit Arguments.

(** a computation: it ended (returned, panicked, out of fuel), or waits for an answer *)
Inductive comp (L T A : Type) : Type :=
| Ended (o : outcome A)
| Waits (c : solver_call L T) (resume : option (fix_result L T) -> comp L T A).
Arguments Ended {L T A} _.
Arguments Waits {L T A} _ _.

Fixpoint cbind {L T A B : Type} (m : comp L T A) (f : A -> comp L T B) : comp L T B :=
  match m with
  | Ended (Done a) => f a
  | Ended (Panicked p) => Ended (Panicked p)
  | Ended OutOfFuel => Ended OutOfFuel
  | Waits c resume => Waits c (fun answer => cbind (resume answer) f)
  end.

Notation "x <~ o ;; k" := (cbind o (fun x => k))
  (at level 100, o at next level, right associativity) : outcome_scope.
Notation "' p <~ o ;; k" := (cbind o (fun x => match x with p => k end))
  (at level 100, p pattern, o at next level, right associativity) : outcome_scope.

Section Resume.
  Context {L T : Type} {E : EqImpl T}.
  Notation state := (state L T).
  Notation parse_symbol_result := (parse_symbol_result L T).
  Notation parse_production_result := (parse_production_result L T).
  Notation comp := (comp L T).

  (** recursive_descent_parser.rs:244-273 [inner_parse_from_tokens_try_fix_productions] *)
  Definition c_try_fix_productions (self : parser L T)
             (tokens : list (token L T)) (tokens_position : nat)
             (is_single_path child_is_single_path : bool)
             (failed_productions : list (failed_production L T))
    : comp (option (fix_result L T)) :=
    match pr_solver self with
    | Some _ =>
        if is_single_path then
          if child_is_single_path then
            match failed_productions with
            | [] => Ended (Panicked PanicNoFailedProduction)
            | failed_production :: _ =>
                Waits (FixFailedProduction tokens tokens_position failed_production)
                      (fun answer => Ended (Done answer))
            end
          else
            Waits (FixFailedProductions tokens tokens_position failed_productions)
                  (fun answer => Ended (Done answer))
        else Ended (Done None)
    | None => Ended (Done None)
    end.

  Section Rec.
    Variable self : parser L T.
    Variable tokens : list (token L T).
    Variable rec : T -> nat -> list (list T) -> bool -> comp parse_symbol_result.

    (** recursive_descent_parser.rs:436-457, 511-528
        [inner_parse_from_tokens_production_non_terminal],
        [inner_parse_from_tokens_production_symbol] *)
    Definition c_production_symbol (production_symbol : T) (token_position : nat)
               (is_single_path : bool) : comp parse_symbol_result :=
      if is_non_terminal (pr_grammar self) production_symbol then
        match nth_error tokens token_position with
        | None => Ended (Panicked PanicTokenOutOfRange)
        | Some current_token_symbol =>
            rec production_symbol token_position
                (inner_get_token_productions self production_symbol
                                             (tok_type current_token_symbol))
                is_single_path
        end
      else Ended (Done (inner_parse_terminal_symbol self production_symbol tokens token_position)).

    (** recursive_descent_parser.rs:530-580 [inner_parse_pop_states] *)
    Fixpoint c_pop_states (states : list state) (is_single_path : bool)
             (failed_symbols : list state) : comp (list state * option (list state)) :=
      match states with
      | [] => Ended (Done ([], Some failed_symbols))
      | StFixed fs :: states' =>
          c_pop_states states' is_single_path (StFixed fs :: failed_symbols)
      | StParsing ps :: states' =>
          match ps_prod_iter_option ps with
          | Some productions_iterator =>
              r <~ rec (tok_type (node_token (ps_node ps))) (ps_initial_token_position ps)
                       productions_iterator is_single_path ;;
              match r with
              | SymOk ps' => Ended (Done (StParsing ps' :: states', None))
              | _ => c_pop_states states' is_single_path failed_symbols
              end
          | None => c_pop_states states' is_single_path (StParsing ps :: failed_symbols)
          end
      end.

    (** recursive_descent_parser.rs:320-370 [inner_parse_from_tokens_production] *)
    Fixpoint c_production (fuel : nat) (symbol_to_derive : T) (production_output : list T)
             (is_single_path : bool) (states : list state) (current_token_position : nat)
      : comp (parse_production_result * nat) :=
      match fuel with
      | O => Ended OutOfFuel
      | S fuel' =>
          if Nat.ltb (length states) (length production_output) then
            production_symbol <~ Ended (unwrap (nth_error production_output (length states))) ;;
            r <~ c_production_symbol production_symbol current_token_position is_single_path ;;
            match r with
            | SymOk ps =>
                c_production fuel' symbol_to_derive production_output is_single_path
                             (StParsing ps :: states) (ps_final_token_position ps)
            | SymErr fs =>
                '(states', popped) <~ c_pop_states states is_single_path [] ;;
                match popped with
                | Some production_parsing_states =>
                    Ended (Done (inner_parse_from_tokens_production_build_failed_symbol
                                   fs production_output production_parsing_states,
                                 current_token_position))
                | None =>
                    match states' with
                    | [] => Ended (Panicked PanicSubUnderflow)
                    | st :: _ =>
                        c_production fuel' symbol_to_derive production_output is_single_path
                                     states' (state_final_token_position st)
                    end
                end
            | SymFix fs =>
                c_production fuel' symbol_to_derive production_output is_single_path
                             (StFixed fs :: states) (fst_final_token_position fs)
            end
          else
            pr <~ Ended (inner_parse_from_tokens_production_build_node symbol_to_derive (rev states)) ;;
            Ended (Done (pr, current_token_position))
      end.

    (** recursive_descent_parser.rs:275-318 [inner_parse_from_tokens_try_parse_productions] *)
    Fixpoint c_try_productions (fuel : nat) (symbol_to_derive : T)
             (tokens_position : nat) (child_is_single_path : bool)
             (production_outputs : list (list T))
             (failed_productions : list (failed_production L T))
      : comp (parse_symbol_result + list (failed_production L T)) :=
      match production_outputs with
      | [] => Ended (Done (inr failed_productions))
      | production_output :: production_outputs' =>
          '(r, current_token_position) <~
            c_production fuel symbol_to_derive production_output child_is_single_path []
                         tokens_position ;;
          match r with
          | ProdOk n =>
              Ended (Done (inl (SymOk {| ps_initial_token_position := tokens_position;
                                         ps_final_token_position := current_token_position;
                                         ps_prod_iter_option := Some production_outputs';
                                         ps_node := n |})))
          | ProdErr failed_production =>
              c_try_productions fuel symbol_to_derive tokens_position child_is_single_path
                                production_outputs' (failed_productions ++ [failed_production])
          | ProdFix fp =>
              Ended (Done (inl (SymFix {| fst_final_token_position := current_token_position;
                                          fst_fixed_symbol := FixedSymbol fp symbol_to_derive |})))
          end
      end.

    (** recursive_descent_parser.rs:186-221 [inner_parse_from_tokens], one unfolding *)
    Definition c_step (fuel : nat) (symbol_to_derive : T) (tokens_position : nat)
               (production_outputs : list (list T)) (is_single_path : bool)
      : comp parse_symbol_result :=
      let child_is_single_path := is_child_single_path is_single_path production_outputs in
      r <~ c_try_productions fuel symbol_to_derive tokens_position child_is_single_path
                             production_outputs [] ;;
      match r with
      | inl parse_symbol_result => Ended (Done parse_symbol_result)
      | inr failed_productions =>
          fix_option <~ c_try_fix_productions self tokens tokens_position is_single_path
                          child_is_single_path failed_productions ;;
          Ended (Done (inner_parse_from_tokens_fix_option_to_parse_symbol_result
                         failed_productions fix_option symbol_to_derive))
      end.
  End Rec.

  Fixpoint c_inner_parse (fuel : nat) (self : parser L T) (tokens : list (token L T))
           (symbol_to_derive : T) (tokens_position : nat)
           (production_outputs : list (list T)) (is_single_path : bool)
    : comp parse_symbol_result :=
    match fuel with
    | O => Ended OutOfFuel
    | S fuel' =>
        c_step self tokens (c_inner_parse fuel' self tokens) fuel'
               symbol_to_derive tokens_position production_outputs is_single_path
    end.

  (** recursive_descent_parser.rs:120-148 [parse_from_tokens] *)
  Definition c_parse (fuel : nat) (self : parser L T) (tokens : list (token L T))
    : comp (parse_result L T) :=
    match tokens with
    | [] => Ended (Panicked PanicNoTokens)
    | first_token :: _ =>
        let symbol_to_derive := get_initial_symbol (pr_grammar self) in
        r <~ c_inner_parse fuel self tokens symbol_to_derive 0
               (inner_get_token_productions self symbol_to_derive (tok_type first_token)) true ;;
        Ended (Done (parse_symbol_result_to_parse_result r))
    end.

  (** ** Programs that parse several inputs at the same time *)

  (** language semantics: how a waiting computation goes on after the solver's reply *)
  Definition deliver {A : Type} (resume : option (fix_result L T) -> comp A)
             (reply : solver_reply L T) : comp A :=
    match reply with
    | Reply answer => resume answer
    | ReplyPanics => Ended (Panicked PanicSolver)
    | ReplyNever => Ended OutOfFuel
    end.

  (** The solver is shared: a reply may depend on all calls that any of the parses made
      before, in the order in which they were made, and on the parse that asks (an
      implementation can know the thread it runs in). *)
  Definition shared_solver : Type :=
    list (nat * solver_call L T) -> nat -> solver_call L T -> solver_reply L T.

  (** the running parses, and the calls made so far with the number of the parse *)
  Definition program (A : Type) : Type := list (comp A) * list (nat * solver_call L T).

  (** one of the parses makes its next call *)
  Inductive step {A : Type} (s : shared_solver) : program A -> program A -> Prop :=
  | step_at before c resume after calls :
      step s (before ++ Waits c resume :: after, calls)
             (before ++ deliver resume (s calls (length before) c) :: after,
              calls ++ [(length before, c)]).

  (** any number of steps, in any order *)
  Inductive steps {A : Type} (s : shared_solver) : program A -> program A -> Prop :=
  | steps_refl P : steps s P P
  | steps_more P Q R : steps s P Q -> step s Q R -> steps s P R.

  (** all parses are called; each runs until its first solver call *)
  Definition started (fuel : nat) (jobs : list (parser L T * list (token L T)))
    : program (parse_result L T) :=
    (map (fun job => c_parse fuel (fst job) (snd job)) jobs, []).
End Resume.
