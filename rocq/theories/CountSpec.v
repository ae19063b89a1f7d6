(** * CountSpec: parsing with a solver within a budget of recursive calls

    As in WorkSpec.v the list that Parser.v threads through the recursion also
    records the calls of the recursive function made so far.  Here the parser
    may have a solver; the solver is shown its own calls only. *)

From Verif Require Export WorkSpec.

Set Implicit Arguments.

Section CountSpec.
  Context {L T : Type} {E : EqDec T}.

  (** the record of a call of the recursive function; a call of the solver has a
      non-empty token vector *)
  Definition is_tick (c : solver_call L T) : bool :=
    match c with FixFailedProductions [] _ [] => true | _ => false end.

  (** the calls of the recursive function, and those of the solver *)
  Definition recursive_calls (log : history L T) : history L T := filter is_tick log.
  Definition solver_calls (log : history L T) : history L T := filter (fun c => negb (is_tick c)) log.

  (** the same parser with a solver that does not see the records *)
  Definition counting (self : parser L T) : parser L T :=
    {| pr_grammar := pr_grammar self;
       pr_solver := option_map (fun s log c => s (solver_calls log) c) (pr_solver self);
       pr_transitions := pr_transitions self |}.

  Variable budget : nat.

  (** recursive_descent_parser.rs:186-221 [inner_parse_from_tokens], giving up
      ([OutOfFuel]) instead of making more than [budget] calls *)
  Fixpoint inner_counted (fuel : nat) (self : parser L T) (tokens : list (token L T))
           (symbol_to_derive : T) (tokens_position : nat) (production_outputs : list (list T))
           (is_single_path : bool) (log : history L T)
    : outcome (parse_symbol_result L T * history L T) :=
    match fuel with
    | O => OutOfFuel
    | S fuel' =>
        if length (recursive_calls log) <? budget then
          inner_parse_from_tokens_step (counting self) tokens (inner_counted fuel' self tokens) fuel'
            symbol_to_derive tokens_position production_outputs is_single_path
            (log ++ [tick tokens_position])
        else OutOfFuel
    end.

  (** recursive_descent_parser.rs:120-148 [parse_from_tokens], likewise *)
  Definition parse_counted (fuel : nat) (self : parser L T) (tokens : list (token L T))
    : outcome (parse_result L T * history L T) :=
    match tokens with
    | [] => Panicked PanicNoTokens
    | first_token :: _ =>
        let symbol_to_derive := get_initial_symbol (pr_grammar self) in
        '(r, log) <- inner_counted fuel self tokens symbol_to_derive 0
                     (inner_get_token_productions self symbol_to_derive (tok_type first_token))
                     true [] ;;
        Done (parse_symbol_result_to_parse_result r, solver_calls log)
    end.
End CountSpec.
