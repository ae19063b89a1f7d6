(** * Model of /repo/src/parser/recursive_descent_parser_transitions.rs *)

From Verif Require Export FirstFollow.

Set Implicit Arguments.

Section Transitions.
  Context {T : Type} {E : EqImpl T}.

  Definition row : Type := list (T * list (production T)).

  (** recursive_descent_parser_transitions.rs:9-11 *)
  Record transitions : Type := Transitions { t_table : list (T * row) }.

  (** recursive_descent_parser_transitions.rs:14-25 [get_productions] *)
  Definition transitions_get_productions (t : transitions)
             (symbol_to_derive first_symbol : T) : option (list (production T)) :=
    match hash_map_get (t_table t) symbol_to_derive with
    | Some derivations_map => hash_map_get derivations_map first_symbol
    | None => None
    end.

  (** recursive_descent_parser_transitions.rs:125-156
      [inner_from_get_production_first_symbols_on_epsilon_first] *)
  Definition inner_from_get_production_first_symbols_on_epsilon_first
             (ho : hash_order T) (g : grammar T) (p : production T)
             (ffs : first_follow_symbols T) (symbol : T) (symbol_first_symbols : list T)
    : outcome (list T) :=
    let s0 :=
      hash_set_from_iter
        (filter (fun s => negb (eqb (get_epsilon_symbol g) s))
           (ho_iter ho (Site IterTransFirst 0 [symbol]) symbol_first_symbols)) in
    symbol_follow_symbols <-
      unwrap (if eqb (get_epsilon_symbol g) symbol
              then get_follow_symbols ffs (p_input p)
              else get_follow_symbols ffs symbol) ;;
    Done (fst (insert_many s0
            (ho_iter ho (Site IterTransFollow 0 [p_input p; symbol])
                     symbol_follow_symbols))).

  (** recursive_descent_parser_transitions.rs:158-168
      [inner_from_get_production_first_symbols_on_non_epsilon_first] *)
  Definition inner_from_get_production_first_symbols_on_non_epsilon_first
             (ho : hash_order T) (symbol : T) (symbol_first_symbols : list T) : list T :=
    hash_set_from_iter
      (ho_iter ho (Site IterTransFirst 0 [symbol]) symbol_first_symbols).

  (** recursive_descent_parser_transitions.rs:95-123
      [inner_from_get_production_first_symbols] *)
  Definition inner_from_get_production_first_symbols
             (ho : hash_order T) (g : grammar T) (p : production T)
             (ffs : first_follow_symbols T) : outcome (list T) :=
    symbol <- unwrap (nth_error (p_output p) 0) ;;
    symbol_first_symbols <- unwrap (get_first_symbols ffs symbol) ;;
    if hash_set_contains symbol_first_symbols (get_epsilon_symbol g)
    then inner_from_get_production_first_symbols_on_epsilon_first
           ho g p ffs symbol symbol_first_symbols
    else Done (inner_from_get_production_first_symbols_on_non_epsilon_first
                 ho symbol symbol_first_symbols).

  (** recursive_descent_parser_transitions.rs:170-184 [inner_from_initial_table] *)
  Definition inner_from_initial_table (non_terminal_symbols terminal_symbols : list T)
    : list (T * row) :=
    hash_map_from_iter
      (map (fun symbol =>
              (symbol, hash_map_from_iter (map (fun s => (s, [])) terminal_symbols)))
           non_terminal_symbols).

  (** recursive_descent_parser_transitions.rs:204-209, one production into a row:
      [row.get_mut(symbol).unwrap().push(production.clone())] for every symbol *)
  Definition push_production (ho : hash_order T) (p : production T)
             (production_first_symbols : list T) (r : row) : outcome row :=
    for_each
      (fun r first_symbol =>
         ps <- unwrap (hash_map_get r first_symbol) ;;
         Done (hash_map_insert r first_symbol (ps ++ [p])))
      r (ho_iter ho (Site IterTransCells 0 (p_input p :: p_output p))
                 production_first_symbols).

  (** recursive_descent_parser_transitions.rs:186-212
      [inner_from_process_productions] *)
  Definition inner_from_process_productions
             (ho : hash_order T) (g : grammar T) (ffs : first_follow_symbols T)
             (table : list (T * row)) (non_terminal_symbols : list T)
    : outcome (list (T * row)) :=
    for_each
      (fun table non_terminal_symbol =>
         symbol_productions <- unwrap (get_productions g non_terminal_symbol) ;;
         r <- unwrap (hash_map_get table non_terminal_symbol) ;;
         r' <- for_each
                 (fun r p =>
                    firsts <- inner_from_get_production_first_symbols ho g p ffs ;;
                    push_production ho p firsts r)
                 r symbol_productions ;;
         Done (hash_map_insert table non_terminal_symbol r'))
      table non_terminal_symbols.

  (** recursive_descent_parser_transitions.rs:29-34, 36-52 [from], [inner_from] *)
  Definition transitions_from (ho : hash_order T) (g : grammar T)
             (ffs : first_follow_symbols T) : outcome transitions :=
    let non_terminal_symbols := get_non_terminal_symbols ho g in
    let terminal_symbols := get_terminal_symbols ho g in
    table <- inner_from_process_productions ho g ffs
               (inner_from_initial_table non_terminal_symbols terminal_symbols)
               non_terminal_symbols ;;
    Done {| t_table := table |}.
End Transitions.
Arguments transitions : clear implicits.
Arguments row : clear implicits.
