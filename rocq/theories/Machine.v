(** * The parser and FOLLOW once more, with vectors and machine integers

    [Parser.v] and [FirstFollow.v] keep the state vector of a production as a stack, take
    suffixes of lists where the source counts indexes, and compute positions and indexes with
    unbounded integers.  Here the functions that do so are written again, statement by
    statement, with [Vec] operations, [while] / [loop] / [for i in a..b] and [usize]
    arithmetic of a machine with the largest [usize] [usize_max]; what happens on an overflow
    (a panic in debug builds, a wrapped value in release builds) is left open.
    The functions that do neither are those of [Parser.v] and [FirstFollow.v]. *)

From Verif Require Export Parser.

Set Implicit Arguments.

(** a [usize] type: its largest value and what [+] and [-] do on overflow *)
Record machine : Type := Machine {
  usize_max : nat;
  overflow_add : nat -> nat -> outcome nat;
  overflow_sub : nat -> nat -> outcome nat
}.

Definition usize_add (mc : machine) (a b : nat) : outcome nat :=
  if Nat.leb (a + b) (usize_max mc) then Done (a + b) else overflow_add mc a b.

Definition usize_sub (mc : machine) (a b : nat) : outcome nat :=
  if Nat.leb b a then Done (a - b) else overflow_sub mc a b.

(** [Vec::push], [Vec::pop], [for i in a..b] *)
Definition vec_push {A : Type} (v : list A) (x : A) : list A := v ++ [x].
Definition vec_pop {A : Type} (v : list A) : option (list A * A) :=
  match rev v with
  | [] => None
  | x :: r => Some (rev r, x)
  end.
Definition index_range (a b : nat) : list nat := seq a (b - a).

Section MachineFollow.
  Context {T : Type} {E : EqImpl T}.
  Variable mc : machine.

  (** first_follow_symbols.rs:271-309
      [get_follow_symbols_process_production_last_epsilon_chain], the [loop] on fuel *)
  Fixpoint m_last_epsilon_chain_loop (fuel : nat) (ho : hash_order T) (round : nat) (g : grammar T)
           (first : symbols_map T) (p : production T)
           (production_output_index : nat) (follow : symbols_map T) (updated : bool)
    : outcome (symbols_map T * bool) :=
    match fuel with
    | O => OutOfFuel
    | S fuel' =>
        output_symbol <- unwrap (nth_error (p_output p) production_output_index) ;;
        '(follow', upd) <-
          (if negb (eqb output_symbol (p_input p)) && is_non_terminal g output_symbol
           then follow_propagate ho round follow (p_input p) output_symbol
           else Done (follow, false)) ;;
        output_symbol_first_symbols <- unwrap (hash_map_get first output_symbol) ;;
        let contains_epsilon :=
          hash_set_contains output_symbol_first_symbols (get_epsilon_symbol g) in
        if Nat.eqb production_output_index 0 || negb contains_epsilon
        then Done (follow', updated || upd)
        else
          index' <- usize_sub mc production_output_index 1 ;;
          m_last_epsilon_chain_loop fuel' ho round g first p index' follow' (updated || upd)
    end.

  Definition m_get_follow_symbols_process_production_last_epsilon_chain
             (ho : hash_order T) (round : nat) (g : grammar T) (first : symbols_map T)
             (follow : symbols_map T) (p : production T) : outcome (symbols_map T * bool) :=
    i <- usize_sub mc (length (p_output p)) 1 ;;
    m_last_epsilon_chain_loop (S i) ho round g first p i follow false.

  (** first_follow_symbols.rs:384-420
      [get_follow_symbols_process_production_non_terminal_symbol] *)
  Definition m_get_follow_symbols_process_production_non_terminal_symbol
             (ho : hash_order T) (round : nat) (g : grammar T) (first : symbols_map T)
             (follow : symbols_map T) (p : production T) (production_output_index : nat)
             (first_indexes : list nat) (current_symbol : T)
    : outcome (symbols_map T * bool * list nat) :=
    next_symbol_index <- usize_add mc production_output_index 1 ;;
    next_symbol <- unwrap (nth_error (p_output p) next_symbol_index) ;;
    if negb (eqb current_symbol next_symbol) then
      next_symbol_first_symbols <- unwrap (hash_map_get first next_symbol) ;;
      let first_indexes :=
        if negb (hash_set_contains next_symbol_first_symbols (get_epsilon_symbol g))
        then [] else first_indexes in
      let first_indexes := vec_push first_indexes next_symbol_index in
      current_symbol_follow_symbols <- unwrap (hash_map_get follow current_symbol) ;;
      '(s', upd) <-
        update_follow_symbols_lambda_chain
          ho round g first p first_indexes current_symbol_follow_symbols ;;
      Done (hash_map_insert follow current_symbol s', upd, first_indexes)
    else Done (follow, false, first_indexes).

  (** first_follow_symbols.rs:352-382 [get_follow_symbols_process_production_symbol] *)
  Definition m_get_follow_symbols_process_production_symbol
             (ho : hash_order T) (round : nat) (g : grammar T) (first : symbols_map T)
             (follow : symbols_map T) (p : production T) (production_output_index : nat)
             (first_indexes : list nat)
    : outcome (symbols_map T * bool * list nat) :=
    current_symbol <- unwrap (nth_error (p_output p) production_output_index) ;;
    if is_non_terminal g current_symbol then
      m_get_follow_symbols_process_production_non_terminal_symbol
        ho round g first follow p production_output_index first_indexes current_symbol
    else Done (follow, false, []).

  (** first_follow_symbols.rs:331-346, the [loop] of
      [get_follow_symbols_process_production], on fuel *)
  Fixpoint m_follow_symbols_loop (fuel : nat) (ho : hash_order T) (round : nat) (g : grammar T)
           (first : symbols_map T) (p : production T) (production_output_index : nat)
           (follow : symbols_map T) (first_indexes : list nat) (updated : bool)
    : outcome (symbols_map T * bool) :=
    match fuel with
    | O => OutOfFuel
    | S fuel' =>
        '(follow', upd, first_indexes') <-
          m_get_follow_symbols_process_production_symbol
            ho round g first follow p production_output_index first_indexes ;;
        if Nat.eqb production_output_index 0 then Done (follow', updated || upd)
        else
          index' <- usize_sub mc production_output_index 1 ;;
          m_follow_symbols_loop fuel' ho round g first p index' follow' first_indexes'
                                (updated || upd)
    end.

  (** first_follow_symbols.rs:311-350 [get_follow_symbols_process_production] *)
  Definition m_get_follow_symbols_process_production
             (ho : hash_order T) (round : nat) (g : grammar T) (first : symbols_map T)
             (follow : symbols_map T) (p : production T)
    : outcome (symbols_map T * bool) :=
    '(follow', upd) <-
      m_get_follow_symbols_process_production_last_epsilon_chain
        ho round g first follow p ;;
    last_production_output_index <- usize_sub mc (length (p_output p)) 1 ;;
    if Nat.ltb 0 last_production_output_index then
      index <- usize_sub mc last_production_output_index 1 ;;
      m_follow_symbols_loop (S index) ho round g first p index follow' [] upd
    else Done (follow', upd).

  (** first_follow_symbols.rs:254-263 *)
  Definition m_follow_round_symbol (ho : hash_order T) (round : nat) (g : grammar T)
             (first : symbols_map T) (st : symbols_map T * bool) (symbol : T)
    : outcome (symbols_map T * bool) :=
    tuple_productions <- unwrap (get_productions g symbol) ;;
    for_each
      (fun acc p =>
         '(m', b) <- m_get_follow_symbols_process_production
                       ho round g first (fst acc) p ;;
         Done (m', snd acc || b))
      st tuple_productions.

  (** first_follow_symbols.rs:247-266 *)
  Definition m_follow_round (ho : hash_order T) (g : grammar T) (first : symbols_map T)
             (non_terminal_symbols : list T) (round : nat) (follow : symbols_map T)
    : outcome (symbols_map T * bool) :=
    for_each (m_follow_round_symbol ho round g first) (follow, false)
             non_terminal_symbols.

  (** first_follow_symbols.rs:235-269 [inner_get_follow_symbols] *)
  Definition m_inner_get_follow_symbols (ho : hash_order T) (fuel : nat) (g : grammar T)
             (first : symbols_map T) : outcome (symbols_map T) :=
    let non_terminal_symbols := get_non_terminal_symbols ho g in
    let initial :=
      hash_map_from_iter (map (fun symbol => (symbol, [])) non_terminal_symbols) in
    m <- converge fuel 0 (m_follow_round ho g first non_terminal_symbols) initial ;;
    Done (ref_map_to_symbols_map ho IterRefMapFollow m).

  (** first_follow_symbols.rs:61-66 [from] *)
  Definition m_ffs_from (ho : hash_order T) (fuel : nat) (g : grammar T)
    : outcome (first_follow_symbols T) :=
    first <- inner_get_first_symbols ho fuel g ;;
    follow <- m_inner_get_follow_symbols ho fuel g first ;;
    Done {| ffs_first_symbols := first; ffs_follow_symbols := follow |}.
End MachineFollow.

Section MachineParser.
  Context {L T : Type} {E : EqImpl T}.
  Variable mc : machine.

  Notation state := (state L T).
  Notation history := (history L T).
  Notation parse_symbol_result := (parse_symbol_result L T).
  Notation parse_production_result := (parse_production_result L T).

  (** recursive_descent_parser.rs:480-509 [inner_parse_non_epsilon_terminal_symbol] *)
  Definition m_inner_parse_non_epsilon_terminal_symbol (production_symbol : T)
             (tokens : list (token L T)) (token_position : nat) : outcome parse_symbol_result :=
    match nth_error tokens token_position with
    | Some current_token_symbol =>
        if eqb production_symbol (tok_type current_token_symbol) then
          final_token_position <- usize_add mc token_position 1 ;;
          Done (SymOk {| ps_initial_token_position := token_position;
                         ps_final_token_position := final_token_position;
                         ps_prod_iter_option := None;
                         ps_node := Node [] current_token_symbol |})
        else Done (build_token_failed_symbol production_symbol)
    | None => Done (build_token_failed_symbol production_symbol)
    end.

  (** recursive_descent_parser.rs:459-478 [inner_parse_terminal_symbol] *)
  Definition m_inner_parse_terminal_symbol (self : parser L T) (production_symbol : T)
             (tokens : list (token L T)) (token_position : nat) : outcome parse_symbol_result :=
    if eqb (get_epsilon_symbol (pr_grammar self)) production_symbol then
      Done (SymOk {| ps_initial_token_position := token_position;
                     ps_final_token_position := token_position;
                     ps_prod_iter_option := None;
                     ps_node := Node [] (Token None production_symbol) |})
    else m_inner_parse_non_epsilon_terminal_symbol production_symbol tokens token_position.

  (** recursive_descent_parser.rs:372-395
      [inner_parse_from_tokens_production_build_failed_symbol] *)
  Definition m_inner_parse_from_tokens_production_build_failed_symbol
             (fs : failed_symbol L T) (production_output : list T)
             (production_states : list state) : outcome parse_production_result :=
    let child_nodes := map (@state_to_parsed_symbol L T) production_states in
    first <- usize_add mc (length child_nodes) 1 ;;
    pending_symbols <-
      for_each
        (fun pending_symbols i =>
           symbol <- unwrap (nth_error production_output i) ;;
           Done (vec_push pending_symbols symbol))
        [] (index_range first (length production_output)) ;;
    Done (ProdErr (FailedProduction fs child_nodes pending_symbols)).

  Section Rec.
    Variable self : parser L T.
    Variable tokens : list (token L T).
    Variable rec : T -> nat -> list (list T) -> bool -> history ->
                   outcome (parse_symbol_result * history).

    (** recursive_descent_parser.rs:511-528 [inner_parse_from_tokens_production_symbol] *)
    Definition m_inner_parse_from_tokens_production_symbol
               (production_symbol : T) (token_position : nat) (is_single_path : bool)
               (h : history) : outcome (parse_symbol_result * history) :=
      if is_non_terminal (pr_grammar self) production_symbol then
        inner_parse_from_tokens_production_non_terminal self tokens rec
          production_symbol token_position is_single_path h
      else
        r <- m_inner_parse_terminal_symbol self production_symbol tokens token_position ;;
        Done (r, h).

    (** recursive_descent_parser.rs:530-580 [inner_parse_pop_states]: the [while] loop, on
        fuel; the variables are [states], [reversed_failed_symbols] and [states_pop_success] *)
    Fixpoint m_pop_states_loop (fuel : nat) (states : list state) (is_single_path : bool)
             (reversed_failed_symbols : list state) (states_pop_success : bool) (h : history)
      : outcome (list state * option (list state) * history) :=
      match fuel with
      | O => OutOfFuel
      | S fuel' =>
          if Nat.ltb 0 (length states) && negb states_pop_success then
            '(states', last_state) <- unwrap (vec_pop states) ;;
            match last_state with
            | StFixed fs =>
                m_pop_states_loop fuel' states' is_single_path
                  (vec_push reversed_failed_symbols (StFixed fs)) states_pop_success h
            | StParsing ps =>
                match ps_prod_iter_option ps with
                | Some productions_iterator =>
                    '(r, h') <- rec (tok_type (node_token (ps_node ps)))
                                    (ps_initial_token_position ps)
                                    productions_iterator is_single_path h ;;
                    match r with
                    | SymOk ps' =>
                        m_pop_states_loop fuel' (vec_push states' (StParsing ps')) is_single_path
                          reversed_failed_symbols true h'
                    | _ =>
                        m_pop_states_loop fuel' states' is_single_path
                          reversed_failed_symbols states_pop_success h'
                    end
                | None =>
                    m_pop_states_loop fuel' states' is_single_path
                      (vec_push reversed_failed_symbols (StParsing ps)) states_pop_success h
                end
            end
          else if states_pop_success then Done (states, None, h)
          else Done (states, Some (rev reversed_failed_symbols), h)
      end.

    Definition m_inner_parse_pop_states (states : list state) (is_single_path : bool) (h : history)
      : outcome (list state * option (list state) * history) :=
      m_pop_states_loop (S (S (length states))) states is_single_path [] false h.

    (** recursive_descent_parser.rs:320-370 [inner_parse_from_tokens_production] *)
    Fixpoint m_inner_parse_from_tokens_production (fuel : nat) (symbol_to_derive : T)
             (production_output : list T) (is_single_path : bool)
             (states : list state) (current_token_position : nat) (h : history)
      : outcome (parse_production_result * nat * history) :=
      match fuel with
      | O => OutOfFuel
      | S fuel' =>
          if Nat.ltb (length states) (length production_output) then
            production_symbol <- unwrap (nth_error production_output (length states)) ;;
            '(r, h') <- m_inner_parse_from_tokens_production_symbol
                          production_symbol current_token_position is_single_path h ;;
            match r with
            | SymOk ps =>
                m_inner_parse_from_tokens_production fuel' symbol_to_derive
                  production_output is_single_path (vec_push states (StParsing ps))
                  (ps_final_token_position ps) h'
            | SymErr fs =>
                '(states', popped, h'') <- m_inner_parse_pop_states states is_single_path h' ;;
                match popped with
                | Some production_parsing_states =>
                    r <- m_inner_parse_from_tokens_production_build_failed_symbol
                           fs production_output production_parsing_states ;;
                    Done (r, current_token_position, h'')
                | None =>
                    last <- usize_sub mc (length states') 1 ;;
                    st <- unwrap (nth_error states' last) ;;
                    m_inner_parse_from_tokens_production fuel' symbol_to_derive
                      production_output is_single_path states'
                      (state_final_token_position st) h''
                end
            | SymFix fs =>
                m_inner_parse_from_tokens_production fuel' symbol_to_derive
                  production_output is_single_path (vec_push states (StFixed fs))
                  (fst_final_token_position fs) h'
            end
          else
            pr <- inner_parse_from_tokens_production_build_node symbol_to_derive states ;;
            Done (pr, current_token_position, h)
      end.

    (** recursive_descent_parser.rs:275-318 [inner_parse_from_tokens_try_parse_productions] *)
    Fixpoint m_try_parse_productions_loop (fuel : nat) (symbol_to_derive : T)
             (tokens_position : nat) (child_is_single_path : bool)
             (production_outputs : list (list T))
             (failed_productions : list (failed_production L T)) (h : history)
      : outcome ((parse_symbol_result + list (failed_production L T)) * history) :=
      match production_outputs with
      | [] => Done (inr failed_productions, h)
      | production_output :: production_outputs' =>
          '(r, current_token_position, h') <-
            m_inner_parse_from_tokens_production fuel symbol_to_derive production_output
              child_is_single_path [] tokens_position h ;;
          match r with
          | ProdOk n =>
              Done (inl (SymOk {| ps_initial_token_position := tokens_position;
                                  ps_final_token_position := current_token_position;
                                  ps_prod_iter_option := Some production_outputs';
                                  ps_node := n |}), h')
          | ProdErr failed_production =>
              m_try_parse_productions_loop fuel symbol_to_derive tokens_position
                child_is_single_path production_outputs'
                (vec_push failed_productions failed_production) h'
          | ProdFix fp =>
              Done (inl (SymFix {| fst_final_token_position := current_token_position;
                                   fst_fixed_symbol := FixedSymbol fp symbol_to_derive |}),
                    h')
          end
      end.

    (** recursive_descent_parser.rs:186-221 [inner_parse_from_tokens], one unfolding *)
    Definition m_inner_parse_from_tokens_step (fuel : nat)
               (symbol_to_derive : T) (tokens_position : nat)
               (production_outputs : list (list T)) (is_single_path : bool) (h : history)
      : outcome (parse_symbol_result * history) :=
      let child_is_single_path := is_child_single_path is_single_path production_outputs in
      '(r, h') <- m_try_parse_productions_loop fuel symbol_to_derive tokens_position
                    (is_child_single_path is_single_path production_outputs)
                    production_outputs [] h ;;
      match r with
      | inl parse_symbol_result => Done (parse_symbol_result, h')
      | inr failed_productions =>
          '(fix_option, h'') <-
            inner_parse_from_tokens_try_fix_productions self tokens tokens_position
              is_single_path child_is_single_path failed_productions h' ;;
          Done (inner_parse_from_tokens_fix_option_to_parse_symbol_result
                  failed_productions fix_option symbol_to_derive, h'')
      end.
  End Rec.

  Fixpoint m_inner_parse_from_tokens (fuel : nat) (self : parser L T)
           (tokens : list (token L T)) (symbol_to_derive : T) (tokens_position : nat)
           (production_outputs : list (list T)) (is_single_path : bool) (h : history)
    : outcome (parse_symbol_result * history) :=
    match fuel with
    | O => OutOfFuel
    | S fuel' =>
        m_inner_parse_from_tokens_step self tokens
          (m_inner_parse_from_tokens fuel' self tokens) fuel'
          symbol_to_derive tokens_position production_outputs is_single_path h
    end.

  (** recursive_descent_parser.rs:593-599 [iterator_to_vec] *)
  Definition iterator_to_vec {A : Type} (items : list A) : list A :=
    fold_left (fun vector x => vec_push vector x) items [].

  (** recursive_descent_parser.rs:120-148 [parse_from_tokens] *)
  Definition m_parse_from_tokens (fuel : nat) (self : parser L T) (items : list (token L T))
    : outcome (parse_result L T * history) :=
    let tokens_vector := iterator_to_vec items in
    if Nat.eqb (length tokens_vector) 0 then Panicked PanicNoTokens
    else
      let symbol_to_derive := get_initial_symbol (pr_grammar self) in
      let token_position := 0 in
      first_token <- unwrap (nth_error tokens_vector token_position) ;;
      '(r, h) <- m_inner_parse_from_tokens fuel self tokens_vector symbol_to_derive token_position
                   (inner_get_token_productions self symbol_to_derive (tok_type first_token))
                   true [] ;;
      Done (parse_symbol_result_to_parse_result r, h).

  (** recursive_descent_parser.rs:98-102, 111-118 [from_grammar], [from_grammar_and_solver] *)
  Definition m_from_grammar (ho : hash_order T) (fuel : nat) (g : grammar T)
    : outcome (parser L T) :=
    ffs <- m_ffs_from mc ho fuel g ;; from_grammar_and_first_follow_symbols ho g ffs.

  Definition m_from_grammar_and_solver (ho : hash_order T) (fuel : nat) (g : grammar T)
             (solver : syntax_error_solver L T) : outcome (parser L T) :=
    ffs <- m_ffs_from mc ho fuel g ;; rdp_from ho g ffs (Some solver).
End MachineParser.
