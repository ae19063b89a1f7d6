(** * Model of /repo/src/grammar/first_follow_symbols.rs

    A [HashMap<T, RefCell<HashSet<T>>>] is a [symbols_map] threaded through the
    functions.  The [RefCell] borrow discipline is explicit: while the set of
    one symbol is mutably borrowed, borrowing it again is [Panicked PanicBorrow]. *)

From Verif Require Export Grammar.

Set Implicit Arguments.

Section FirstFollow.
  Context {T : Type} {E : EqImpl T}.

  (** first_follow_symbols.rs:12 [SymbolsMap] *)
  Definition symbols_map : Type := list (T * list T).

  (** first_follow_symbols.rs:14-17 [FirstFollowSymbols]; :29-34 [new] is the
      record constructor. *)
  Record first_follow_symbols : Type := FirstFollowSymbols {
    ffs_first_symbols : symbols_map;
    ffs_follow_symbols : symbols_map
  }.

  (** first_follow_symbols.rs:36-38, 44-49 [get_first_symbols] *)
  Definition get_first_symbols (ffs : first_follow_symbols) (symbol : T)
    : option (list T) := hash_map_get (ffs_first_symbols ffs) symbol.

  (** first_follow_symbols.rs:40-42, 44-49 [get_follow_symbols] *)
  Definition get_follow_symbols (ffs : first_follow_symbols) (symbol : T)
    : option (list T) := hash_map_get (ffs_follow_symbols ffs) symbol.

  (** first_follow_symbols.rs:20-25 [converge]: [while callback(model) {}].
      The callback mutates the model through its RefCells, so here it returns
      the new model; the loop is on fuel; [round] numbers the iterations. *)
  Fixpoint converge {M : Type} (fuel : nat) (round : nat)
           (callback : nat -> M -> outcome (M * bool)) (model : M) : outcome M :=
    match fuel with
    | O => OutOfFuel
    | S fuel' =>
        '(model', updated) <- callback round model ;;
        if updated then converge fuel' (S round) callback model'
        else Done model'
    end.

  (** first_follow_symbols.rs:51-57 [ref_map_to_symbols_map] *)
  Definition ref_map_to_symbols_map (ho : hash_order T) (tag : site_tag)
             (m : symbols_map) : symbols_map :=
    hash_map_from_iter (ho_iter ho (Site tag 0 []) m).

  (** first_follow_symbols.rs:422-433 [insert_many] *)
  Definition insert_many (s : list T) (items : list T) : list T * bool :=
    fold_left
      (fun acc x => let '(s', b) := hash_set_insert (fst acc) x in
                    (s', snd acc || b))
      items (s, false).

  (** ** FIRST *)

  (** first_follow_symbols.rs:117-123 [inner_get_first_symbols_non_terminal_map] *)
  Definition inner_get_first_symbols_non_terminal_map (symbols : list T)
    : list (T * list T) := map (fun symbol => (symbol, [])) symbols.

  (** first_follow_symbols.rs:224-233 [inner_get_first_symbols_terminal_map] *)
  Definition inner_get_first_symbols_terminal_map (symbols : list T)
    : list (T * list T) := map (fun symbol => (symbol, [symbol])) symbols.

  (** first_follow_symbols.rs:105-115 [inner_get_first_symbols_initial_map] *)
  Definition inner_get_first_symbols_initial_map
             (non_terminal_symbols terminal_symbols : list T) : symbols_map :=
    hash_map_from_iter
      (inner_get_first_symbols_non_terminal_map non_terminal_symbols
       ++ inner_get_first_symbols_terminal_map terminal_symbols).

  (** RefCell [borrow()] of [symbol]'s set while [held]'s set is mutably
      borrowed (first_follow_symbols.rs:85-86 holds it, :204-205 borrows). *)
  Definition borrow_first (m : symbols_map) (held symbol : T) : outcome (list T) :=
    s <- unwrap (hash_map_get m symbol) ;;
    if eqb symbol held then Panicked PanicBorrow else Done s.

  (** first_follow_symbols.rs:195-222
      [inner_get_first_symbols_process_production_non_terminal_symbol].
      Returns (current set, updated?, iterator set to None?). *)
  Definition inner_get_first_symbols_process_production_non_terminal_symbol
             (ho : hash_order T) (round : nat) (g : grammar T) (m : symbols_map)
             (held : T) (cur : list T) (production_symbol : T)
    : outcome (list T * bool * bool) :=
    symbol_first_symbols <- borrow_first m held production_symbol ;;
    let items :=
      ho_iter ho (Site IterFirstOf round [held; production_symbol])
              symbol_first_symbols in
    if hash_set_contains symbol_first_symbols (get_epsilon_symbol g) then
      let '(cur', upd) :=
        insert_many cur
          (filter (fun s => negb (eqb (get_epsilon_symbol g) s)) items) in
      Done (cur', upd, false)
    else
      let '(cur', upd) := insert_many cur items in
      Done (cur', upd, true).

  (** first_follow_symbols.rs:160-193
      [inner_get_first_symbols_process_production_symbol] *)
  Definition inner_get_first_symbols_process_production_symbol
             (ho : hash_order T) (round : nat) (g : grammar T) (m : symbols_map)
             (held : T) (cur : list T) (production_input production_symbol : T)
    : outcome (list T * bool * bool) :=
    if eqb production_symbol production_input then
      Done (cur, false, negb (hash_set_contains cur (get_epsilon_symbol g)))
    else if is_non_terminal g production_symbol then
      inner_get_first_symbols_process_production_non_terminal_symbol
        ho round g m held cur production_symbol
    else
      let '(cur', upd) := hash_set_insert cur production_symbol in
      Done (cur', upd, true).

  (** first_follow_symbols.rs:125-158
      [inner_get_first_symbols_process_production]: the [while] loop consumes the
      iterator over [production.output], so it is structural on the symbols left. *)
  Fixpoint inner_get_first_symbols_process_production_loop
             (ho : hash_order T) (round : nat) (g : grammar T) (m : symbols_map)
             (held : T) (production_input : T) (output : list T) (cur : list T)
             (updated : bool)
    : outcome (list T * bool) :=
    match output with
    | [] =>
        let '(cur', upd) := hash_set_insert cur (get_epsilon_symbol g) in
        Done (cur', updated || upd)
    | production_symbol :: output' =>
        '(cur', upd, stop) <-
          inner_get_first_symbols_process_production_symbol
            ho round g m held cur production_input production_symbol ;;
        if (stop : bool) then Done (cur', updated || upd)
        else inner_get_first_symbols_process_production_loop
               ho round g m held production_input output' cur' (updated || upd)
    end.

  Definition inner_get_first_symbols_process_production
             (ho : hash_order T) (round : nat) (g : grammar T) (m : symbols_map)
             (held : T) (cur : list T) (p : production T)
    : outcome (list T * bool) :=
    inner_get_first_symbols_process_production_loop
      ho round g m held (p_input p) (p_output p) cur false.

  (** first_follow_symbols.rs:84-96, the body of the [for] loop over
      (symbol, productions): borrow_mut the symbol's set, process the
      productions, release the borrow (write the set back). *)
  Definition first_round_symbol (ho : hash_order T) (round : nat) (g : grammar T)
             (st : symbols_map * bool) (symbol : T)
    : outcome (symbols_map * bool) :=
    let '(m, updated) := st in
    tuple_productions <- unwrap (get_productions g symbol) ;;
    cur <- unwrap (hash_map_get m symbol) ;;
    '(cur', upd) <-
      for_each
        (fun acc p =>
           '(c, b) <- inner_get_first_symbols_process_production
                        ho round g m symbol (fst acc) p ;;
           Done (c, snd acc || b))
        (cur, false) tuple_productions ;;
    Done (hash_map_insert m symbol cur', updated || upd).

  (** first_follow_symbols.rs:77-99, the converge callback for FIRST *)
  Definition first_round (ho : hash_order T) (g : grammar T)
             (non_terminal_symbols : list T) (round : nat) (m : symbols_map)
    : outcome (symbols_map * bool) :=
    for_each (first_round_symbol ho round g) (m, false) non_terminal_symbols.

  (** first_follow_symbols.rs:68-103 [inner_get_first_symbols] *)
  Definition inner_get_first_symbols (ho : hash_order T) (fuel : nat) (g : grammar T)
    : outcome symbols_map :=
    let non_terminal_symbols := get_non_terminal_symbols ho g in
    let terminal_symbols := get_terminal_symbols ho g in
    let initial :=
      inner_get_first_symbols_initial_map non_terminal_symbols terminal_symbols in
    m <- converge fuel 0 (first_round ho g non_terminal_symbols) initial ;;
    Done (ref_map_to_symbols_map ho IterRefMapFirst m).

  (** ** FOLLOW *)

  (** first_follow_symbols.rs:284-293: [borrow()] FOLLOW(input), [borrow_mut()]
      FOLLOW(output_symbol), insert every symbol of the former into the latter. *)
  Definition follow_propagate (ho : hash_order T) (round : nat)
             (follow : symbols_map) (production_input output_symbol : T)
    : outcome (symbols_map * bool) :=
    input_follow_symbols <- unwrap (hash_map_get follow production_input) ;;
    symbol_follow_symbols <- unwrap (hash_map_get follow output_symbol) ;;
    if eqb production_input output_symbol then Panicked PanicBorrow
    else
      let '(s', upd) :=
        insert_many symbol_follow_symbols
          (ho_iter ho (Site IterInputFollow round [production_input; output_symbol])
                   input_follow_symbols) in
      Done (hash_map_insert follow output_symbol s', upd).

  (** first_follow_symbols.rs:281-306, the [loop] of
      [get_follow_symbols_process_production_last_epsilon_chain], from
      [production_output_index] downwards. *)
  Fixpoint last_epsilon_chain_loop (ho : hash_order T) (round : nat) (g : grammar T)
           (first : symbols_map) (p : production T)
           (production_output_index : nat) (follow : symbols_map) (updated : bool)
    : outcome (symbols_map * bool) :=
    output_symbol <- unwrap (nth_error (p_output p) production_output_index) ;;
    '(follow', upd) <-
      (if negb (eqb output_symbol (p_input p)) && is_non_terminal g output_symbol
       then follow_propagate ho round follow (p_input p) output_symbol
       else Done (follow, false)) ;;
    output_symbol_first_symbols <- unwrap (hash_map_get first output_symbol) ;;
    match production_output_index with
    | O => Done (follow', updated || upd)
    | S index' =>
        if hash_set_contains output_symbol_first_symbols (get_epsilon_symbol g)
        then last_epsilon_chain_loop ho round g first p index' follow' (updated || upd)
        else Done (follow', updated || upd)
    end.

  (** [production.output.len() - 1] (first_follow_symbols.rs:279, 325) *)
  Definition last_output_index (p : production T) : outcome nat :=
    match length (p_output p) with
    | O => Panicked PanicSubUnderflow
    | S n => Done n
    end.

  (** first_follow_symbols.rs:271-309
      [get_follow_symbols_process_production_last_epsilon_chain] *)
  Definition get_follow_symbols_process_production_last_epsilon_chain
             (ho : hash_order T) (round : nat) (g : grammar T) (first : symbols_map)
             (follow : symbols_map) (p : production T) : outcome (symbols_map * bool) :=
    i <- last_output_index p ;;
    last_epsilon_chain_loop ho round g first p i follow false.

  (** first_follow_symbols.rs:435-458 [update_follow_symbols_lambda_chain] *)
  Definition update_follow_symbols_lambda_chain
             (ho : hash_order T) (round : nat) (g : grammar T) (first : symbols_map)
             (p : production T) (first_indexes : list nat) (current : list T)
    : outcome (list T * bool) :=
    for_each
      (fun acc index =>
         symbol <- unwrap (nth_error (p_output p) index) ;;
         symbol_first <- unwrap (hash_map_get first symbol) ;;
         let '(s', b) :=
           insert_many (fst acc)
             (filter (fun s => negb (eqb (get_epsilon_symbol g) s))
                (ho_iter ho (Site IterFollowFirst round [symbol]) symbol_first)) in
         Done (s', snd acc || b))
      (current, false) first_indexes.

  (** first_follow_symbols.rs:384-420
      [get_follow_symbols_process_production_non_terminal_symbol];
      returns (FOLLOW map, updated?, first_indexes). *)
  Definition get_follow_symbols_process_production_non_terminal_symbol
             (ho : hash_order T) (round : nat) (g : grammar T) (first : symbols_map)
             (follow : symbols_map) (p : production T) (production_output_index : nat)
             (first_indexes : list nat) (current_symbol : T)
    : outcome (symbols_map * bool * list nat) :=
    let next_symbol_index := production_output_index + 1 in
    next_symbol <- unwrap (nth_error (p_output p) next_symbol_index) ;;
    if negb (eqb current_symbol next_symbol) then
      next_symbol_first_symbols <- unwrap (hash_map_get first next_symbol) ;;
      let first_indexes :=
        if negb (hash_set_contains next_symbol_first_symbols (get_epsilon_symbol g))
        then [] else first_indexes in
      let first_indexes := first_indexes ++ [next_symbol_index] in
      current_symbol_follow_symbols <- unwrap (hash_map_get follow current_symbol) ;;
      '(s', upd) <-
        update_follow_symbols_lambda_chain
          ho round g first p first_indexes current_symbol_follow_symbols ;;
      Done (hash_map_insert follow current_symbol s', upd, first_indexes)
    else Done (follow, false, first_indexes).

  (** first_follow_symbols.rs:352-382 [get_follow_symbols_process_production_symbol] *)
  Definition get_follow_symbols_process_production_symbol
             (ho : hash_order T) (round : nat) (g : grammar T) (first : symbols_map)
             (follow : symbols_map) (p : production T) (production_output_index : nat)
             (first_indexes : list nat)
    : outcome (symbols_map * bool * list nat) :=
    current_symbol <- unwrap (nth_error (p_output p) production_output_index) ;;
    if is_non_terminal g current_symbol then
      get_follow_symbols_process_production_non_terminal_symbol
        ho round g first follow p production_output_index first_indexes current_symbol
    else Done (follow, false, []).

  (** first_follow_symbols.rs:331-346, the [loop] of
      [get_follow_symbols_process_production] *)
  Fixpoint follow_symbols_loop (ho : hash_order T) (round : nat) (g : grammar T)
           (first : symbols_map) (p : production T) (production_output_index : nat)
           (follow : symbols_map) (first_indexes : list nat) (updated : bool)
    : outcome (symbols_map * bool) :=
    '(follow', upd, first_indexes') <-
      get_follow_symbols_process_production_symbol
        ho round g first follow p production_output_index first_indexes ;;
    match production_output_index with
    | O => Done (follow', updated || upd)
    | S index' =>
        follow_symbols_loop ho round g first p index' follow' first_indexes'
                            (updated || upd)
    end.

  (** first_follow_symbols.rs:311-350 [get_follow_symbols_process_production] *)
  Definition get_follow_symbols_process_production
             (ho : hash_order T) (round : nat) (g : grammar T) (first : symbols_map)
             (follow : symbols_map) (p : production T)
    : outcome (symbols_map * bool) :=
    '(follow', upd) <-
      get_follow_symbols_process_production_last_epsilon_chain
        ho round g first follow p ;;
    last_production_output_index <- last_output_index p ;;
    match last_production_output_index with
    | O => Done (follow', upd)
    | S index => follow_symbols_loop ho round g first p index follow' [] upd
    end.

  (** first_follow_symbols.rs:254-263, one (symbol, productions) pair *)
  Definition follow_round_symbol (ho : hash_order T) (round : nat) (g : grammar T)
             (first : symbols_map) (st : symbols_map * bool) (symbol : T)
    : outcome (symbols_map * bool) :=
    tuple_productions <- unwrap (get_productions g symbol) ;;
    for_each
      (fun acc p =>
         '(m', b) <- get_follow_symbols_process_production
                       ho round g first (fst acc) p ;;
         Done (m', snd acc || b))
      st tuple_productions.

  (** first_follow_symbols.rs:247-266, the converge callback for FOLLOW *)
  Definition follow_round (ho : hash_order T) (g : grammar T) (first : symbols_map)
             (non_terminal_symbols : list T) (round : nat) (follow : symbols_map)
    : outcome (symbols_map * bool) :=
    for_each (follow_round_symbol ho round g first) (follow, false)
             non_terminal_symbols.

  (** first_follow_symbols.rs:235-269 [inner_get_follow_symbols] *)
  Definition inner_get_follow_symbols (ho : hash_order T) (fuel : nat) (g : grammar T)
             (first : symbols_map) : outcome symbols_map :=
    let non_terminal_symbols := get_non_terminal_symbols ho g in
    let initial :=
      hash_map_from_iter (map (fun symbol => (symbol, [])) non_terminal_symbols) in
    m <- converge fuel 0 (follow_round ho g first non_terminal_symbols) initial ;;
    Done (ref_map_to_symbols_map ho IterRefMapFollow m).

  (** first_follow_symbols.rs:61-66 [from] *)
  Definition ffs_from (ho : hash_order T) (fuel : nat) (g : grammar T)
    : outcome first_follow_symbols :=
    first <- inner_get_first_symbols ho fuel g ;;
    follow <- inner_get_follow_symbols ho fuel g first ;;
    Done {| ffs_first_symbols := first; ffs_follow_symbols := follow |}.
End FirstFollow.
Arguments symbols_map : clear implicits.
Arguments first_follow_symbols : clear implicits.
