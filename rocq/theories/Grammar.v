(** * Model of /repo/src/grammar/context_free_grammar_production.rs
      and   /repo/src/grammar/context_free_grammar.rs *)

From Verif Require Export Base.

Set Implicit Arguments.

(** context_free_grammar_production.rs:1-4, 7-9 [ContextFreeGrammarProduction] *)
Record production (T : Type) : Type := Production {
  p_input : T;
  p_output : list T
}.
Arguments Production {T} _ _.

Section Grammar.
  Context {T : Type} {E : EqImpl T}.

  (** [HashMap<T, Vec<ContextFreeGrammarProduction<T>>>] *)
  Definition productions_map : Type := list (T * list (production T)).

  (** context_free_grammar.rs:7-13 [ContextFreeGrammar] *)
  Record grammar : Type := Grammar {
    g_epsilon_symbol : T;
    g_initial_symbol : T;
    g_non_terminal_symbols_set : list T;
    g_productions : productions_map;
    g_terminal_symbols_set : list T
  }.

  (** context_free_grammar.rs:16-18 [get_epsilon_symbol] *)
  Definition get_epsilon_symbol (g : grammar) : T := g_epsilon_symbol g.

  (** context_free_grammar.rs:20-22 [get_initial_symbol] *)
  Definition get_initial_symbol (g : grammar) : T := g_initial_symbol g.

  (** context_free_grammar.rs:26-31 [get_non_terminal_symbols] *)
  Definition get_non_terminal_symbols (ho : hash_order T) (g : grammar) : list T :=
    ho_iter ho (Site IterNonTerminals 0 []) (g_non_terminal_symbols_set g).

  (** context_free_grammar.rs:33-38 [get_terminal_symbols] *)
  Definition get_terminal_symbols (ho : hash_order T) (g : grammar) : list T :=
    ho_iter ho (Site IterTerminals 0 []) (g_terminal_symbols_set g).

  (** context_free_grammar.rs:42-44 [get_productions] *)
  Definition get_productions (g : grammar) (symbol : T) : option (list (production T)) :=
    hash_map_get (g_productions g) symbol.

  (** context_free_grammar.rs:46-48 [is_non_terminal] *)
  Definition is_non_terminal (g : grammar) (symbol : T) : bool :=
    hash_set_contains (g_non_terminal_symbols_set g) symbol.

  (** context_free_grammar.rs:50-52 [is_terminal] *)
  Definition is_terminal (g : grammar) (symbol : T) : bool :=
    hash_set_contains (g_terminal_symbols_set g) symbol.

  (** context_free_grammar.rs:124-143 [new_process_productions_map];
      [get_mut] followed by [push] is a re-insertion of the extended vector. *)
  Definition new_process_productions_map (productions : list (production T))
    : productions_map :=
    fold_left
      (fun m p =>
         match hash_map_get m (p_input p) with
         | None => hash_map_insert m (p_input p) [p]
         | Some ps => hash_map_insert m (p_input p) (ps ++ [p])
         end)
      productions [].

  (** context_free_grammar.rs:112-120, the checks on one production *)
  Definition check_production (epsilon_symbol : T) (p : production T) : outcome unit :=
    if Nat.eqb (length (p_output p)) 0 then Panicked PanicEmptyOutput
    else if Nat.ltb 1 (length (p_output p))
              && hash_set_contains (p_output p) epsilon_symbol
    then Panicked PanicEpsilonNotAlone
    else Done tt.

  (** context_free_grammar.rs:103-122 [new_check_productions_map] *)
  Definition new_check_productions_map (ho : hash_order T) (epsilon_symbol : T)
             (m : productions_map) : outcome unit :=
    for_each
      (fun _ kv =>
         if eqb (fst kv) epsilon_symbol then Panicked PanicEpsilonGenerates
         else for_each (fun _ p => check_production epsilon_symbol p) tt (snd kv))
      tt (ho_iter ho (Site IterCheckProductions 0 []) m).

  (** context_free_grammar.rs:84-101 [build_terminal_symbols_set] *)
  Definition build_terminal_symbols_set (ho : hash_order T)
             (non_terminal_symbols_set : list T) (m : productions_map) : list T :=
    fold_left
      (fun acc productions =>
         fold_left
           (fun acc p =>
              fold_left
                (fun acc symbol =>
                   if negb (hash_set_contains non_terminal_symbols_set symbol)
                   then fst (hash_set_insert acc symbol)
                   else acc)
                (p_output p) acc)
           productions acc)
      (map snd (ho_iter ho (Site IterProductionValues 0 []) m)) [].

  (** context_free_grammar.rs:56-82 [new] *)
  Definition cfg_new (ho : hash_order T) (epsilon_symbol initial_symbol : T)
             (productions : list (production T)) : outcome grammar :=
    let m := new_process_productions_map productions in
    _ <- new_check_productions_map ho epsilon_symbol m ;;
    let non_terminal_symbols :=
      map fst (ho_iter ho (Site IterProductionKeys 0 []) m) in
    let non_terminal_symbols_set := hash_set_from_iter non_terminal_symbols in
    let terminal_symbols_set :=
      build_terminal_symbols_set ho non_terminal_symbols_set m in
    Done {| g_epsilon_symbol := epsilon_symbol;
            g_initial_symbol := initial_symbol;
            g_non_terminal_symbols_set := non_terminal_symbols_set;
            g_productions := m;
            g_terminal_symbols_set := terminal_symbols_set |}.
End Grammar.
Arguments grammar : clear implicits.
Arguments productions_map : clear implicits.
