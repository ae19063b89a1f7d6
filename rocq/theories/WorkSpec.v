(** * WorkSpec: parsing within a budget of recursive calls

    The amount of work of a parse without solver, counted in calls of the
    recursive function.  Parser.v threads the list of solver calls through the
    recursion; a parser without solver never looks at it or adds to it, so here
    it serves as the list of the calls made so far. *)

From Verif Require Export Spec.

Set Implicit Arguments.

Section WorkSpec.
  Context {L T : Type} {E : EqDec T}.
  Variable budget : nat.

  (** the record of one call *)
  Definition tick (pos : nat) : solver_call L T := FixFailedProductions [] pos [].

  (** recursive_descent_parser.rs:186-221 [inner_parse_from_tokens], giving up
      ([OutOfFuel]) instead of making more than [budget] calls *)
  Fixpoint inner_within (fuel : nat) (self : parser L T) (tokens : list (token L T))
           (symbol_to_derive : T) (tokens_position : nat) (production_outputs : list (list T))
           (is_single_path : bool) (calls : history L T)
    : outcome (parse_symbol_result L T * history L T) :=
    match fuel with
    | O => OutOfFuel
    | S fuel' =>
        if length calls <? budget then
          inner_parse_from_tokens_step self tokens (inner_within fuel' self tokens) fuel'
            symbol_to_derive tokens_position production_outputs is_single_path
            (calls ++ [tick tokens_position])
        else OutOfFuel
    end.

  (** recursive_descent_parser.rs:120-148 [parse_from_tokens], likewise *)
  Definition parse_within (fuel : nat) (self : parser L T) (tokens : list (token L T))
    : outcome (parse_result L T * history L T) :=
    match tokens with
    | [] => Panicked PanicNoTokens
    | first_token :: _ =>
        let symbol_to_derive := get_initial_symbol (pr_grammar self) in
        '(r, calls) <- inner_within fuel self tokens symbol_to_derive 0
                     (inner_get_token_productions self symbol_to_derive (tok_type first_token))
                     true [] ;;
        Done (parse_symbol_result_to_parse_result r, [])
    end.
End WorkSpec.

(** the nodes of a tree that have children *)
Fixpoint inner_nodes {L T : Type} (n : node L T) : nat :=
  match n with
  | Node [] _ => 0
  | Node cs _ => 1 + list_sum (map inner_nodes cs)
  end.

(** the length of the longest output *)
Definition longest_output {T : Type} (ps : list (production T)) : nat :=
  list_max (map (fun p => length (p_output p)) ps).

(** [full_tree m n]: the nodes of the full tree of [n] levels in which each node has [m] children *)
Fixpoint full_tree (m n : nat) : nat :=
  match n with
  | O => 0
  | S n' => 1 + m * full_tree m n'
  end.

(** the calls needed per token, a number that depends on the grammar only: [n]
    is the number of non-terminals, [m] the length of the longest output *)
Definition calls_per_token {T : Type} {E : EqDec T} (ps : list (production T)) : nat :=
  let n := length (nodup eq_dec (map (@p_input T) ps)) in
  let m := longest_output ps in
  2 * n * (1 + m + m * full_tree m n).

(** a number that depends on the grammar only: with backtracking the calls grow
    with its powers *)
Definition calls_factor {T : Type} (ps : list (production T)) : nat :=
  1 + length ps * (length ps + 2) ^ longest_output ps.

(** the number of its non-terminals *)
Definition non_terminal_count {T : Type} {E : EqDec T} (ps : list (production T)) : nat :=
  length (nodup eq_dec (map (@p_input T) ps)).
