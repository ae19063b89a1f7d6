(** * DepthSpec: parsing with a bounded number of nested recursive calls

    Parser.v runs [parse_from_tokens] on fuel that bounds both the nesting of
    recursive calls and the length of loops.  Here the two are separate, so
    that the call stack can be talked about on its own. *)

From Verif Require Export Spec.

Set Implicit Arguments.

Section DepthSpec.
  Context {L T : Type} {E : EqDec T}.
  (** a bound on the iterations of every loop *)
  Variable loops : nat.

  (** recursive_descent_parser.rs:186-221 [inner_parse_from_tokens], giving up
      ([OutOfFuel]) when it would be active more than [depth] times at once *)
  Fixpoint inner_at_depth (depth : nat) (self : parser L T) (tokens : list (token L T))
           (symbol_to_derive : T) (tokens_position : nat) (production_outputs : list (list T))
           (is_single_path : bool) (h : history L T)
    : outcome (parse_symbol_result L T * history L T) :=
    match depth with
    | O => OutOfFuel
    | S depth' =>
        inner_parse_from_tokens_step self tokens (inner_at_depth depth' self tokens) loops
          symbol_to_derive tokens_position production_outputs is_single_path h
    end.

  (** recursive_descent_parser.rs:120-148 [parse_from_tokens], likewise *)
  Definition parse_at_depth (depth : nat) (self : parser L T) (tokens : list (token L T))
    : outcome (parse_result L T * history L T) :=
    match tokens with
    | [] => Panicked PanicNoTokens
    | first_token :: _ =>
        let symbol_to_derive := get_initial_symbol (pr_grammar self) in
        '(r, h) <- inner_at_depth depth self tokens symbol_to_derive 0
                     (inner_get_token_productions self symbol_to_derive (tok_type first_token))
                     true [] ;;
        Done (parse_symbol_result_to_parse_result r, h)
    end.
End DepthSpec.

(** the non-terminals of the grammar, each once *)
Definition non_terminals {T : Type} {E : EqDec T} (ps : list (production T)) : list T :=
  nodup eq_dec (map (@p_input T) ps).
