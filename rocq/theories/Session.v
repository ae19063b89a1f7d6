(** * Model of the token iterator and of the repeated use of one parser

    [parse_from_tokens] takes any iterator and may be called any number of times on one
    parser (it borrows the parser).  [Parser.v] describes one call on the tokens that the
    iterator yields; here the iterator itself and sequences of calls are modelled. *)

From Verif Require Export Parser.

Set Implicit Arguments.

(** What one call of the iterator's [next] does: it is user code. *)
Inductive next_reply (L T : Type) : Type :=
| NextToken (tok : token L T)      (* Some(token) *)
| NextEnd                          (* None *)
| NextPanics
| NextNever.                       (* does not return *)
Arguments NextEnd {L T}.
Arguments NextPanics {L T}.
Arguments NextNever {L T}.

(** A token iterator: what its first, second, ... call of [next] does (whatever state it has). *)
Definition token_iterator (L T : Type) : Type := nat -> next_reply L T.

Section Session.
  Context {L T : Type} {E : EqImpl T}.

  (** recursive_descent_parser.rs:593-599 [iterator_to_vec]: [for_each] calls [next] until
      it returns [None].  [calls] counts the calls made before; the result has the vector
      and the total number of calls. *)
  Fixpoint iterator_to_vec (fuel : nat) (it : token_iterator L T) (calls : nat)
           (vector : list (token L T)) : outcome (list (token L T) * nat) :=
    match fuel with
    | O => OutOfFuel
    | S fuel' =>
        match it calls with
        | NextToken tok => iterator_to_vec fuel' it (S calls) (vector ++ [tok])
        | NextEnd => Done (vector, S calls)
        | NextPanics => Panicked PanicIterator
        | NextNever => OutOfFuel
        end
    end.

  (** recursive_descent_parser.rs:126-148, the rest of [parse_from_tokens], for a solver
      that was already called with [earlier] (by earlier parses) *)
  Definition parse_from_vector (fuel : nat) (self : parser L T) (tokens : list (token L T))
             (earlier : history L T) : outcome (parse_result L T * history L T) :=
    match tokens with
    | [] => Panicked PanicNoTokens
    | first_token :: _ =>
        let symbol_to_derive := get_initial_symbol (pr_grammar self) in
        '(r, h) <- inner_parse_from_tokens fuel self tokens symbol_to_derive 0
                     (inner_get_token_productions self symbol_to_derive
                                                  (tok_type first_token))
                     true earlier ;;
        Done (parse_symbol_result_to_parse_result r, h)
    end.

  (** recursive_descent_parser.rs:120-148 [parse_from_tokens] on an iterator: the result,
      the solver calls of this and earlier parses, and the number of calls of [next] *)
  Definition parse_from_iterator (fuel : nat) (self : parser L T) (it : token_iterator L T)
             (earlier : history L T) : outcome (parse_result L T * history L T * nat) :=
    '(tokens_vector, calls) <- iterator_to_vec fuel it 0 [] ;;
    '(r, h) <- parse_from_vector fuel self tokens_vector earlier ;;
    Done (r, h, calls).

  (** A program that parses with one parser again and again (it stops at the first panic) *)
  Fixpoint parse_all (fuel : nat) (self : parser L T) (its : list (token_iterator L T))
           (earlier : history L T) : outcome (list (parse_result L T) * history L T) :=
    match its with
    | [] => Done ([], earlier)
    | it :: its' =>
        '(r, h, _) <- parse_from_iterator fuel self it earlier ;;
        '(rs, h') <- parse_all fuel self its' h ;;
        Done (r :: rs, h')
    end.
End Session.
