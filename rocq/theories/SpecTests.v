(** * SpecTests: the unit tests of the repository, replayed on the model

    These are tests, not proofs: they check that the model computes what the
    repository's own test suite expects of the Rust code.  Every test of
    /repo/src/grammar/context_free_grammar_spec.rs,
    /repo/src/grammar/first_follow_symbols_spec.rs,
    /repo/src/parser/recursive_descent_parser_transitions_spec.rs and
    /repo/src/parser/recursive_descent_parser_spec.rs appears below under the
    name it has there.  They run under two hash iteration orders. *)

From Verif Require Import Examples.

Set Implicit Arguments.


(** one symbol type for all tests *)
Inductive s : Type :=
| Epsilon | Module_ | Expression | Sentence | S | A | B | C | R | Empty      (* non-terminals *)
| Id | Eof | Eos | Eq_ | TA | TB | TC | TD | Common | TNa | TNs | TS.       (* terminals *)
#[local] Instance s_eq_dec : EqDec s.
Proof. unfold EqDec. decide equality. Defined.

Notation "a --> w" := (Production a w) (at level 60, only parsing).

Definition all_orders (t : hash_order s -> bool) : bool :=
  t (insertion_order s) && t (reversed_order s).

Definition panics {X} (o : outcome X) : bool :=
  match o with Panicked _ => true | _ => false end.
Definition returns {X} (o : outcome X) : bool :=
  match o with Done _ => true | _ => false end.

(** ** context_free_grammar_spec.rs *)
Example it_creates_a_new_instance :
  all_orders (fun ho => returns (cfg_new ho Epsilon Module_ [Module_ --> [Id; Eof]])) = true.
Proof. reflexivity. Qed.
Example it_panics_if_production_input_is_epsilon :
  all_orders (fun ho => panics (cfg_new ho Epsilon Module_ [Epsilon --> [Id]])) = true.
Proof. reflexivity. Qed.
Example it_panics_if_production_output_has_no_symbols :
  all_orders (fun ho => panics (cfg_new ho Epsilon Module_ [Module_ --> []])) = true.
Proof. reflexivity. Qed.
Example it_panics_if_production_output_has_epsilon_and_any_other_symbol :
  all_orders (fun ho => panics (cfg_new ho Epsilon Module_ [Module_ --> [Id; Epsilon]])) = true.
Proof. reflexivity. Qed.

(** ** first_follow_symbols_spec.rs
    The tests check the size of a set and some of its members. *)
Definition set_is (xs : list s) (o : option (list s)) : bool :=
  match o with
  | Some ys => Nat.eqb (length ys) (length xs) && forallb (fun x => hash_set_contains ys x) xs
  | None => false
  end.
Definition ffs_of (ho : hash_order s) (init : s) (ps : list (production s))
  : outcome (first_follow_symbols s) :=
  g <- cfg_new ho Epsilon init ps ;; ffs_from ho 200 g.
Definition first_is init ps x xs : bool :=
  all_orders (fun ho => match ffs_of ho init ps with
                        | Done f => set_is xs (get_first_symbols f x) | _ => false end).
Definition follow_is init ps x xs : bool :=
  all_orders (fun ho => match ffs_of ho init ps with
                        | Done f => set_is xs (get_follow_symbols f x) | _ => false end).

Example it_returns_first_symbols :
  first_is Module_ [Module_ --> [Id; Eof]] Module_ [Id] = true.
Proof. vm_compute. reflexivity. Qed.
Example it_returns_first_symbols_terminal :
  first_is Module_ [Module_ --> [Id; Eof]] Id [Id] = true.
Proof. vm_compute. reflexivity. Qed.
Example it_returns_first_symbols_non_terminal :
  first_is Module_ [Module_ --> [Expression; Eof]; Expression --> [Id; Eos]] Module_ [Id] = true.
Proof. vm_compute. reflexivity. Qed.
Example it_returns_first_symbols_non_terminal_epsilon :
  first_is Module_ [Module_ --> [Expression; Eof]; Expression --> [Id; Eos];
                    Expression --> [Epsilon]] Module_ [Id; Eof] = true.
Proof. vm_compute. reflexivity. Qed.
Example it_returns_first_epsilon_symbols_non_terminal_epsilon :
  first_is Module_ [Module_ --> [Expression]; Expression --> [Id; Eos];
                    Expression --> [Epsilon]] Module_ [Epsilon; Id] = true.
Proof. vm_compute. reflexivity. Qed.
Example it_returns_no_additional_first_symbols_on_infinite_recursion :
  first_is Module_ [Module_ --> [Module_]] Module_ [] = true.
Proof. vm_compute. reflexivity. Qed.
Example it_returns_next_symbol_first_symbols_on_infinite_recursion_if_first_symbol_contains_epsilon :
  first_is Module_ [Module_ --> [Module_; Eof]; Module_ --> [Epsilon]] Module_ [Epsilon; Eof] = true.
Proof. vm_compute. reflexivity. Qed.
Example it_returns_follow_symbols :
  follow_is Module_ [Module_ --> [Expression; Eof]; Expression --> [Id]] Expression [Eof] = true.
Proof. vm_compute. reflexivity. Qed.
Example it_returns_follow_symbols_non_terminal :
  follow_is Module_ [Module_ --> [Expression; Module_; Eof]; Expression --> [Id]]
            Expression [Id] = true.
Proof. vm_compute. reflexivity. Qed.
Example it_returns_follow_symbols_non_terminal_last :
  let ps := [S --> [A]; B --> [A; TNa]; C --> [S; TNs]; A --> [TA]; S --> [TS]] in
  follow_is S ps A [TNa; TNs] && follow_is S ps S [TNs] = true.
Proof. vm_compute. reflexivity. Qed.
Example it_returns_follow_symbols_non_terminal_last_epsilon_chain :
  follow_is R [S --> [A; B]; A --> [Epsilon]; B --> [Epsilon]; R --> [S; TS]] A [TS] = true.
Proof. vm_compute. reflexivity. Qed.
Example it_returns_follow_symbols_non_terminal_epsilon_chain :
  follow_is S [S --> [A; B; C]; A --> [TA]; B --> [Epsilon]; B --> [TB]; C --> [TC]]
            A [TB; TC] = true.
Proof. vm_compute. reflexivity. Qed.

(** ** recursive_descent_parser_transitions_spec.rs *)
Definition cell (ho : hash_order s) init ps a b : outcome (option (list (production s))) :=
  g <- cfg_new ho Epsilon init ps ;; f <- ffs_from ho 200 g ;; t <- transitions_from ho g f ;;
  Done (transitions_get_productions t a b).
Definition cell_is init ps a b (c : list (production s)) : Prop :=
  cell (insertion_order s) init ps a b = Done (Some c) /\
  cell (reversed_order s) init ps a b = Done (Some c).
Ltac run := repeat constructor; vm_compute; reflexivity.

Example it_adds_first_symbols_productions :
  cell_is Module_ [Module_ --> [Expression; Eof]; Expression --> [Id; Eos]]
          Module_ Id [Module_ --> [Expression; Eof]].
Proof. run. Qed.
Example it_adds_follow_symbols_productions :
  cell_is Module_ [Module_ --> [Sentence; Eof]; Sentence --> [Epsilon];
                   Sentence --> [Id; Eq_; Expression; Eos]; Expression --> [Id]]
          Module_ Id [Module_ --> [Sentence; Eof]].
Proof. run. Qed.
Example it_adds_once_on_first_follow_conflict :
  cell_is Module_ [Module_ --> [Sentence; Sentence; Eof]; Sentence --> [Epsilon];
                   Sentence --> [Id; Eq_; Expression; Eos]; Expression --> [Id]]
          Module_ Id [Module_ --> [Sentence; Sentence; Eof]].
Proof. run. Qed.
Example it_adds_on_non_terminal_symbol_with_first_set_is_epsilon :
  cell_is S [S --> [Empty; Eof]; Empty --> [Epsilon]] Empty Eof [Empty --> [Epsilon]].
Proof. run. Qed.

(** ** recursive_descent_parser_spec.rs
    The parser is made by [from_grammar]; [u64] lexemes are numbers.  The Rust
    tests compare trees by token type only; here the lexemes are compared too. *)
Definition parse (ho : hash_order s) (ps : list (production s)) (ts : list s)
  : outcome (parse_result nat s) :=
  g <- cfg_new ho Epsilon S ps ;; p <- from_grammar ho 200 g ;;
  '(r, _) <- parse_from_tokens 200 p (map (fun x => Token (Some 0) x) ts) ;; Done r.
Definition parse_is ps ts (r : outcome (parse_result nat s)) : Prop :=
  parse (insertion_order s) ps ts = r /\ parse (reversed_order s) ps ts = r.
Definition leaf (x : s) : node nat s := Node [] (Token (Some 0) x).
Definition inner (x : s) (cs : list (node nat s)) : node nat s := Node cs (Token None x).

Example it_does_not_parse_empty_input : parse_is [S --> [Epsilon]] [] (Panicked PanicNoTokens).
Proof. run. Qed.
Example it_parses_terminal_production :
  parse_is [S --> [Eof]] [Eof] (Done (ResultOk (inner S [leaf Eof]))).
Proof. run. Qed.
Example it_parses_epsilon_production :
  parse_is [S --> [Empty; Eof]; Empty --> [Epsilon]] [Eof]
    (Done (ResultOk (inner S [inner Empty [inner Epsilon []]; leaf Eof]))).
Proof. run. Qed.
Definition conflict_ps : list (production s) :=
  [S --> [A; Eof]; S --> [B; Eof]; A --> [Common; TA]; B --> [Common; TB]].
Example it_parses_with_first_first_conflict :
  parse_is conflict_ps [Common; TA; Eof]
    (Done (ResultOk (inner S [inner A [leaf Common; leaf TA]; leaf Eof]))) /\
  parse_is conflict_ps [Common; TB; Eof]
    (Done (ResultOk (inner S [inner B [leaf Common; leaf TB]; leaf Eof]))).
Proof. split; run. Qed.
Definition backtracking_ps : list (production s) :=
  [S --> [A; B; Eof]; A --> [TA; TB]; A --> [TA]; B --> [TB; TC; TD]; B --> [TC]].
Example it_parses_with_production_backtracking :
  parse_is backtracking_ps [TA; TB; TC; Eof]
    (Done (ResultOk (inner S [inner A [leaf TA; leaf TB]; inner B [leaf TC]; leaf Eof]))) /\
  parse_is backtracking_ps [TA; TB; TC; TD; Eof]
    (Done (ResultOk (inner S [inner A [leaf TA]; inner B [leaf TB; leaf TC; leaf TD]; leaf Eof]))).
Proof. split; run. Qed.
Example it_fails_on_unexpected_symbol_when_no_production_is_found :
  parse_is [S --> [TA]] [TB] (Done (ResultErr (FailedSymbol [] S))).
Proof. run. Qed.
Example it_fails_on_unexpected_symbol_when_a_production_is_found :
  parse_is [S --> [TA; TA]] [TA; TB]
    (Done (ResultErr (FailedSymbol
       [FailedProduction (FailedSymbol [] TA) [ParsedOk (leaf TA)] []] S))).
Proof. run. Qed.
Example it_fails_on_unexpected_symbol_when_a_production_is_found_with_parsed_symbols_ordered :
  parse_is [S --> [TA; TB; TA]] [TA; TB]
    (Done (ResultErr (FailedSymbol
       [FailedProduction (FailedSymbol [] TA) [ParsedOk (leaf TA); ParsedOk (leaf TB)] []] S))).
Proof. run. Qed.
Example it_fails_on_unexpected_symbol_when_multiple_productions_are_found :
  parse_is [S --> [TA; TA]; S --> [TA; TA; TA]] [TA; TB]
    (Done (ResultErr (FailedSymbol
       [FailedProduction (FailedSymbol [] TA) [ParsedOk (leaf TA)] [];
        FailedProduction (FailedSymbol [] TA) [ParsedOk (leaf TA)] [TA]] S))).
Proof. run. Qed.

