(** * Base: shared data types of the model

    Everything in this file models Rust *language/standard-library* facts that
    the repository relies on, not repository code itself:

    - [outcome]     : a Rust call either returns, panics, or does not return
                      within the given number of steps;
    - [hash_set_*], [hash_map_*] : std::collections::HashSet / HashMap, seen as
                      duplicate-free lists / association lists;
    - [hash_order]  : the *arbitrary* iteration order of hash collections.  The
                      standard library seeds every HashMap/HashSet with a random
                      state, so every [iter], [keys], [values], [into_iter] may
                      yield any permutation.  All model functions that iterate a
                      hash collection take a [hash_order] and all theorems
                      quantify over it. *)

From Coq Require Export List Arith Bool Lia Permutation.
Export ListNotations.

Set Implicit Arguments.

(** [TSyntax: Eq + Hash + Clone] (e.g. /repo/src/grammar/context_free_grammar.rs:55): the
    code only ever asks whether two symbols are equal, directly ([eq], [ne]) or through a
    hash collection.  [eqb] is the user's [Eq] implementation, any boolean function. *)
Class EqImpl (A : Type) := eqb : A -> A -> bool.

(** Most theorems are about symbol types whose [Eq] is identity, given as a decision
    procedure.  C68 reduces symbol types with coarser equalities to that case. *)
Class EqDec (A : Type) := eq_dec : forall x y : A, {x = y} + {x <> y}.

Global Instance identity_eq {A : Type} {E : EqDec A} : EqImpl A :=
  fun x y => if eq_dec x y then true else false.

(** The panics that the Rust source can raise. *)
Inductive panic : Type :=
| PanicEpsilonGenerates      (* context_free_grammar.rs:109 panic! *)
| PanicEmptyOutput           (* context_free_grammar.rs:114 panic! *)
| PanicEpsilonNotAlone       (* context_free_grammar.rs:117 panic! *)
| PanicUnwrapNone            (* an [Option::unwrap] on a map lookup / vector index *)
| PanicBorrow                (* a [RefCell] borrow conflict (BorrowError / BorrowMutError) *)
| PanicSubUnderflow          (* [usize] subtraction below zero *)
| PanicNoTokens              (* recursive_descent_parser.rs:127 panic! *)
| PanicTokenOutOfRange       (* recursive_descent_parser.rs:443 [tokens.get(..).unwrap()] *)
| PanicNoFailedProduction    (* recursive_descent_parser.rs:256 [.get(0).unwrap()] *)
| PanicUnexpectedState       (* recursive_descent_parser.rs:425 panic! *)
| PanicSolver                (* the user's SyntaxErrorSolver panicked *)
| PanicIterator.             (* the user's token iterator panicked *)

(** Result of running a piece of Rust code on explicit fuel.  [OutOfFuel] is
    never a normal-looking value: a computation that is [OutOfFuel] for every
    fuel models a Rust computation that never returns (infinite loop or
    unbounded recursion, i.e. stack overflow). *)
Inductive outcome (A : Type) : Type :=
| Done (a : A)
| Panicked (p : panic)
| OutOfFuel.
Arguments Done {A} _.
Arguments Panicked {A} _.
Arguments OutOfFuel {A}.

Definition bind {A B : Type} (o : outcome A) (f : A -> outcome B) : outcome B :=
  match o with
  | Done a => f a
  | Panicked p => Panicked p
  | OutOfFuel => OutOfFuel
  end.

Declare Scope outcome_scope.
Notation "x <- o ;; k" := (bind o (fun x => k))
  (at level 100, o at next level, right associativity) : outcome_scope.
Notation "' p <- o ;; k" := (bind o (fun x => match x with p => k end))
  (at level 100, p pattern, o at next level, right associativity) : outcome_scope.
Open Scope outcome_scope.

(** [Option::unwrap] *)
Definition unwrap {A : Type} (o : option A) : outcome A :=
  match o with
  | Some a => Done a
  | None => Panicked PanicUnwrapNone
  end.

(** A Rust [for] loop with an accumulator whose body may panic. *)
Fixpoint for_each {A S : Type} (f : S -> A -> outcome S) (s : S) (l : list A)
  : outcome S :=
  match l with
  | [] => Done s
  | x :: xs => s' <- f s x ;; for_each f s' xs
  end.

(** ** HashSet *)
Section HashSet.
  Context {A : Type} {E : EqImpl A}.

  (** [HashSet::contains] *)
  Definition hash_set_contains (s : list A) (x : A) : bool := existsb (eqb x) s.

  (** [HashSet::insert]: returns the new set and [true] iff it was absent. *)
  Definition hash_set_insert (s : list A) (x : A) : list A * bool :=
    if hash_set_contains s x then (s, false) else (s ++ [x], true).

  (** [HashSet::from_iter] *)
  Definition hash_set_from_iter (l : list A) : list A :=
    fold_left (fun s x => fst (hash_set_insert s x)) l [].
End HashSet.

(** ** HashMap *)
Section HashMap.
  Context {K V : Type} {E : EqImpl K}.

  (** [HashMap::get] *)
  Fixpoint hash_map_get (m : list (K * V)) (k : K) : option V :=
    match m with
    | [] => None
    | (k', v) :: m' => if eqb k k' then Some v else hash_map_get m' k
    end.

  (** [HashMap::insert] *)
  Fixpoint hash_map_insert (m : list (K * V)) (k : K) (v : V) : list (K * V) :=
    match m with
    | [] => [(k, v)]
    | (k', v') :: m' =>
        if eqb k k' then (k', v) :: m' else (k', v') :: hash_map_insert m' k v
    end.

  (** [HashMap::from_iter] *)
  Definition hash_map_from_iter (l : list (K * V)) : list (K * V) :=
    fold_left (fun m kv => hash_map_insert m (fst kv) (snd kv)) l [].
End HashMap.

(** ** Iteration order of hash collections *)

(** Which dynamic iteration event is meant: the source loop ([site_tag]), the
    round of the enclosing [converge] loop, and the symbols that identify the
    collection being iterated.  Distinct events may use unrelated orders. *)
Inductive site_tag : Type :=
| IterCheckProductions      (* context_free_grammar.rs:107 *)
| IterProductionKeys        (* context_free_grammar.rs:67 *)
| IterProductionValues      (* context_free_grammar.rs:90 *)
| IterNonTerminals          (* context_free_grammar.rs:27 *)
| IterTerminals             (* context_free_grammar.rs:34 *)
| IterFirstOf               (* first_follow_symbols.rs:211, 216 *)
| IterRefMapFirst           (* first_follow_symbols.rs:53 (FIRST map) *)
| IterRefMapFollow          (* first_follow_symbols.rs:53 (FOLLOW map) *)
| IterInputFollow           (* first_follow_symbols.rs:290 *)
| IterFollowFirst           (* first_follow_symbols.rs:450 *)
| IterTransFirst            (* recursive_descent_parser_transitions.rs:135, 163 *)
| IterTransFollow           (* recursive_descent_parser_transitions.rs:151 *)
| IterTransCells.           (* recursive_descent_parser_transitions.rs:204 *)

Record site (T : Type) : Type := Site {
  site_loop : site_tag;
  site_round : nat;
  site_owner : list T
}.

(** An order assigns a permutation to every iteration event. *)
Record hash_order (T : Type) : Type := HashOrder {
  ho_iter : site T -> forall A : Type, list A -> list A;
  ho_perm : forall (s : site T) (A : Type) (l : list A),
              Permutation (ho_iter s l) l
}.
Arguments ho_iter {T} h s {A} l : rename.

(** Two concrete orders, used to instantiate theorems on examples. *)
Definition insertion_order (T : Type) : hash_order T :=
  {| ho_iter := fun _ _ l => l;
     ho_perm := fun _ _ l => Permutation_refl l |}.

Definition reversed_order (T : Type) : hash_order T :=
  {| ho_iter := fun _ _ l => rev l;
     ho_perm := fun _ _ l => Permutation_sym (Permutation_rev l) |}.
