(** * KeySpec: symbol types whose equality is coarser than identity

    A symbol type may implement [Eq] (and, consistently, [Hash]) by comparing only a part
    of its values, say a discriminant.  [q] gives that part: the key of a symbol. *)

From Verif Require Export RenameSpec.

Set Implicit Arguments.

(** what Rust asks of an [Eq] implementation *)
Record lawful_eq (T : Type) {E : EqImpl T} : Prop := {
  le_refl : forall x : T, eqb x x = true;
  le_sym : forall x y : T, eqb x y = true -> eqb y x = true;
  le_trans : forall x y z : T, eqb x y = true -> eqb y z = true -> eqb x z = true
}.
Arguments lawful_eq T {E}.

Section KeySpec.
  Context {T Q : Type} {ET : EqImpl T}.
  Variable q : T -> Q.

  (** symbols are equal when their keys are *)
  Definition compared_by : Prop := forall x y : T, eqb x y = true <-> q x = q y.

  Definition key_site (s : site T) : site Q :=
    Site (site_loop s) (site_round s) (map q (site_owner s)).

  (** an entry of a hash map, with the key of its symbol *)
  Definition key_entry {A B : Type} (f : A -> B) (kv : T * A) : Q * B := (q (fst kv), f (snd kv)).

  (** The orders [ho] and [ho'] are the same up to keys.  ([Hash] is consistent with [Eq],
      so the place of a symbol in a collection depends on its key only.) *)
  Record same_order (ho : hash_order T) (ho' : hash_order Q) : Prop := {
    so_symbols : forall s (l : list T),
      ho_iter ho' (key_site s) (map q l) = map q (ho_iter ho s l);
    so_sets : forall s (l : list (T * list T)),
      ho_iter ho' (key_site s) (map (key_entry (map q)) l) =
      map (key_entry (map q)) (ho_iter ho s l);
    so_productions : forall s (l : list (T * list (production T))),
      ho_iter ho' (key_site s) (map (key_entry (map (ren_production q))) l) =
      map (key_entry (map (ren_production q))) (ho_iter ho s l)
  }.

  Definition hash_respects (ho : hash_order T) : Prop := exists ho', same_order ho ho'.

  (** a grammar, and FIRST and FOLLOW sets, with keys for symbols *)
  Definition key_grammar (g : grammar T) : grammar Q :=
    {| g_epsilon_symbol := q (g_epsilon_symbol g);
       g_initial_symbol := q (g_initial_symbol g);
       g_non_terminal_symbols_set := map q (g_non_terminal_symbols_set g);
       g_productions := map (key_entry (map (ren_production q))) (g_productions g);
       g_terminal_symbols_set := map q (g_terminal_symbols_set g) |}.

  Definition key_ffs (ffs : first_follow_symbols T) : first_follow_symbols Q :=
    {| ffs_first_symbols := map (key_entry (map q)) (ffs_first_symbols ffs);
       ffs_follow_symbols := map (key_entry (map q)) (ffs_follow_symbols ffs) |}.
End KeySpec.

(** what becomes of a returned value *)
Definition omap {A B : Type} (f : A -> B) (o : outcome A) : outcome B :=
  match o with
  | Done a => Done (f a)
  | Panicked p => Panicked p
  | OutOfFuel => OutOfFuel
  end.

(** parsers built as in [built_parser] (Spec), for any [Eq], when hashing respects the keys *)
Definition keyed_parser {L T Q : Type} {E : EqImpl T} (q : T -> Q) (eps init : T)
           (ps : list (production T)) (solver : option (syntax_error_solver L T))
           (self : parser L T) : Prop :=
  exists (ho1 ho2 : hash_order T) (fuel : nat) (g : grammar T),
    hash_respects q ho1 /\ hash_respects q ho2 /\
    cfg_new ho1 eps init ps = Done g /\
    match solver with
    | None => from_grammar ho2 fuel g
    | Some s => from_grammar_and_solver ho2 fuel g s
    end = Done self.
