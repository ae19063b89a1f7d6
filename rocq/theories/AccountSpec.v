(** * AccountSpec: which tokens a fixed derivation accounts for *)

From Verif Require Export Spec ReportSpec.

Set Implicit Arguments.

Section AccountSpec.
  Context {L T : Type} {E : EqDec T}.
  Variable eps : T.

  (** the lexemes of the leaves of a tree, from left to right, without the epsilon leaves *)
  Fixpoint tree_lexemes (n : node L T) : list (option L) :=
    match n with
    | Node [] tok => if eq_dec (tok_type tok) eps then [] else [tok_lex tok]
    | Node children _ => flat_map tree_lexemes children
    end.

  (** the lexemes of a fixed derivation: those of its trees and the skipped ones, in order *)
  Fixpoint part_lexemes (part : fixed_production_part L T) : list (option L) :=
    match part with
    | FPartOk n => tree_lexemes n
    | FPartFixed (FixedSymbol (FixedProduction parts) _) => flat_map part_lexemes parts
    | FPartGap skipped_tokens _ => map Some skipped_tokens
    end.
  Definition production_lexemes (fp : fixed_production L T) : list (option L) :=
    match fp with FixedProduction parts => flat_map part_lexemes parts end.
  Definition symbol_lexemes (fs : fixed_symbol L T) : list (option L) :=
    match fs with FixedSymbol fp _ => production_lexemes fp end.

  (** the lexemes of the tokens from [p] to [q] *)
  Definition lexemes_between (tokens : list (token L T)) (p q : nat) : list (option L) :=
    map (@tok_lex L T) (firstn (q - p) (skipn p tokens)).

  (** the solver accounts for every token it steps over: the lexemes of an answer are those
      of the tokens from the position of the call to the position where parsing goes on *)
  Definition accounting (s : syntax_error_solver L T) : Prop :=
    forall h c q fp, s h c = Reply (Some (FixResult q fp)) ->
      call_position c <= q <= length (call_tokens c) /\
      production_lexemes fp = lexemes_between (call_tokens c) (call_position c) q.

  (** ** fixed derivations that follow the grammar *)
  Variable ps : list (production T).

  (** the symbols a part of a fixed production stands for; a gap says which ones it skips *)
  Definition part_symbols (part : fixed_production_part L T) : list T :=
    match part with
    | FPartOk n => [tok_type (node_token n)]
    | FPartFixed (FixedSymbol _ X) => [X]
    | FPartGap _ skipped_symbols => skipped_symbols
    end.

  (** [repaired X fp]: the parts of [fp] spell the output of a production of [X], its trees
      are parse trees, and its fixed symbols are repaired in turn *)
  Inductive repaired : T -> fixed_production L T -> Prop :=
  | repaired_production p parts :
      In p ps -> flat_map part_symbols parts = p_output p ->
      (forall n, In (FPartOk n) parts -> exists w, tree_for eps ps (tok_type (node_token n)) n w) ->
      (forall X fp, In (FPartFixed (FixedSymbol fp X)) parts -> repaired X fp) ->
      repaired (p_input p) (FixedProduction parts).

  (** the solver answers a call about [X] with a repaired production of [X] only *)
  Definition conforming (candidates : T -> T -> list (list T)) (s : syntax_error_solver L T) : Prop :=
    forall h c X q fp, call_about candidates X c -> s h c = Reply (Some (FixResult q fp)) -> repaired X fp.
End AccountSpec.
