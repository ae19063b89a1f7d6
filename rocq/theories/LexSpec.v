(** * LexSpec: replacing the lexemes in tokens, trees, reports and fixes

    [f] is applied to every lexeme and nothing else changes. *)

From Verif Require Export Spec.

Set Implicit Arguments.

Section MapLex.
  Context {L1 L2 T : Type}.
  Variable f : L1 -> L2.

  Definition map_token (t : token L1 T) : token L2 T :=
    Token (option_map f (tok_lex t)) (tok_type t).

  Fixpoint map_node (n : node L1 T) : node L2 T :=
    match n with Node cs t => Node (map map_node cs) (map_token t) end.

  Fixpoint map_part (p : fixed_production_part L1 T) : fixed_production_part L2 T :=
    match p with
    | FPartOk n => FPartOk (map_node n)
    | FPartFixed fs => FPartFixed (map_fixed_symbol fs)
    | FPartGap ls ss => FPartGap (map f ls) ss
    end
  with map_fixed_production (fp : fixed_production L1 T) : fixed_production L2 T :=
    match fp with FixedProduction parts => FixedProduction (map map_part parts) end
  with map_fixed_symbol (fs : fixed_symbol L1 T) : fixed_symbol L2 T :=
    match fs with FixedSymbol fp x => FixedSymbol (map_fixed_production fp) x end.

  Definition map_parsed (p : production_parsed_symbol L1 T) : production_parsed_symbol L2 T :=
    match p with
    | ParsedOk n => ParsedOk (map_node n)
    | ParsedFix fs => ParsedFix (map_fixed_symbol fs)
    end.

  Fixpoint map_failed_symbol (fs : failed_symbol L1 T) : failed_symbol L2 T :=
    match fs with FailedSymbol fps x => FailedSymbol (map map_failed_production fps) x end
  with map_failed_production (fp : failed_production L1 T) : failed_production L2 T :=
    match fp with
    | FailedProduction fs parsed pending =>
        FailedProduction (map_failed_symbol fs) (map map_parsed parsed) pending
    end.

  Definition map_result (r : parse_result L1 T) : parse_result L2 T :=
    match r with
    | ResultOk n => ResultOk (map_node n)
    | ResultErr fs => ResultErr (map_failed_symbol fs)
    | ResultFix fs => ResultFix (map_fixed_symbol fs)
    end.
End MapLex.
