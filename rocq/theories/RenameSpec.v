(** * RenameSpec: renaming symbols and lexemes

    [f] is applied to every lexeme and [g] to every symbol of tokens, trees,
    productions, reports, fixes and solver calls; nothing else changes. *)

From Verif Require Export Spec.

Set Implicit Arguments.

Definition injective {A B : Type} (g : A -> B) : Prop := forall x y, g x = g y -> x = y.

Section Rename.
  Context {L1 L2 T1 T2 : Type}.
  Variable f : L1 -> L2.
  Variable g : T1 -> T2.

  Definition ren_production (p : production T1) : production T2 :=
    Production (g (p_input p)) (map g (p_output p)).

  Definition ren_token (t : token L1 T1) : token L2 T2 :=
    Token (option_map f (tok_lex t)) (g (tok_type t)).

  Fixpoint ren_node (n : node L1 T1) : node L2 T2 :=
    match n with Node cs t => Node (map ren_node cs) (ren_token t) end.

  Fixpoint ren_part (p : fixed_production_part L1 T1) : fixed_production_part L2 T2 :=
    match p with
    | FPartOk n => FPartOk (ren_node n)
    | FPartFixed fs => FPartFixed (ren_fixed_symbol fs)
    | FPartGap ls ss => FPartGap (map f ls) (map g ss)
    end
  with ren_fixed_production (fp : fixed_production L1 T1) : fixed_production L2 T2 :=
    match fp with FixedProduction parts => FixedProduction (map ren_part parts) end
  with ren_fixed_symbol (fs : fixed_symbol L1 T1) : fixed_symbol L2 T2 :=
    match fs with FixedSymbol fp x => FixedSymbol (ren_fixed_production fp) (g x) end.

  Definition ren_parsed (p : production_parsed_symbol L1 T1) : production_parsed_symbol L2 T2 :=
    match p with
    | ParsedOk n => ParsedOk (ren_node n)
    | ParsedFix fs => ParsedFix (ren_fixed_symbol fs)
    end.

  Fixpoint ren_failed_symbol (fs : failed_symbol L1 T1) : failed_symbol L2 T2 :=
    match fs with FailedSymbol fps x => FailedSymbol (map ren_failed_production fps) (g x) end
  with ren_failed_production (fp : failed_production L1 T1) : failed_production L2 T2 :=
    match fp with
    | FailedProduction fs parsed pending =>
        FailedProduction (ren_failed_symbol fs) (map ren_parsed parsed) (map g pending)
    end.

  Definition ren_result (r : parse_result L1 T1) : parse_result L2 T2 :=
    match r with
    | ResultOk n => ResultOk (ren_node n)
    | ResultErr fs => ResultErr (ren_failed_symbol fs)
    | ResultFix fs => ResultFix (ren_fixed_symbol fs)
    end.

  Definition ren_call (c : solver_call L1 T1) : solver_call L2 T2 :=
    match c with
    | FixFailedProduction ts p fp =>
        FixFailedProduction (map ren_token ts) p (ren_failed_production fp)
    | FixFailedProductions ts p fps =>
        FixFailedProductions (map ren_token ts) p (map ren_failed_production fps)
    end.

  Definition ren_fix (r : fix_result L1 T1) : fix_result L2 T2 :=
    FixResult (fr_final_token_position r) (ren_fixed_production (fr_production r)).

  Definition ren_reply (r : solver_reply L1 T1) : solver_reply L2 T2 :=
    match r with
    | Reply answer => Reply (option_map ren_fix answer)
    | ReplyPanics => ReplyPanics
    | ReplyNever => ReplyNever
    end.

  (** the second solver does to renamed calls what the first does to the calls *)
  Definition ren_solver (s1 : option (syntax_error_solver L1 T1))
             (s2 : option (syntax_error_solver L2 T2)) : Prop :=
    match s1, s2 with
    | None, None => True
    | Some s1, Some s2 => forall h c, s2 (map ren_call h) (ren_call c) = ren_reply (s1 h c)
    | _, _ => False
    end.

  Definition ren_outcome (o : outcome (parse_result L1 T1 * list (solver_call L1 T1)))
    : outcome (parse_result L2 T2 * list (solver_call L2 T2)) :=
    match o with
    | Done (r, h) => Done (ren_result r, map ren_call h)
    | Panicked p => Panicked p
    | OutOfFuel => OutOfFuel
    end.
End Rename.

(** the productions of [x], in declaration order *)
Definition declared_for {T : Type} {E : EqDec T} (ps : list (production T)) (x : T)
  : list (production T) :=
  filter (fun p => if eq_dec (p_input p) x then true else false) ps.
