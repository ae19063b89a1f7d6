(** * AssembleSpec: one grammar put together from several *)

From Verif Require Export Spec.

Set Implicit Arguments.

(** a grammar on its own: its initial symbol and its productions *)
Definition part (T : Type) : Type := (T * list (production T))%type.

(** a new symbol with one alternative for each part, then the parts one after the other *)
Definition assemble {T : Type} (new : T) (parts : list (part T)) : list (production T) :=
  map (fun q => Production new [fst q]) parts ++ concat (map snd parts).

(** [x] is written somewhere in the productions *)
Definition mentions {T : Type} (ps : list (production T)) (x : T) : Prop :=
  exists p, In p ps /\ (p_input p = x \/ In x (p_output p)).

(** neither grammar has productions for a symbol of the other; they may share terminals *)
Definition separate {T : Type} (ps qs : list (production T)) : Prop :=
  (forall A, non_terminal ps A -> ~ mentions qs A) /\
  (forall A, non_terminal qs A -> ~ mentions ps A).

Record independent {T : Type} (eps new : T) (parts : list (part T)) : Prop := {
  independent_new : new <> eps /\ forall q, In q parts -> ~ mentions (snd q) new;
  independent_starts : forall q, In q parts -> non_terminal (snd q) (fst q);
  independent_separate : ForallOrdPairs (fun q r => separate (snd q) (snd r)) parts
}.

(** What the new symbol makes of the result of its one candidate: a tree below a new
    root, a fixed symbol below a fixed symbol, and an error below an error, about which
    the solver, if there is one, is asked once more *)
Definition under {L T : Type} (new : T) (solver : option (syntax_error_solver L T))
  (tokens : list (token L T)) (r : outcome (parse_result L T * list (solver_call L T)))
  : outcome (parse_result L T * list (solver_call L T)) :=
  match r with
  | Done (ResultOk root, calls) => Done (ResultOk (Node [root] (Token None new)), calls)
  | Done (ResultFix fixed, calls) =>
      Done (ResultFix (FixedSymbol (FixedProduction [FPartFixed fixed]) new), calls)
  | Done (ResultErr failed, calls) =>
      let failed_production := FailedProduction failed [] [] in
      let call := FixFailedProduction tokens 0 failed_production in
      match solver with
      | None => Done (ResultErr (FailedSymbol [failed_production] new), calls)
      | Some ask =>
          match ask calls call with
          | Reply None => Done (ResultErr (FailedSymbol [failed_production] new), calls ++ [call])
          | Reply (Some fix_result) =>
              Done (ResultFix (FixedSymbol (fr_production fix_result) new), calls ++ [call])
          | ReplyPanics => Panicked PanicSolver
          | ReplyNever => OutOfFuel
          end
      end
  | other => other
  end.
