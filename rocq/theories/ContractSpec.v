(** * ContractSpec: what a solver can observe

    The parameters are the user's grammar, the tokens, the candidate outputs
    of a symbol for a lookahead type (in table order), and the solver. *)

From Verif Require Export ReportSpec.

Set Implicit Arguments.

(** [refused s h fps]: during the calls [h] the solver was given exactly the
    failed productions [fps], and did not fix them *)
Definition refused {L T : Type} (s : syntax_error_solver L T) (h : list (solver_call L T))
           (fps : list (failed_production L T)) : Prop :=
  exists h1 c h2, h = h1 ++ c :: h2 /\ call_failures c = fps /\ s h1 c = Reply None.

Section ContractSpec.
  Context {L T : Type}.
  Variable eps init : T.
  Variable ps : list (production T).
  Variable tokens : list (token L T).
  Variable candidates : T -> T -> list (list T).
  Variable s : syntax_error_solver L T.

  (** The call [c], made after the calls [h], is within the contract: the whole
      token vector, a position inside it, and reports of the outputs [outs] tried
      there for a symbol on a single path.
      For [fix_failed_production], one output was tried; every fixed symbol in
      the report was supplied by an answer to one of the calls of [h]; and if
      the symbol that failed is a non-terminal, the solver was asked to fix it
      and did not.
      For [fix_failed_productions], the number of outputs tried is not one, and
      the reports contain nothing supplied by the solver. *)
  Definition call_in_contract (h : list (solver_call L T)) (c : solver_call L T) : Prop :=
    exists X tok before outs,
      nth_error tokens (call_position c) = Some tok /\
      candidates X (tok_type tok) = before ++ outs /\
      single_path eps init ps tokens candidates (answered candidates (Some s) h) X (call_position c) outs /\
      match c with
      | FixFailedProduction ts p fp =>
          ts = tokens /\ length outs = 1 /\
          failed_list eps ps tokens candidates (answered candidates (Some s) h) outs p [fp] /\
          forall fps Y parsed pending,
            fp = FailedProduction (FailedSymbol fps Y) parsed pending -> non_terminal ps Y ->
            refused s h fps
      | FixFailedProductions ts p fps =>
          ts = tokens /\ length outs <> 1 /\
          failed_list eps ps tokens candidates (fun _ _ _ _ => False) outs p fps
      end.

  (** [transcript h]: the calls [h], in this order, are each within the contract
      given the calls before it, and the solver replied to each. *)
  Inductive transcript : list (solver_call L T) -> Prop :=
  | transcript_nil : transcript []
  | transcript_call h c answer :
      transcript h -> call_in_contract h c -> s h c = Reply answer -> transcript (h ++ [c]).
End ContractSpec.
