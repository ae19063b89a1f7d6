(** * ExpectSpec: what can come at a place of the input *)

From Verif Require Export ReportSpec PrefixSpec ProductiveSpec ContractSpec.

Set Implicit Arguments.

(** [mentions f g]: the report [f] is [g] or has [g] as the failed symbol of one of its
    failed productions, at any depth *)
Inductive mentions {L T : Type} : failed_symbol L T -> failed_symbol L T -> Prop :=
| mentions_itself f : mentions f f
| mentions_inside fps x f parsed pending g :
    In (FailedProduction f parsed pending) fps -> mentions f g ->
    mentions (FailedSymbol fps x) g.

Section ExpectSpec.
  Context {L T : Type}.
  Variable eps init : T.
  Variable ps : list (production T).
  Variable tokens : list (token L T).

  (** the initial symbol derives the tokens before [q], followed by [Y] and something more *)
  Definition expected (q : nat) (Y : T) : Prop :=
    q <= length tokens /\
    Forall (fun t => real_terminal eps ps (tok_type t)) (firstn q tokens) /\
    exists v, derives eps ps [init] (map (@tok_type L T) (firstn q tokens) ++ Y :: v).

  (** no sentence starts with the first [k] tokens *)
  Definition wrong_by (k : nat) : Prop :=
    ~ viable_prefix eps ps init (map (@tok_type L T) (firstn k tokens)).

  (** [g] names, from position [p] on, a symbol that was expected where it failed: a terminal
      that is not there, or a non-terminal with a token to look at; and, if the non-terminals
      have sentences, the tokens before are right *)
  Definition justified (p : nat) (g : failed_symbol L T) : Prop :=
    exists q, p <= q /\ expected q (failed_symbol_type g) /\
      (~ non_terminal ps (failed_symbol_type g) ->
         g = FailedSymbol [] (failed_symbol_type g) /\ failed_symbol_type g <> eps /\
         forall tok, nth_error tokens q = Some tok -> tok_type tok <> failed_symbol_type g) /\
      (non_terminal ps (failed_symbol_type g) -> q < length tokens) /\
      (all_productive eps ps init -> forall k, wrong_by k -> q < k).

  (** a solver call about a symbol [X] that was expected at the position of the call: each
      failed production it is given is one of [X], and everything it mentions is justified *)
  Definition call_justified (c : solver_call L T) : Prop :=
    call_tokens c = tokens /\ call_position c < length tokens /\
    exists X, non_terminal ps X /\ expected (call_position c) X /\
      forall f parsed pending, In (FailedProduction f parsed pending) (call_failures c) ->
        (exists out, In (Production X out) ps /\ In (failed_symbol_type f) out) /\
        forall g, mentions f g -> justified (call_position c) g.
End ExpectSpec.
