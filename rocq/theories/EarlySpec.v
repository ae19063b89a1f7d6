(** * EarlySpec: which of two trees uses earlier declared productions *)

From Verif Require Export Spec.

Set Implicit Arguments.

Section EarlySpec.
  Context {L T : Type}.
  Variable ps : list (production T).

  Definition symbols (ns : list (node L T)) : list T := map (fun n => tok_type (node_token n)) ns.

  (** among the productions of [A], [A -> out] is declared before any [A -> out'] *)
  Definition declared_before (A : T) (out out' : list T) : Prop :=
    exists ps1 ps2, ps = ps1 ++ Production A out :: ps2 /\ ~ In (Production A out') ps1 /\ out' <> out.

  (** [earlier n n']: top down and from left to right, at the first place where the
      productions used in the two trees differ, that of [n] is declared before *)
  Inductive earlier : node L T -> node L T -> Prop :=
  | earlier_production ns ns' t :
      declared_before (tok_type t) (symbols ns) (symbols ns') ->
      earlier (Node ns t) (Node ns' t)
  | earlier_child before c c' after after' t :
      earlier c c' -> symbols (c :: after) = symbols (c' :: after') ->
      earlier (Node (before ++ c :: after) t) (Node (before ++ c' :: after') t).
End EarlySpec.
