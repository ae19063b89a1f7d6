(** * FactorSpec: grammars that are LL(1) once common beginnings of alternatives are factored out *)

From Verif Require Export Spec ExactSpec.

Set Implicit Arguments.

Section FactorSpec.
  Context {T : Type}.
  Variable eps : T.
  Variable ps : list (production T).
  Variable init : T.

  (** the two do not begin with the same symbol *)
  Definition part_ways (r1 r2 : list T) : Prop := forall x u v, r1 = x :: u -> r2 <> x :: v.

  (** the token type [a] can be next where [rest] is what remains of a production of [A] *)
  Definition predicted (A : T) (rest : list T) (a : T) : Prop :=
    can_start eps ps rest a \/ (nullable eps ps rest /\ can_follow eps ps init A a).

  (** Where two alternatives part ways, the next token tells which one it is: LL(1) for the
      grammar in which the common beginnings are factored out. *)
  Definition ll1_once_factored : Prop :=
    forall A common r1 r2 a,
      reachable_from eps ps init A ->
      In (Production A (common ++ r1)) ps -> In (Production A (common ++ r2)) ps ->
      part_ways r1 r2 -> predicted A r1 a -> predicted A r2 a -> r1 = r2.

  (** An alternative that can end where another one goes on comes later. *)
  Definition longer_first : Prop :=
    forall before after A common r1 r2,
      ps = before ++ Production A (common ++ r1) :: after ->
      In (Production A (common ++ r2)) after ->
      reachable_from eps ps init A -> part_ways r1 r2 -> nullable eps ps r1 -> r1 = r2.
End FactorSpec.

(** ** Computing it, from the FIRST and FOLLOW sets of the crate *)
Section FactorCheck.
  Context {T : Type} {E : EqDec T}.
  Variable eps : T.
  Variable first follow : T -> list T.

  (** what is left of two lists once their common beginning is dropped *)
  Fixpoint drop_common (o1 o2 : list T) : list T * list T :=
    match o1, o2 with
    | x :: o1', y :: o2' => if eq_dec x y then drop_common o1' o2' else (o1, o2)
    | _, _ => (o1, o2)
    end.

  (** the tokens that may be next when [rest] is what remains of a production of [A] *)
  Definition predictions (A : T) (rest : list T) : list T :=
    starts_with eps first rest ++ (if may_be_empty eps first rest then follow A else []).

  Definition apart (A : T) (rests : list T * list T) : bool :=
    same_output (fst rests) (snd rests) ||
    forallb (fun a => negb (among a (predictions A (snd rests)))) (predictions A (fst rests)).

  Definition is_factored_ll1 (ps : list (production T)) : bool :=
    forallb (fun p => forallb (fun q =>
      negb (eqb (p_input p) (p_input q)) ||
      apart (p_input p) (drop_common (p_output p) (p_output q))) ps) ps.

  Fixpoint is_longer_first (ps : list (production T)) : bool :=
    match ps with
    | [] => true
    | p :: after =>
      forallb (fun q => negb (eqb (p_input p) (p_input q)) ||
        (let rests := drop_common (p_output p) (p_output q) in
         same_output (fst rests) (snd rests) || negb (may_be_empty eps first (fst rests)))) after &&
      is_longer_first after
    end.
End FactorCheck.
