(** * SuppliedSpec: parsers whose FIRST and FOLLOW sets come from the caller

    [FirstFollowSymbols::new] takes any two maps, and
    [RecursiveDescentParser::from_grammar_and_first_follow_symbols] any
    [FirstFollowSymbols]; nothing ties them to the grammar. *)

From Verif Require Export Spec.

Set Implicit Arguments.

(** [self] is what [from_grammar_and_first_follow_symbols] returns for the
    grammar [ContextFreeGrammar::new] makes of [eps], [init], [ps], and [ffs] *)
Definition supplied_parser {L T : Type} {E : EqDec T} (eps init : T)
           (ps : list (production T)) (ffs : first_follow_symbols T)
           (self : parser L T) : Prop :=
  exists (ho1 ho2 : hash_order T) (g : grammar T),
    cfg_new ho1 eps init ps = Done g /\
    from_grammar_and_first_follow_symbols ho2 g ffs = Done self.

Section SuppliedSpec.
  Context {T : Type} {E : EqDec T}.
  Variable eps : T.
  Variable ps : list (production T).
  Variable ffs : first_follow_symbols T.

  (** the symbol whose FOLLOW set matters to a production with first symbol [X] *)
  Inductive follow_key (p : production T) : T -> T -> Prop :=
  | key_epsilon : follow_key p eps (p_input p)
  | key_symbol X : X <> eps -> follow_key p X X.

  (** the sets say: use [p] when the next token is [a] *)
  Inductive chosen_on (p : production T) (a : T) : Prop :=
  | chosen_first X rest first :
      p_output p = X :: rest -> get_first_symbols ffs X = Some first ->
      In a first -> a <> eps -> chosen_on p a
  | chosen_follow X rest first Y follow :
      p_output p = X :: rest -> get_first_symbols ffs X = Some first -> In eps first ->
      follow_key p X Y -> get_follow_symbols ffs Y = Some follow ->
      In a follow -> chosen_on p a.

  (** the sets suffice for the grammar: those that are looked up are there,
      and hold terminals of the grammar only *)
  Definition sufficient_sets : Prop := forall p X rest,
    In p ps -> p_output p = X :: rest ->
    (exists first, get_first_symbols ffs X = Some first /\
       (In eps first -> forall Y, follow_key p X Y ->
          exists follow, get_follow_symbols ffs Y = Some follow)) /\
    (forall a, chosen_on p a -> terminal ps a).

  (** the sets hold at least what FIRST and FOLLOW are by definition, for the
      symbols of the grammar and the sentential forms of [S] *)
  Definition at_least_textbook (S : T) : Prop :=
    (forall X first a, non_terminal ps X \/ terminal ps X -> get_first_symbols ffs X = Some first ->
       can_start eps ps [X] a -> In a first) /\
    (forall X first, non_terminal ps X \/ terminal ps X -> get_first_symbols ffs X = Some first ->
       nullable eps ps [X] -> In eps first) /\
    (forall A follow a, non_terminal ps A -> get_follow_symbols ffs A = Some follow ->
       nullable eps ps [A] -> can_follow eps ps S A a -> In a follow).

  (** ** The rules by which textbooks compute FIRST and FOLLOW *)
  Definition in_first (X a : T) : Prop :=
    exists first, get_first_symbols ffs X = Some first /\ In a first.
  Definition in_follow (A a : T) : Prop :=
    exists follow, get_follow_symbols ffs A = Some follow /\ In a follow.

  (** no rule adds anything to the sets (the end marker is an ordinary terminal here) *)
  Record textbook_rules : Prop := {
    tr_terminal : forall a, terminal ps a -> in_first a a;
    tr_first : forall p u Z v a, In p ps -> p_output p = u ++ Z :: v ->
      Forall (fun X => in_first X eps) u -> in_first Z a -> a <> eps -> in_first (p_input p) a;
    tr_first_epsilon : forall p, In p ps ->
      Forall (fun X => in_first X eps) (p_output p) -> in_first (p_input p) eps;
    tr_follow_first : forall p u A mid Z v a, In p ps -> p_output p = u ++ A :: mid ++ Z :: v ->
      non_terminal ps A -> Forall (fun X => in_first X eps) mid -> in_first Z a -> a <> eps ->
      in_follow A a;
    tr_follow_end : forall p u A v a, In p ps -> p_output p = u ++ A :: v ->
      non_terminal ps A -> Forall (fun X => in_first X eps) v -> in_follow (p_input p) a ->
      in_follow A a }.
End SuppliedSpec.

(** every set of [ffs] is there in [ffs'], with at least the same elements *)
Definition sets_within {T : Type} {E : EqDec T} (ffs ffs' : first_follow_symbols T) : Prop :=
  (forall X s, get_first_symbols ffs X = Some s ->
     exists s', get_first_symbols ffs' X = Some s' /\ incl s s') /\
  (forall X s, get_follow_symbols ffs X = Some s ->
     exists s', get_follow_symbols ffs' X = Some s' /\ incl s s').

(** Every production is a candidate for every token that can come next where it is
    used: in a form [u A v] derived from [init], with the production used for [A]. *)
Definition covering {T : Type} (eps init : T) (ps : list (production T))
           (candidates : T -> T -> list (list T)) : Prop :=
  forall p u v a, In p ps -> derives eps ps [init] (u ++ p_input p :: v) ->
    can_start eps ps (p_output p ++ v) a -> In (p_output p) (candidates (p_input p) a).
