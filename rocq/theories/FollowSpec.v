(** * FollowSpec: the rules FOLLOW is computed from, and growing grammars *)

From Verif Require Export Spec.

Set Implicit Arguments.

Section FollowSpec.
  Context {T : Type}.
  Variable eps : T.
  Variable ps : list (production T).

  (** The textbook rules for FOLLOW, with one restriction: a symbol learns
      nothing from a stretch [mid ++ [Z]] that consists of copies of itself. *)
  Inductive follow_by_rules : T -> T -> Prop :=
  | by_first p u A mid Z v a :
      In p ps -> p_output p = u ++ A :: mid ++ Z :: v -> non_terminal ps A ->
      nullable eps ps mid -> can_start eps ps [Z] a ->
      ~ Forall (fun X => X = A) (mid ++ [Z]) ->
      follow_by_rules A a
  | by_end p u A v a :
      In p ps -> p_output p = u ++ A :: v -> non_terminal ps A ->
      nullable eps ps v -> follow_by_rules (p_input p) a -> follow_by_rules A a.
End FollowSpec.

(** [sublist l l']: [l'] is [l] with more elements put in between *)
Inductive sublist {A : Type} : list A -> list A -> Prop :=
| sublist_nil : sublist [] []
| sublist_keep x l l' : sublist l l' -> sublist (x :: l) (x :: l')
| sublist_skip x l l' : sublist l l' -> sublist l (x :: l').

(** [ps'] adds productions to [ps], none of them for a terminal of [ps] *)
Definition extends_grammar {T : Type} (ps ps' : list (production T)) : Prop :=
  sublist ps ps' /\ forall x, terminal ps x -> ~ non_terminal ps' x.

(** Where a production that [S] reaches has [B B], whatever starts [B] is known to follow
    the nullable non-terminals that can end [B].  (FOLLOW is used for these only.) *)
Definition repeats_harmless {T : Type} (eps : T) (ps : list (production T)) (S : T) : Prop :=
  forall p u B v w C a,
    In p ps -> reachable_from eps ps S (p_input p) ->
    p_output p = u ++ B :: B :: v -> non_terminal ps B ->
    derives eps ps [B] (w ++ [C]) -> non_terminal ps C -> nullable eps ps [C] ->
    can_start eps ps [B] a -> follow_by_rules eps ps C a.
