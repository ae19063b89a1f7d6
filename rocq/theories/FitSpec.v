(** * FitSpec: grammars whose earlier alternatives never fit where a later one is right *)

From Verif Require Export Spec ExactSpec.

Set Implicit Arguments.

Section FitSpec.
  Context {T : Type}.
  Variable eps : T.
  Variable ps : list (production T).
  Variable init : T.

  Notation derives := (derives eps ps).

  (** a string of real terminals *)
  Definition word (w : list T) : Prop := Forall (fun a => a <> eps /\ ~ non_terminal ps a) w.

  Definition begins (w v : list T) : Prop := exists rest, v = w ++ rest.

  (** Where an alternative, with what comes after it in some form of the initial symbol, makes a
      string, no alternative declared before it makes a beginning of that string. *)
  Definition never_fits_early : Prop :=
    forall before after A out1 out2 x y w v,
      ps = before ++ Production A out1 :: after -> In (Production A out2) after -> out1 <> out2 ->
      derives [init] (x ++ A :: y) ->
      derives out1 w -> word w -> derives (out2 ++ y) v -> word v -> ~ begins w v.

  (** ** LL(k): in any left sentential form the next [k] tokens tell the production *)
  Definition ll_k (k : nat) : Prop :=
    forall A out1 out2 x y v1 v2,
      In (Production A out1) ps -> In (Production A out2) ps ->
      derives [init] (x ++ A :: y) -> word x ->
      derives (out1 ++ y) v1 -> word v1 -> derives (out2 ++ y) v2 -> word v2 ->
      firstn k v1 = firstn k v2 -> out1 = out2.

  (** ... and strings of fewer than [k] tokens that begin another alternative's strings come from
      alternatives declared later *)
  Definition short_later (k : nat) : Prop :=
    forall before after A out1 out2 x y w v,
      ps = before ++ Production A out1 :: after -> In (Production A out2) after -> out1 <> out2 ->
      derives [init] (x ++ A :: y) -> word x ->
      derives out1 w -> word w -> length w < k -> derives (out2 ++ y) v -> word v -> ~ begins w v.
End FitSpec.

(** ** Checking LL(k), given for every symbol the beginnings of its strings and of what follows it *)
Section LLCheck.
  Context {T : Type} {E : EqDec T}.
  Variable eps : T.
  Variable ps : list (production T).
  Variable init : T.
  Variable k : nat.
  (** [firsts A]: all strings of [A], cut to [k] tokens; [follows A]: what comes after [A], cut likewise *)
  Variable firsts follows : T -> list (list T).

  Definition is_input (X : T) : bool := existsb (fun p => eqb (p_input p) X) ps.

  Definition join (l1 l2 : list (list T)) : list (list T) :=
    flat_map (fun u => map (fun v => firstn k (u ++ v)) l2) l1.

  Definition heads_of (X : T) : list (list T) :=
    if eqb X eps then [[]] else if is_input X then map (firstn k) (firsts X) else [firstn k [X]].

  Fixpoint heads (w : list T) : list (list T) :=
    match w with [] => [[]] | X :: w' => join (heads_of X) (heads w') end.

  Definition within (l1 l2 : list (list T)) : bool :=
    forallb (fun s => existsb (same_output s) l2) l1.

  Definition firsts_closed : bool :=
    forallb (fun p => within (heads (p_output p)) (firsts (p_input p))) ps.

  Definition follows_closed : bool :=
    within [[]] (follows init) &&
    forallb (fun p => forallb (fun use =>
      negb (is_input (fst use)) || within (join (heads (snd use)) (follows (p_input p))) (follows (fst use)))
      (uses (p_output p))) ps.

  (** what a production can make the next [k] tokens *)
  Definition lookaheads (p : production T) : list (list T) := join (heads (p_output p)) (follows (p_input p)).

  Definition lookaheads_apart : bool :=
    forallb (fun p => forallb (fun q =>
      negb (eqb (p_input p) (p_input q)) || same_output (p_output p) (p_output q) ||
      forallb (fun s => negb (existsb (same_output s) (lookaheads q))) (lookaheads p)) ps) ps.

  Fixpoint begins_with (w v : list T) : bool :=
    match w, v with
    | [], _ => true
    | x :: w', y :: v' => eqb x y && begins_with w' v'
    | _ :: _, [] => false
    end.

  Fixpoint is_short_later (l : list (production T)) : bool :=
    match l with
    | [] => true
    | p :: after =>
      forallb (fun q =>
        negb (eqb (p_input p) (p_input q)) || same_output (p_output p) (p_output q) ||
        forallb (fun s => negb (length s <? k) || forallb (fun s' => negb (begins_with s s')) (lookaheads q))
                (heads (p_output p))) after &&
      is_short_later after
    end.

  Definition is_ll_k : bool :=
    firsts_closed && follows_closed && lookaheads_apart.
End LLCheck.
