(** * ExactSpec: computing whether a grammar is LL(1), and whether it is parsed exactly

    From the FIRST and FOLLOW sets as the crate computes them, and the candidates in the
    table.  All definitions here compute; what they decide is stated in PropExact.v. *)

From Verif Require Export Spec FirstFollow.

Set Implicit Arguments.

Section ExactSpec.
  Context {T : Type} {E : EqDec T}.
  Variable eps : T.
  Variable ps : list (production T).
  Variable first follow : T -> list T.
  Variable candidates : T -> T -> list (list T).

  Definition among (x : T) (l : list T) : bool := if in_dec eq_dec x l then true else false.
  Definition same_output (u v : list T) : bool := if list_eq_dec eq_dec u v then true else false.

  (** ** the tokens that select a production by the textbook *)
  Fixpoint starts_with (out : list T) : list T :=
    match out with
    | [] => []
    | X :: out' => filter (fun a => negb (eqb a eps)) (first X) ++
                   (if among eps (first X) then starts_with out' else [])
    end.

  Definition may_be_empty (out : list T) : bool := forallb (fun X => among eps (first X)) out.

  Definition selects (p : production T) : list T :=
    starts_with (p_output p) ++ (if may_be_empty (p_output p) then follow (p_input p) else []).

  (** two productions of a symbol are never selected by one token *)
  Definition is_ll1 : bool :=
    forallb (fun p => forallb (fun q =>
      negb (eqb (p_input p) (p_input q)) || same_output (p_output p) (p_output q) ||
      forallb (fun a => negb (among a (selects q))) (selects p)) ps) ps.

  (** ** the symbols that vanish on a token *)
  Definition new_in (s l : list T) : list T := filter (fun x => negb (among x s)) l.

  Fixpoint saturate (n : nat) (f : list T -> list T) (s : list T) : list T :=
    match n with
    | O => s
    | S n' => match new_in s (f s) with [] => s | x :: l => saturate n' f (x :: l ++ s) end
    end.

  Definition vanish_step (a : T) (s : list T) : list T :=
    map (@p_input T)
        (filter (fun p => existsb (forallb (fun X => eqb X eps || among X s)) (candidates (p_input p) a)) ps).

  Definition vanishing (a : T) : list T := saturate (length ps) (vanish_step a) [].

  Definition all_vanish (a : T) (Xs : list T) : bool :=
    let s := vanishing a in forallb (fun X => eqb X eps || among X s) Xs.

  (** ** no candidate ends early without being noticed *)
  Fixpoint uses (out : list T) : list (T * list T) :=
    match out with [] => [] | A :: after => (A, after) :: uses after end.

  Fixpoint before_output (out : list T) (l : list (list T)) : list (list T) :=
    match l with [] => [] | o :: l' => if same_output o out then [] else o :: before_output out l' end.

  Definition is_exact : bool :=
    forallb (fun q => forallb (fun use =>
      forallb (fun p => negb (eqb (p_input p) (fst use)) ||
        forallb (fun a => negb (all_vanish a (snd use)) ||
                          negb (existsb (all_vanish a) (before_output (p_output p) (candidates (fst use) a))))
                (selects p)) ps) (uses (p_output q))) ps.
End ExactSpec.

(** the sets the crate computes; symbols it has no set for get the empty one *)
Definition first_set {T : Type} {I : EqImpl T} (ffs : first_follow_symbols T) (X : T) : list T :=
  match get_first_symbols ffs X with Some s => s | None => [] end.
Definition follow_set {T : Type} {I : EqImpl T} (ffs : first_follow_symbols T) (X : T) : list T :=
  match get_follow_symbols ffs X with Some s => s | None => [] end.
