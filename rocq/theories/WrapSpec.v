(** * WrapSpec: giving a grammar an end marker *)

From Verif Require Export Spec UsefulSpec RecipeSpec.

Set Implicit Arguments.

(** [X] is a symbol the grammar does not mention *)
Definition unused {T : Type} (eps : T) (ps : list (production T)) (X : T) : Prop :=
  X <> eps /\ ~ non_terminal ps X /\ ~ occurs_in_output ps X.

(** the grammar with a new initial symbol [top] -> [init] [eof] *)
Definition wrapped {T : Type} (top eof init : T) (ps : list (production T)) : list (production T) :=
  Production top [init; eof] :: ps.

(** what the new grammar's trees look like *)
Definition wrapped_tree {L T : Type} (top : T) (root : node L T) (end_token : token L T) : node L T :=
  Node [root; Node [] end_token] (Token None top).

Section LL1.
  Context {T : Type}.
  Variable eps : T.
  Variable ps : list (production T).

  (** the input can end after [A] ("$ is in FOLLOW(A)") *)
  Definition can_end (S A : T) : Prop := exists u, derives eps ps [S] (u ++ [A]).

  (** the productions a predictive parser chooses for [A] at the end of the input *)
  Definition textbook_cell_at_end (S A : T) (p : production T) : Prop :=
    In p ps /\ p_input p = A /\ nullable eps ps (p_output p) /\ can_end S A.

  (** LL(1) as in the textbook, for grammars without end marker of their own: the column
      of the end of the input has no conflict either *)
  Definition ll1_to_end (S : T) : Prop :=
    ll1 eps ps S /\
    forall A p q, textbook_cell_at_end S A p -> textbook_cell_at_end S A q -> p = q.
End LL1.

(** ** The useful productions, computed *)
Section Trim.
  Context {T : Type} {E : EqDec T}.
  Variable init : T.
  Variable ps : list (production T).

  Definition member (x : T) (l : list T) : bool := existsb (eqb x) l.

  (** the non-terminals that have a token string with parse trees up to [k] high *)
  Fixpoint productive_after (k : nat) : list T :=
    match k with
    | 0 => []
    | S k => let known := productive_after k in
             map (@p_input T)
               (filter (fun p => forallb (fun x => negb (member x (map (@p_input T) ps)) || member x known)
                                         (p_output p)) ps)
    end.

  (** every symbol of the output is a terminal or has a token string *)
  Definition good_production (k : nat) (p : production T) : bool :=
    let known := productive_after k in
    forallb (fun x => negb (member x (map (@p_input T) ps)) || member x known) (p_output p).

  (** the symbols reached from the initial symbol by [k] rounds of good productions *)
  Fixpoint reached_after (k : nat) : list T :=
    match k with
    | 0 => [init]
    | S k => let known := reached_after k in
             known ++ concat (map (@p_output T)
               (filter (fun p => member (p_input p) known && good_production (length ps) p) ps))
    end.

  Definition trimmed : list (production T) :=
    let known := reached_after (length ps) in
    filter (fun p => member (p_input p) known && good_production (length ps) p) ps.
End Trim.
