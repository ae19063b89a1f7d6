(** * StartSpec: parts of a parse tree and where they start *)

From Verif Require Export Spec.

Set Implicit Arguments.

Section StartSpec.
  Context {L T : Type} {E : EqDec T}.
  Variable eps : T.

  (** the number of tokens of a tree: its leaves other than epsilon *)
  Fixpoint tokens_of (n : node L T) : nat :=
    match n with
    | Node [] t => if eq_dec (tok_type t) eps then 0 else 1
    | Node cs _ => list_sum (map tokens_of cs)
    end.

  (** [part_of root k n]: [n] is [root] or inside it, with [k] tokens of [root] before it *)
  Inductive part_of : node L T -> nat -> node L T -> Prop :=
  | part_whole n : part_of n 0 n
  | part_child before c after t k n :
      part_of c k n ->
      part_of (Node (before ++ c :: after) t) (list_sum (map tokens_of before) + k) n.
End StartSpec.

(** [replaced_at n n' root k root']: [root'] is [root] with its part [n], before which
    there are [k] tokens, replaced by [n'] *)
Section ReplaceSpec.
  Context {L T : Type} {E : EqDec T}.
  Variable eps : T.
  Variable n n' : node L T.

  Inductive replaced_at : node L T -> nat -> node L T -> Prop :=
  | replaced_whole : replaced_at n 0 n'
  | replaced_child before c c' after t k :
      replaced_at c k c' ->
      replaced_at (Node (before ++ c :: after) t) (list_sum (map (tokens_of eps) before) + k)
                  (Node (before ++ c' :: after) t).
End ReplaceSpec.
