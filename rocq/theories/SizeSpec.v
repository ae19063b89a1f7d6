(** * SizeSpec: the size of trees and of error reports *)

From Verif Require Export WorkSpec.

Set Implicit Arguments.

(** all nodes of a tree, leaves included *)
Fixpoint node_count {L T : Type} (n : node L T) : nat :=
  match n with Node cs _ => 1 + list_sum (map node_count cs) end.

(** the levels of a tree *)
Fixpoint height {L T : Type} (n : node L T) : nat :=
  match n with Node cs _ => 1 + list_max (map height cs) end.

(** the symbols reported as failed in an error report, at all levels *)
Fixpoint failure_count {L T : Type} (f : failed_symbol L T) : nat :=
  match f with
  | FailedSymbol fps _ =>
      1 + list_sum (map (fun fp => match fp with FailedProduction g _ _ => failure_count g end) fps)
  end.

(** the levels of an error report *)
Fixpoint failure_depth {L T : Type} (f : failed_symbol L T) : nat :=
  match f with
  | FailedSymbol fps _ =>
      1 + list_max (map (fun fp => match fp with FailedProduction g _ _ => failure_depth g end) fps)
  end.

(** a number that depends on the grammar only *)
Definition nodes_per_token {T : Type} {E : EqDec T} (ps : list (production T)) : nat :=
  1 + longest_output ps * calls_per_token ps.
