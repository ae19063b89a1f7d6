(** * RepeatSpec: lists that differ only in later repetitions *)

From Verif Require Export RenameSpec.

Set Implicit Arguments.

(** [l'] is [l] without the elements that are in [seen] or occurred earlier in [l] *)
Inductive without_repeats {A : Type} : list A -> list A -> list A -> Prop :=
| wr_nil seen : without_repeats seen [] []
| wr_keep seen x l l' :
    ~ In x seen -> without_repeats (x :: seen) l l' -> without_repeats seen (x :: l) (x :: l')
| wr_drop seen x l l' :
    In x seen -> without_repeats seen l l' -> without_repeats seen (x :: l) l'.

(** each symbol has the same productions in the same order of first declaration *)
Definition same_up_to_repeats {T : Type} {E : EqDec T} (ps ps' : list (production T)) : Prop :=
  forall A, exists l, without_repeats [] (declared_for ps A) l /\
                      without_repeats [] (declared_for ps' A) l.
