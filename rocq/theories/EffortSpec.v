(** * EffortSpec: the calls per token for LL(1) grammars *)

From Verif Require Export WorkSpec.

Set Implicit Arguments.

(** the calls needed per token when the grammar is LL(1), a number that depends
    on the grammar only: [n] is the number of non-terminals, [k] the number of
    productions, [m] the length of the longest output and [z] bounds what is
    tried at one place without getting past a token *)
Definition ll1_calls_per_token {T : Type} {E : EqDec T} (ps : list (production T)) : nat :=
  let n := non_terminal_count ps in
  let k := length ps in
  let m := longest_output ps in
  let z := calls_factor ps ^ S n in
  (n + 1) * (1 + k * z + m * ((k + 1) * z)).
