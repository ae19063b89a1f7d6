(** * The cost of building the sets and the table (C81) *)

From Verif Require Import BaseFacts GrammarFacts TransitionsFacts RoundFacts PropTable PropFirstFollow Examples.
From Verif Require Export PropFirstFollow.

Set Implicit Arguments.

(** C81: the FIRST loop ends after at most 2 N + 1 rounds and the FOLLOW loop after at most
    N + 1, where N is the number of non-terminals of the grammar: however many terminals
    and productions there are, and in whatever order hash collections are iterated.
    ([fuel] is the number of rounds that each of the two loops may take.) *)
Theorem C81_rounds :
  forall (T : Type) (E : EqDec T) (ho ho' : hash_order T) (eps init : T)
         (ps : list (production T)) (g : grammar T),
    cfg_new ho eps init ps = Done g ->
    let n := length (get_non_terminal_symbols ho' g) in
    (forall rounds, 2 * n + 1 <= rounds ->
       (exists first, inner_get_first_symbols ho' rounds g = Done first) /\
       (exists ffs, ffs_from ho' rounds g = Done ffs)) /\
    (forall rounds rounds' first, inner_get_first_symbols ho' rounds g = Done first ->
       n + 1 <= rounds' -> exists follow, inner_get_follow_symbols ho' rounds' g first = Done follow).
Proof.
  intros T E ho ho' eps init ps g Hg n. apply cfg_new_grammar_of in Hg as G.
  assert (Hfollow : forall rounds rounds' first, inner_get_first_symbols ho' rounds g = Done first ->
       n + 1 <= rounds' -> exists follow, inner_get_follow_symbols ho' rounds' g first = Done follow).
  { intros rounds rounds' first Hf Hr.
    apply (@inner_get_follow_symbols_rounds _ _ _ _ _ _ G); [|fold n; lia].
    exact (inner_get_first_symbols_exact G ho' _ Hf). }
  split; [|exact Hfollow].
  intros rounds Hr.
  destruct (@inner_get_first_symbols_rounds _ _ _ _ _ _ G ho' rounds) as [first Hf]; [fold n; lia|].
  split; [eauto|]. unfold ffs_from. rewrite Hf. simpl.
  destruct (Hfollow rounds rounds first Hf) as [follow Hfo]; [lia|]. rewrite Hfo. simpl. eauto.
Qed.
Print Assumptions C81_rounds.

Lemma sum_by_input {T} {E : EqDec T} (ps : list (production T)) (nts : list T) :
  NoDup nts ->
  list_sum (map (fun A => length (filter (fun p => if eq_dec (p_input p) A then true else false) ps)) nts)
  <= length ps.
Proof.
  intros Hnd. revert ps. induction Hnd as [|A nts Hn Hnd IH]; intros ps; simpl; [lia|].
  set (rest := filter (fun p => if eq_dec (p_input p) A then false else true) ps).
  assert (H1 : length (filter (fun p => if eq_dec (p_input p) A then true else false) ps) + length rest
               = length ps).
  { unfold rest. clear. induction ps as [|p ps IH]; simpl; auto.
    destruct (eq_dec (p_input p) A); simpl; lia. }
  assert (H2 : map (fun A => length (filter (fun p => if eq_dec (p_input p) A then true else false) ps)) nts =
               map (fun A => length (filter (fun p => if eq_dec (p_input p) A then true else false) rest)) nts).
  { apply map_ext_in. intros B HB. unfold rest. clear - Hn HB. induction ps as [|p ps IH]; simpl; auto.
    destruct (eq_dec (p_input p) A) as [e|e]; destruct (eq_dec (p_input p) B) as [e'|e']; simpl; auto.
    - exfalso. apply Hn. congruence.
    - destruct (eq_dec (p_input p) B); [simpl; lia|congruence].
    - destruct (eq_dec (p_input p) B); [congruence|auto]. }
  rewrite H2. specialize (IH rest). lia.
Qed.

(** Every FIRST and FOLLOW set has at most as many elements as the grammar has terminals,
    and the table as many entries as pairs of a production and a terminal, at most. *)
Theorem C81_sizes :
  forall (T : Type) (E : EqDec T) (ho ho' ho'' : hash_order T) (eps init : T)
         (ps : list (production T)) (g : grammar T) (fuel : nat)
         (ffs : first_follow_symbols T) (t : transitions T),
    cfg_new ho eps init ps = Done g -> ffs_from ho' fuel g = Done ffs ->
    transitions_from ho'' g ffs = Done t ->
    let terminals := get_terminal_symbols ho g in
    let non_terminals := get_non_terminal_symbols ho g in
    (forall X s, get_first_symbols ffs X = Some s -> length s <= length terminals) /\
    (forall A s, get_follow_symbols ffs A = Some s -> length s <= length terminals) /\
    list_sum (map (fun a => list_sum (map (fun A =>
        match transitions_get_productions t A a with Some l => length l | None => 0 end)
      non_terminals)) terminals) <= length ps * length terminals.
Proof.
  intros T E ho ho' ho'' eps init ps g fuel ffs t Hg Hf Ht terminals non_terminals.
  apply cfg_new_grammar_of in Hg as G.
  destruct (@C06_first_follow_hygiene T E ho ho' eps init ps g fuel ffs Hg Hf) as (_ & _ & H1 & H2).
  split; [|split].
  - intros X s Hs. destruct (H1 X s Hs) as [Hnd Hin]. apply NoDup_incl_length; auto.
    intros a Ha. apply (get_ts_In G). auto.
  - intros A s Hs. destruct (H2 A s Hs) as [Hnd Hin]. apply NoDup_incl_length; auto.
    intros a Ha. apply (get_ts_In G). apply Hin. exact Ha.
  - assert (Hcol : forall a, list_sum (map (fun A =>
        match transitions_get_productions t A a with Some l => length l | None => 0 end)
        non_terminals) <= length ps).
    { intros a. eapply Nat.le_trans; [|apply (@sum_by_input T E ps non_terminals); apply (get_nts_NoDup G)].
      generalize non_terminals as l. induction l as [|A l IH]; simpl; [lia|].
      apply Nat.add_le_mono; auto.
      destruct (transitions_get_productions t A a) as [c|] eqn:Hc; [|lia].
      destruct (@C11_table_contents T E ho ho' ho'' eps init ps g fuel ffs t A a Hg Hf Ht) as [_ Hcell].
      destruct (Hcell c Hc) as (keep & -> & _).
      generalize (filter (fun p => if eq_dec (p_input p) A then true else false) ps) as q.
      induction q as [|p q IHq]; simpl; [lia|]. destruct (keep p); simpl; lia. }
    generalize terminals as ts. induction ts as [|a ts IH]; simpl; [lia|].
    specialize (Hcol a). lia.
Qed.
Print Assumptions C81_sizes.

(** A grammar with 4 non-terminals that needs 7 rounds for FIRST (so N + 1 would be wrong):
    1 -> 2 10; 2 -> 3; 3 -> 4; 4 -> epsilon | 1 11. *)
Definition slow_productions : list (production nat) :=
  [Production 1 [2; 10]; Production 2 [3]; Production 3 [4]; Production 4 [0]; Production 4 [1; 11]].
Definition slow_grammar : outcome (grammar nat) := cfg_new (insertion_order nat) 0 1 slow_productions.

Example C81_case :
  exists g, slow_grammar = Done g /\
    length (get_non_terminal_symbols (insertion_order nat) g) = 4 /\
    inner_get_first_symbols (insertion_order nat) 6 g = OutOfFuel /\
    (exists m, inner_get_first_symbols (insertion_order nat) 7 g = Done m) /\
    (exists ffs t, ffs_from (insertion_order nat) 9 g = Done ffs /\
       transitions_from (insertion_order nat) g ffs = Done t).
Proof.
  eexists. split; [vm_compute; reflexivity|]. splits.
  - reflexivity.
  - vm_compute. reflexivity.
  - eexists. vm_compute. reflexivity.
  - do 2 eexists. split; [vm_compute; reflexivity|]. vm_compute. reflexivity.
Qed.
