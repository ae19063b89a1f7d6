(** * The textbook production before the ones that vanish: C22, C69 and C99 in one *)

From Verif Require Import BaseFacts GrammarFacts DerivFacts ParserSound ParserComplete.
From Verif Require Import FollowSpec ProductiveSpec CutFacts CoverFacts PrefixSpec ChoiceSpec
  FollowRepeat Examples ExampleTools MoreFacts PropParse PropReports PropHang
  GuidedSpec ParserGuided PropGuided SuppliedSpec PropEnd LastSpec LastFacts PropLast PropQuiet PropLeftRec LL1Check PropPrefix.
From Verif Require Export LastSpec.

Set Implicit Arguments.

(** C22 for every LL(1) grammar in whose table no candidate that can be parsed without
    reading anything stands before the textbook production of the cell; any solver *)
Theorem C22_in_order_partial :
  forall (L T : Type) (E : EqDec T) (eps init : T) (ps : list (production T))
         (solver : option (syntax_error_solver L T)) (self : parser L T) (tokens : list (token L T)),
    built_parser eps init ps solver self ->
    ll1 eps ps init -> nothing_vanishes_early eps ps init (candidates self) -> repeats_harmless eps ps init ->
    all_productive eps ps init -> initial_ends_in_terminal eps ps init -> non_terminal ps init ->
    derives eps ps [init] (map (@tok_type L T) tokens) ->
    Forall (fun t => tok_type t <> eps /\ ~ non_terminal ps (tok_type t)) tokens ->
    exists root, tree_for eps ps init root tokens /\
      (forall root', tree_for eps ps init root' tokens -> root' = root) /\
      (* also when something follows *)
      forall more, terminates_with (fun fuel => parse_from_tokens fuel self (tokens ++ more)) (Done (ResultOk root, [])).
Proof.
  intros L T E eps init ps solver self tokens B Hll Hord Hrep Hprod Hend Hinit Hd Hl.
  assert (Hlr : no_left_recursion_from eps ps init).
  { apply ll1_no_left_recursion; auto. apply (go_ok (po_grammar (bf_of (built_built B)))). }
  assert (Hany : forall root w more, tree_for eps ps init root w -> prefix w (tokens ++ more) ->
       terminates_with (fun fuel => parse_from_tokens fuel self (tokens ++ more)) (Done (ResultOk root, []))).
  { intros root w more. exact (proj1 (covering_order_any_solver (tokens ++ more) (built_constructed B)
      (harmless_covering (built_built B) Hrep Hinit) (ll1_reachable Hll) Hord Hlr Hend Hinit) root w). }
  destruct (derives_tree Hd Hl) as [root Ht]. exists root. split; auto.
  assert (Hpre : forall more, prefix tokens (tokens ++ more)) by (intros more; now exists more).
  split; [|intros more; eapply Hany; eauto].
  intros root' Ht'.
  pose proof (terminates_unique (Hany _ _ [] Ht (Hpre [])) (Hany _ _ [] Ht' (Hpre []))) as Heq. now inversion Heq.
Qed.
Print Assumptions C22_in_order_partial.

(** ... which covers tables without conflicts and nullable alternatives declared last *)
Theorem C22_in_order_covers :
  forall (L T : Type) (E : EqDec T) (eps init : T) (ps : list (production T))
         (solver : option (syntax_error_solver L T)) (self : parser L T),
    built_parser eps init ps solver self ->
    conflict_free (pr_transitions self) \/ nullable_last eps ps ->
    nothing_vanishes_early eps ps init (candidates self).
Proof.
  intros L T E eps init ps solver self B [Hcf|Hlast].
  - now apply conflict_free_order.
  - exact (nullable_last_order (built_constructed B) (nullable_last_reachable Hlast)).
Qed.
Print Assumptions C22_in_order_covers.

(** C99 in the same generality *)
Theorem C99_in_order_any_solver :
  forall (L T : Type) (E : EqDec T) (eps init : T) (ps : list (production T))
         (solver : option (syntax_error_solver L T)) (self : parser L T) (tokens : list (token L T)),
    built_parser eps init ps solver self ->
    ll1 eps ps init -> nothing_vanishes_early eps ps init (candidates self) -> repeats_harmless eps ps init ->
    no_left_recursion_from eps ps init -> initial_ends_in_terminal eps ps init -> non_terminal ps init ->
    (forall root w, tree_for eps ps init root w -> prefix w tokens ->
       terminates_with (fun fuel => parse_from_tokens fuel self tokens) (Done (ResultOk root, []))) /\
    (forall fuel root h, parse_from_tokens fuel self tokens = Done (ResultOk root, h) ->
       h = [] /\ exists w, tree_for eps ps init root w /\ prefix w tokens).
Proof.
  intros L T E eps init ps solver self tokens B Hll Hord Hrep Hlr Hend Hn.
  exact (covering_order_any_solver tokens (built_constructed B) (harmless_covering (built_built B) Hrep Hn) (ll1_reachable Hll) Hord Hlr Hend Hn).
Qed.
Print Assumptions C99_in_order_any_solver.

(** 0 epsilon; S = 1 -> Z c $ | d X b $; Z = 2 -> A; A = 3 -> X Y | b; X = 4 -> epsilon;
    Y = 9 -> epsilon | y; b = 5, c = 6, d = 7, $ = 8, y = 10.  The nullable [X Y] stands before
    [b] in the cell of [A] and [b], but does not vanish there: [b] cannot follow [Y]. *)
Definition ll1_in_order : list (production nat) :=
  [Production 1 [2; 6; 8]; Production 1 [7; 4; 5; 8]; Production 2 [3];
   Production 3 [4; 9]; Production 3 [5]; Production 4 [0]; Production 9 [0]; Production 9 [10]].
Definition in_order_parser : parser nat nat := Eval vm_compute in
  get_done (no_parser 0) (build (L := nat) 0 1 ll1_in_order None 200).

Lemma hash_map_get_key {V : Type} (m : list (nat * V)) k v :
  hash_map_get m k = Some v -> In (k, v) m.
Proof.
  induction m as [|[k' v'] m IH]; simpl; [discriminate|]. destruct (eqb k k') eqn:He; intros H; [|auto].
  inversion H; subst. apply eqb_iff in He. subst. now left.
Qed.

(** all cells but some have at most one candidate *)
Lemma cells_check {L : Type} (self : parser L nat) (but : nat -> nat -> bool) :
  forallb (fun r => forallb (fun c => (length (snd c) <=? 1) || but (fst r) (fst c)) (snd r)) (t_table (pr_transitions self)) = true ->
  forall A a, length (candidates self A a) <= 1 \/ but A a = true.
Proof.
  intros H A a. unfold candidates, transitions_get_productions.
  destruct (hash_map_get (t_table (pr_transitions self)) A) as [r|] eqn:Hr; [|left; simpl; lia].
  destruct (hash_map_get r a) as [c|] eqn:Hc; [|left; simpl; lia].
  apply hash_map_get_key in Hr. apply hash_map_get_key in Hc.
  rewrite forallb_forall in H. specialize (H _ Hr). simpl in H. rewrite forallb_forall in H. specialize (H _ Hc). simpl in H.
  apply orb_true_iff in H as [H|H]; auto. left. rewrite map_length. now apply Nat.leb_le.
Qed.

Example C22_in_order_case :
  built_parser 0 1 ll1_in_order None in_order_parser /\
  ll1 0 ll1_in_order 1 /\ nothing_vanishes_early 0 ll1_in_order 1 (candidates in_order_parser) /\
  repeats_harmless 0 ll1_in_order 1 /\ all_productive 0 ll1_in_order 1 /\
  initial_ends_in_terminal 0 ll1_in_order 1 /\ non_terminal ll1_in_order 1 /\
  ~ conflict_free (pr_transitions in_order_parser) /\ ~ nullable_last 0 ll1_in_order /\
  derives 0 ll1_in_order [1] [5; 6; 8].
Proof.
  splits.
  - apply build_built with (fuel := 200). vm_compute. reflexivity.
  - destruct (cfg_new (insertion_order nat) 0 1 ll1_in_order) as [g| |] eqn:Hg; try discriminate.
    assert (Hg2 := Hg). vm_compute in Hg. inversion Hg as [Hg'].
    destruct (ffs_from (insertion_order nat) 200 g) as [ffs| |] eqn:Hf;
      [|subst g; vm_compute in Hf; discriminate..].
    apply (ll1_check_ok _ _ _ Hg2 Hf).
    + apply no_repeated_neighbours_check. reflexivity.
    + apply non_terminalb_spec. reflexivity.
    + subst g. vm_compute in Hf. inversion Hf; subst ffs. vm_compute. reflexivity.
  - intros A a l1 out l2 p _ Hc Hin Hne _.
    destruct (cells_check in_order_parser (fun A a => Nat.eqb A 3 && Nat.eqb a 5) eq_refl A a) as [H|H].
    + exfalso. rewrite Hc, app_length in H. destruct l2; [destruct Hin|simpl in H; lia].
    + apply andb_true_iff in H as [H1 H2]. apply Nat.eqb_eq in H1, H2. subst A a.
      assert (Hcell : candidates in_order_parser 3 5 = [[4; 9]; [5]]) by reflexivity. rewrite Hcell in Hc.
      assert (out = [4; 9]).
      { destruct l1 as [|x l1]; inversion Hc; auto. subst. destruct l1 as [|y l1]; inversion H1; subst.
        - destruct Hin.
        - destruct l1; discriminate. }
      subst out. intros Hv. inversion Hv as [|? ?|? ? ? _ _ _ Hv2]; subst.
      inversion Hv2 as [|? ?|? o ? _ Ho _ _]; subst. vm_compute in Ho. exact Ho.
  - apply no_repeated_neighbours_harmless. apply no_repeated_neighbours_check. reflexivity.
  - intros X HX _.
    assert (Hp : PrefixSpec.productive 0 ll1_in_order)
      by (apply productive_check_ok with (rank := fun x => match x with 1 => 4 | 2 => 3 | 3 => 2 | 4 => 1 | 9 => 1 | _ => 0 end); reflexivity).
    destruct (Hp _ HX) as (w & Hw & Hr). exists w. auto.
  - intros p Hp Hi. simpl in Hp. decompose [or] Hp; subst; try discriminate; try contradiction.
    + exists [2; 6], 8. splits; try reflexivity; try discriminate. apply non_terminalb_false. reflexivity.
    + exists [7; 4; 5], 8. splits; try reflexivity; try discriminate. apply non_terminalb_false. reflexivity.
  - apply non_terminalb_spec. reflexivity.
  - intros H. specialize (H 3 5 [Production 3 [4; 9]; Production 3 [5]] eq_refl). simpl in H. lia.
  - intros H. apply (H [Production 1 [2; 6; 8]; Production 1 [7; 4; 5; 8]; Production 2 [3]] (Production 3 [4; 9])
      [Production 3 [5]; Production 4 [0]; Production 9 [0]; Production 9 [10]] (Production 3 [5])); try reflexivity; [now left|discriminate|].
    simpl. apply (@derives_app _ 0 ll1_in_order [4] [] [9] []).
    + eapply derives_trans; [apply (@derives_production _ 0 ll1_in_order (Production 4 [0])); simpl; tauto|].
      apply derives_step, (derive1_epsilon 0 ll1_in_order [] []).
    + eapply derives_trans; [apply (@derives_production _ 0 ll1_in_order (Production 9 [0])); simpl; tauto|].
      apply derives_step, (derive1_epsilon 0 ll1_in_order [] []).
  - eapply derives_trans; [apply (@derives_production _ 0 ll1_in_order (Production 1 [2; 6; 8])); simpl; auto|].
    apply (@derives_app _ 0 ll1_in_order [2] [5] [6; 8] [6; 8]); [|apply derives_refl].
    eapply derives_trans; [apply (@derives_production _ 0 ll1_in_order (Production 2 [3])); simpl; auto|].
    apply (@derives_production _ 0 ll1_in_order (Production 3 [5])); simpl; auto 10.
Qed.
