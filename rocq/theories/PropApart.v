(** * Productions that the initial symbol cannot reach: C73 *)

From Verif Require Import BaseFacts GrammarFacts DerivFacts ParserSound ParserBuild CoverFacts ApartFacts.
From Verif Require Import PropParse PropFollow PropSupplied Examples.
From Verif Require Export ApartSpec.

Set Implicit Arguments.

(** ** Productions with no common non-terminal change nothing *)
Theorem C73_apart_productions_irrelevant :
  forall (L T : Type) (E : EqDec T) (eps init : T) (ps ps' : list (production T))
         (solver : option (syntax_error_solver L T)) (self self' : parser L T)
         (fuel : nat) (tokens : list (token L T)),
    adds_apart ps ps' -> non_terminal ps init ->
    built_parser eps init ps solver self -> built_parser eps init ps' solver self' ->
    parse_from_tokens fuel self' tokens = parse_from_tokens fuel self tokens.
Proof.
  intros L T E eps init ps ps' solver self self' fuel tokens H Hi B B'.
  pose proof (bf_of (built_built B)) as P. pose proof (bf_of (built_built B')) as P'.
  apply (@agree_parse L T E eps init ps self self' P).
  - unfold get_initial_symbol. rewrite (go_init (po_grammar P)). exact (go_init (po_grammar P')).
  - unfold get_epsilon_symbol. rewrite (go_eps (po_grammar P)). exact (go_eps (po_grammar P')).
  - rewrite (bf_solver (built_built B)). exact (bf_solver (built_built B')).
  - intros X HX. apply eq_true_iff_eq.
    rewrite (is_non_terminal_spec (po_grammar P)), (is_non_terminal_spec (po_grammar P')).
    split; [|apply (apart_nt (apart_quietly eps H))]. intros Hn. destruct (non_terminal_dec ps X) as [|Hn']; auto.
    exfalso. apply (apart_terminals H) with (x := X); auto. split; auto.
  - intros X a [HX| -> ]; eapply apart_cells; eauto using apart_quietly.
Qed.
Print Assumptions C73_apart_productions_irrelevant.

(** the expression grammar with the productions of another language put around and between *)
Definition with_apart_productions : list (production nat) :=
  Production 11 [12; 5; 11] :: small_productions ++ [Production 11 [0]; Production 12 [3]].

Example C73_case :
  adds_apart small_productions with_apart_productions /\ non_terminal small_productions 1 /\
  built_parser 0 1 small_productions None (parser_of_productions small_productions) /\
  built_parser 0 1 with_apart_productions None (parser_of_productions with_apart_productions) /\
  small_productions <> with_apart_productions.
Proof.
  assert (Hin : forall p, In p with_apart_productions -> In p small_productions \/
    (p_input p = 11 \/ p_input p = 12) /\ forall x, In x (p_output p) -> x <> 1 /\ x <> 2).
  { intros p Hp. unfold with_apart_productions, small_productions in *. simpl in Hp.
    decompose [or] Hp; try contradiction; subst p; simpl; auto 10; right; (split; [auto|]); intros x Hx; decompose [or] Hx; try contradiction; subst; try lia; contradiction. }
  assert (Hs : forall p, In p small_productions -> (p_input p = 1 \/ p_input p = 2) /\
    forall x, In x (p_output p) -> x < 10).
  { intros p Hp. unfold small_productions in *. simpl in Hp.
    decompose [or] Hp; try contradiction; subst p; simpl; auto 10; try contradiction; (split; [auto|]); intros x Hx; decompose [or] Hx; try contradiction; subst; try lia; contradiction. }
  splits; [split| | | |discriminate].
  - intros A (p & Hp & Hi). destruct (proj1 (Hs p Hp)) as [Hi1|Hi1]; subst A; rewrite Hi1; reflexivity.
  - intros x [(p & Hp & Hx) Hn] (q & Hq & Hi). destruct (Hin q Hq) as [Hq'|[Hq' _]].
    + apply Hn. exists q; auto.
    + pose proof (proj2 (Hs p Hp) x Hx). lia.
  - intros p x Hp Hi Hx (q & Hq & Hqi). destruct (Hin p Hp) as [Hp'|[_ Hp']].
    + apply Hi. exists p; auto.
    + pose proof (proj1 (Hs q Hq)). specialize (Hp' x Hx). lia.
  - exists (Production 1 [2; 9]). simpl. auto.
  - apply (proj1 C65_case).
  - exists (insertion_order nat), (insertion_order nat), 200,
      (get_done (pr_grammar (no_parser 0)) (cfg_new (insertion_order nat) 0 1 with_apart_productions)).
    split; vm_compute; reflexivity.
Qed.

(** ** Productions of symbols the initial symbol cannot reach *)
Definition C73_full_statement : Prop :=
  forall (L T : Type) (E : EqDec T) (eps init : T) (ps ps' : list (production T))
         (solver : option (syntax_error_solver L T)) (self self' : parser L T)
         (fuel : nat) (tokens : list (token L T)),
    reachable_part_of eps init ps ps' -> non_terminal ps init ->
    built_parser eps init ps solver self -> built_parser eps init ps' solver self' ->
    parse_from_tokens fuel self' tokens = parse_from_tokens fuel self tokens.

Lemma reachable_closed {T : Type} (eps init : T) (ps : list (production T)) (good : T -> Prop) X :
  good init -> (forall p, In p ps -> good (p_input p) -> Forall good (p_output p)) ->
  reachable_from eps ps init X -> good X.
Proof.
  intros Hi Hc (u & v & Hd). assert (Hg : Forall good [init]) by auto. revert Hg.
  enough (Hall : forall s w, derives eps ps s w -> Forall good s -> Forall good w).
  { intros Hg. specialize (Hall _ _ Hd Hg). rewrite Forall_forall in Hall. apply Hall. apply in_elt. }
  clear - Hc. induction 1 as [|x y z Hs _ IH]; auto. intros Hx. apply IH. clear IH.
  destruct Hs as [u v p Hp|u v]; apply Forall_app in Hx as [Hu Hv]; inversion Hv; subst;
    repeat (apply Forall_app; split); auto.
Qed.

(** 1 -> 2 4 $; 2 -> 3; 3 -> epsilon | 5, with 6 -> 3 5 added: [5 4 $] is no longer parsed *)
Definition reached : list (production nat) :=
  [Production 1 [2; 4; 9]; Production 2 [3]; Production 3 [0]; Production 3 [5]].
Definition unreached : list (production nat) := reached ++ [Production 6 [3; 5]].

Lemma reached_part : reachable_part_of 0 1 reached unreached.
Proof.
  split; [repeat constructor|].
  assert (R1 : reachable_from 0 unreached 1 1) by (exists [], []; constructor).
  assert (R2 : reachable_from 0 unreached 1 2)
    by (eapply reach_step with (p := Production 1 [2; 4; 9]) (u := []); eauto; simpl; auto).
  assert (R3 : reachable_from 0 unreached 1 3)
    by (eapply reach_step with (p := Production 2 [3]) (u := []); eauto; simpl; auto).
  intros p Hp. unfold unreached, reached in Hp. simpl in Hp.
  decompose [or] Hp; try contradiction; subst p; simpl; try contradiction; split; auto 10.
  - intros Hr. exfalso. decompose [or] Hr; try discriminate; contradiction.
  - intros Hr. exfalso. apply (@reachable_closed nat 0 1 unreached (fun x => x <> 6)) in Hr; auto.
    intros q Hq Hi. unfold unreached, reached in Hq. simpl in Hq.
    decompose [or] Hq; try contradiction; subst q; repeat constructor; simpl in *; lia.
Qed.

Theorem C73_full_statement_refuted : ~ C73_full_statement.
Proof.
  intros H.
  pose proof (H nat nat _ 0 1 reached unreached None (parser_of_productions reached) (parser_of_productions unreached)
    60 [Token (Some 7) 5; Token (Some 8) 4; Token None 9] reached_part) as Heq.
  assert (Hne : parse_from_tokens 60 (parser_of_productions unreached) [Token (Some 7) 5; Token (Some 8) 4; Token None 9] <>
                parse_from_tokens 60 (parser_of_productions reached) [Token (Some 7) 5; Token (Some 8) 4; Token None 9])
    by (vm_compute; discriminate).
  apply Hne, Heq.
  - exists (Production 1 [2; 4; 9]). simpl. auto.
  - exists (insertion_order nat), (insertion_order nat), 200,
      (get_done (pr_grammar (no_parser 0)) (cfg_new (insertion_order nat) 0 1 reached)).
    split; vm_compute; reflexivity.
  - exists (insertion_order nat), (insertion_order nat), 200,
      (get_done (pr_grammar (no_parser 0)) (cfg_new (insertion_order nat) 0 1 unreached)).
    split; vm_compute; reflexivity.
Qed.
Print Assumptions C73_full_statement_refuted.

(** the two ways it goes wrong: a sentence is lost (6 -> 3 5 above), and, even with a
    conflict-free table, an input is accepted that was not (1 -> 2; 2 -> epsilon | 5,
    with 6 -> 2 4 added, on [4]) *)
Theorem C73_unreachable_productions_matter :
  let ps := [Production 1 [2]; Production 2 [0]; Production 2 [5]] in
  let ps' := ps ++ [Production 6 [2; 4]] in
  let tokens1 := [Token (Some 7) 5; Token (Some 8) 4; Token None 9] in
  let tokens2 := [Token (Some 7) 4] in
  (exists root, parse_from_tokens 60 (parser_of_productions reached) tokens1 = Done (ResultOk root, []) /\
                tree_for 0 reached 1 root tokens1) /\
  (exists e, parse_from_tokens 60 (parser_of_productions unreached) tokens1 = Done (ResultErr e, [])) /\
  conflict_free (pr_transitions (parser_of_productions ps')) /\
  (exists e, parse_from_tokens 60 (parser_of_productions ps) tokens2 = Done (ResultErr e, [])) /\
  (exists root, parse_from_tokens 60 (parser_of_productions ps') tokens2 = Done (ResultOk root, [])).
Proof.
  intros ps ps' tokens1 tokens2. splits.
  - eexists. split; [vm_compute; reflexivity|].
    assert (Ht : forall t, tok_type t <> 0 -> tok_type t > 3 -> tree_for (L := nat) 0 reached (tok_type t) (Node [] t) [t]).
    { intros t H0 H3. constructor; auto. intros (p & Hp & Hi). unfold reached in Hp. simpl in Hp.
      decompose [or] Hp; try contradiction; subst p; simpl in *; lia. }
    apply (@tree_production nat nat 0 reached (Production 1 [2; 4; 9])); [simpl; auto|]. simpl.
    apply (@forest_cons nat nat 0 reached _ _ _ _ [Token (Some 7) 5] [Token (Some 8) 4; Token None 9]).
    + apply (@tree_production nat nat 0 reached (Production 2 [3])); [simpl; auto|]. simpl.
      apply (@forest_cons nat nat 0 reached _ _ _ _ [Token (Some 7) 5] []); [|constructor].
      apply (@tree_production nat nat 0 reached (Production 3 [5])); [simpl; auto|]. simpl.
      apply (@forest_cons nat nat 0 reached _ _ _ _ [Token (Some 7) 5] []); [|constructor].
      apply (Ht (Token (Some 7) 5)); simpl; lia.
    + apply (@forest_cons nat nat 0 reached _ _ _ _ [Token (Some 8) 4] [Token None 9]); [apply (Ht (Token (Some 8) 4)); simpl; lia|].
      apply (@forest_cons nat nat 0 reached _ _ _ _ [Token None 9] []); [apply (Ht (Token None 9)); simpl; lia|constructor].
  - eexists. vm_compute. reflexivity.
  - apply conflict_free_check_ok. vm_compute. reflexivity.
  - eexists. vm_compute. reflexivity.
  - eexists. vm_compute. reflexivity.
Qed.
Print Assumptions C73_unreachable_productions_matter.

Lemma reachable_extends {T : Type} (eps init : T) (ps ps' : list (production T)) :
  reachable_part_of eps init ps ps' -> extends_grammar ps ps'.
Proof.
  intros [Hs Hr]. split; auto. intros x [(p & Hp & Hx) Hn] (q & Hq & Hi). apply Hn. exists q. split; auto.
  apply Hr; auto. rewrite Hi. apply in_split in Hx as (u & v & Ho).
  assert (Hp' : In p ps') by (clear - Hs Hp; induction Hs; simpl in *; intuition).
  eapply reach_step; [|exact Hp'|exact Ho]. now apply Hr.
Qed.

(** a tree of a reachable symbol uses reachable productions *)
Lemma reachable_trees {L T : Type} (eps init : T) (ps ps' : list (production T)) :
  reachable_part_of eps init ps ps' ->
  (forall X n w, tree_for (L := L) eps ps' X n w -> reachable_from eps ps' init X -> tree_for eps ps X n w) /\
  (forall Xs ns w, forest_for (L := L) eps ps' Xs ns w -> Forall (reachable_from eps ps' init) Xs -> forest_for eps ps Xs ns w).
Proof.
  intros [Hs Hr]. apply tree_forest_ind.
  - intros t He Hn _. constructor; auto. intros (p & Hp & Hi). apply Hn. exists p. split; auto.
    clear - Hs Hp; induction Hs; simpl in *; intuition.
  - intros _. constructor.
  - intros p cs w Hp _ IH Hx. constructor; [now apply Hr|]. apply IH. apply Forall_forall. intros y Hy.
    apply in_split in Hy as (u & v & Ho). eapply reach_step; eauto.
  - intros _. constructor.
  - intros X Xs n ns w ws _ IH1 _ IH2 Hx. inversion Hx; subst. constructor; auto.
Qed.

(** What holds: with a conflict-free table for the larger grammar, and an end marker, both
    parsers accept the same inputs with the same trees.  Missing: tables with conflicts,
    grammars without an end marker, and the contents of error reports. *)
Theorem C73_unreachable_productions_partial :
  forall (L T : Type) (E : EqDec T) (eps init : T) (ps ps' : list (production T))
         (solver solver' : option (syntax_error_solver L T)) (self self' : parser L T)
         (tokens : list (token L T)) (root : node L T),
    reachable_part_of eps init ps ps' -> non_terminal ps init ->
    built_parser eps init ps solver self -> built_parser eps init ps' solver' self' ->
    conflict_free (pr_transitions self') ->
    repeats_harmless eps ps init -> initial_ends_in_terminal eps ps init ->
    (exists fuel h, parse_from_tokens fuel self tokens = Done (ResultOk root, h)) <->
    (exists fuel h, parse_from_tokens fuel self' tokens = Done (ResultOk root, h)).
Proof.
  intros L T E eps init ps ps' solver solver' self self' tokens root Hr Hn B B' Hcf Hrep Hend.
  pose proof (reachable_extends Hr) as Hext. split; intros (fuel & h & H).
  - destruct (C65_growing_grammar_keeps_trees _ _ B B' Hext Hcf H) as [_ [n Hn']].
    exists n, []. apply Hn'. lia.
  - destruct (C14_parse_trees_valid _ _ (built_constructed B') H) as (_ & _ & w & Hw & Hp).
    apply (proj1 (reachable_trees (L := L) Hr)) in Hw; [|exists [], []; constructor].
    assert (Hcf' : conflict_free (pr_transitions self)).
    { clear - B B' Hext Hcf. intros A a l Hl.
      apply built_inv in B as (ho1 & ho2 & n & g & ffs & Hg & Hf & Hs).
      apply built_inv in B' as (ho1' & ho2' & n' & g' & ffs' & Hg' & Hf' & Hs').
      apply rdp_from_inv in Hs as (_ & _ & Ht). apply rdp_from_inv in Hs' as (_ & _ & Ht').
      destruct (proj2 (proj2 (@C53_more_productions_more_candidates _ _ _ _ _ _ _ _ _ _ _ _ _ _ _ _ _ _ _ _ _ Hext Hg Hf Ht Hg' Hf' Ht')) A a l Hl)
        as (l' & Hl' & Hsub).
      apply Hcf in Hl'. enough (length l <= length l') by lia.
      clear - Hsub. induction Hsub; simpl; lia. }
    destruct (C23_conflict_free_exact B Hcf' Hrep Hend Hn Hw Hp) as [_ [n Hn']].
    exists n, []. apply Hn'. lia.
Qed.
Print Assumptions C73_unreachable_productions_partial.

Example C73_case_partial :
  let ps' := Production 6 [2; 5] :: small_productions in
  reachable_part_of 0 1 small_productions ps' /\ non_terminal small_productions 1 /\
  built_parser 0 1 small_productions None (parser_of_productions small_productions) /\
  built_parser 0 1 ps' None (parser_of_productions ps') /\
  conflict_free (pr_transitions (parser_of_productions ps')) /\
  repeats_harmless 0 small_productions 1 /\ initial_ends_in_terminal 0 small_productions 1 /\
  exists root, parse_from_tokens 60 (parser_of_productions ps')
    [Token (Some 7) 3; Token (Some 8) 3; Token (Some 9) 4; Token None 9] = Done (ResultOk root, []).
Proof.
  intros ps'. splits.
  - split; [repeat constructor|].
    assert (R1 : reachable_from 0 ps' 1 1) by (exists [], []; constructor).
    assert (R2 : reachable_from 0 ps' 1 2)
      by (eapply reach_step with (p := Production 1 [2; 9]) (u := []); eauto; simpl; auto).
    intros p Hp. unfold ps', small_productions in Hp. simpl in Hp.
    decompose [or] Hp; try contradiction; subst p; simpl; split; auto 10.
    + intros Hr. exfalso. decompose [or] Hr; try discriminate; contradiction.
    + intros Hr. exfalso. apply (@reachable_closed nat 0 1 ps' (fun x => x <> 6)) in Hr; auto.
      intros q Hq Hi. unfold ps', small_productions in Hq. simpl in Hq.
      decompose [or] Hq; try contradiction; subst q; repeat constructor; simpl in *; lia.
  - exists (Production 1 [2; 9]). simpl. auto.
  - apply (proj1 C65_case).
  - exists (insertion_order nat), (insertion_order nat), 200,
      (get_done (pr_grammar (no_parser 0)) (cfg_new (insertion_order nat) 0 1 ps')).
    split; vm_compute; reflexivity.
  - apply conflict_free_check_ok. vm_compute. reflexivity.
  - intros p u B v w C a Hp _ Ho HB. exfalso. simpl in Hp.
    decompose [or] Hp; try contradiction; subst p; simpl in Ho;
      destruct u as [|? [|? [|]]]; simpl in Ho; inversion Ho; subst; discriminate.
  - intros p Hp Hi. simpl in Hp. decompose [or] Hp; try contradiction; subst p; simpl in Hi; try discriminate.
    exists [2], 9. splits; auto. intros (q & Hq & Hqi). simpl in Hq.
    decompose [or] Hq; try contradiction; subst q; discriminate.
  - eexists. vm_compute. reflexivity.
Qed.
