(** * Conflicts and left recursion: C57 *)

From Verif Require Import BaseFacts GrammarFacts DerivFacts FirstFacts FollowFacts FollowRepeat TransitionsFacts.
From Verif Require Import LeftRecFacts ForeverFacts ParserBuild Examples LL1Check PropParse PropReports PropForever.

Set Implicit Arguments.

Section Instances.
  Context {T : Type} {E : EqDec T}.
  Variables eps init : T.
  Variable ps : list (production T).
  Hypothesis Hok : productions_ok eps ps.
  Hypothesis Hprod : all_productive eps ps init.
  Hypothesis Hend : initial_ends_in_terminal eps ps init.

  Lemma reachable_ll1_no_left_recursion :
    (forall A a p q, reachable_from eps ps init A ->
       textbook_cell eps ps init A a p -> textbook_cell eps ps init A a q -> p = q) ->
    no_left_recursion_from eps ps init.
  Proof.
    intros Hll.
    apply no_conflict_no_left_recursion with (F := can_follow eps ps init)
      (sel := fun p a => reachable_from eps ps init (p_input p) /\ textbook_cell eps ps init (p_input p) a p); auto.
    - intros p u A mid Z v a Hp (u' & v' & Hd) Ho HA Hm (He & Hn & w & Hw) _.
      split; auto. split; auto. exists (u' ++ u), (w ++ v ++ v').
      eapply derives_trans; [exact Hd|].
      change (p_input p :: v') with ([p_input p] ++ v').
      replace ((u' ++ u) ++ A :: a :: w ++ v ++ v')
        with (u' ++ (u ++ [A] ++ [] ++ (a :: w) ++ v) ++ v') by (simpl; rewrite <- !app_assoc; simpl; now rewrite <- !app_assoc).
      apply derives_ctx. eapply derives_trans; [now apply derives_production|]. rewrite Ho.
      apply derives_app; [apply derives_refl|].
      apply (@derives_app _ eps ps [A] [A]); [apply derives_refl|].
      apply derives_app; [exact Hm|].
      apply (@derives_app _ eps ps [Z] (a :: w)); [exact Hw|apply derives_refl].
    - intros p u A v a Hp _ Ho HA Hv (He & Hn & u' & v' & Hd).
      split; auto. split; auto. exists (u' ++ u), v'.
      eapply derives_trans; [exact Hd|].
      change (p_input p :: a :: v') with ([p_input p] ++ a :: v').
      replace ((u' ++ u) ++ A :: a :: v')
        with (u' ++ (u ++ [A] ++ []) ++ a :: v') by (simpl; now rewrite <- !app_assoc).
      apply derives_ctx. eapply derives_trans; [now apply derives_production|]. rewrite Ho.
      apply derives_app; [apply derives_refl|].
      apply (@derives_app _ eps ps [A] [A]); [apply derives_refl|exact Hv].
    - intros p a Hp HR Ha. split; auto. repeat split; auto.
    - intros p a Hp HR Hn Ha. split; auto. repeat split; auto.
    - intros p q a Hp Hq Hi [HR H1] [_ H2]. apply (Hll (p_input p) a); auto. now rewrite Hi.
  Qed.

  Lemma ll1_no_left_recursion : ll1 eps ps init -> no_left_recursion_from eps ps init.
  Proof. intros Hll. apply reachable_ll1_no_left_recursion. intros A a p q _. apply Hll. Qed.

  Lemma one_candidate_no_left_recursion :
    (forall p q a, In p ps -> In q ps -> p_input p = p_input q ->
       selects_sem (eps := eps) (ps := ps) p a -> selects_sem (eps := eps) (ps := ps) q a -> p = q) ->
    no_left_recursion_from eps ps init.
  Proof.
    intros Hone.
    apply no_conflict_no_left_recursion with (F := follow_rules (eps := eps) (ps := ps))
      (sel := selects_sem (eps := eps) (ps := ps)); auto using first_selects, end_selects.
    - intros. eapply follow_by_first; eauto.
    - intros. eapply follow_by_end; eauto.
  Qed.
End Instances.

(** ** C57: a conflict-free table rules out left recursion (if every symbol is
    productive and the initial symbol's productions end in a terminal) ... *)
Theorem C57_conflict_free_not_left_recursive :
  forall (L T : Type) (E : EqDec T) (eps init : T) (ps : list (production T))
         (solver : option (syntax_error_solver L T)) (self : parser L T),
    built_parser eps init ps solver self -> conflict_free (pr_transitions self) ->
    initial_ends_in_terminal eps ps init -> all_productive eps ps init ->
    no_left_recursion_from eps ps init.
Proof.
  intros L T E eps init ps solver self B Hcf Hend Hprod.
  pose proof (built_built B) as F.
  apply one_candidate_no_left_recursion; auto.
  - apply (go_ok (po_grammar (bf_of F))).
  - intros p q a Hp Hq Hi H1 H2.
    destruct (transitions_get_productions (pr_transitions self) (p_input p) a) as [l|] eqn:Hl.
    + pose proof (Hcf _ _ _ Hl) as Hlen.
      pose proof (proj2 (bf_cells F _ _ Hl p) (conj Hp (conj eq_refl H1))) as Hin1.
      pose proof (proj2 (bf_cells F _ _ Hl q) (conj Hq (conj (eq_sym Hi) H2))) as Hin2.
      destruct l as [|x [|? ?]]; simpl in Hlen; [destruct Hin1| |lia].
      destruct Hin1 as [<-|[]]. now destruct Hin2 as [->|[]].
    + exfalso. apply (bf_none F) in Hl. apply Hl. split; [exists p; auto|].
      eapply selects_sem_terminal; eauto.
Qed.
Print Assumptions C57_conflict_free_not_left_recursive.

(** ... so every parse ends, with a solver that always advances or without one *)
Theorem C57_conflict_free_terminates :
  forall (L T : Type) (E : EqDec T) (eps init : T) (ps : list (production T))
         (solver : option (syntax_error_solver L T)) (self : parser L T)
         (tokens : list (token L T)),
    built_parser eps init ps solver self -> conflict_free (pr_transitions self) ->
    initial_ends_in_terminal eps ps init -> all_productive eps ps init -> progressing solver ->
    exists r, terminates_with (fun fuel => parse_from_tokens fuel self tokens) r.
Proof.
  intros L T E eps init ps solver self tokens B Hcf Hend Hprod Hs.
  apply (C19_parsing_terminates tokens B); auto.
  eapply C57_conflict_free_not_left_recursive; eauto.
Qed.
Print Assumptions C57_conflict_free_terminates.

(** ** the same for LL(1) grammars, whatever the table looks like *)
Theorem C57_ll1_terminates :
  forall (L T : Type) (E : EqDec T) (eps init : T) (ps : list (production T))
         (solver : option (syntax_error_solver L T)) (self : parser L T)
         (tokens : list (token L T)),
    built_parser eps init ps solver self -> ll1 eps ps init ->
    initial_ends_in_terminal eps ps init -> all_productive eps ps init -> progressing solver ->
    no_left_recursion_from eps ps init /\
    exists r, terminates_with (fun fuel => parse_from_tokens fuel self tokens) r.
Proof.
  intros L T E eps init ps solver self tokens B Hll Hend Hprod Hs.
  assert (Hno : no_left_recursion_from eps ps init).
  { apply ll1_no_left_recursion; auto. apply (go_ok (po_grammar (bf_of (built_built B)))). }
  split; auto. now apply (C19_parsing_terminates tokens B).
Qed.
Print Assumptions C57_ll1_terminates.

(** ** a case *)
Lemma expr_productive : all_productive Eps expr_productions Prog.
Proof.
  assert (Hf : forall x, fin expr_productions x).
  { assert (Ht : forall x, non_terminalb expr_productions x = false -> fin expr_productions x).
    { intros x Hx. apply fin_terminal. now apply non_terminalb_false. }
    assert (Hp : forall X out, In (Production X out) expr_productions ->
                               (forall y, In y out -> fin expr_productions y) -> fin expr_productions X).
    { intros X out Hin Hout. exact (fin_production (Production X out) Hin (fins_forall _ Hout)). }
    assert (HF : fin expr_productions Factor) by (apply Hp with [Id]; [simpl; tauto|intros y [<-|[]]; now apply Ht]).
    assert (HTT : fin expr_productions TermTail) by (apply Hp with [Eps]; [simpl; tauto|intros y [<-|[]]; now apply Ht]).
    assert (HET : fin expr_productions ExprTail) by (apply Hp with [Eps]; [simpl; tauto|intros y [<-|[]]; now apply Ht]).
    assert (HT : fin expr_productions Term) by (apply Hp with [Factor; TermTail]; [simpl; tauto|intros y [<-|[<-|[]]]; auto]).
    assert (HE : fin expr_productions Expr) by (apply Hp with [Term; ExprTail]; [simpl; tauto|intros y [<-|[<-|[]]]; auto]).
    assert (HP : fin expr_productions Prog) by (apply Hp with [Expr; Eof]; [simpl; tauto|intros y [<-|[<-|[]]]; auto]).
    intros []; auto; now apply Ht. }
  intros X _ _. exact (proj1 (fin_yield Eps expr_productions) X (Hf X)).
Qed.

Example C57_case :
  built_parser (L := nat) Eps Prog expr_productions None expr_parser /\
  conflict_free (pr_transitions expr_parser) /\
  initial_ends_in_terminal Eps expr_productions Prog /\ all_productive Eps expr_productions Prog /\
  ll1 Eps expr_productions Prog.
Proof.
  split; [exact expr_built|]. split; [exact expr_conflict_free|].
  split; [exact (eof_ends expr_eof)|]. split; [exact expr_productive|exact (proj1 C22_case)].
Qed.

(** ** neither condition can be dropped.
    Without a terminal at the end: 0 epsilon; S = 1 -> Z A; Z = 2 -> X b; X = 3 -> epsilon;
    A = 4 -> X A | epsilon; b = 5.  Nothing follows A, so its second production is in no
    cell; on [b b] the first is taken for ever. *)
Definition nomark_productions : list (production nat) :=
  [Production 1 [2; 4]; Production 2 [3; 5]; Production 3 [0]; Production 4 [3; 4]; Production 4 [0]].
Definition nomark_parser : parser nat nat := Eval vm_compute in
  get_done (no_parser 0) (build (L := nat) 0 1 nomark_productions None 100).

Lemma nomark_built : built_parser 0 1 nomark_productions None nomark_parser.
Proof. apply build_built with (fuel := 100). vm_compute. reflexivity. Qed.

Ltac derive_by u v p := eapply derives_trans;
  [exact (derives_step (derive1_production 0 nomark_productions u v p ltac:(simpl; tauto)))|simpl].

Lemma nomark_productive : all_productive 0 nomark_productions 1.
Proof.
  assert (H0 : forall u v, derives 0 nomark_productions (u ++ 0 :: v) (u ++ v)).
  { intros u v. apply derives_step. apply derive1_epsilon. }
  assert (H3 : derives 0 nomark_productions [3] []).
  { derive_by (@nil nat) (@nil nat) (Production 3 [0]). exact (H0 [] []). }
  assert (H4 : derives 0 nomark_productions [4] []).
  { derive_by (@nil nat) (@nil nat) (Production 4 [0]). exact (H0 [] []). }
  assert (H2 : derives 0 nomark_productions [2] [5]).
  { derive_by (@nil nat) (@nil nat) (Production 2 [3; 5]).
    exact (derives_app H3 (derives_refl _ _ [5])). }
  assert (H1 : derives 0 nomark_productions [1] [5]).
  { derive_by (@nil nat) (@nil nat) (Production 1 [2; 4]). exact (derives_app H2 H4). }
  assert (Hr : Forall (fun a => a <> 0 /\ ~ non_terminal nomark_productions a) [5]).
  { repeat constructor; [discriminate|]. now apply non_terminalb_false. }
  intros X (p & Hp & Hi) _. simpl in Hp.
  destruct Hp as [<-|[<-|[<-|[<-|[<-|[]]]]]]; simpl in Hi; subst X;
    [exists [5]|exists [5]|exists []|exists []|exists []]; split; auto.
Qed.

Lemma nomark_forever :
  choose_forever 0 nomark_productions [nt 5; nt 5] (candidates nomark_parser) 1 0
    (candidates nomark_parser 1 5).
Proof.
  assert (HX : forall p, choose 0 nomark_productions [nt 5; nt 5] (candidates nomark_parser) 3 p [[0]]
                           (Some (ni 3 [ni 0 []], p, []))).
  { intros p. apply choose_first. exact (sequence_epsilon (sequence_nil _ _ _ _ _)). }
  assert (HA : choose_forever 0 nomark_productions [nt 5; nt 5] (candidates nomark_parser) 4 1 [[3; 4]]).
  { cofix go. apply choose_forever_first.
    apply sequence_forever_non_terminal with (tok := nt 5);
      [apply non_terminalb_spec; reflexivity|reflexivity|].
    apply branch_forever_after with (n := ni 3 [ni 0 []]) (q := 1) (outs' := []); [exact (HX 1)|].
    apply sequence_forever_non_terminal with (tok := nt 5);
      [apply non_terminalb_spec; reflexivity|reflexivity|].
    apply branch_forever_here. exact go. }
  change (candidates nomark_parser 1 5) with [[2; 4]]. apply choose_forever_first.
  apply sequence_forever_non_terminal with (tok := nt 5);
    [apply non_terminalb_spec; reflexivity|reflexivity|].
  apply branch_forever_after with (n := ni 2 [ni 3 [ni 0 []]; nl 5]) (q := 1) (outs' := []).
  - change (candidates nomark_parser 2 (tok_type (nt 5))) with [[3; 5]]. apply choose_first.
    apply sequence_non_terminal with (tok := nt 5);
      [apply non_terminalb_spec; reflexivity|reflexivity|].
    apply branch_ok with (q := 0) (outs' := []); [exact (HX 0)|].
    apply (@sequence_token _ _ 0 nomark_productions [nt 5; nt 5] (candidates nomark_parser) [] 0 (nt 5) (Some ([], 1)));
      [now apply non_terminalb_false|discriminate|reflexivity|constructor].
  - apply sequence_forever_non_terminal with (tok := nt 5);
      [apply non_terminalb_spec; reflexivity|reflexivity|].
    apply branch_forever_here. exact HA.
Qed.

Theorem C57_end_marker_needed :
  exists (ps : list (production nat)) (self : parser nat nat) (tokens : list (token nat nat)),
    built_parser 0 1 ps None self /\ conflict_free (pr_transitions self) /\
    all_productive 0 ps 1 /\ diverges (fun fuel => parse_from_tokens fuel self tokens).
Proof.
  exists nomark_productions, nomark_parser, [nt 5; nt 5].
  split; [exact nomark_built|]. split; [apply conflict_free_check_ok; reflexivity|].
  split; [exact nomark_productive|].
  apply (C58_forever_diverges nomark_built). exact nomark_forever.
Qed.
Print Assumptions C57_end_marker_needed.

(** With an unproductive symbol: S = 1 -> X b A c; X = 3 -> epsilon; A = 4 -> X A; b = 5, c = 6. *)
Definition barren_productions : list (production nat) :=
  [Production 1 [3; 5; 4; 6]; Production 3 [0]; Production 4 [3; 4]].
Definition barren_parser : parser nat nat := Eval vm_compute in
  get_done (no_parser 0) (build (L := nat) 0 1 barren_productions None 100).

Lemma barren_built : built_parser 0 1 barren_productions None barren_parser.
Proof. apply build_built with (fuel := 100). vm_compute. reflexivity. Qed.

Lemma barren_forever :
  choose_forever 0 barren_productions [nt 5; nt 5] (candidates barren_parser) 1 0
    (candidates barren_parser 1 5).
Proof.
  assert (HX : forall p, choose 0 barren_productions [nt 5; nt 5] (candidates barren_parser) 3 p [[0]]
                           (Some (ni 3 [ni 0 []], p, []))).
  { intros p. apply choose_first. exact (sequence_epsilon (sequence_nil _ _ _ _ _)). }
  assert (HA : choose_forever 0 barren_productions [nt 5; nt 5] (candidates barren_parser) 4 1 [[3; 4]]).
  { cofix go. apply choose_forever_first.
    apply sequence_forever_non_terminal with (tok := nt 5);
      [apply non_terminalb_spec; reflexivity|reflexivity|].
    apply branch_forever_after with (n := ni 3 [ni 0 []]) (q := 1) (outs' := []); [exact (HX 1)|].
    apply sequence_forever_non_terminal with (tok := nt 5);
      [apply non_terminalb_spec; reflexivity|reflexivity|].
    apply branch_forever_here. exact go. }
  change (candidates barren_parser 1 5) with [[3; 5; 4; 6]]. apply choose_forever_first.
  apply sequence_forever_non_terminal with (tok := nt 5);
    [apply non_terminalb_spec; reflexivity|reflexivity|].
  apply branch_forever_after with (n := ni 3 [ni 0 []]) (q := 0) (outs' := []); [exact (HX 0)|].
  apply (@sequence_forever_token _ _ 0 barren_productions [nt 5; nt 5] (candidates barren_parser) [4; 6] 0 (nt 5));
    [now apply non_terminalb_false|discriminate|reflexivity|].
  apply sequence_forever_non_terminal with (tok := nt 5);
    [apply non_terminalb_spec; reflexivity|reflexivity|].
  apply branch_forever_here. exact HA.
Qed.

Theorem C57_productivity_needed :
  exists (ps : list (production nat)) (self : parser nat nat) (tokens : list (token nat nat)),
    built_parser 0 1 ps None self /\ conflict_free (pr_transitions self) /\
    initial_ends_in_terminal 0 ps 1 /\ diverges (fun fuel => parse_from_tokens fuel self tokens).
Proof.
  exists barren_productions, barren_parser, [nt 5; nt 5].
  split; [exact barren_built|]. split; [apply conflict_free_check_ok; reflexivity|]. split.
  - intros p [<-|[<-|[<-|[]]]] Hi; try discriminate. exists [3; 5; 4], 6.
    split; [reflexivity|]. split; [discriminate|]. now apply non_terminalb_false.
  - apply (C58_forever_diverges barren_built). exact barren_forever.
Qed.
Print Assumptions C57_productivity_needed.
