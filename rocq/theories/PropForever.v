(** * When a parse never ends: C58 *)

From Verif Require Import BaseFacts GrammarFacts DerivFacts FirstFacts FollowFacts TransitionsFacts.
From Verif Require Import ForeverFacts LoopFacts Examples PropParse PropReports.

Set Implicit Arguments.

(** ** C58: without solver, a parse never returns if ordered choice descends for ever ... *)
Theorem C58_forever_diverges :
  forall (L T : Type) (E : EqDec T) (eps init : T) (ps : list (production T))
         (self : parser L T) (tok : token L T) (rest : list (token L T)),
    constructed_parser eps init ps None self ->
    choose_forever eps ps (tok :: rest) (candidates self) init 0
                   (candidates self init (tok_type tok)) ->
    diverges (fun fuel => parse_from_tokens fuel self (tok :: rest)).
Proof.
  intros L T E eps init ps self tok rest B Hf fuel.
  destruct (C24_ordered_choice tok rest B) as (Hok & Herr & Hpast & Hall).
  pose proof (go_ok (po_grammar (bf_of (constructed_built B)))) as Hps.
  assert (Heps : ~ non_terminal ps eps) by (intros (p & Hp & Hi); apply Hps in Hp as (H & _); congruence).
  destruct (parse_from_tokens fuel self (tok :: rest)) as [x|q|] eqn:Hp; [| |reflexivity]; exfalso.
  - assert (Ht : terminates_with (fun fuel => parse_from_tokens fuel self (tok :: rest)) (Done x)).
    { split; [discriminate|]. exists fuel. intros n Hn. eapply parse_mono; eauto. discriminate. }
    destruct (Hall _ Ht) as [(root & Hx)|[(f & Hx)|Hx]]; [| |discriminate]; rewrite Hx in Ht.
    + apply Hok in Ht as (q & outs & Hc). exact (proj1 (choice_not_forever Heps _ _) _ _ _ _ Hc Hf).
    + assert (Hc := proj1 Herr (ex_intro _ f Ht)). exact (proj1 (choice_not_forever Heps _ _) _ _ _ _ Hc Hf).
  - assert (Ht : terminates_with (fun fuel => parse_from_tokens fuel self (tok :: rest)) (Panicked q)).
    { split; [discriminate|]. exists fuel. intros n Hn. eapply parse_mono; eauto. discriminate. }
    destruct (Hall _ Ht) as [(root & Hx)|[(f & Hx)|Hx]]; [discriminate..|]. rewrite Hx in Ht.
    apply Hpast in Ht. exact (proj1 (past_not_forever Heps _ _) _ _ _ Ht Hf).
Qed.
Print Assumptions C58_forever_diverges.

(** ** ... and only then.  Moreover it then loops: some derivation of a symbol is started
    again, at the same position and with the same candidates left, below itself. *)
Theorem C58_divergence_exact :
  forall (L T : Type) (E : EqDec T) (eps init : T) (ps : list (production T))
         (self : parser L T) (tok : token L T) (rest : list (token L T)),
    constructed_parser eps init ps None self ->
    (diverges (fun fuel => parse_from_tokens fuel self (tok :: rest)) <->
     choose_forever eps ps (tok :: rest) (candidates self) init 0
                    (candidates self init (tok_type tok))) /\
    (diverges (fun fuel => parse_from_tokens fuel self (tok :: rest)) <->
     loops eps ps (tok :: rest) (candidates self) (init, 0, candidates self init (tok_type tok))) /\
    (diverges (fun fuel => parse_from_tokens fuel self (tok :: rest)) \/
     exists r, terminates_with (fun fuel => parse_from_tokens fuel self (tok :: rest)) r).
Proof.
  intros L T E eps init ps self tok rest B.
  pose proof (@C58_forever_diverges L T E eps init ps self tok rest B) as Hd.
  destruct (C24_ordered_choice tok rest B) as (Hok & Herr & Hpast & Hall).
  assert (Hno : forall r, diverges (fun fuel => parse_from_tokens fuel self (tok :: rest)) ->
                ~ terminates_with (fun fuel => parse_from_tokens fuel self (tok :: rest)) r).
  { intros r Hdiv (Hr & n & Hn). apply Hr. now rewrite <- (Hn n (le_n _)). }
  pose proof (@loops_forever L T eps ps (tok :: rest) (candidates self) init 0
                (candidates self init (tok_type tok))) as Hlf.
  assert (Hcase : (exists r, terminates_with (fun fuel => parse_from_tokens fuel self (tok :: rest)) r) \/
    loops eps ps (tok :: rest) (candidates self) (init, 0, candidates self init (tok_type tok))).
  { destruct (ends_or_loops eps ps (tok :: rest) (candidates self) init 0
                (candidates self init (tok_type tok))) as [[[[[n q] outs]|] Hc]|[Hp|Hl]]; auto; left.
    - eexists. apply Hok. eauto.
    - destruct (proj2 Herr Hc) as [f Hf]. eauto.
    - eexists. apply Hpast. exact Hp. }
  assert (Hdl : diverges (fun fuel => parse_from_tokens fuel self (tok :: rest)) ->
    loops eps ps (tok :: rest) (candidates self) (init, 0, candidates self init (tok_type tok))).
  { intros Hdiv. destruct Hcase as [[r Hr]|Hl]; auto. elim (Hno r Hdiv Hr). }
  split; [split; auto|]. split; [split; auto|]. destruct Hcase; auto.
Qed.
Print Assumptions C58_divergence_exact.

(** ** a case: hidden left recursion.
    0 epsilon; S = 1 -> X S c | c; X = 2 -> epsilon | b; b = 3, c = 4; on [b]:
    X is fixed to epsilon for ever. *)
Definition hidden_productions : list (production nat) :=
  [Production 1 [2; 1; 4]; Production 1 [4]; Production 2 [0]; Production 2 [3]].
Definition hidden_parser : parser nat nat := Eval vm_compute in
  get_done (no_parser 0) (build (L := nat) 0 1 hidden_productions None 100).

Lemma hidden_built : built_parser 0 1 hidden_productions None hidden_parser.
Proof. apply build_built with (fuel := 100). vm_compute. reflexivity. Qed.

Lemma hidden_forever (tok : token nat nat) rest : tok_type tok = 3 ->
  choose_forever 0 hidden_productions (tok :: rest) (candidates hidden_parser) 1 0
    (candidates hidden_parser 1 3).
Proof.
  intros Ht. cofix go.
  change (candidates hidden_parser 1 3) with [[2; 1; 4]]. apply choose_forever_first.
  apply sequence_forever_non_terminal with (tok := tok);
    [apply non_terminalb_spec; reflexivity|reflexivity|]. rewrite Ht.
  apply branch_forever_after with (n := ni 2 [ni 0 []]) (q := 0) (outs' := [[3]]).
  - change (candidates hidden_parser 2 3) with [[0]; [3]].
    apply choose_first. exact (sequence_epsilon (sequence_nil _ _ _ _ _)).
  - apply sequence_forever_non_terminal with (tok := tok);
      [apply non_terminalb_spec; reflexivity|reflexivity|]. rewrite Ht.
    apply branch_forever_here. exact go.
Qed.

Example C58_case : forall rest,
  diverges (fun fuel => parse_from_tokens fuel hidden_parser (nt 3 :: rest)) /\
  calls 0 hidden_productions (nt 3 :: rest) (candidates hidden_parser)
    (1, 0, [[2; 1; 4]]) (1, 0, [[2; 1; 4]]).
Proof.
  intros rest. split; [apply (C58_forever_diverges hidden_built); now apply hidden_forever|].
  apply calls_first. apply sequence_calls_non_terminal with (tok := nt 3);
    [apply non_terminalb_spec; reflexivity|reflexivity|].
  apply branch_calls_after with (n := ni 2 [ni 0 []]) (q := 0) (outs' := [[3]]).
  - change (candidates hidden_parser 2 (tok_type (nt 3))) with [[0]; [3]].
    apply choose_first. exact (sequence_epsilon (sequence_nil _ _ _ _ _)).
  - apply sequence_calls_non_terminal with (tok := nt 3);
      [apply non_terminalb_spec; reflexivity|reflexivity|].
    exact (branch_calls_here _ _ _ _ _ _ _ _).
Qed.
