(** * What a parse with a conflict-free table does on every input: C94 *)

From Verif Require Import BaseFacts GrammarFacts DerivFacts ParserSound ParserComplete.
From Verif Require Import FollowSpec ProductiveSpec CutFacts CoverFacts PrefixSpec Examples ExampleTools MoreFacts PropParse PropReports PropPrefix
  PropLeftRec PropRecover.

Set Implicit Arguments.

(** for any table with the candidates needed, see [covering] *)
Lemma covering_cut_short :
  forall (L T : Type) (E : EqDec T) (eps init : T) (ps : list (production T))
         (solver : option (syntax_error_solver L T)) (self : parser L T) (tokens : list (token L T))
         (A : T) (v : list T),
    constructed_parser eps init ps solver self -> conflict_free (pr_transitions self) ->
    covering eps init ps (candidates self) -> non_terminal ps init -> tokens <> [] ->
    Forall (fun t => real_terminal eps ps (tok_type t)) tokens -> non_terminal ps A ->
    derives eps ps [init] (map (@tok_type L T) tokens ++ A :: v) ->
    terminates_with (fun fuel => parse_from_tokens fuel self tokens) (Panicked PanicTokenOutOfRange).
Proof.
  intros L T E eps init ps solver self tokens A v B' Hcf Hcov Hn Hne Hr HA Hd.
  pose proof (po_grammar (bf_of (constructed_built B'))) as G.
  assert (Heps : ~ non_terminal ps eps) by apply (eps_not_nt G).
  assert (Hone : forall A a out, In out (candidates self A a) -> candidates self A a = [out]).
  { intros A0 a out. unfold candidates.
    destruct (transitions_get_productions (pr_transitions self) A0 a) as [l|] eqn:Hl; [|intros []].
    pose proof (Hcf _ _ _ Hl). destruct l as [|x [|y l]]; simpl in *; [intros []| |lia]. intros [->|[]]. reflexivity. }
  destruct tokens as [|tok rest]; [contradiction|].
  apply (C60_panics_exact tok rest PanicTokenOutOfRange B'). left. split; auto.
  pose proof (derives_cut Hd _ eq_refl Hr HA) as Hc.
  pose proof (@cut_stops L T E eps init ps (tok :: rest) (candidates self) solver Hcov Hone _ _ Heps Hc [] [] 0
                (derives_refl eps ps [init]) eq_refl true []) as Hp.
  inversion Hp as [? X Xs p h HX Hnth|? ? Xs p h Hp'|? ? Xs p t h Hnt|? ? X Xs p t h HX Hnth Hb]; subst.
  - discriminate.
  - contradiction.
  - contradiction.
  - simpl in Hnth. inversion Hnth; subst t.
    inversion Hb as [? ? ? ? ? ? ? Hcp|? ? ? ? ? ? ? ? ? ? _ Hsp|? ? ? ? ? ? ? ? ? ? ? _ Hsp|? ? ? ? ? ? ? ? ? ? ? ? ? ? _ Hsn];
      subst; auto; [inversion Hsp|inversion Hsp|inversion Hsn].
Qed.

Lemma covering_every_outcome :
  forall (L T : Type) (E : EqDec T) (eps init : T) (ps : list (production T))
         (self : parser L T) (tokens : list (token L T)),
    constructed_parser eps init ps None self -> conflict_free (pr_transitions self) ->
    covering eps init ps (candidates self) -> initial_ends_in_terminal eps ps init ->
    no_left_recursion_from eps ps init ->
    non_terminal ps init -> tokens <> [] ->
    let sentence_first := fun root => exists w, prefix w tokens /\ tree_for eps ps init root w in
    let cut_short := Forall (fun t => real_terminal eps ps (tok_type t)) tokens /\
                     exists A v, non_terminal ps A /\ derives eps ps [init] (map (@tok_type L T) tokens ++ A :: v) in
    exists r, terminates_with (fun fuel => parse_from_tokens fuel self tokens) r /\
      (forall root, r = Done (ResultOk root, []) <-> sentence_first root) /\
      (r = Panicked PanicTokenOutOfRange <-> cut_short) /\
      ((exists f, r = Done (ResultErr f, [])) <-> (forall root, ~ sentence_first root) /\ ~ cut_short).
Proof.
  intros L T E eps init ps self tokens B' Hcf Hcov Hend Hlr Hn Hne sentence_first cut_short.
  destruct (C19_parsing_terminates tokens B' Hlr) as [r Hr]; [intros s h c Hs; discriminate|].
  assert (HOk : forall root, r = Done (ResultOk root, []) <-> sentence_first root).
  { intros root. split.
    - intros ->. destruct Hr as [_ [fuel H]].
      destruct (C14_parse_trees_valid _ _ B' (H fuel (le_n _))) as (_ & _ & w & Hw & Hp). exists w. auto.
    - intros (w & Hw & Ht). apply (terminates_unique Hr).
      exact (covering_exact B' Hcf Hcov Hend Hn Ht Hw). }
  assert (HPast : r = Panicked PanicTokenOutOfRange <-> cut_short).
  { split.
    - intros ->. destruct Hr as [_ [fuel H]].
      destruct (C48_out_of_range_is_truncated _ _ B' (fun s h c fr Hs => ltac:(discriminate Hs)) (H fuel (le_n _)))
        as (H1 & (A & v & HA & Hd) & _). split; eauto.
    - intros [Hreal (A & v & HA & Hd)]. apply (terminates_unique Hr).
      exact (covering_cut_short v B' Hcf Hcov Hn Hne Hreal HA Hd). }
  exists r. split; auto. split; auto. split; auto.
  destruct tokens as [|tok rest]; [contradiction|].
  destruct (C24_ordered_choice tok rest B') as (_ & _ & _ & C4).
  split.
  - intros [f ->]. split.
    + intros root H. apply HOk in H. discriminate.
    + intros H. apply HPast in H. discriminate.
  - intros [H1 H2]. destruct (C4 r Hr) as [[root ->]|[[f ->]| ->]].
    + elim (H1 root). now apply HOk.
    + now exists f.
    + elim H2. now apply HPast.
Qed.

(** An input cut short before a non-terminal makes parse_from_tokens index past its end, whatever
    the solver, which is not asked. *)
Theorem C94_cut_short_panics :
  forall (L T : Type) (E : EqDec T) (eps init : T) (ps : list (production T))
         (solver : option (syntax_error_solver L T)) (self : parser L T) (tokens : list (token L T))
         (A : T) (v : list T),
    built_parser eps init ps solver self -> conflict_free (pr_transitions self) ->
    repeats_harmless eps ps init -> non_terminal ps init -> tokens <> [] ->
    Forall (fun t => real_terminal eps ps (tok_type t)) tokens -> non_terminal ps A ->
    derives eps ps [init] (map (@tok_type L T) tokens ++ A :: v) ->
    terminates_with (fun fuel => parse_from_tokens fuel self tokens) (Panicked PanicTokenOutOfRange).
Proof.
  intros L T E eps init ps solver self tokens A v B Hcf Hrep Hn Hne Hr HA Hd.
  exact (covering_cut_short v (built_constructed B) Hcf (harmless_covering (built_built B) Hrep Hn) Hn Hne Hr HA Hd).
Qed.
Print Assumptions C94_cut_short_panics.

(** The outcome on every non-empty input, without solver *)
Theorem C94_every_outcome :
  forall (L T : Type) (E : EqDec T) (eps init : T) (ps : list (production T))
         (self : parser L T) (tokens : list (token L T)),
    built_parser eps init ps None self -> conflict_free (pr_transitions self) ->
    repeats_harmless eps ps init -> initial_ends_in_terminal eps ps init -> all_productive eps ps init ->
    non_terminal ps init -> tokens <> [] ->
    let sentence_first := fun root => exists w, prefix w tokens /\ tree_for eps ps init root w in
    let cut_short := Forall (fun t => real_terminal eps ps (tok_type t)) tokens /\
                     exists A v, non_terminal ps A /\ derives eps ps [init] (map (@tok_type L T) tokens ++ A :: v) in
    exists r, terminates_with (fun fuel => parse_from_tokens fuel self tokens) r /\
      (forall root, r = Done (ResultOk root, []) <-> sentence_first root) /\
      (r = Panicked PanicTokenOutOfRange <-> cut_short) /\
      ((exists f, r = Done (ResultErr f, [])) <-> (forall root, ~ sentence_first root) /\ ~ cut_short).
Proof.
  intros L T E eps init ps self tokens B Hcf Hrep Hend Hpr Hn Hne sentence_first cut_short.
  exact (covering_every_outcome (built_constructed B) Hcf (harmless_covering (built_built B) Hrep Hn) Hend
           (C57_conflict_free_not_left_recursive B Hcf Hend Hpr) Hn Hne).
Qed.
Print Assumptions C94_every_outcome.

(** "id +": cut short, and every outcome on it and two other inputs *)
Example C94_case :
  conflict_free (pr_transitions expr_parser) /\ repeats_harmless Eps expr_productions Prog /\
  initial_ends_in_terminal Eps expr_productions Prog /\ all_productive Eps expr_productions Prog /\
  parse_from_tokens 100 expr_parser [tk 1 Id; tk 2 Plus] = Panicked PanicTokenOutOfRange /\
  (exists root, parse_from_tokens 100 expr_parser [tk 1 Id; tk 2 Plus; tk 3 Id; tk 4 Eof; tk 5 Plus] = Done (ResultOk root, [])) /\
  (exists f, parse_from_tokens 100 expr_parser [tk 1 Id; tk 2 Plus; tk 3 Eof] = Done (ResultErr f, [])).
Proof.
  split; [exact expr_conflict_free|]. split; [exact expr_harmless|]. split; [exact expr_ends|].
  split; [exact PropLeftRec.expr_productive|].
  split; [vm_compute; reflexivity|]. split; eexists; vm_compute; reflexivity.
Qed.

(** the same with a solver that would answer anything: it is not asked *)
Example C94_solver_case :
  parse_from_tokens 100 (expr_parser_with (fun _ _ => ReplyPanics)) [tk 1 Id; tk 2 Plus] = Panicked PanicTokenOutOfRange.
Proof. vm_compute. reflexivity. Qed.
