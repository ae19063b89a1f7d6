(** * Whether a parse hangs can be found out by running it long enough: C90 *)

From Verif Require Import BaseFacts GrammarFacts DerivFacts.
From Verif Require Import ParserHang ParserHalt ParserDepth SessionSpec ChoiceSpec ParserBuild Examples PropParse PropReports PropDepth PropLast PropForever PropHang.

Set Implicit Arguments.

(** the length of the longest output of a production *)
Definition longest_output {T : Type} (ps : list (production T)) : nat :=
  list_max (map (fun p => length (p_output p)) ps).

Section Facts.
  Context {L T : Type} {E : EqDec T}.
  Variable eps init : T.
  Variable ps : list (production T).
  Variable solver : option (syntax_error_solver L T).
  Variable self : parser L T.
  Hypothesis B : constructed_parser eps init ps solver self.
  Variable tokens : list (token L T).

  Lemma cell_from_grammar X a out : In out (inner_get_token_productions self X a) ->
    exists p, In p ps /\ p_input p = X /\ p_output p = out.
  Proof.
    unfold inner_get_token_productions.
    destruct (transitions_get_productions (pr_transitions self) X a) as [l|] eqn:Hl; [|intros []].
    destruct (constructed_cells B _ _ Hl) as [keep ->]. intros H.
    apply in_map_iff in H as (p & <- & H). apply filter_In in H as [H _].
    unfold productions_of in H. apply filter_In in H as [H Hx]. apply eqb_iff in Hx. eauto.
  Qed.

  Lemma cell_size X a : length (inner_get_token_productions self X a) <= length ps.
  Proof.
    unfold inner_get_token_productions.
    destruct (transitions_get_productions (pr_transitions self) X a) as [l|] eqn:Hl; [|simpl; lia].
    destruct (constructed_cells B _ _ Hl) as [keep ->]. rewrite map_length.
    unfold productions_of. clear. induction ps as [|p m IH]; simpl; [lia|].
    destruct (eqb (p_input p) X); simpl; [destruct (keep p); simpl; lia|lia].
  Qed.

  Lemma cell_width X a out : In out (inner_get_token_productions self X a) ->
    length out <= longest_output ps.
  Proof.
    intros H. apply cell_from_grammar in H as (p & Hp & _ & <-).
    assert (Hm : Forall (fun k => k <= longest_output ps) (map (fun p => length (p_output p)) ps))
      by (apply list_max_le; unfold longest_output; lia).
    rewrite Forall_forall in Hm. apply Hm. apply in_map_iff. eauto.
  Qed.

  Notation rounds := ((length ps + 2) ^ longest_output ps).
  Notation depth := (2 * ((length ps + length (non_terminals ps)) * length tokens)).

  Lemma parse_rounds loops d : rounds <= loops ->
    parse_at_depth loops d self tokens = parse_at_depth rounds d self tokens.
  Proof.
    intros Hle.
    destruct (@halt_parse L T E self tokens (length ps) (longest_output ps) cell_size cell_width
                loops rounds d (le_n _)) as [H|H]; [|now rewrite H].
    rewrite H. symmetry.
    assert (Hm := fun X p prods single h => @more_loops L T E self tokens _ _ d Hle X p prods single h).
    revert H. unfold parse_at_depth. destruct tokens as [|tok rest]; [discriminate|].
    set (X := get_initial_symbol (pr_grammar self)). set (prods := inner_get_token_productions self X (tok_type tok)).
    destruct (Hm X 0 prods true []) as [Hx|Hx]; rewrite Hx; auto.
  Qed.

  Lemma parse_cut n : stateless solver -> non_terminal ps init ->
    refines (parse_from_tokens n self tokens) (parse_at_depth rounds depth self tokens).
  Proof.
    intros Hst Hi. pose proof (bf_solver (constructed_built B)) as Hs.
    set (ks := all_keys self tokens (non_terminals ps)).
    set (loops := n + rounds).
    destruct (@hang_parse L T E self tokens (T * nat * list (list T) * bool)
                (fun X p prods b => (X, p, prods, b))
                (map (fun k => (k, true)) ks ++ map (fun k => (k, false)) ks))
      with (loops := loops) (n := n) as [H|H]; auto.
    + intros X p prods b Hl.
      assert (Hin : In (X, p, prods) ks) by (apply legal_key; auto; now apply (nts_listed B)).
      apply in_or_app. destruct b; [left|right]; apply in_map_iff; eauto.
    + intros m X p prods single h X' p' prods' single' h' Hk. inversion Hk; subst.
      now apply same_stateless.
    + unfold loops. lia.
    + now apply (initial_nt B).
    + now left.
    + rewrite <- H. pose proof (keys_length B tokens) as Hk. fold ks in Hk.
      assert (Hlen : length (map (fun k => (k, true)) ks ++ map (fun k => (k, false)) ks) <= depth)
        by (rewrite app_length, !map_length; lia).
      destruct (@parse_deeper L T E self tokens loops _ depth Hlen) as [Hd|Hd]; [now left|].
      rewrite <- Hd, parse_rounds by (unfold loops; lia). apply refines_refl.
  Qed.

  Lemma parse_enough n : stateless solver ->
    refines (parse_from_tokens n self tokens) (parse_from_tokens (rounds + depth) self tokens).
  Proof.
    intros Hst. pose proof (bf_solver (constructed_built B)) as Hs.
    assert (Hpos : rounds <> 0) by (apply Nat.pow_nonzero; lia).
    destruct (is_non_terminal (pr_grammar self) (get_initial_symbol (pr_grammar self))) eqn:Hi.
    - assert (Hn : non_terminal ps init).
      { apply (is_non_terminal_spec (po_grammar (bf_of (constructed_built B)))) in Hi.
        unfold get_initial_symbol in Hi. now rewrite (go_init (po_grammar (bf_of (constructed_built B)))) in Hi. }
      destruct (parse_cut n Hst Hn) as [H|H]; [now left|]. rewrite <- H. apply depth_fuel_parse.
    - unfold parse_from_tokens. destruct tokens as [|tok rest]; [apply refines_refl|].
      set (X := get_initial_symbol (pr_grammar self)).
      destruct (inner_get_token_productions self X (tok_type tok)) as [|out outs] eqn:Hc.
      + apply refines_bind; [|intros [r h]; apply refines_refl].
        destruct n as [|n]; [left; reflexivity|].
        destruct (rounds + _) as [|k] eqn:Hk; [lia|]. right. reflexivity.
      + exfalso. destruct (@cell_from_grammar X (tok_type tok) out) as (p & Hp & HX & _); [rewrite Hc; now left|].
        assert (Hn : is_non_terminal (pr_grammar self) X = true)
          by (apply (is_non_terminal_spec (po_grammar (bf_of (constructed_built B)))); exists p; auto).
        unfold X in Hn. congruence.
  Qed.
End Facts.

(** ** C90: a parse that has not returned within an amount of fuel computed from the grammar
    and the number of tokens never returns. *)
Theorem C90_hanging_decided :
  forall (L T : Type) (E : EqDec T) (eps init : T) (ps : list (production T))
         (solver : option (syntax_error_solver L T)) (self : parser L T) (tokens : list (token L T)),
    constructed_parser eps init ps solver self -> stateless solver ->
    let enough := (length ps + 2) ^ longest_output ps +
                  2 * ((length ps + length (non_terminals ps)) * length tokens) in
    (diverges (fun fuel => parse_from_tokens fuel self tokens) <->
     parse_from_tokens enough self tokens = OutOfFuel) /\
    (forall r, terminates_with (fun fuel => parse_from_tokens fuel self tokens) r <->
               parse_from_tokens enough self tokens = r /\ r <> OutOfFuel).
Proof.
  intros L T E eps init ps solver self tokens B Hst enough.
  assert (H : forall n, refines (parse_from_tokens n self tokens) (parse_from_tokens enough self tokens))
    by (intros n; apply (parse_enough B tokens n Hst)).
  split.
  - split; [intros Hd; apply Hd|]. intros He n. destruct (H n) as [Hx|Hx]; congruence.
  - intros r. split.
    + intros [Hr [n Hn]]. specialize (Hn n (le_n _)). destruct (H n) as [Hx|Hx]; [congruence|].
      split; [congruence|auto].
    + intros [He Hr]. split; auto. exists enough. intros n Hle.
      apply parse_mono with (fuel := enough); auto.
Qed.
Print Assumptions C90_hanging_decided.

(** The same with the two bounds apart: cut off once calls are nested [depth] deep or a loop has
    gone round [rounds] times. *)
Theorem C90_hanging_cut_off :
  forall (L T : Type) (E : EqDec T) (eps init : T) (ps : list (production T))
         (solver : option (syntax_error_solver L T)) (self : parser L T) (tokens : list (token L T)),
    constructed_parser eps init ps solver self -> stateless solver -> non_terminal ps init ->
    let rounds := (length ps + 2) ^ longest_output ps in
    let depth := 2 * ((length ps + length (non_terminals ps)) * length tokens) in
    (diverges (fun fuel => parse_from_tokens fuel self tokens) <->
     parse_at_depth rounds depth self tokens = OutOfFuel) /\
    (forall r, terminates_with (fun fuel => parse_from_tokens fuel self tokens) r <->
               parse_at_depth rounds depth self tokens = r /\ r <> OutOfFuel).
Proof.
  intros L T E eps init ps solver self tokens B Hst Hi rounds depth.
  assert (H : forall n, refines (parse_from_tokens n self tokens) (parse_at_depth rounds depth self tokens))
    by (intros n; apply (parse_cut B tokens n Hst Hi)).
  pose proof (depth_fuel_parse self tokens rounds depth) as Hb.
  split.
  - split.
    + intros Hd. destruct Hb as [Hx|Hx]; [exact Hx|]. rewrite <- Hx. apply Hd.
    + intros He n. destruct (H n) as [Hx|Hx]; congruence.
  - intros r. split.
    + intros [Hr [n Hn]]. specialize (Hn n (le_n _)). destruct (H n) as [Hx|Hx]; [congruence|].
      split; [congruence|auto].
    + intros [He Hr]. eapply C55_depth_sound; eauto.
Qed.
Print Assumptions C90_hanging_cut_off.

(** so every such parse either returns (or panics) or hangs, and one can tell which *)
Theorem C90_ends_or_hangs :
  forall (L T : Type) (E : EqDec T) (eps init : T) (ps : list (production T))
         (solver : option (syntax_error_solver L T)) (self : parser L T) (tokens : list (token L T)),
    constructed_parser eps init ps solver self -> stateless solver ->
    {r | terminates_with (fun fuel => parse_from_tokens fuel self tokens) r} +
    {diverges (fun fuel => parse_from_tokens fuel self tokens)}.
Proof.
  intros L T E eps init ps solver self tokens B Hst.
  destruct (@C90_hanging_decided L T E eps init ps solver self tokens B Hst) as [Hd Ht].
  match type of Hd with _ <-> ?o = OutOfFuel => destruct o as [a|p|] eqn:Ho end.
  - left. exists (Done a). apply Ht. split; auto. discriminate.
  - left. exists (Panicked p). apply Ht. split; auto. discriminate.
  - right. now apply Hd.
Qed.
Print Assumptions C90_ends_or_hangs.

(** Whatever the solver, the attempt at one production goes through its loop at most
    (productions + 2) ^ (longest output) times: further rounds change nothing. *)
Theorem C90_rounds_of_a_production :
  forall (L T : Type) (E : EqDec T) (eps init : T) (ps : list (production T))
         (solver : option (syntax_error_solver L T)) (self : parser L T) (tokens : list (token L T))
         (loops depth : nat),
    constructed_parser eps init ps solver self ->
    (length ps + 2) ^ longest_output ps <= loops ->
    parse_at_depth loops depth self tokens =
    parse_at_depth ((length ps + 2) ^ longest_output ps) depth self tokens.
Proof.
  intros L T E eps init ps solver self tokens loops depth B. apply (parse_rounds B).
Qed.
Print Assumptions C90_rounds_of_a_production.

(** A solver that remembers leaves no such bound: for every amount of fuel some solver, all of
    whose fixes advance, makes the parse of the same three tokens return only later. *)
Theorem C90_remembering_solver_undecided :
  forall enough, exists (solver : syntax_error_solver nat nat) (self : parser nat nat) fs h,
    built_parser 0 1 patient_productions (Some solver) self /\
    progressing (Some solver) /\
    parse_from_tokens enough self patient_tokens = OutOfFuel /\
    terminates_with (fun fuel => parse_from_tokens fuel self patient_tokens) (Done (ResultFix fs, h)).
Proof.
  intros k. destruct (C87_remembering_solver_nests_deeper k) as (s & self & fs & h & B & Hp & Ht & Ho).
  exists s, self, fs, h. split; [exact B|]. split; [exact Hp|]. split; [|exact Ht].
  assert (H : forall n X p prods single h0,
    refines (inner_parse_from_tokens n self patient_tokens X p prods single h0)
            (inner_at_depth k n self patient_tokens X p prods single h0) \/ k < n).
  { induction n as [|n IH]; intros; [left; left; reflexivity|].
    destruct (Nat.lt_ge_cases k (S n)) as [Hlt|Hge]; [now right|]. left.
    simpl. apply inner_step_refines; [|lia]. intros Y q outs b h1. destruct (IH Y q outs b h1) as [Hx|Hx]; [exact Hx|lia]. }
  specialize (Ho k). unfold parse_from_tokens, parse_at_depth, patient_tokens in *.
  fold patient_tokens in *.
  match goal with |- context [inner_parse_from_tokens k self _ ?X ?p ?prods ?b ?h0] =>
    destruct (H k X p prods b h0) as [[Hx|Hx]|Hx]; [now rewrite Hx| |lia]; rewrite Hx in Ho; exact Ho end.
Qed.
Print Assumptions C90_remembering_solver_undecided.

(** The left-recursive grammar 1 -> b 2 c; 2 -> a | 2 a (a = 3, b = 4, c = 5, d = 6): on b a c
    the parse returns, on b a d it never does; both are settled by running it with fuel
    (3 + 2) ^ 3 + 2 * ((3 + 2) * 3) = 155. *)
Definition closing_productions : list (production nat) :=
  [Production 1 [4; 2; 5]; Production 2 [3]; Production 2 [2; 3]].
Definition closing_parser : parser nat nat :=
  get_done (no_parser 0) (build 0 1 closing_productions None 100).

Example C90_case :
  constructed_parser 0 1 closing_productions None closing_parser /\
  stateless (L := nat) (T := nat) None /\
  (length closing_productions + 2) ^ longest_output closing_productions +
    2 * ((length closing_productions + length (non_terminals closing_productions)) * 3) = 155 /\
  (exists root h, parse_from_tokens 155 closing_parser [nt 4; nt 3; nt 5] = Done (ResultOk root, h)) /\
  parse_from_tokens 155 closing_parser [nt 4; nt 3; nt 6] = OutOfFuel.
Proof.
  split; [|split; [|split; [|split]]].
  - apply built_constructed, build_built with (fuel := 100). reflexivity.
  - intros s h h' c H. discriminate.
  - reflexivity.
  - do 2 eexists. vm_compute. reflexivity.
  - vm_compute. reflexivity.
Qed.

Lemma C90_case_hangs : diverges (fun fuel => parse_from_tokens fuel closing_parser [nt 4; nt 3; nt 6]).
Proof.
  destruct C90_case as (B & Hst & _ & _ & Ho).
  destruct (@C90_hanging_decided _ _ _ _ _ _ _ _ [nt 4; nt 3; nt 6] B Hst) as [H _].
  apply H. exact Ho.
Qed.
