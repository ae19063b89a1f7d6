(** * An error report reaches the first offending token: C105 *)

From Verif Require Import BaseFacts GrammarFacts DerivFacts ParserSound ParserComplete ParserBuild ParserGuided.
From Verif Require Import FollowSpec ProductiveSpec CutFacts CoverFacts PrefixSpec ChoiceSpec RecoverSpec ParserRecover
  Examples ExampleTools MoreFacts PropParse PropReports PropPrefix PropRecover PropGuided SuppliedSpec PropAdequate PropSupplied SuppliedFacts FollowRepeat
  PropQuiet LastSpec PropLast LL1Check ExpectFacts ReachFacts.
From Verif Require Export ReachSpec.

Set Implicit Arguments.

(** the first [k] tokens are the beginning of a sentence, and no sentence goes on with the next one
    (or there is none, and no sentence ends here) *)
Definition first_offending {L T : Type} (eps init : T) (ps : list (production T)) (tokens : list (token L T)) (k : nat) : Prop :=
  k <= length tokens /\
  viable_prefix eps ps init (map (@tok_type L T) (firstn k tokens)) /\
  (k < length tokens -> ~ viable_prefix eps ps init (map (@tok_type L T) (firstn (S k) tokens))) /\
  (k = length tokens -> ~ sentence eps ps init (map (@tok_type L T) tokens)).

Lemma covering_reach :
  forall (L T : Type) (E : EqDec T) (eps init : T) (ps : list (production T))
         (self : parser L T) (tokens : list (token L T)) (fuel : nat) (f : failed_symbol L T) (h : list (solver_call L T)),
    constructed_parser eps init ps None self -> covering eps init ps (candidates self) ->
    prefix_free_symbols eps ps -> all_productive eps ps init ->
    initial_ends_in_terminal eps ps init -> non_terminal ps init ->
    parse_from_tokens fuel self tokens = Done (ResultErr f, h) ->
    exists k Y, named_at eps ps tokens f 0 Y k /\ expected eps init ps tokens k Y /\
      first_offending eps init ps tokens k /\
      (forall Z q, named_at eps ps tokens f 0 Z q -> q <= k /\ expected eps init ps tokens q Z).
Proof.
  intros L T E eps init ps self tokens fuel f h B Hcov Hpf Hprod Hend Hinit H.
  pose proof (constructed_built B) as F. pose proof (bf_of F) as P.
  pose proof (candidates_declared F) as Hc.
  assert (Heps : ~ non_terminal ps eps) by apply (eps_not_nt (po_grammar P)).
  assert (Hfx : forall ts : list (token L T), fixed_extents eps ps ts (candidates self))
    by (intros ts; apply prefix_free_fixed; auto).
  destruct tokens as [|tok rest].
  { pose proof (parse_terminates _ _ _ H ltac:(discriminate)) as [_ [n Hn]]. specialize (Hn n (le_n _)). discriminate Hn. }
  set (ts := tok :: rest) in *.
  pose proof (parse_terminates _ _ _ H ltac:(discriminate)) as Ht.
  apply (C59_exact_semantics tok rest (ResultErr f) h B) in Ht as (r & Hd & Hr).
  destruct r as [n q left|fs q|f']; simpl in Hr; inversion Hr; subst f'. clear Hr.
  assert (Hallowed : forall out, In out (candidates self init (tok_type tok)) -> In (Production init out) ps).
  { intros out Ho. destruct (Hc _ _ _ Ho) as ([X' o] & Hp & H1 & H2). simpl in *. now subst. }
  assert (Hty : failed_symbol_type f = init).
  { destruct (proj1 (@reach_run _ _ eps ps ts (candidates self) Hc Heps Hfx 0) _ _ _ _ _ _ _ Hd Hallowed) as [_ Hf].
    destruct (Hf _ eq_refl) as (fps & -> & _). reflexivity. }
  assert (H0 : expected eps init ps ts 0 (failed_symbol_type f)).
  { rewrite Hty. split; [lia|]. split; [constructor|]. exists []. apply derives_refl. }
  assert (Hexp : forall Z q, named_at eps ps ts f 0 Z q -> expected eps init ps ts q Z).
  { intros Z q Hn. exact (named_expected Hn H0). }
  assert (Hdec : forall K, far eps ps ts K f 0 \/
     forall ts', agree ts K ts' -> forall n q, ~ guided eps ps ts' (candidates self) init 0 n q).
  { intros K. destruct (proj1 (@reach_run _ _ eps ps ts (candidates self) Hc Heps Hfx K) _ _ _ _ _ _ _ Hd Hallowed) as [_ Hf].
    destruct (Hf _ eq_refl) as (fps & -> & Hor).
    exact (@symbol_failed _ _ eps ps ts (candidates self) Heps K init 0 tok fps Hinit eq_refl Hor). }
  (* the last position named *)
  assert (Hk : exists k, far eps ps ts k f 0 /\
     forall ts', agree ts (S k) ts' -> forall n q, ~ guided eps ps ts' (candidates self) init 0 n q).
  { assert (Hgo : forall n k, n + k = S (length ts) -> far eps ps ts k f 0 -> exists k, far eps ps ts k f 0 /\
     forall ts', agree ts (S k) ts' -> forall n q, ~ guided eps ps ts' (candidates self) init 0 n q).
    { induction n as [|n IH]; intros k Hk Hfar.
      - exfalso. destruct Hfar as (Z & r & Hn & Hr). destruct (Hexp _ _ Hn) as [Hl _]. lia.
      - destruct (Hdec (S k)) as [Hf|Hf]; [|now exists k]. apply (IH (S k)); auto. lia. }
    apply (Hgo (S (length ts)) 0); [lia|]. exists init, 0. split; [|lia]. rewrite <- Hty. apply itself. }
  destruct Hk as (k & (Y & r & Hn & Hr) & Hno).
  assert (Hviable : forall Z q, expected eps init ps ts q Z -> viable_prefix eps ps init (map (@tok_type L T) (firstn q ts))).
  { intros Z q (Hq & Hreal & v & Hv). destruct (fill _ _ Hprod Hv) as (w & Hw & Hrw). exists w. split.
    - apply Forall_app. split; auto. apply Forall_map. exact Hreal.
    - eapply derives_trans; [exact Hv|]. apply derives_app; [apply derives_refl|exact Hw]. }
  (* no sentence agrees on more *)
  assert (Hnone : forall ts', agree ts (S k) ts' -> Forall (fun t => real_terminal eps ps (tok_type t)) ts' ->
     ~ derives eps ps [init] (map (@tok_type L T) ts')).
  { intros ts' Ha Hreal Hder.
    destruct (derives_tree Hder Hreal) as [root Htr].
    eapply (Hno ts' Ha). eapply (root_guided P); eauto. exists []. now rewrite app_nil_r. }
  assert (Hwrong : k < length ts -> ~ viable_prefix eps ps init (map (@tok_type L T) (firstn (S k) ts))).
  { intros Hlt (u & Hreal & Hder). apply (Hnone (firstn (S k) ts ++ map (Token None) u)).
    - intros i Hi. assert (Hl : length (firstn (S k) ts) = S k) by (rewrite firstn_length; lia).
      rewrite nth_error_app1 by lia.
      rewrite <- (firstn_skipn (S k) ts) at 2. rewrite nth_error_app1 by lia. reflexivity.
    - apply Forall_app in Hreal as [H1 H2]. apply Forall_app. split.
      + exact (proj1 (Forall_map _ _ _) H1).
      + apply Forall_map. exact H2.
    - rewrite map_app, map_map. simpl. rewrite map_id. exact Hder. }
  assert (Hle : forall Z q, named_at eps ps ts f 0 Z q -> q <= k).
  { intros Z q Hz. pose proof (Hexp _ _ Hz) as He. destruct (Nat.lt_ge_cases k q) as [Hlt|]; auto. exfalso.
    destruct He as [Hq He]. apply (Hwrong ltac:(lia)). destruct (Hviable Z q (conj Hq He)) as (w & Hs).
    exists (map (@tok_type L T) (skipn (S k) (firstn q ts)) ++ w). rewrite app_assoc, <- map_app.
    replace (firstn (S k) ts) with (firstn (S k) (firstn q ts)) by (rewrite firstn_firstn; f_equal; lia).
    now rewrite firstn_skipn. }
  assert (r = k) by (specialize (Hle _ _ Hn); lia). subst r.
  exists k, Y. split; auto. split; [auto|]. split; [|intros Z q Hz; split; [eauto|auto]].
  destruct (Hexp _ _ Hn) as [Hkl He]. split; auto. split; [apply (Hviable Y); split; auto|]. split; auto.
  intros -> (Hreal & Hder). apply (Hnone ts); auto.
  - intros i _. reflexivity.
  - exact (proj1 (Forall_map _ _ _) Hreal).
Qed.

(** If no sentence of a symbol that stands before others continues another one (conflicts in the
    table are allowed), an error report names a symbol looked for at the first offending token, and
    nothing it names lies behind that token. *)
Theorem C105_reports_reach_the_offending_token :
  forall (L T : Type) (E : EqDec T) (eps init : T) (ps : list (production T))
         (self : parser L T) (tokens : list (token L T)) (fuel : nat) (f : failed_symbol L T) (h : list (solver_call L T)),
    built_parser eps init ps None self -> repeats_harmless eps ps init ->
    prefix_free_symbols eps ps -> all_productive eps ps init ->
    initial_ends_in_terminal eps ps init -> non_terminal ps init ->
    parse_from_tokens fuel self tokens = Done (ResultErr f, h) ->
    exists k Y, named_at eps ps tokens f 0 Y k /\ expected eps init ps tokens k Y /\
      first_offending eps init ps tokens k /\
      (forall Z q, named_at eps ps tokens f 0 Z q -> q <= k /\ expected eps init ps tokens q Z).
Proof.
  intros L T E eps init ps self tokens fuel f h B Hrep Hpf Hprod Hend Hinit H.
  exact (covering_reach _ _ (built_constructed B) (harmless_covering (built_built B) Hrep Hinit) Hpf Hprod Hend Hinit H).
Qed.
Print Assumptions C105_reports_reach_the_offending_token.

(** the same with supplied sets that hold at least the textbook's, without condition on repeats *)
Theorem C105_supplied_sets :
  forall (L T : Type) (E : EqDec T) (eps init : T) (ps : list (production T)) (ffs : first_follow_symbols T)
         (self : parser L T) (tokens : list (token L T)) (fuel : nat) (f : failed_symbol L T) (h : list (solver_call L T)),
    supplied_parser eps init ps ffs self -> at_least_textbook eps ps ffs init ->
    prefix_free_symbols eps ps -> all_productive eps ps init ->
    initial_ends_in_terminal eps ps init -> non_terminal ps init ->
    parse_from_tokens fuel self tokens = Done (ResultErr f, h) ->
    exists k Y, named_at eps ps tokens f 0 Y k /\ expected eps init ps tokens k Y /\
      first_offending eps init ps tokens k /\
      (forall Z q, named_at eps ps tokens f 0 Z q -> q <= k /\ expected eps init ps tokens q Z).
Proof.
  intros L T E eps init ps ffs self tokens fuel f h B Ht Hpf Hprod Hend Hinit H.
  exact (covering_reach _ _ (supplied_constructed B) (supplied_covering B Ht) Hpf Hprod Hend Hinit H).
Qed.
Print Assumptions C105_supplied_sets.

(** and with a solver that refuses every call of the parse *)
Theorem C105_refusing_solver :
  forall (L T : Type) (E : EqDec T) (eps init : T) (ps : list (production T)) (s : syntax_error_solver L T)
         (self : parser L T) (tokens : list (token L T)) (fuel : nat) (f : failed_symbol L T) (h : list (solver_call L T)),
    built_parser eps init ps (Some s) self -> repeats_harmless eps ps init ->
    prefix_free_symbols eps ps -> all_productive eps ps init ->
    initial_ends_in_terminal eps ps init -> non_terminal ps init ->
    parse_from_tokens fuel self tokens = Done (ResultErr f, h) -> declined (Some s) h ->
    exists k Y, named_at eps ps tokens f 0 Y k /\ expected eps init ps tokens k Y /\
      first_offending eps init ps tokens k /\
      (forall Z q, named_at eps ps tokens f 0 Z q -> q <= k /\ expected eps init ps tokens q Z).
Proof.
  intros L T E eps init ps s self tokens fuel f h B Hrep Hpf Hprod Hend Hinit H Hd.
  pose proof (built_with_solver None B) as B0.
  destruct (proj2 (@C30_declining_solver L T E eps init ps s self _ tokens B B0) _ _ _ H Hd) as [_ [n Hn]].
  exact (C105_reports_reach_the_offending_token _ _ B0 Hrep Hpf Hprod Hend Hinit (Hn n (le_n _))).
Qed.
Print Assumptions C105_refusing_solver.

(** Without the condition on extents this is false, even of LL(1) grammars whose nullable alternatives
    come last (which are parsed exactly, C69): a symbol that failed late can succeed on nothing, and
    what failed is forgotten. *)
Definition C105_full_statement : Prop :=
  forall (L T : Type) (E : EqDec T) (eps init : T) (ps : list (production T))
         (self : parser L T) (tokens : list (token L T)) (fuel : nat) (f : failed_symbol L T) (h : list (solver_call L T)),
    built_parser eps init ps None self -> repeats_harmless eps ps init ->
    ll1 eps ps init -> nullable_last eps ps -> all_productive eps ps init ->
    initial_ends_in_terminal eps ps init -> non_terminal ps init ->
    parse_from_tokens fuel self tokens = Done (ResultErr f, h) ->
    exists k Y, named_at eps ps tokens f 0 Y k /\ expected eps init ps tokens k Y /\
      first_offending eps init ps tokens k.

(** 0 epsilon; S = 1 -> A c $ | d X b $; A = 2 -> b e | X; X = 4 -> epsilon; b = 5, c = 6, d = 7, $ = 8,
    e = 9.  For [b c $] the report names only S and c at position 0; e is missing at position 1. *)
Definition forgotten : list (production nat) :=
  [Production 1 [2; 6; 8]; Production 1 [7; 4; 5; 8]; Production 2 [5; 9]; Production 2 [4]; Production 4 [0]].
Definition forgotten_parser : parser nat nat := Eval vm_compute in
  get_done (no_parser 0) (build (L := nat) 0 1 forgotten None 200).

Lemma forgotten_ll1 : ll1 0 forgotten 1.
Proof.
  destruct (cfg_new (insertion_order nat) 0 1 forgotten) as [g| |] eqn:Hg; try discriminate.
  assert (Hg2 := Hg). vm_compute in Hg. inversion Hg as [Hg'].
  destruct (ffs_from (insertion_order nat) 200 g) as [ffs| |] eqn:Hf;
    [|subst g; vm_compute in Hf; discriminate..].
  apply (ll1_check_ok _ _ _ Hg2 Hf).
  - apply no_repeated_neighbours_check. reflexivity.
  - apply non_terminalb_spec. reflexivity.
  - subst g. vm_compute in Hf. inversion Hf; subst ffs. vm_compute. reflexivity.
Qed.

(** on b, A reads b or nothing *)
Lemma forgotten_empty n w q : forest_for 0 forgotten [2] n w ->
  between (map (Token (@None nat)) [5; 6; 8]) 0 w q -> q = 0.
Proof.
  intros H Hb. inversion H as [|X Xs m ns w1 w2 Ht Hf]; subst. inversion Hf; subst. clear H Hf.
  rewrite app_nil_r in Hb. destruct Hb as [-> [z Hz]]. simpl in Hz.
  inversion Ht as [tok H1 H2 Hx|Hx|p children w' Hp Hf Hx]; subst.
  { elim H2. apply non_terminalb_spec. rewrite Hx. reflexivity. }
  simpl in Hp. decompose [or] Hp; subst; try discriminate Hx; try contradiction; clear Hp; simpl in Hf.
  - exfalso. inversion Hf as [|X Xs m ns u1 u2 Ht1 Hf2]; subst. inversion Hf2 as [|X Xs m2 ns2 u3 u4 Ht3 Hf4]; subst.
    inversion Hf4; subst.
    inversion Ht1 as [tok H1 H2 Hx1|Hx1|p1 c1 w1' Hp1 Hf1' Hx1]; subst.
    + inversion Ht3 as [tok3 H3 H4 Hx3|Hx3|p3 c3 w3' Hp3 Hf3' Hx3]; subst.
      * simpl in Hz. inversion Hz; subst. discriminate Hx3.
      * exfalso. simpl in Hp3. decompose [or] Hp3; subst; try discriminate Hx3; contradiction.
    + exfalso. simpl in Hp1. decompose [or] Hp1; subst; try discriminate Hx1; contradiction.
  - inversion Hf as [|X Xs m ns u1 u2 Ht1 Hf2]; subst. inversion Hf2; subst. rewrite app_nil_r in *.
    inversion Ht1 as [tok H1 H2 Hx1|Hx1|p1 c1 w1' Hp1 Hf1' Hx1]; subst.
    + elim H2. apply non_terminalb_spec. rewrite Hx1. reflexivity.
    + simpl in Hp1. decompose [or] Hp1; subst; try discriminate Hx1; try contradiction.
      simpl in Hf1'. inversion Hf1' as [|X Xs m ns u3 u4 Ht3 Hf4]; subst. inversion Hf4; subst. rewrite app_nil_r in *.
      inversion Ht3 as [tok3 H3 H4 Hx3|Hx3|p3 c3 w3' Hp3 Hf3' Hx3]; subst; auto.
      * congruence.
      * exfalso. simpl in Hp3. decompose [or] Hp3; subst; try discriminate Hx3; contradiction.
Qed.

Lemma forgotten_not_nullable w : existsb (fun x => negb (existsb (Nat.eqb x) [0; 2; 4])) w = true ->
  ~ nullable 0 forgotten w.
Proof.
  intros Hw H.
  apply nullable_check_ok with (N := fun x => existsb (Nat.eqb x) [0; 2; 4]) in H; [|reflexivity|].
  - apply existsb_exists in Hw as (x & Hin & Hx). rewrite forallb_forall in H. rewrite (H x Hin) in Hx. discriminate.
  - simpl. intros q Hq. decompose [or] Hq; subst; try reflexivity; try contradiction; discriminate.
Qed.

Lemma forgotten_last : nullable_last 0 forgotten.
Proof.
  intros before p after q Hps Hq Hi Hne.
  do 5 (destruct before as [|? before];
    [inversion Hps; subst p after; simpl in Hq; decompose [or] Hq; subst; try discriminate; try contradiction;
     apply forgotten_not_nullable; reflexivity|
     apply (f_equal (@tl _)) in Hps; cbn [tl forgotten app] in Hps]).
  destruct before; discriminate.
Qed.

Theorem C105_full_statement_refuted : ~ C105_full_statement.
Proof.
  intros H.
  assert (Hb : built_parser 0 1 forgotten None forgotten_parser) by (apply build_built with (fuel := 200); vm_compute; reflexivity).
  assert (Hp : PrefixSpec.productive 0 forgotten)
    by (apply productive_check_ok with (rank := fun x => match x with 1 => 3 | 2 => 2 | 4 => 1 | _ => 0 end); reflexivity).
  assert (He : initial_ends_in_terminal 0 forgotten 1).
  { intros p Hin Hi. simpl in Hin. decompose [or] Hin; subst; try discriminate; try contradiction.
    + exists [2; 6], 8. splits; try reflexivity; try discriminate. apply non_terminalb_false. reflexivity.
    + exists [7; 4; 5], 8. splits; try reflexivity; try discriminate. apply non_terminalb_false. reflexivity. }
  set (tokens := map (Token (@None nat)) [5; 6; 8]).
  destruct (H nat nat _ 0 1 forgotten forgotten_parser tokens 60
              (FailedSymbol [FailedProduction (FailedSymbol [] 6) [] [6; 8]] 1) []) as (k & Y & Hn & _ & _ & _ & Hw & _).
  - exact Hb.
  - apply no_repeated_neighbours_harmless, no_repeated_neighbours_check. reflexivity.
  - exact forgotten_ll1.
  - exact forgotten_last.
  - intros X HX _. destruct (Hp X HX) as (w & Hw & Hd). exists w. auto.
  - exact He.
  - apply non_terminalb_spec. reflexivity.
  - vm_compute. reflexivity.
  - assert (Hk : k = 0).
    { inversion Hn as [|fps X f parsed pending u v ns w p q Y' r Hin Hpr Hf Hbt Hn']; subst; auto.
      destruct Hin as [Hin|[]]. inversion Hin; subst. simpl in Hpr.
      assert (q = 0).
      { assert (Hu : u = [2]).
        { decompose [or] Hpr; try contradiction;
            match goal with Hx : _ = _ |- _ => inversion Hx as [Hout]; clear - Hout end;
            repeat (destruct u as [|? u]; simpl in *; [try discriminate; try (inversion Hout; reflexivity)|];
                    try (inversion Hout; subst; try reflexivity; match goal with Hx : _ = _ ++ 6 :: _ |- _ => clear Hout; rename Hx into Hout end)). 
          all: try (inversion Hout; subst; reflexivity).
          all: try discriminate. }
        subst u. eapply forgotten_empty; eauto. }
      subst q. inversion Hn' as [|? ? ? ? ? ? ? ? ? ? ? ? ? Hin2]; subst; auto. destruct Hin2. }
    subst k. apply Hw; [simpl; lia|]. exists [9; 6; 8]. split.
    + repeat constructor; try discriminate; apply non_terminalb_false; reflexivity.
    + eapply derives_trans.
      * apply (@derives_production _ 0 forgotten (Production 1 [2; 6; 8])). simpl. auto.
      * apply (@derives_ctx _ 0 forgotten [] [6; 8] [2] [5; 9]).
        apply (@derives_production _ 0 forgotten (Production 2 [5; 9])). simpl. auto.
Qed.
Print Assumptions C105_full_statement_refuted.

(** [a a $] for S -> A $, A -> a b | a c: both alternatives fail at position 1 *)
Example C105_case :
  let tokens := map (Token (@None nat)) [3; 3; 9] in
  let f := FailedSymbol [FailedProduction (FailedSymbol [FailedProduction (FailedSymbol [] 4) [ParsedOk (Node [] (Token None 3))] [];
             FailedProduction (FailedSymbol [] 5) [ParsedOk (Node [] (Token None 3))] []] 2) [] [9]] 1 in
  built_parser 0 1 pair_productions None (pair_parser None) /\ repeats_harmless 0 pair_productions 1 /\
  prefix_free_symbols 0 pair_productions /\ all_productive 0 pair_productions 1 /\
  initial_ends_in_terminal 0 pair_productions 1 /\ non_terminal pair_productions 1 /\
  ~ conflict_free (pr_transitions (pair_parser None)) /\
  parse_from_tokens 60 (pair_parser None) tokens = Done (ResultErr f, []) /\
  named_at 0 pair_productions tokens f 0 4 1 /\ named_at 0 pair_productions tokens f 0 5 1.
Proof.
  intros tokens f.
  assert (Hn : forall Y, In Y [4; 5] -> named_at 0 pair_productions tokens f 0 Y 1).
  { intros Y HY. assert (Hin : In (Production 2 ([3] ++ Y :: [])) pair_productions) by (simpl in HY; decompose [or] HY; subst; simpl; auto; contradiction).
    eapply (@named_inside _ _ 0 pair_productions tokens _ 1 _ [] [9] [] [9] [] [] 0 0); [left; reflexivity|simpl; auto|constructor| |].
    { split; [reflexivity|]. eexists. reflexivity. }
    eapply (@named_inside _ _ 0 pair_productions tokens _ 2 (FailedSymbol [] Y) [ParsedOk (Node [] (Token None 3))] [] [3] [] [Node [] (Token None 3)] [Token None 3] 0 1);
      [simpl in HY; decompose [or] HY; subst; simpl; auto; contradiction|exact Hin| | |constructor].
    - change [Token None 3] with ([Token (@None nat) 3] ++ []). constructor; [|constructor]. 
      apply (@tree_token _ _ 0 pair_productions (Token None 3)); [discriminate|apply non_terminalb_false; reflexivity].
    - split; [reflexivity|]. eexists. reflexivity. }
  splits.
  - apply pair_built.
  - apply no_repeated_neighbours_harmless, no_repeated_neighbours_check. reflexivity.
  - exact pair_prefix_free.
  - assert (Hp : PrefixSpec.productive 0 pair_productions)
      by (apply productive_check_ok with (rank := fun x => match x with 1 => 3 | 2 => 2 | _ => 0 end); reflexivity).
    intros X HX _. destruct (Hp X HX) as (w & Hw & Hd). exists w. auto.
  - intros p Hp Hi. simpl in Hp. decompose [or] Hp; subst; try discriminate; try contradiction.
    exists [2], 9. splits; try reflexivity; try discriminate. apply non_terminalb_false. reflexivity.
  - apply non_terminalb_spec. reflexivity.
  - intros H. specialize (H 2 3 [Production 2 [3; 4]; Production 2 [3; 5]] eq_refl). simpl in H. lia.
  - vm_compute. reflexivity.
  - apply Hn. simpl. auto.
  - apply Hn. simpl. auto.
Qed.
