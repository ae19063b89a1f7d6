(** * How large results are: C71, C72 *)

From Verif Require Import BaseFacts GrammarFacts DerivFacts.
From Verif Require Import SizeFacts Examples PropParse PropReports PropWork.

Set Implicit Arguments.

(** ** C71: the tree of a parse has linearly many nodes and linearly many levels *)
Theorem C71_tree_linear :
  forall (L T : Type) (E : EqDec T) (eps init : T) (ps : list (production T))
         (solver : option (syntax_error_solver L T)) (self : parser L T)
         (fuel : nat) (tokens : list (token L T)) (root : node L T) h,
    constructed_parser eps init ps solver self -> no_left_recursion_from eps ps init ->
    parse_from_tokens fuel self tokens = Done (ResultOk root, h) ->
    exists k,
      k <= length tokens /\ tree_for eps ps init root (firstn k tokens) /\
      node_count root <= nodes_per_token ps * Nat.max 1 k /\
      height root <= 1 + non_terminal_count ps * (k + 1).
Proof.
  intros L T E eps init ps solver self fuel tokens root h B Hno H.
  destruct (C14_parse_trees_valid _ _ B H) as (_ & Hi & w & Hw & rest & ->).
  exists (length w). split; [rewrite app_length; lia|].
  rewrite firstn_app, Nat.sub_diag, firstn_all, app_nil_r. split; auto.
  assert (HR : reachable_from eps ps init init) by (exists [], []; apply derives_refl).
  pose proof (on_path_nil eps Hi) as Hpath. split.
  - assert (Hne : forall p, In p ps -> p_output p <> []).
    { intros p Hp. destruct (go_ok (po_grammar (bf_of (constructed_built B))) _ Hp) as (_ & Ho & _). exact Ho. }
    pose proof (proj1 (tree_forest_count eps ps) _ _ _ Hw Hne) as Hc.
    pose proof (on_path_short Hpath) as Hn. simpl in Hn.
    assert (Hz : full_tree (longest_output ps) (nts ps) <= per_node ps).
    { unfold per_node. destruct (nts ps) as [|k]; [lia|].
      change (full_tree (longest_output ps) (S k)) with (1 + longest_output ps * full_tree (longest_output ps) k) at 1.
      apply Nat.add_le_mono_l, Nat.mul_le_mono_l, full_tree_mono. lia. }
    assert (Hin : inner_nodes root <= calls_per_token ps * Nat.max 1 (length w)).
    { assert (Hcp : 2 * nts ps * per_node ps <= calls_per_token ps).
      { unfold calls_per_token, per_node. fold (nts ps). apply Nat.mul_le_mono_l. lia. }
      destruct (Nat.eq_dec (length w) 0) as [H0|H0].
      - destruct w; [|discriminate]. simpl Nat.max. rewrite Nat.mul_1_r.
        pose proof (proj1 (empty_tree_size (L := L) Hno) _ _ _ Hw eq_refl HR [] Hpath) as Hs.
        simpl length in Hs. rewrite Nat.sub_0_r in Hs.
        assert (1 * per_node ps <= 2 * nts ps * per_node ps) by (apply Nat.mul_le_mono_r; lia). lia.
      - pose proof (proj1 (tree_size (L := L) Hno) _ _ _ Hw ltac:(destruct w; [now elim H0|discriminate]) HR [] Hpath) as Hs.
        simpl length in Hs. rewrite Nat.sub_0_r in Hs. replace (Nat.max 1 (length w)) with (length w) by lia.
        etransitivity; [exact Hs|]. etransitivity; [|apply Nat.mul_le_mono_r; exact Hcp].
        replace (2 * nts ps * per_node ps * length w) with (per_node ps * (2 * length w * nts ps)) by lia.
        apply Nat.mul_le_mono_l.
        assert (Hq : (1 + (2 * length w - 2)) * nts ps <= 2 * length w * nts ps) by (apply Nat.mul_le_mono_r; lia).
        rewrite Nat.mul_add_distr_r in Hq. lia. }
    unfold nodes_per_token. rewrite Nat.mul_add_distr_r, <- Nat.mul_assoc.
    apply (Nat.mul_le_mono_l _ _ (longest_output ps)) in Hin. lia.
  - destruct (proj1 (tree_height (L := L) Hno) _ _ _ Hw HR) as [Hh _].
    specialize (Hh Hi _ Hpath). simpl length in Hh. unfold nts in Hh. unfold non_terminal_count. lia.
Qed.
Print Assumptions C71_tree_linear.

(** a case, with a tree of 30 nodes on 10 levels *)
Example C71_case :
  built_parser (L := nat) Eps Prog expr_productions None expr_parser /\
  no_left_recursion_from Eps expr_productions Prog /\
  parse_from_tokens 100 expr_parser expr_tokens = Done (ResultOk expr_tree, []) /\
  length expr_tokens = 8 /\ node_count expr_tree = 30 /\ height expr_tree = 10.
Proof.
  split; [exact expr_built|].
  split; [exact (no_left_recursion_anywhere (init := Prog) expr_no_left_recursion)|].
  split; [exact expr_parses|]. vm_compute. repeat split.
Qed.

(** ** C72: an error report has as many levels as the recursion at most, and branches
    no more than the fullest cell of the table *)
Theorem C72_report_size :
  forall (L T : Type) (E : EqDec T) (eps init : T) (ps : list (production T))
         (solver : option (syntax_error_solver L T)) (self : parser L T)
         (fuel : nat) (tokens : list (token L T)) report h K,
    constructed_parser eps init ps solver self -> no_left_recursion_from eps ps init ->
    progressing solver ->
    (forall A a l, transitions_get_productions (pr_transitions self) A a = Some l -> length l <= K) ->
    parse_from_tokens fuel self tokens = Done (ResultErr report, h) ->
    failure_depth report <= 1 + non_terminal_count ps * length tokens /\
    failure_count report <= full_tree K (1 + non_terminal_count ps * length tokens).
Proof.
  intros L T E eps init ps solver self fuel tokens report h K B Hno Hs HK H.
  pose proof (constructed_built B) as F.
  assert (Hpr : progress_solver self).
  { unfold progress_solver. rewrite (bf_solver F). exact Hs. }
  assert (HK' : forall A a, length (inner_get_token_productions self A a) <= K).
  { intros A a. unfold inner_get_token_productions.
    destruct (transitions_get_productions (pr_transitions self) A a) as [l|] eqn:Hl; [|simpl; lia].
    rewrite map_length. eauto. }
  apply parse_run in H as (tok & rest & r & Ht & Hres & Hrun).
  unfold get_initial_symbol in Hrun. rewrite (go_init (po_grammar (bf_of F))) in Hrun.
  destruct r as [st|f|fs]; inversion Hres; subst f.
  set (d := non_terminal_count ps * length tokens).
  assert (Hn : narrow K (S d) report).
  { destruct (non_terminal_dec ps init) as [Hi|Hi].
    - apply (proj1 (report_narrow (bf_of F) tokens Hpr Hno HK') _ _ _ _ _ _ _ Hrun); auto.
      + exists []. split; [exists [], []; apply derives_refl|]. split; [now apply on_path_nil|].
        rewrite Nat.sub_0_r, Nat.add_0_r. unfold d, nts, non_terminal_count. apply Nat.eq_le_incl, Nat.mul_comm.
      + rewrite Ht. simpl. lia.
      + apply (token_productions_good (bf_of F)).
    - assert (Hnil : inner_get_token_productions self init (tok_type tok) = []).
      { pose proof (token_productions_good (bf_of F) init (tok_type tok)) as [Hg _].
        destruct (inner_get_token_productions self init (tok_type tok)) as [|o l]; auto.
        elim Hi. destruct (Hg o (or_introl eq_refl)) as (p & Hp & Hpi & _). exists p; auto. }
      rewrite Hnil in Hrun. inversion Hrun; subst.
      + match goal with Hx : RTry _ _ _ _ _ [] _ _ _ _ |- _ => inversion Hx end.
      + match goal with Hx : RTry _ _ _ _ _ [] _ _ _ _ |- _ => inversion Hx; subst end.
        destruct fo; [discriminate|].
        match goal with Hx : _ = SymErr report |- _ => simpl in Hx; inversion Hx; subst report end.
        simpl. split; [lia|constructor]. }
  destruct (narrow_count _ _ _ Hn). auto.
Qed.
Print Assumptions C72_report_size.

(** so it is linear on a conflict-free table: one chain of failures *)
Lemma full_tree_one n : full_tree 1 n = n.
Proof. induction n as [|n IH]; simpl; [reflexivity|]. now rewrite IH, Nat.add_0_r. Qed.

Theorem C72_conflict_free_linear :
  forall (L T : Type) (E : EqDec T) (eps init : T) (ps : list (production T))
         (solver : option (syntax_error_solver L T)) (self : parser L T)
         (fuel : nat) (tokens : list (token L T)) report h,
    constructed_parser eps init ps solver self -> no_left_recursion_from eps ps init ->
    progressing solver -> conflict_free (pr_transitions self) ->
    parse_from_tokens fuel self tokens = Done (ResultErr report, h) ->
    failure_count report <= 1 + non_terminal_count ps * length tokens.
Proof.
  intros L T E eps init ps solver self fuel tokens report h B Hno Hs Hcf H.
  destruct (C72_report_size _ _ B Hno Hs Hcf H) as [_ Hc]. now rewrite full_tree_one in Hc.
Qed.
Print Assumptions C72_conflict_free_linear.

(** ** with two candidates the report can be exponential: the grammar of
    [C56_backtracking_exponential] on a^k b *)
Definition bad_tokens (k : nat) : list (token nat nat) := repeat (nt 2) k ++ [nt 3].

Fixpoint bad_report (k : nat) : failed_symbol nat nat :=
  match k with
  | O => FailedSymbol [] 1
  | S k' =>
      FailedSymbol [FailedProduction (bad_report k') [ParsedOk (Node [] (nt 2))] [3];
                    FailedProduction (bad_report k') [ParsedOk (Node [] (nt 2))] [4]] 1
  end.

Lemma bad_report_count k : failure_count (bad_report k) = 2 ^ S k - 1.
Proof.
  induction k as [|k IH]; [reflexivity|]. cbn [bad_report failure_count map list_sum fold_right].
  rewrite IH. pose proof (Nat.pow_nonzero 2 (S k)). rewrite (Nat.pow_succ_r' 2 (S k)). lia.
Qed.

Lemma bad_nth_a k p : p < k -> nth_error (bad_tokens k) p = Some (nt 2).
Proof.
  intros H. unfold bad_tokens. rewrite nth_error_app1 by (rewrite repeat_length; lia).
  now apply nth_error_repeat.
Qed.

Lemma bad_nth_b k : nth_error (bad_tokens k) k = Some (nt 3).
Proof.
  unfold bad_tokens. rewrite nth_error_app2, repeat_length, Nat.sub_diag
    by (rewrite repeat_length; lia). reflexivity.
Qed.

Lemma bad_inner k m : forall p tok single h, p + m = k -> nth_error (bad_tokens k) p = Some tok ->
  exists n, inner_parse_from_tokens n slow_parser (bad_tokens k) 1 p
              (inner_get_token_productions slow_parser 1 (tok_type tok)) single h
            = Done (SymErr (bad_report m), h).
Proof.
  induction m as [|m IH]; intros p tok single h Hp Ht.
  - assert (p = k) by lia. subst p. rewrite bad_nth_b in Ht. inversion Ht; subst tok.
    exists 1. reflexivity.
  - rewrite bad_nth_a in Ht by lia. inversion Ht; subst tok.
    assert (Hex : exists tok, nth_error (bad_tokens k) (S p) = Some tok).
    { destruct (nth_error (bad_tokens k) (S p)) eqn:Hn; eauto. apply nth_error_None in Hn.
      unfold bad_tokens in Hn. rewrite app_length, repeat_length in Hn. simpl in Hn. lia. }
    destruct Hex as [tok Htok].
    destruct (IH (S p) tok (is_child_single_path single [[2; 1; 3]; [2; 1; 4]]) h ltac:(lia) Htok) as [n Hn].
    exists (S (S (S n))). change (inner_get_token_productions slow_parser 1 (tok_type (nt 2)))
      with [[2; 1; 3]; [2; 1; 4]].
    assert (Hn2 : inner_parse_from_tokens (S (S n)) slow_parser (bad_tokens k) 1 (S p)
                    (inner_get_token_productions slow_parser 1 (tok_type tok))
                    (is_child_single_path single [[2; 1; 3]; [2; 1; 4]]) h = Done (SymErr (bad_report m), h)).
    { destruct (@inner_refines nat nat _ slow_parser (bad_tokens k) n (S (S n)) 1 (S p)
                  (inner_get_token_productions slow_parser 1 (tok_type tok))
                  (is_child_single_path single [[2; 1; 3]; [2; 1; 4]]) h ltac:(lia)); congruence. }
    assert (Hprod : forall x, x = 3 \/ x = 4 ->
      inner_parse_from_tokens_production slow_parser (bad_tokens k)
        (inner_parse_from_tokens (S (S n)) slow_parser (bad_tokens k)) (S (S n)) 1 [2; 1; x]
        (is_child_single_path single [[2; 1; 3]; [2; 1; 4]]) [] p h =
      Done (ProdErr (FailedProduction (bad_report m) [ParsedOk (Node [] (nt 2))] [x]), p + 1, h)).
    { intros x Hx.
      set (rec := inner_parse_from_tokens (S (S n)) slow_parser (bad_tokens k)) in *.
      cbn [inner_parse_from_tokens_production length nth_error unwrap bind Nat.ltb Nat.leb].
      unfold inner_parse_from_tokens_production_symbol at 1.
      change (is_non_terminal (pr_grammar slow_parser) 2) with false. cbn iota. cbn [bind].
      unfold inner_parse_terminal_symbol. change (eqb (get_epsilon_symbol (pr_grammar slow_parser)) 2) with false.
      cbn iota. unfold inner_parse_non_epsilon_terminal_symbol at 1. rewrite bad_nth_a by lia.
      change (eqb 2 (tok_type (nt 2))) with true. cbn iota.
      cbn [inner_parse_from_tokens_production length nth_error unwrap bind Nat.ltb Nat.leb
           ps_final_token_position].
      unfold inner_parse_from_tokens_production_symbol at 1, inner_parse_from_tokens_production_non_terminal.
      change (is_non_terminal (pr_grammar slow_parser) 1) with true. cbn iota.
      replace (p + 1) with (S p) by lia. rewrite Htok, Hn2. reflexivity. }
    set (m2 := S (S n)) in *.
    cbn [inner_parse_from_tokens]. unfold inner_parse_from_tokens_step, inner_parse_from_tokens_try_parse_productions.
    cbn [try_parse_productions_loop].
    rewrite (Hprod 3 (or_introl eq_refl)). cbn [bind]. rewrite (Hprod 4 (or_intror eq_refl)). reflexivity.
Qed.

Theorem C72_report_exponential :
  built_parser 0 1 slow_productions None slow_parser /\
  no_left_recursion 0 slow_productions /\
  forall k, exists report,
    length (bad_tokens k) = k + 1 /\
    terminates_with (fun fuel => parse_from_tokens fuel slow_parser (bad_tokens k))
                    (Done (ResultErr report, [])) /\
    failure_count report = 2 ^ (k + 1) - 1.
Proof.
  split; [exact slow_built|]. split; [exact slow_no_left_recursion|]. intros k.
  exists (bad_report k). split; [unfold bad_tokens; rewrite app_length, repeat_length; reflexivity|].
  split; [|rewrite Nat.add_1_r; apply bad_report_count].
  assert (Hex : exists tok, nth_error (bad_tokens k) 0 = Some tok).
  { destruct (nth_error (bad_tokens k) 0) eqn:Hn; eauto. apply nth_error_None in Hn.
    unfold bad_tokens in Hn. rewrite app_length, repeat_length in Hn. simpl in Hn. lia. }
  destruct Hex as [tok Htok].
  destruct (@bad_inner k k 0 tok true [] eq_refl Htok) as [n Hn].
  assert (Hp : parse_from_tokens n slow_parser (bad_tokens k) = Done (ResultErr (bad_report k), [])).
  { unfold parse_from_tokens. destruct (bad_tokens k) as [|t rest]; [discriminate|].
    inversion Htok; subst t. change (get_initial_symbol (pr_grammar slow_parser)) with 1. rewrite Hn. reflexivity. }
  split; [discriminate|]. exists n. intros fuel Hf.
  destruct (parse_refines slow_parser (bad_tokens k) Hf) as [Hr|Hr]; congruence.
Qed.
Print Assumptions C72_report_exponential.

(** a case of [C72_report_size]: 7 failed symbols on 3 levels, cells of 2 candidates *)
Example C72_case :
  (exists report, parse_from_tokens 50 slow_parser (bad_tokens 2) = Done (ResultErr report, []) /\
     failure_count report = 7 /\ failure_depth report = 3) /\
  (forall A a l, transitions_get_productions (pr_transitions slow_parser) A a = Some l -> length l <= 2).
Proof.
  split; [eexists; split; [vm_compute; reflexivity|split; reflexivity]|].
  intros A a l H. unfold transitions_get_productions in H.
  change (t_table (pr_transitions slow_parser)) with (t_table slow_cells) in H. unfold slow_cells in H. simpl in H.
  repeat match type of H with
         | context [match (match ?x with _ => _ end) with _ => _ end] => destruct x; simpl in H
         | match ?x with _ => _ end = Some _ => destruct x; simpl in H
         end; inversion H; subst; simpl; lia.
Qed.
