(** * What an accepted parse depends on (C76), replacing a part of the input (C77) *)

From Verif Require Import BaseFacts GrammarFacts DerivFacts ParserSound ParserSim ParserBuild.
From Verif Require Import LocalFacts PropGrammar PropParse PropReports PropStart PropGuided Examples.
From Verif Require Export StartSpec FollowSpec.

Set Implicit Arguments.

(** ** C76: one token of lookahead *)
Lemma tree_tokens_of {L T : Type} {E : EqDec T} (eps : T) (ps : list (production T)) :
  productions_ok eps ps ->
  (forall X (n : node L T) w, tree_for eps ps X n w -> tokens_of eps n = length w) /\
  (forall Xs (ns : list (node L T)) w, forest_for eps ps Xs ns w ->
     list_sum (map (tokens_of eps) ns) = length w /\ length ns = length Xs).
Proof.
  intros Hok. apply tree_forest_ind.
  - intros tok Hne Hn. simpl. destruct (eq_dec (tok_type tok) eps); [contradiction|reflexivity].
  - simpl. destruct (eq_dec eps eps); [reflexivity|contradiction].
  - intros p children w Hp _ [Hs Hl]. rewrite <- Hs. destruct children; auto. exfalso.
    destruct (Hok p Hp) as (_ & Hne & _). apply Hne. destruct (p_output p); auto. discriminate.
  - split; reflexivity.
  - intros X Xs n ns w ws _ Hn _ [Hs Hl]. simpl. rewrite app_length, Hn, Hs, Hl. auto.
Qed.

Theorem C76_one_token_of_lookahead :
  forall (L T : Type) (E : EqDec T) (eps init : T) (ps : list (production T))
         (solver : option (syntax_error_solver L T)) (self : parser L T)
         (fuel : nat) (tokens : list (token L T)) (root : node L T) (h : list (solver_call L T)),
    built_parser eps init ps solver self -> conflict_free (pr_transitions self) ->
    parse_from_tokens fuel self tokens = Done (ResultOk root, h) ->
    exists k,
      (* the tree covers the first k tokens *)
      k <= length tokens /\ tree_for eps ps init root (firstn k tokens) /\
      (* whatever comes after the token that follows them *)
      (forall more, terminates_with (fun fuel => parse_from_tokens fuel self (firstn (k + 1) tokens ++ more))
                                    (Done (ResultOk root, []))) /\
      (* and with an end marker whatever comes after them *)
      (initial_ends_in_terminal eps ps init ->
       forall more, terminates_with (fun fuel => parse_from_tokens fuel self (firstn k tokens ++ more))
                                    (Done (ResultOk root, []))).
Proof.
  intros L T E eps init ps solver self fuel tokens root h B Hcf H.
  destruct (C14_parse_trees_valid _ _ (built_constructed B) H) as (_ & Hn & w & Hw & rest & Hrest).
  assert (Hok : productions_ok eps ps).
  { apply built_inv in B as (ho1 & ho2 & fuel' & g & ffs & Hg & _). apply cfg_new_grammar_of in Hg as G. apply (go_ok G). }
  pose proof (proj1 (tree_tokens_of (L := L) Hok) _ _ _ Hw) as Hlen.
  assert (Hfw : firstn (length w) tokens = w).
  { subst tokens. rewrite firstn_app, Nat.sub_diag, firstn_all. simpl. apply app_nil_r. }
  exists (length w). split; [subst tokens; rewrite app_length; lia|]. rewrite Hfw. split; auto.
  pose proof (built_with_solver None B) as B0.
  pose proof (@cf_solvers L T E eps init ps solver None self _ tokens root fuel h B B0 Hcf H) as Hok0.
  set (self0 := with_solver self None) in *.
  destruct tokens as [|tok rest0]; [destruct fuel; discriminate|].
  apply (C24_ordered_choice tok rest0 B0) in Hok0 as (q & outs & Hch).
  assert (Hone : forall A a, length (candidates self0 A a) <= 1).
  { intros A a. unfold self0, candidates, inner_get_token_productions. simpl.
    destruct (transitions_get_productions (pr_transitions self) A a) as [l|] eqn:Hl; simpl; auto.
    rewrite map_length. eauto. }
  pose proof (constructed_built B0) as F.
  assert (Hne : forall A a out, In out (candidates self0 A a) -> out <> []).
  { intros A a out Hin. apply (candidates_declared F) in Hin as (p & Hpp & _ & <-). apply (Hok p Hpp). }
  destruct (proj1 (@parts_all L T E eps ps (tok :: rest0) (candidates self0) (ok_eps_not_nt Hok) Hne)
              _ _ _ _ Hch (proj2 (Forall_forall _ _) (Hne _ _)) _ _ _ eq_refl) as (Hq & _).
  simpl in Hq. rewrite Hlen in Hq. subst q.
  assert (Hrun : forall tokens', (exists rest', tokens' = tok :: rest') ->
     choose eps ps tokens' (candidates self0) init 0 (candidates self0 init (tok_type tok)) (Some (root, length w, outs)) ->
     terminates_with (fun fuel => parse_from_tokens fuel self tokens') (Done (ResultOk root, []))).
  { intros tokens' [rest' ->] Hc.
    destruct (proj2 (proj1 (C24_ordered_choice tok rest' B0) root)) as [_ [m Hm]]; [eauto|].
    apply (@cf_solvers L T E eps init ps None solver self0 self (tok :: rest') root m []); auto. }
  assert (Hag : forall j more, agree_below (tok :: rest0) (firstn j (tok :: rest0) ++ more) j).
  { intros j more i t Hi Ht. assert (Hil : i < length (tok :: rest0)) by (apply nth_error_Some; congruence).
    rewrite nth_error_app1 by (rewrite firstn_length; lia).
    rewrite <- Ht. rewrite <- (firstn_skipn j (tok :: rest0)) at 2.
    rewrite nth_error_app1 by (rewrite firstn_length; lia). reflexivity. }
  split.
  - intros more. apply Hrun; [rewrite Nat.add_1_r; simpl; eauto|].
    destruct (proj1 (@local_all L T eps ps (tok :: rest0) (firstn (length w + 1) (tok :: rest0) ++ more) (candidates self0) Hone)
                _ _ _ _ Hch (Hone _ _) _ _ _ eq_refl) as (_ & H1 & _).
    apply H1. rewrite Nat.add_1_r. apply Hag.
  - intros Hend more.
    assert (Hw1 : exists w', w = tok :: w').
    { destruct w as [|t w']; [exfalso|simpl in Hrest; inversion Hrest; eauto].
      inversion Hw as [| |p children w' Hpp Hf Hi]; subst; [contradiction (ok_eps_not_nt Hok Hn)|].
      destruct (Hend p Hpp eq_refl) as (u & t & Ho & Hte & Htn). rewrite Ho in Hf.
      apply forest_split in Hf as (n1 & n2 & w1 & w2 & _ & Hww & _ & Hf2). symmetry in Hww. apply app_eq_nil in Hww as [_ ->].
      inversion Hf2 as [|X Xs m ms v vs Hm Hms]; subst. inversion Hms; subst. rewrite app_nil_r in *. subst v.
      inversion Hm; subst; try contradiction. apply Htn. exists p0. auto. }
    destruct Hw1 as [w' ->].
    apply Hrun; [simpl; eauto|]. rewrite <- Hfw.
    destruct (proj1 (@local_all L T eps ps (tok :: rest0) (firstn (length (tok :: w')) (tok :: rest0) ++ more) (candidates self0) Hone)
                _ _ _ _ Hch (Hone _ _) _ _ _ eq_refl) as (_ & _ & H2).
    rewrite Hfw at 2. apply H2.
    + apply Forall_forall. intros out Hin. apply (candidates_declared F) in Hin as (p & Hpp & Hi & <-).
      apply (Hend p Hpp Hi).
    + apply Hag.
Qed.
Print Assumptions C76_one_token_of_lookahead.

(** With conflicts the parser may have looked further ahead than that: 1 -> 4 5 6 | 4 on
    [4 5 7] returns a tree of one token, and changing the third token changes it. *)
Definition far_productions : list (production nat) := [Production 1 [4; 5; 6]; Production 1 [4]].

Theorem C76_conflicts_look_further :
  built_parser 0 1 far_productions None (parser_at far_productions 1) /\
  let root := Node [Node [] (Token (Some 7) 4)] (Token None 1) in
  let tokens := [Token (Some 7) 4; Token (Some 8) 5; Token (Some 9) 7] in
  parse_from_tokens 50 (parser_at far_productions 1) tokens = Done (ResultOk root, []) /\
  tree_for 0 far_productions 1 root (firstn 1 tokens) /\
  parse_from_tokens 50 (parser_at far_productions 1) (firstn 2 tokens ++ [Token (Some 9) 6]) <> Done (ResultOk root, []).
Proof.
  split; [apply build_built with (fuel := 200); vm_compute; reflexivity|]. intros root tokens. splits.
  - vm_compute. reflexivity.
  - refine (@tree_production nat nat 0 far_productions (Production 1 [4]) [Node [] (Token (Some 7) 4)] [Token (Some 7) 4] _ _);
      [simpl; auto|].
    refine (@forest_cons nat nat 0 far_productions 4 [] _ [] [Token (Some 7) 4] [] _ (forest_nil _ _)).
    refine (@tree_token nat nat 0 far_productions (Token (Some 7) 4) _ _); simpl; [discriminate|].
    intros (p & Hp & Hi). simpl in Hp. decompose [or] Hp; try contradiction; subst p; discriminate.
  - vm_compute. discriminate.
Qed.
Print Assumptions C76_conflicts_look_further.

(** ** C77: replacing a part of the input *)
Lemma forest_nodes_split {L T : Type} (eps : T) (ps : list (production T)) ns1 ns2 :
  forall Xs w, forest_for (L := L) eps ps Xs (ns1 ++ ns2) w ->
    exists Xs1 Xs2 w1 w2, Xs = Xs1 ++ Xs2 /\ w = w1 ++ w2 /\
      forest_for eps ps Xs1 ns1 w1 /\ forest_for eps ps Xs2 ns2 w2.
Proof.
  induction ns1 as [|n ns1 IH]; intros Xs w H; simpl in H.
  - exists [], Xs, [], w. repeat split; auto. constructor.
  - inversion H as [|X Xs' n0 ns0 v vs Hn Hf]; subst. destruct (IH _ _ Hf) as (X1 & X2 & w1 & w2 & -> & -> & Ha & Hb).
    exists (X :: X1), X2, (v ++ w1), w2. repeat split; auto; [now rewrite app_assoc|]. now constructor.
Qed.

Lemma tree_symbol {L T : Type} (eps : T) (ps : list (production T)) X (n : node L T) w :
  tree_for eps ps X n w -> tok_type (node_token n) = X.
Proof. intros H. inversion H; reflexivity. Qed.

Lemma replaced_tree {L T : Type} {E : EqDec T} (eps : T) (ps : list (production T)) (n n' : node L T) root k root' :
  productions_ok eps ps -> replaced_at eps n n' root k root' ->
  forall Y w, tree_for eps ps Y root w ->
    exists u v rest, w = u ++ v ++ rest /\ length u = k /\ tree_for eps ps (tok_type (node_token n)) n v /\
      forall v', tree_for eps ps (tok_type (node_token n)) n' v' -> tree_for eps ps Y root' (u ++ v' ++ rest).
Proof.
  intros Hok H. induction H as [|before c c' after t k H IH]; intros Y w Hw.
  - exists [], w, []. rewrite app_nil_r. pose proof (tree_symbol Hw) as <-. repeat split; auto.
    intros v' Hv. now rewrite app_nil_r.
  - inversion Hw as [t' H1 H2 Heq| |p children w' Hp Hf Hi]; subst.
    1: { destruct before; discriminate. } 1: { destruct before; discriminate. }
    apply forest_nodes_split in Hf as (X1 & X2 & w1 & w2 & Ho & -> & Hf1 & Hf2).
    inversion Hf2 as [|X Xs c0 ns wc ws Hc Hfa]; subst.
    destruct (IH _ _ Hc) as (u & v & rest & -> & <- & Hv & Hrep).
    exists (w1 ++ u), v, (rest ++ ws). split; [now rewrite !app_assoc|]. split.
    { rewrite app_length. f_equal. symmetry. apply (proj2 (tree_tokens_of (L := L) Hok) _ _ _ Hf1). }
    split; auto. intros v' Hv'.
    replace ((w1 ++ u) ++ v' ++ rest ++ ws) with (w1 ++ (u ++ v' ++ rest) ++ ws) by now rewrite !app_assoc.
    apply tree_production; auto. rewrite Ho. apply forest_app; auto. constructor; auto.
Qed.

Theorem C77_replace_a_part :
  forall (L T : Type) (E : EqDec T) (eps init : T) (ps : list (production T))
         (solver : option (syntax_error_solver L T)) (self : parser L T)
         (fuel k : nat) (tokens v' : list (token L T)) (root root' n n' : node L T) (h : list (solver_call L T)),
    built_parser eps init ps solver self -> conflict_free (pr_transitions self) ->
    repeats_harmless eps ps init -> initial_ends_in_terminal eps ps init ->
    parse_from_tokens fuel self tokens = Done (ResultOk root, h) ->
    (* a part of the tree is replaced by another tree for the same symbol ... *)
    replaced_at eps n n' root k root' ->
    tree_for eps ps (tok_type (node_token n)) n' v' ->
    (* ... and the tokens v of the part by the tokens v' of the other tree *)
    exists u v rest,
      tokens = u ++ v ++ rest /\ length u = k /\ tree_for eps ps (tok_type (node_token n)) n v /\
      terminates_with (fun fuel => parse_from_tokens fuel self (u ++ v' ++ rest)) (Done (ResultOk root', [])).
Proof.
  intros L T E eps init ps solver self fuel k tokens v' root root' n n' h B Hcf Hrep Hend H Hat Hv'.
  destruct (C14_parse_trees_valid _ _ (built_constructed B) H) as (_ & Hn & w & Hw & rest & ->).
  destruct (replaced_tree (constructed_ok B) Hat Hw) as (u & v & rest' & -> & <- & Hv & Hr).
  exists u, v, (rest' ++ rest). split; [now rewrite <- !app_assoc|]. split; auto. split; auto.
  apply (@C23_conflict_free_exact L T E eps init ps solver self _ (u ++ v' ++ rest') root'); auto.
  exists rest. now rewrite <- !app_assoc.
Qed.
Print Assumptions C77_replace_a_part.

(** The other tree may come from the parser for the part's symbol, run on the new tokens
    only (followed by anything): reparsing a part is parsing the whole. *)
Theorem C77_reparse_a_part :
  forall (L T : Type) (E : EqDec T) (eps init : T) (ps : list (production T))
         (solver solverX : option (syntax_error_solver L T)) (self selfX : parser L T)
         (fuel fuelX k : nat) (tokens tokensX : list (token L T)) (root root' n n' : node L T)
         (h hX : list (solver_call L T)),
    built_parser eps init ps solver self -> conflict_free (pr_transitions self) ->
    repeats_harmless eps ps init -> initial_ends_in_terminal eps ps init ->
    parse_from_tokens fuel self tokens = Done (ResultOk root, h) ->
    built_parser eps (tok_type (node_token n)) ps solverX selfX ->
    parse_from_tokens fuelX selfX tokensX = Done (ResultOk n', hX) ->
    replaced_at eps n n' root k root' ->
    exists u v rest v' after,
      tokens = u ++ v ++ rest /\ length u = k /\ tree_for eps ps (tok_type (node_token n)) n v /\
      tokensX = v' ++ after /\ tree_for eps ps (tok_type (node_token n)) n' v' /\
      terminates_with (fun fuel => parse_from_tokens fuel self (u ++ v' ++ rest)) (Done (ResultOk root', [])).
Proof.
  intros L T E eps init ps solver solverX self selfX fuel fuelX k tokens tokensX root root' n n' h hX
    B Hcf Hrep Hend H BX HX Hat.
  destruct (C14_parse_trees_valid _ _ (built_constructed BX) HX) as (_ & _ & v' & Hv' & after & ->).
  destruct (@C77_replace_a_part L T E eps init ps solver self fuel k tokens v' root root' n n' h
              B Hcf Hrep Hend H Hat Hv') as (u & v & rest & H1 & H2 & H3 & H4).
  exists u, v, rest, v', after. splits; auto.
Qed.
Print Assumptions C77_reparse_a_part.

(** ** cases *)
(** [a * ( b )] followed by more tokens: six are covered, and are enough *)
Example C76_case : exists root,
  built_parser (L := nat) Eps Prog expr_productions None expr_parser /\
  conflict_free (pr_transitions expr_parser) /\ initial_ends_in_terminal Eps expr_productions Prog /\
  parse_from_tokens 200 expr_parser (parts_tokens ++ [Token None Plus; Token None Plus]) = Done (ResultOk root, []) /\
  parse_from_tokens 200 expr_parser (firstn 6 (parts_tokens ++ [Token None Plus; Token None Plus]) ++ [Token None Id]) =
    Done (ResultOk root, []).
Proof.
  eexists. splits; [exact expr_built|exact expr_conflict_free|apply C23_case| |]; vm_compute; reflexivity.
Qed.

(** the factor [( b )] of [a * ( b )] replaced by the factor [c] *)
Definition c_factor : node nat sym := Node [Node [] (Token (Some 9) Id)] (Token None Factor).

Example C77_case : exists root n root',
  built_parser (L := nat) Eps Prog expr_productions None expr_parser /\
  conflict_free (pr_transitions expr_parser) /\ repeats_harmless Eps expr_productions Prog /\
  initial_ends_in_terminal Eps expr_productions Prog /\
  parse_from_tokens 200 expr_parser parts_tokens = Done (ResultOk root, []) /\
  tok_type (node_token n) = Factor /\
  built_parser (L := nat) Eps Factor expr_productions None factor_parser /\
  parse_from_tokens 200 factor_parser [Token (Some 9) Id; Token None Eof] = Done (ResultOk c_factor, []) /\
  replaced_at Eps n c_factor root 2 root' /\
  parse_from_tokens 200 expr_parser [Token (Some 1) Id; Token (Some 2) Star; Token (Some 9) Id; Token None Eof]
    = Done (ResultOk root', []).
Proof.
  assert (Hat : forall (n c c' : node nat sym) before after t j k,
            replaced_at Eps n c_factor c k c' -> list_sum (map (tokens_of Eps) before) + k = j ->
            replaced_at Eps n c_factor (Node (before ++ c :: after) t) j (Node (before ++ c' :: after) t)).
  { intros n c c' before after t j k H <-. now constructor. }
  eexists.
  exists (Node [Node [] (Token (Some 3) LParen);
    (match parse_from_tokens 200 (get_done (no_parser Eps) (build Eps Expr expr_productions None 200))
             (skipn 3 parts_tokens) with
     | Done (ResultOk r, _) => r | _ => c_factor end); Node [] (Token (Some 5) RParen)] (Token None Factor)).
  eexists. splits.
  - exact expr_built.
  - exact expr_conflict_free.
  - apply C23_case.
  - apply C23_case.
  - vm_compute. reflexivity.
  - reflexivity.
  - apply build_built with (fuel := 200). vm_compute. reflexivity.
  - vm_compute. reflexivity.
  - eapply (Hat _ _ _ [] [_]); [|reflexivity].
    eapply (Hat _ _ _ [] [_]); [|reflexivity].
    eapply (Hat _ _ _ [_] []); [|reflexivity].
    eapply (Hat _ _ _ [_] [_]); [|reflexivity].
    apply replaced_whole.
  - vm_compute. reflexivity.
Qed.
