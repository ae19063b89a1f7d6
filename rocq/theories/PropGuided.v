(** * What backtracking finds: C25 (what holds), C42, C43 *)

From Verif Require Import BaseFacts GrammarFacts DerivFacts FirstFacts FollowFacts FollowRepeat TransitionsFacts.
From Verif Require Import ChoiceSpec GuidedSpec ParserGuided Examples PropParse PropReports PropLimits.

Set Implicit Arguments.

Lemma candidates_declared {L T : Type} {E : EqDec T} (eps init : T) ps sol (self : parser L T) :
  constructed_facts eps init ps sol self ->
  forall A a out, In out (candidates self A a) ->
    exists p, In p ps /\ p_input p = A /\ p_output p = out.
Proof.
  intros B A a out H. unfold candidates in H.
  destruct (transitions_get_productions (pr_transitions self) A a) as [l|] eqn:Hl; [|destruct H].
  apply in_map_iff in H as (p & <- & Hp). exists p.
  destruct (@po_cells _ _ _ _ _ _ _ (bf_of B) _ _ _ _ Hl Hp). auto.
Qed.

(** ** C42: rejections are justified *)

(** If the parser, without solver, answers Err, and where a production starts
    determines where it ends, then no parse tree is guided by the transition
    table; hence (harmless repeated neighbours, initial productions ending in a
    terminal) no prefix of the input is a sentence. *)
(** the same for any table with the candidates needed, see [covering] *)
Lemma covering_rejections :
  forall (L T : Type) (E : EqDec T) (eps init : T) (ps : list (production T))
         (self : parser L T) (fuel : nat) (tokens : list (token L T)) f h,
    constructed_parser eps init ps None self -> non_terminal ps init ->
    determined_extents eps ps tokens (candidates self) ->
    parse_from_tokens fuel self tokens = Done (ResultErr f, h) ->
    (forall root q, ~ guided eps ps tokens (candidates self) init 0 root q) /\
    (covering eps init ps (candidates self) -> initial_ends_in_terminal eps ps init ->
     forall w rest, tokens = w ++ rest ->
       Forall (fun t => tok_type t <> eps /\ ~ non_terminal ps (tok_type t)) w ->
       ~ derives eps ps [init] (map (@tok_type L T) w)).
Proof.
  intros L T E eps init ps self fuel tokens f h B0 Hinit Hdet H. pose proof (constructed_built B0) as B.
  assert (Hno : forall root q, ~ guided eps ps tokens (candidates self) init 0 root q).
  { apply (parse_choice_sound (bf_of B) (bf_solver B)) in H as (tok & rest & Htok & _ & Hc).
    subst tokens. intros root q Hg.
    pose proof (go_ok (po_grammar (bf_of B))) as Hok.
    assert (Heps : ~ non_terminal ps eps) by apply (eps_not_nt (po_grammar (bf_of B))).
    pose proof (proj1 (choice_guided Heps (candidates_declared B) Hdet) _ _ _ _ Hc tok eq_refl
                  (fun o Hin => Hin)) as Hn. simpl in Hn.
    inversion Hg as [? ? ? Hnt|? Hx|? ? tok' out ns ? HA Hnth Hin Hf]; subst.
    - contradiction.
    - contradiction.
    - simpl in Hnth. inversion Hnth; subst tok'. exact (Hn _ _ _ Hin Hf). }
  split; auto.
  intros Hrep Hend w rest Htok Hl Hd. destruct (derives_tree Hd Hl) as [root Ht].
  apply (Hno root (length w)). eapply (root_guided (bf_of B)); eauto. exists rest. auto.
Qed.

Theorem C42_rejections_justified :
  forall (L T : Type) (E : EqDec T) (eps init : T) (ps : list (production T))
         (self : parser L T) (fuel : nat) (tokens : list (token L T)) f h,
    built_parser eps init ps None self -> non_terminal ps init ->
    determined_extents eps ps tokens (candidates self) ->
    parse_from_tokens fuel self tokens = Done (ResultErr f, h) ->
    (forall root q, ~ guided eps ps tokens (candidates self) init 0 root q) /\
    (repeats_harmless eps ps init -> initial_ends_in_terminal eps ps init ->
     forall w rest, tokens = w ++ rest ->
       Forall (fun t => tok_type t <> eps /\ ~ non_terminal ps (tok_type t)) w ->
       ~ derives eps ps [init] (map (@tok_type L T) w)).
Proof.
  intros L T E eps init ps self fuel tokens f h B Hinit Hdet H.
  destruct (covering_rejections _ B Hinit Hdet H) as [H1 H2]. split; auto.
  intros Hrep. apply H2. exact (harmless_covering (built_built B) Hrep Hinit).
Qed.
Print Assumptions C42_rejections_justified.

(** ** C25, what holds: sentences are accepted when extents are determined *)
Lemma sentence_ends_in_eof {L T : Type} (eps init eof : T) (ps : list (production T))
      (root : node L T) tokens :
  eof_discipline eps ps init eof -> ~ non_terminal ps eps -> non_terminal ps init ->
  tree_for eps ps init root tokens ->
  exists before t, tokens = before ++ [t] /\ tok_type t = eof.
Proof.
  intros (He & Hnt & _ & Hprods & _) Heps Hinit Ht.
  inversion Ht as [tok H1 H2 Hx|H1|p children w' Hp Hf Hx]; subst.
  - contradiction.
  - contradiction.
  - destruct (Hprods p Hp eq_refl) as (u & Ho & _). rewrite Ho in Hf.
    apply forest_split in Hf as (ns1 & ns2 & w1 & w2 & _ & -> & _ & Hf2).
    inversion Hf2 as [|X' Xs' nt' ns' wt ws' Htt Hf3]; subst. inversion Hf3; subst. rewrite app_nil_r.
    inversion Htt as [tok0 Ha Hb Hc|Ha|q ? ? Hq Hfq Hc]; subst.
    + exists w1, tok0. auto.
    + exfalso; congruence.
    + exfalso. apply Hnt. exists q; auto.
Qed.

(** Missing, compared with C25_full_statement: grammars where
    repeated neighbours do harm (FollowSpec), and inputs on which a production of a symbol
    with a right sibling can end at two positions (both are needed: see
    C08_full_statement_refuted, C25_full_statement_refuted). *)
(** the same for any table with the candidates needed, see [covering] *)
Lemma covering_accepts :
  forall (L T : Type) (E : EqDec T) (eps init eof : T) (ps : list (production T))
         (self : parser L T) (tokens : list (token L T)),
    constructed_parser eps init ps None self -> no_left_recursion_from eps ps init ->
    eof_discipline eps ps init eof -> non_terminal ps init ->
    covering eps init ps (candidates self) -> determined_extents eps ps tokens (candidates self) ->
    derives eps ps [init] (map (@tok_type L T) tokens) ->
    Forall (fun t => tok_type t <> eps /\ ~ non_terminal ps (tok_type t)) tokens ->
    exists root, terminates_with (fun fuel => parse_from_tokens fuel self tokens)
                                 (Done (ResultOk root, [])).
Proof.
  intros L T E eps init eof ps self tokens B Hlr He Hinit Hrep Hdet Hd Hl.
  destruct (derives_tree Hd Hl) as [root0 Ht].
  assert (Heps : ~ non_terminal ps eps) by apply (eps_not_nt (po_grammar (bf_of (constructed_built B)))).
  destruct (sentence_ends_in_eof He Heps Hinit Ht) as (before & t & Htok & Htt).
  assert (Hne : tokens <> []) by (rewrite Htok; destruct before; discriminate).
  assert (Hpr : progressing (None : option (syntax_error_solver L T))) by (intros s h c fr; discriminate).
  destruct (C19_parsing_terminates tokens B Hlr Hpr) as [r Hr].
  destruct r as [[res h]|q|].
  2:{ exfalso. destruct Hr as [_ [n Hr]]. specialize (Hr n (le_n _)).
      destruct (C17_no_panic_partial _ B Hne Hr) as [(_ & s & h & c & Hs & _)|[_ Hno]]; [discriminate Hs|].
      apply Hno. exists eof. split; auto. split; [exists before, t; auto|]. intros s h c fr; discriminate. }
  2:{ exfalso. now destruct Hr. }
  destruct Hr as [_ [n Hr]]. pose proof (Hr n (le_n _)) as Hn.
  destruct (C29_fix_needs_answer _ _ B Hn) as [Hnone _]. destruct (Hnone eq_refl) as [-> Hfix].
  destruct res as [root|f|f].
  - exists root. split; [discriminate|eauto].
  - exfalso. destruct (covering_rejections _ B Hinit Hdet Hn) as [_ Hno].
    apply (Hno Hrep (eof_ends He) tokens []); auto. now rewrite app_nil_r.
  - exfalso. eapply Hfix; eauto.
Qed.

Theorem C25_sentences_accepted_partial :
  forall (L T : Type) (E : EqDec T) (eps init eof : T) (ps : list (production T))
         (self : parser L T) (tokens : list (token L T)),
    built_parser eps init ps None self -> no_left_recursion_from eps ps init ->
    eof_discipline eps ps init eof -> non_terminal ps init ->
    repeats_harmless eps ps init -> determined_extents eps ps tokens (candidates self) ->
    derives eps ps [init] (map (@tok_type L T) tokens) ->
    Forall (fun t => tok_type t <> eps /\ ~ non_terminal ps (tok_type t)) tokens ->
    exists root, terminates_with (fun fuel => parse_from_tokens fuel self tokens)
                                 (Done (ResultOk root, [])).
Proof.
  intros L T E eps init eof ps self tokens B Hlr He Hinit Hrep.
  apply (covering_accepts B Hlr He Hinit (harmless_covering (built_built B) Hrep Hinit)).
Qed.
Print Assumptions C25_sentences_accepted_partial.

(** in terms of the grammar alone *)
Theorem C25_prefix_free_partial :
  forall (L T : Type) (E : EqDec T) (eps init eof : T) (ps : list (production T))
         (self : parser L T) (tokens : list (token L T)),
    built_parser eps init ps None self -> no_left_recursion_from eps ps init ->
    eof_discipline eps ps init eof -> non_terminal ps init ->
    repeats_harmless eps ps init -> prefix_free_productions eps ps ->
    derives eps ps [init] (map (@tok_type L T) tokens) ->
    Forall (fun t => tok_type t <> eps /\ ~ non_terminal ps (tok_type t)) tokens ->
    exists root, terminates_with (fun fuel => parse_from_tokens fuel self tokens)
                                 (Done (ResultOk root, [])).
Proof.
  intros L T E eps init eof ps self tokens B Hlr He Hinit Hrep Hpf.
  apply (C25_sentences_accepted_partial B Hlr He Hinit Hrep).
  apply prefix_free_determined; auto. exact (candidates_declared (built_built B)).
Qed.
Print Assumptions C25_prefix_free_partial.

(** ** C43: a decision procedure with backtracking *)
(** the same for any table with the candidates needed, see [covering] *)
Lemma covering_backtracking_decides :
  forall (L T : Type) (E : EqDec T) (eps init eof : T) (ps : list (production T))
         (self : parser L T) (tokens before : list (token L T)) (t : token L T),
    constructed_parser eps init ps None self -> no_left_recursion_from eps ps init ->
    eof_discipline eps ps init eof -> non_terminal ps init ->
    covering eps init ps (candidates self) ->
    prefix_free_productions eps ps \/ determined_extents eps ps tokens (candidates self) ->
    tokens = before ++ [t] -> tok_type t = eof ->
    Forall (fun x => tok_type x <> eof) before ->
    exists res,
      terminates_with (fun fuel => parse_from_tokens fuel self tokens) (Done (res, [])) /\
      ((exists root, res = ResultOk root) <->
       derives eps ps [init] (map (@tok_type L T) tokens) /\
       Forall (fun x => tok_type x <> eps /\ ~ non_terminal ps (tok_type x)) tokens) /\
      ((exists f, res = ResultErr f) <->
       ~ (derives eps ps [init] (map (@tok_type L T) tokens) /\
          Forall (fun x => tok_type x <> eps /\ ~ non_terminal ps (tok_type x)) tokens)) /\
      (forall root, res = ResultOk root -> tree_for eps ps init root tokens).
Proof.
  intros L T E eps init eof ps self tokens before t B Hlr He Hinit Hrep Hpd Htok Ht Hb.
  assert (Hdet : determined_extents eps ps tokens (candidates self)).
  { destruct Hpd as [Hpf|Hdet]; auto. apply prefix_free_determined; auto.
    exact (candidates_declared (constructed_built B)). }
  assert (Hne : tokens <> []) by (rewrite Htok; destruct before; discriminate).
  assert (Hpr : progressing (None : option (syntax_error_solver L T))) by (intros s h c fr; discriminate).
  destruct (C19_parsing_terminates tokens B Hlr Hpr) as [r Hr].
  destruct r as [[res h]|q|].
  2:{ exfalso. destruct Hr as [_ [n Hr]]. specialize (Hr n (le_n _)).
      destruct (C17_no_panic_partial _ B Hne Hr) as [(_ & s & h & c & Hs & _)|[_ Hno]]; [discriminate Hs|].
      apply Hno. exists eof. split; auto. split; [exists before, t; auto|]. intros s h c fr; discriminate. }
  2:{ exfalso. now destruct Hr. }
  pose proof Hr as [_ [n Hr']]. pose proof (Hr' n (le_n _)) as Hn. clear Hr'.
  destruct (C29_fix_needs_answer _ _ B Hn) as [Hnone _]. destruct (Hnone eq_refl) as [-> Hfix].
  assert (Hlast : forall b x a, tokens = b ++ x :: a -> tok_type x = eof -> a = []).
  { intros b x a Hx Hxe. rewrite Htok in Hx.
    destruct a as [|y a]; auto. exfalso.
    destruct (app_eq_mid _ _ _ _ Hx) as [(m & H1 & H2)|(m & H1 & H2)].
    - destruct m as [|z m]; simpl in H2; [discriminate|]. inversion H2; subst.
      rewrite Forall_forall in Hb. apply (Hb z); auto. apply in_or_app. right. now left.
    - destruct m as [|z m]; simpl in H2; inversion H2. now destruct m. }
  assert (Hok : forall root, res = ResultOk root -> tree_for eps ps init root tokens).
  { intros root ->. exact (C16_whole_input_partial _ B He Hlast Hn). }
  assert (Hsound : forall root, res = ResultOk root ->
    derives eps ps [init] (map (@tok_type L T) tokens) /\
    Forall (fun x => tok_type x <> eps /\ ~ non_terminal ps (tok_type x)) tokens).
  { intros root Hres. specialize (Hok root Hres). split; [eapply tree_derives; eauto|].
    apply (proj1 (tree_leaves_all eps ps)) in Hok. exact Hok. }
  assert (Hcomplete : derives eps ps [init] (map (@tok_type L T) tokens) /\
    Forall (fun x => tok_type x <> eps /\ ~ non_terminal ps (tok_type x)) tokens ->
    exists root, res = ResultOk root).
  { intros [Hd Hl].
    destruct (covering_accepts B Hlr He Hinit Hrep Hdet Hd Hl) as [root Hroot].
    exists root. pose proof (terminates_unique Hr Hroot) as Heq. now inversion Heq. }
  exists res. splits; auto.
  - split; [intros [root Hres]; eauto|auto].
  - split.
    + intros [f ->] Hs. destruct (Hcomplete Hs) as [root Hx]. discriminate.
    + intros Hs. destruct res as [root|f|f]; [|eauto|].
      * exfalso. apply Hs. eapply Hsound; eauto.
      * exfalso. eapply Hfix; eauto.
Qed.

Theorem C43_backtracking_decision_procedure :
  forall (L T : Type) (E : EqDec T) (eps init eof : T) (ps : list (production T))
         (self : parser L T) (tokens before : list (token L T)) (t : token L T),
    built_parser eps init ps None self -> no_left_recursion_from eps ps init ->
    eof_discipline eps ps init eof -> non_terminal ps init ->
    repeats_harmless eps ps init ->
    prefix_free_productions eps ps \/ determined_extents eps ps tokens (candidates self) ->
    tokens = before ++ [t] -> tok_type t = eof ->
    Forall (fun x => tok_type x <> eof) before ->
    exists res,
      terminates_with (fun fuel => parse_from_tokens fuel self tokens) (Done (res, [])) /\
      ((exists root, res = ResultOk root) <->
       derives eps ps [init] (map (@tok_type L T) tokens) /\
       Forall (fun x => tok_type x <> eps /\ ~ non_terminal ps (tok_type x)) tokens) /\
      ((exists f, res = ResultErr f) <->
       ~ (derives eps ps [init] (map (@tok_type L T) tokens) /\
          Forall (fun x => tok_type x <> eps /\ ~ non_terminal ps (tok_type x)) tokens)) /\
      (forall root, res = ResultOk root -> tree_for eps ps init root tokens).
Proof.
  intros L T E eps init eof ps self tokens before t B Hlr He Hinit Hrep.
  apply (covering_backtracking_decides _ B Hlr He Hinit (harmless_covering (built_built B) Hrep Hinit)).
Qed.
Print Assumptions C43_backtracking_decision_procedure.

(** A grammar with unbounded nesting, two candidates in a cell, and
    backtracking: 0 epsilon; S = 1 -> X $; X = 2 -> a b | a X b; a = 3, b = 4, $ = 5. *)
Definition nested_productions : list (production nat) :=
  [Production 1 [2; 5]; Production 2 [3; 4]; Production 2 [3; 2; 4]].
Definition nested_parser : parser nat nat :=
  get_done (no_parser 0) (build 0 1 nested_productions None 100).
Lemma nested_built : built_parser 0 1 nested_productions None nested_parser.
Proof. apply build_built with (fuel := 100). vm_compute. reflexivity. Qed.

Lemma nested_words :
  (forall X (n : node nat nat) w, tree_for 0 nested_productions X n w ->
     (X = 2 -> exists k, map (@tok_type nat nat) w = repeat 3 (S k) ++ repeat 4 (S k)) /\
     (X = 3 \/ X = 4 -> map (@tok_type nat nat) w = [X])) /\
  (forall Xs (ns : list (node nat nat)) w, forest_for 0 nested_productions Xs ns w ->
     (Xs = [] -> w = []) /\
     (Xs = [4] -> map (@tok_type nat nat) w = [4]) /\
     (Xs = [3; 4] -> map (@tok_type nat nat) w = [3; 4]) /\
     (Xs = [2; 4] -> exists k, map (@tok_type nat nat) w = repeat 3 (S k) ++ repeat 4 (S (S k))) /\
     (Xs = [3; 2; 4] -> exists k, map (@tok_type nat nat) w = repeat 3 (S (S k)) ++ repeat 4 (S (S k)))).
Proof.
  apply tree_forest_ind.
  - intros tok _ Hn. split.
    + intros Heq. exfalso. apply Hn. rewrite Heq. exists (Production 2 [3; 4]). simpl; auto.
    + intros [H|H]; simpl; now rewrite H.
  - split; [discriminate|intros [H|H]; discriminate].
  - intros p ch w Hp Hf (_ & _ & IH2 & _ & IH4). simpl in Hp.
    destruct Hp as [<-|[<-|[<-|[]]]]; cbn [p_input p_output] in *;
      (split; [|intros [H|H]; discriminate]); try discriminate; intros _.
    + exists 0. rewrite IH2; auto.
    + destruct (IH4 eq_refl) as [k Hk]. exists (S k). exact Hk.
  - splits; try discriminate; auto.
  - intros X Xs n ns w ws _ (IH2 & IH34) _ (IHn & IHa & IHb & IHc & IHd). rewrite map_app.
    splits; intros H; inversion H; subst; clear H.
    + rewrite IH34 by auto. rewrite IHn; auto.
    + rewrite IH34, IHa; auto.
    + destruct (IH2 eq_refl) as [k ->]. rewrite IHa by auto. exists k.
      rewrite <- app_assoc. f_equal. change (S (S k)) with (1 + S k). rewrite Nat.add_comm, repeat_app. reflexivity.
    + rewrite IH34 by auto. destruct (IHc eq_refl) as [k ->]. exists k. reflexivity.
Qed.

Lemma repeat_prefix n m v :
  (repeat 3 (S n) ++ repeat 4 (S n)) ++ v = repeat 3 (S m) ++ repeat 4 (S m) -> v = [].
Proof.
  rewrite <- app_assoc. intros H.
  assert (Hnm : n = m).
  { assert (G : forall a b x y, repeat 3 a ++ 4 :: x = repeat 3 b ++ 4 :: y -> a = b).
    { induction a as [|a IH]; intros [|b] x y Hab; simpl in Hab; inversion Hab; auto.
      f_equal. eauto. }
    pose proof (G _ _ _ _ H). lia. }
  subst m. apply app_inv_head in H. rewrite <- (app_nil_r (repeat 4 (S n))) in H at 2.
  now apply app_inv_head in H.
Qed.

Lemma nested_prefix_free : prefix_free_productions 0 nested_productions.
Proof.
  intros p u v Hp Hrs Hl H1 H2.
  assert (Hi : p_input p = 2).
  { destruct Hrs as (p' & x & Y & y & Hp' & Ho). simpl in Hp, Hp'.
    destruct Hp as [<-|[<-|[<-|[]]]]; auto. exfalso.
    destruct Hp' as [<-|[<-|[<-|[]]]]; simpl in Ho;
      destruct x as [|x1 [|x2 [|x3 [|? ?]]]]; inversion Ho. }
  assert (Hw : forall w, Forall (fun x => x <> 0 /\ ~ non_terminal nested_productions x) w ->
            derives 0 nested_productions (p_output p) w -> exists k, w = repeat 3 (S k) ++ repeat 4 (S k)).
  { intros w Hlw Hd.
    assert (Hmap : map (@tok_type nat nat) (map (fun x => Token None x) w) = w).
    { rewrite map_map. simpl. now rewrite map_id. }
    rewrite <- Hmap in Hd |- *.
    assert (Hd' : derives 0 nested_productions [2] (map (@tok_type nat nat) (map (fun x => Token None x) w))).
    { eapply derives_trans; [|exact Hd]. rewrite <- Hi. now apply derives_production. }
    destruct (derives_tree Hd') as [n Ht].
    - rewrite Forall_forall in *. intros t Hin. apply in_map_iff in Hin as (x & <- & Hx). simpl. auto.
    - exact (proj1 (proj1 nested_words _ _ _ Ht) eq_refl). }
  apply Forall_app in Hl as Hl'. destruct Hl' as [Hlu _].
  destruct (Hw u Hlu H1) as [k ->]. destruct (Hw _ Hl H2) as [m Hm].
  eapply repeat_prefix; eauto.
Qed.

Lemma nested_eof : eof_discipline 0 nested_productions 1 5.
Proof.
  split; [discriminate|]. split; [apply non_terminalb_false; reflexivity|].
  split; [|split]; intros p Hp; simpl in Hp.
  - intros Hin. decompose [or] Hp; subst; simpl in Hin; intuition discriminate.
  - intros Hi. decompose [or] Hp; subst; try discriminate; try contradiction.
    exists [2]. split; [reflexivity|simpl; intuition discriminate].
  - intros Hi Hin. decompose [or] Hp; subst; simpl in Hin, Hi; intuition discriminate.
Qed.

Example C25_C42_C43_case :
  built_parser 0 1 nested_productions None nested_parser /\
  candidates nested_parser 2 3 = [[3; 4]; [3; 2; 4]] /\
  no_left_recursion_from 0 nested_productions 1 /\ eof_discipline 0 nested_productions 1 5 /\
  non_terminal nested_productions 1 /\ repeats_harmless 0 nested_productions 1 /\
  prefix_free_productions 0 nested_productions /\
  (* both outcomes occur *)
  (exists root, parse_from_tokens 50 nested_parser [nt 3; nt 3; nt 3; nt 4; nt 4; nt 4; nt 5] =
                Done (ResultOk root, [])) /\
  (exists f, parse_from_tokens 50 nested_parser [nt 3; nt 3; nt 3; nt 4; nt 4; nt 5] =
                Done (ResultErr f, [])).
Proof.
  splits.
  - exact nested_built.
  - vm_compute. reflexivity.
  - apply no_left_recursion_anywhere, rank_check_ok with (N := fun x => Nat.eqb x 0)
      (rank := fun x => match x with 1 => 3 | 2 => 2 | 3 | 4 | 5 => 1 | _ => 0 end). reflexivity.
  - exact nested_eof.
  - apply non_terminalb_spec. reflexivity.
  - apply no_repeated_neighbours_harmless, no_repeated_neighbours_check. reflexivity.
  - exact nested_prefix_free.
  - eexists. vm_compute. reflexivity.
  - eexists. vm_compute. reflexivity.
Qed.
