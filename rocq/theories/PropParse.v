(** * Properties of parsing results: C09 (parse), C14 - C20, C22, C23, C36 - C38, C40 *)

From Verif Require Import BaseFacts GrammarFacts DerivFacts FirstFacts FollowFacts FollowRepeat TransitionsFacts.
From Verif Require Import Examples LL1Check.

Set Implicit Arguments.

(** a run that is not out of fuel is the result for all larger fuel *)
Lemma parse_terminates {L T : Type} {E : EqDec T} (self : parser L T) tokens k r :
  parse_from_tokens k self tokens = r -> r <> OutOfFuel ->
  terminates_with (fun fuel => parse_from_tokens fuel self tokens) r.
Proof.
  intros H Hr. split; auto. exists k. intros fuel Hle. eapply parse_mono; eauto.
Qed.

Lemma terminates_unique {A : Type} (run : nat -> outcome A) r r' :
  terminates_with run r -> terminates_with run r' -> r = r'.
Proof.
  intros [_ [n Hn]] [_ [m Hm]]. rewrite <- (Hn (max n m)) by lia. apply Hm. lia.
Qed.

(** ** C09 (parse): results do not depend on hash iteration orders *)
Theorem C09_parse_order_independent :
  forall (L T : Type) (E : EqDec T) (eps init : T) (ps : list (production T))
         (solver : option (syntax_error_solver L T)) (self self' : parser L T)
         (tokens : list (token L T)) (fuel : nat),
    built_parser eps init ps solver self -> built_parser eps init ps solver self' ->
    parse_from_tokens fuel self tokens = parse_from_tokens fuel self' tokens.
Proof. intros. eapply built_parse_eq; eauto. Qed.
Print Assumptions C09_parse_order_independent.

Example C09_parse_case : exists self,
  built_parser (L := nat) Eps Prog expr_productions None self /\ self <> expr_parser.
Proof.
  destruct (cfg_new (reversed_order sym) Eps Prog expr_productions) as [g| |] eqn:Hg; try discriminate.
  vm_compute in Hg. inversion Hg as [Hg'].
  destruct (from_grammar (L := nat) (reversed_order sym) 200 g) as [self| |] eqn:Hs;
    [|subst g; vm_compute in Hs; discriminate..].
  exists self. split.
  - exists (reversed_order sym), (reversed_order sym), 200, g. split; auto.
  - subst g. vm_compute in Hs. inversion Hs. discriminate.
Qed.

(** ** C14: parse trees are valid *)
Theorem C14_parse_trees_valid :
  forall (L T : Type) (E : EqDec T) (eps init : T) (ps : list (production T))
         (solver : option (syntax_error_solver L T)) (self : parser L T)
         (fuel : nat) (tokens : list (token L T)) (root : node L T) h,
    constructed_parser eps init ps solver self ->
    parse_from_tokens fuel self tokens = Done (ResultOk root, h) ->
    node_token root = Token None init /\ non_terminal ps init /\
    exists w, tree_for eps ps init root w /\ prefix w tokens.
Proof.
  intros L T E eps init ps solver self fuel tokens root h B H. apply constructed_built in B.
  destruct (parse_shape (bf_of B) _ _ H) as (tok & rest & _ & _ & Hn & w & Hw & Hp).
  split; [|split; auto].
  - inversion Hw as [t H1 H2 H3|H1|p children w' Hp' Hf Hx]; subst; auto. contradiction.
  - exists w. auto.
Qed.
Print Assumptions C14_parse_trees_valid.

Example C14_case :
  built_parser (L := nat) Eps Prog expr_productions None expr_parser /\
  parse_from_tokens 100 expr_parser expr_tokens = Done (ResultOk expr_tree, []).
Proof. split; [exact expr_built|exact expr_parses]. Qed.

(** ** C15: accepted inputs are in the language *)
Theorem C15_accepted_in_language :
  forall (L T : Type) (E : EqDec T) (eps init : T) (ps : list (production T))
         (solver : option (syntax_error_solver L T)) (self : parser L T)
         (fuel : nat) (tokens : list (token L T)) (root : node L T) h,
    constructed_parser eps init ps solver self ->
    parse_from_tokens fuel self tokens = Done (ResultOk root, h) ->
    exists w, prefix w tokens /\ tree_for eps ps init root w /\
      derives eps ps [init] (map (@tok_type L T) w) /\
      Forall (fun t => ~ non_terminal ps (tok_type t)) w.
Proof.
  intros L T E eps init ps solver self fuel tokens root h B H.
  destruct (C14_parse_trees_valid _ _ B H) as (_ & _ & w & Hw & Hp). exists w. splits; auto.
  - eapply tree_derives; eauto.
  - apply (proj1 (tree_leaves_all eps ps)) in Hw. eapply Forall_impl; [|exact Hw]. simpl. tauto.
Qed.
Print Assumptions C15_accepted_in_language.

(** ** C16: Ok means the whole input was consumed -- false in general *)
Definition C16_full_statement : Prop :=
  forall (L T : Type) (E : EqDec T) (eps init : T) (ps : list (production T))
         (solver : option (syntax_error_solver L T)) (self : parser L T)
         (fuel : nat) (tokens : list (token L T)) (root : node L T) h,
    built_parser eps init ps solver self ->
    parse_from_tokens fuel self tokens = Done (ResultOk root, h) ->
    tree_for eps ps init root tokens.

(** S = 1 -> a = 2, on the input [a b] *)
Theorem C16_full_statement_refuted : ~ C16_full_statement.
Proof.
  intros H.
  destruct (build (L := nat) 0 1 [Production 1 [2]] None 50) as [self| |] eqn:Hb;
    [|vm_compute in Hb; discriminate..].
  apply build_built in Hb as B.
  assert (Hp : parse_from_tokens 50 self [Token None 2; Token None 3] =
               Done (ResultOk (Node [Node [] (Token None 2)] (Token None 1)), []))
    by (vm_compute in Hb; inversion Hb; subst self; vm_compute; reflexivity).
  pose proof (H _ _ _ _ _ _ _ _ _ _ _ _ B Hp) as Ht.
  apply tree_derives in Ht as Hd. simpl in Hd.
  assert (Hf : exists children, forest_for (L := nat) 0 [Production 1 [2]] [2] children
                                  [Token None 2; Token None 3]).
  { inversion Ht as [|  |p children w' Hp' Hf Hx Hc].
    simpl in Hp'. destruct Hp' as [Hp'|[]]. destruct p as [i o]. simpl in *. subst i. inversion Hp'; subst o. eauto. }
  destruct Hf as [children Hf]. inversion Hf as [|X Xs n ns w ws Ht' Hf']; subst. inversion Hf'; subst. rewrite app_nil_r in *.
  inversion Ht' as [| |q c w' Hq Hf2 Hx2 Hy2 Hz2].
  { subst w. discriminate. }
  destruct Hq as [Hq|[]]. destruct q as [i o]. simpl in *. inversion Hq. lia.
Qed.
Print Assumptions C16_full_statement_refuted.

(** What holds: grammars and inputs with the end-of-input discipline (every
    initial production ends in [eof], [eof] occurs nowhere else, and no input
    token comes after an [eof] token).  Missing: everything else. *)
Theorem C16_whole_input_partial :
  forall (L T : Type) (E : EqDec T) (eps init eof : T) (ps : list (production T))
         (solver : option (syntax_error_solver L T)) (self : parser L T)
         (fuel : nat) (tokens : list (token L T)) (root : node L T) h,
    constructed_parser eps init ps solver self ->
    eof_discipline eps ps init eof ->
    (forall before t after, tokens = before ++ t :: after -> tok_type t = eof -> after = []) ->
    parse_from_tokens fuel self tokens = Done (ResultOk root, h) ->
    tree_for eps ps init root tokens.
Proof.
  intros L T E eps init eof ps solver self fuel tokens root h B He Hend H.
  destruct (C14_parse_trees_valid _ _ B H) as (_ & Hn & w & Hw & Hp).
  apply constructed_ok in B. rewrite <- (eof_whole He Hn (ok_eps_not_nt B) Hw Hp Hend). exact Hw.
Qed.
Print Assumptions C16_whole_input_partial.

Lemma expr_tokens_eof before t after :
  expr_tokens = before ++ t :: after -> tok_type t = Eof -> after = [].
Proof.
  intros H Ht. unfold expr_tokens in H.
  do 8 (destruct before as [|? before]; simpl in H; inversion H; subst; clear H; try discriminate; auto;
        rename H2 into H).
  destruct before; discriminate.
Qed.

Example C16_case : eof_discipline Eps expr_productions Prog Eof /\
  (forall before t after, expr_tokens = before ++ t :: after -> tok_type t = Eof -> after = []).
Proof. split; [exact expr_eof|exact expr_tokens_eof]. Qed.

(** ** C17: no panic on non-empty input -- false in general *)
Definition C17_full_statement : Prop :=
  forall (L T : Type) (E : EqDec T) (eps init : T) (ps : list (production T))
         (solver : option (syntax_error_solver L T)) (self : parser L T)
         (fuel : nat) (tokens : list (token L T)) (q : panic),
    built_parser eps init ps solver self -> tokens <> [] -> q <> PanicSolver ->
    parse_from_tokens fuel self tokens <> Panicked q.

(** S = 1 -> a B; B = 2 -> b; a = 3; b = 4; on the truncated input [a] *)
Theorem C17_full_statement_refuted : ~ C17_full_statement.
Proof.
  intros H.
  destruct (build (L := nat) 0 1 [Production 1 [3; 2]; Production 2 [4]] None 50) as [self| |] eqn:Hb;
    [|vm_compute in Hb; discriminate..].
  apply build_built in Hb as B.
  apply (H _ _ _ _ _ _ _ _ 50 [Token None 3] PanicTokenOutOfRange B); [discriminate..|].
  vm_compute in Hb. inversion Hb; subst self. vm_compute. reflexivity.
Qed.
Print Assumptions C17_full_statement_refuted.

(** What holds: the only panics are the solver's own and the one for reading
    past the last token, which cannot happen when the grammar has the end-of-input discipline, the
    input ends in the end-of-input token and the solver answers positions
    inside the input.  Missing: inputs cut short. *)
Theorem C17_end_marker_anywhere_partial :
  forall (L T : Type) (E : EqDec T) (eps init : T) (ps : list (production T))
         (solver : option (syntax_error_solver L T)) (self : parser L T)
         (fuel : nat) (tokens : list (token L T)) (q : panic),
    constructed_parser eps init ps solver self -> tokens <> [] ->
    parse_from_tokens fuel self tokens = Panicked q ->
    (q = PanicSolver /\ exists s h c, solver = Some s /\ s h c = ReplyPanics) \/
    (q = PanicTokenOutOfRange /\
     ~ (exists eof before t after, eof_discipline eps ps init eof /\
          tokens = before ++ t :: after /\ tok_type t = eof /\
          (* the solver does not skip this token *)
          (forall s h c fr, solver = Some s -> s h c = Reply (Some fr) ->
             fr_final_token_position fr <= length before))).
Proof.
  intros L T E eps init ps solver self fuel tokens q B Hne H. apply constructed_built in B.
  destruct (parse_panic (bf_of B) init 0 _ Hne H) as [[Hq _]|[Hq Hs]].
  - right. split; auto. intros (eof & before & t & after & He & Htok & Hend & Hs).
    destruct (parse_panic (bf_of B) eof (S (length before)) _ Hne H) as [[_ Hno]|[Hq' _]]; [|congruence].
    apply Hno. split; auto. split.
    + exists (length before), t. split; auto. split; auto.
      rewrite Htok, nth_error_app2, Nat.sub_diag by lia. reflexivity.
    + intros s h c fr Hsol Hr. rewrite (bf_solver B) in Hsol. specialize (Hs s h c fr Hsol Hr). lia.
  - left. rewrite (bf_solver B) in Hs. auto.
Qed.
Print Assumptions C17_end_marker_anywhere_partial.

Theorem C17_no_panic_partial :
  forall (L T : Type) (E : EqDec T) (eps init : T) (ps : list (production T))
         (solver : option (syntax_error_solver L T)) (self : parser L T)
         (fuel : nat) (tokens : list (token L T)) (q : panic),
    constructed_parser eps init ps solver self -> tokens <> [] ->
    parse_from_tokens fuel self tokens = Panicked q ->
    (q = PanicSolver /\ exists s h c, solver = Some s /\ s h c = ReplyPanics) \/
    (q = PanicTokenOutOfRange /\
     ~ (exists eof, eof_discipline eps ps init eof /\
          (exists before t, tokens = before ++ [t] /\ tok_type t = eof) /\
          (forall s h c fr, solver = Some s -> s h c = Reply (Some fr) ->
             fr_final_token_position fr < length tokens))).
Proof.
  intros L T E eps init ps solver self fuel tokens q B Hne H.
  destruct (C17_end_marker_anywhere_partial _ B Hne H) as [Hq|[Hq Hno]]; auto. right. split; auto.
  intros (eof & He & (before & t & Ht & Hte) & Hs). apply Hno. exists eof, before, t, [].
  splits; auto. intros s h c fr Hsol Hr. specialize (Hs s h c fr Hsol Hr). rewrite Ht, app_length in Hs. simpl in Hs. lia.
Qed.
Print Assumptions C17_no_panic_partial.

Example C17_case : eof_discipline Eps expr_productions Prog Eof /\
  (exists before t, expr_tokens = before ++ [t] /\ tok_type t = Eof) /\
  exists self, built_parser (L := nat) 0 1 [Production 1 [3; 2]; Production 2 [4]] None self /\
    parse_from_tokens 50 self [Token None 3] = Panicked PanicTokenOutOfRange.
Proof.
  split; [exact expr_eof|]. split.
  - exists (firstn 7 expr_tokens), (tk 8 Eof). split; reflexivity.
  - eexists. split; [apply build_built with (fuel := 50); vm_compute; reflexivity|].
    vm_compute. reflexivity.
Qed.

(** ** C18: empty input *)
Theorem C18_empty_input_panics :
  forall (L T : Type) (E : EqDec T) (self : parser L T) (fuel : nat),
    parse_from_tokens fuel self [] = Panicked PanicNoTokens.
Proof. reflexivity. Qed.
Print Assumptions C18_empty_input_panics.

(** ** C19: termination without left recursion *)
Theorem C19_parsing_terminates :
  forall (L T : Type) (E : EqDec T) (eps init : T) (ps : list (production T))
         (solver : option (syntax_error_solver L T)) (self : parser L T)
         (tokens : list (token L T)),
    constructed_parser eps init ps solver self -> no_left_recursion_from eps ps init -> progressing solver ->
    exists r, terminates_with (fun fuel => parse_from_tokens fuel self tokens) r.
Proof.
  intros L T E eps init ps solver self tokens B Hl Hs. apply constructed_built in B.
  assert (Hs' : progress_solver self) by (unfold progress_solver; rewrite (bf_solver B); exact Hs).
  destruct (parse_term_progress tokens (bf_of B) Hs' Hl) as [n Hn].
  exists (parse_from_tokens n self tokens). eapply parse_terminates; eauto.
Qed.
Print Assumptions C19_parsing_terminates.

Example C19_case : no_left_recursion_from Eps expr_productions Prog /\
  progressing (None : option (syntax_error_solver nat sym)) /\ progressing (Some skipping_solver).
Proof.
  split; [exact (no_left_recursion_anywhere (init := Prog) expr_no_left_recursion)|]. split; [|exact skipping_solver_progresses].
  intros s h c H. discriminate H.
Qed.

(** a left-recursive symbol that the initial symbol never leads to does no harm:
    0 epsilon; S = 1 -> a; Z = 2 -> Z a | a; a = 3 *)
Example C19_unreachable_case :
  left_recursive 0 [Production 1 [3]; Production 2 [2; 3]; Production 2 [3]] 2 /\
  no_left_recursion_from 0 [Production 1 [3]; Production 2 [2; 3]; Production 2 [3]] 1.
Proof.
  set (ps := [Production 1 [3]; Production 2 [2; 3]; Production 2 [3]]).
  split.
  - exists [2; 3], [3]. split; [|apply derives_refl].
    pose proof (derive1_production 0 ps [] [] (Production 2 [2; 3])) as H. simpl in H. apply H. auto.
  - assert (Hd : forall w w', derives 0 ps w w' -> Forall (fun x => x = 1 \/ x = 3 \/ x = 0) w ->
              Forall (fun x => x = 1 \/ x = 3 \/ x = 0) w').
    { induction 1 as [w|w w1 w2 Hs _ IH]; auto. intros Hw. apply IH. clear IH.
      inversion Hs as [u v p Hp|u v]; subst.
      - apply Forall_app in Hw as [Hu Hv]. inversion Hv as [|x l Hx Hl]; subst.
        apply Forall_app. split; auto. apply Forall_app. split; auto.
        destruct Hp as [<-|[<-|[<-|[]]]]; simpl in *; repeat constructor; auto;
          destruct Hx as [Hx|[Hx|Hx]]; discriminate.
      - apply Forall_app in Hw as [Hu Hv]. inversion Hv; subst. apply Forall_app; auto. }
    intros A _ (u & v & HA) (w & v' & H1 & H2).
    apply Hd in HA; [|repeat constructor; auto].
    apply Forall_app in HA as [_ HA]. inversion HA as [|x l Hx _]; subst x l.
    apply derive1_single in H1 as [(p & Hp & Hi & ->)|[Hi ->]].
    + destruct Hp as [<-|[<-|[<-|[]]]]; simpl in *; subst A;
        try (destruct Hx as [Hx|[Hx|Hx]]; discriminate).
      assert (Hd3 : forall w w', derives 0 ps w w' -> Forall (fun x => x = 3) w -> Forall (fun x => x = 3) w').
      { induction 1 as [y|y y1 y2 Hs _ IH]; auto. intros Hw. apply IH. clear IH.
        inversion Hs as [u0 v0 p Hp|u0 v0]; subst.
        - apply Forall_app in Hw as [_ Hv]. inversion Hv as [|x l Hx0 Hl]; subst.
          destruct Hp as [<-|[<-|[<-|[]]]]; discriminate.
        - apply Forall_app in Hw as [_ Hv]. inversion Hv; subst. discriminate. }
      apply Hd3 in H2; [|repeat constructor]. inversion H2. discriminate.
    + assert (Hn : forall w w', derives 0 ps w w' -> w = [] -> w' = []).
      { induction 1 as [y|y y1 y2 Hs _ IH]; auto. intros ->. inversion Hs as [u0 v0 p Hp|u0 v0]; destruct u0; discriminate. }
      apply Hn in H2; auto. discriminate.
Qed.

(** ** C20: left recursion tried first diverges *)
Theorem C20_left_recursion_diverges :
  forall (L T : Type) (E : EqDec T) (eps init : T) (ps : list (production T))
         (solver : option (syntax_error_solver L T)) (self : parser L T)
         (tok : token L T) (rest : list (token L T)) (p : production T) l more,
    constructed_parser eps init ps solver self ->
    transitions_get_productions (pr_transitions self) init (tok_type tok) = Some (p :: l) ->
    p_output p = init :: more ->
    diverges (fun fuel => parse_from_tokens fuel self (tok :: rest)).
Proof.
  intros L T E eps init ps solver self tok rest p l more B Hc Ho fuel. apply constructed_built in B.
  pose proof (po_grammar (bf_of B)) as G.
  assert (Hnt : non_terminal ps init).
  { exists p. eapply (po_cells (bf_of B)); eauto. now left. }
  apply diverge_parse with (Q := eq init).
  - intros X <-. exists init, more, (map (fun p => p_output p) l). split; auto. split.
    + now apply (is_non_terminal_spec G).
    + unfold inner_get_token_productions. rewrite Hc. simpl. now rewrite Ho.
  - unfold get_initial_symbol. symmetry. apply (go_init G).
Qed.
Print Assumptions C20_left_recursion_diverges.

(** the same through any cycle of first candidates *)
Theorem C20_indirect_left_recursion_diverges :
  forall (L T : Type) (E : EqDec T) (eps init : T) (ps : list (production T))
         (solver : option (syntax_error_solver L T)) (self : parser L T)
         (tok : token L T) (rest : list (token L T)) (cycle : T -> Prop),
    constructed_parser eps init ps solver self ->
    cycle init ->
    (forall X, cycle X -> exists p l Y more,
       transitions_get_productions (pr_transitions self) X (tok_type tok) = Some (p :: l) /\
       p_output p = Y :: more /\ cycle Y) ->
    diverges (fun fuel => parse_from_tokens fuel self (tok :: rest)).
Proof.
  intros L T E eps init ps solver self tok rest cycle B Hi Hc fuel. apply constructed_built in B.
  pose proof (po_grammar (bf_of B)) as G.
  apply diverge_parse with (Q := cycle).
  - intros X HX. destruct (Hc X HX) as (p & l & Y & more & Hcell & Ho & HY).
    exists Y, more, (map (fun p => p_output p) l). split; auto. split.
    + apply (is_non_terminal_spec G). destruct (Hc Y HY) as (p' & l' & _ & _ & Hcell' & _).
      exists p'. eapply (po_cells (bf_of B)); eauto. now left.
    + unfold inner_get_token_productions. rewrite Hcell. simpl. now rewrite Ho.
  - unfold get_initial_symbol. now rewrite (go_init G).
Qed.
Print Assumptions C20_indirect_left_recursion_diverges.

(** S = 1 -> S a | b *)
Example C20_case : exists self p l,
  built_parser (L := nat) 0 1 [Production 1 [1; 2]; Production 1 [3]] None self /\
  transitions_get_productions (pr_transitions self) 1 3 = Some (p :: l) /\ p_output p = [1; 2].
Proof.
  eexists. eexists. eexists. split; [apply build_built with (fuel := 50); vm_compute; reflexivity|].
  split; vm_compute; reflexivity.
Qed.

(** ** C23: conflict-free tables are parsed exactly *)
(** the same for any table with the candidates needed, see [covering] *)
Lemma covering_exact :
  forall (L T : Type) (E : EqDec T) (eps init : T) (ps : list (production T))
         (solver : option (syntax_error_solver L T)) (self : parser L T)
         (tokens w : list (token L T)) (root : node L T),
    constructed_parser eps init ps solver self -> conflict_free (pr_transitions self) ->
    covering eps init ps (candidates self) -> initial_ends_in_terminal eps ps init ->
    non_terminal ps init -> tree_for eps ps init root w -> prefix w tokens ->
    terminates_with (fun fuel => parse_from_tokens fuel self tokens) (Done (ResultOk root, [])).
Proof.
  intros L T E eps init ps solver self tokens w root B Hcf Hrep Hend Hn Ht Hp.
  apply constructed_built in B. split; [discriminate|]. eapply (complete (bf_of B)); eauto.
Qed.

Theorem C23_conflict_free_exact :
  forall (L T : Type) (E : EqDec T) (eps init : T) (ps : list (production T))
         (solver : option (syntax_error_solver L T)) (self : parser L T)
         (tokens w : list (token L T)) (root : node L T),
    built_parser eps init ps solver self -> conflict_free (pr_transitions self) ->
    repeats_harmless eps ps init -> initial_ends_in_terminal eps ps init ->
    non_terminal ps init -> tree_for eps ps init root w -> prefix w tokens ->
    terminates_with (fun fuel => parse_from_tokens fuel self tokens) (Done (ResultOk root, [])).
Proof.
  intros L T E eps init ps solver self tokens w root B Hcf Hrep Hend Hn.
  apply (covering_exact B Hcf (harmless_covering (built_built B) Hrep Hn) Hend Hn).
Qed.
Print Assumptions C23_conflict_free_exact.

(** hence a sentence has one tree, and that tree is found *)
(** the same for any table with the candidates needed, see [covering] *)
Lemma covering_sentences :
  forall (L T : Type) (E : EqDec T) (eps init : T) (ps : list (production T))
         (solver : option (syntax_error_solver L T)) (self : parser L T)
         (tokens : list (token L T)),
    constructed_parser eps init ps solver self -> conflict_free (pr_transitions self) ->
    covering eps init ps (candidates self) -> initial_ends_in_terminal eps ps init -> non_terminal ps init ->
    derives eps ps [init] (map (@tok_type L T) tokens) ->
    Forall (fun t => tok_type t <> eps /\ ~ non_terminal ps (tok_type t)) tokens ->
    exists root, tree_for eps ps init root tokens /\
      (forall root', tree_for eps ps init root' tokens -> root' = root) /\
      terminates_with (fun fuel => parse_from_tokens fuel self tokens) (Done (ResultOk root, [])).
Proof.
  intros L T E eps init ps solver self tokens B Hcf Hrep Hend Hn Hd Hl.
  destruct (derives_tree Hd Hl) as [root Ht]. exists root.
  assert (Hpre : prefix tokens tokens) by (exists []; now rewrite app_nil_r).
  pose proof (covering_exact B Hcf Hrep Hend Hn Ht Hpre) as H. splits; auto.
  intros root' Ht'. pose proof (covering_exact B Hcf Hrep Hend Hn Ht' Hpre) as H'.
  pose proof (terminates_unique H H') as Heq. now inversion Heq.
Qed.

Theorem C23_sentences_accepted_and_unambiguous :
  forall (L T : Type) (E : EqDec T) (eps init : T) (ps : list (production T))
         (solver : option (syntax_error_solver L T)) (self : parser L T)
         (tokens : list (token L T)),
    built_parser eps init ps solver self -> conflict_free (pr_transitions self) ->
    repeats_harmless eps ps init -> initial_ends_in_terminal eps ps init -> non_terminal ps init ->
    derives eps ps [init] (map (@tok_type L T) tokens) ->
    Forall (fun t => tok_type t <> eps /\ ~ non_terminal ps (tok_type t)) tokens ->
    exists root, tree_for eps ps init root tokens /\
      (forall root', tree_for eps ps init root' tokens -> root' = root) /\
      terminates_with (fun fuel => parse_from_tokens fuel self tokens) (Done (ResultOk root, [])).
Proof.
  intros L T E eps init ps solver self tokens B Hcf Hrep Hend Hn.
  apply (covering_sentences B Hcf (harmless_covering (built_built B) Hrep Hn) Hend Hn).
Qed.
Print Assumptions C23_sentences_accepted_and_unambiguous.

Example C23_case : built_parser (L := nat) Eps Prog expr_productions None expr_parser /\
  conflict_free (pr_transitions expr_parser) /\ repeats_harmless Eps expr_productions Prog /\
  initial_ends_in_terminal Eps expr_productions Prog /\ non_terminal expr_productions Prog /\
  tree_for Eps expr_productions Prog expr_tree expr_tokens.
Proof.
  splits.
  - exact expr_built.
  - exact expr_conflict_free.
  - exact expr_harmless.
  - exact expr_ends.
  - apply non_terminalb_spec. reflexivity.
  - apply (C16_whole_input_partial _ expr_built expr_eof expr_tokens_eof expr_parses).
Qed.

(** 0 epsilon; S = 1 -> B B $; B = 2 -> p | q B; p = 3, q = 4, $ = 5: B is repeated, FOLLOW(B)
    lacks p and q, but nothing that ends B is nullable *)
Definition pair_productions : list (production nat) :=
  [Production 1 [2; 2; 5]; Production 2 [3]; Production 2 [4; 2]].

Lemma pair_harmless : repeats_harmless 0 pair_productions 1.
Proof.
  apply no_nullable_tails_harmless. intros p u B v w C Hp Ho HB Hd HC Hn.
  assert (H : Nat.eqb C 0 = true).
  { apply nullable_check_ok with (N := fun x => Nat.eqb x 0) in Hn; [|reflexivity|].
    - simpl in Hn. now rewrite andb_true_r in Hn.
    - simpl. intros q [<-|[<-|[<-|[]]]]; discriminate. }
  apply Nat.eqb_eq in H. subst C. destruct HC as (q & [<-|[<-|[<-|[]]]] & Hq); discriminate.
Qed.

Lemma pair_eof : eof_discipline 0 pair_productions 1 5.
Proof.
  split; [discriminate|]. split; [apply non_terminalb_false; reflexivity|].
  split; [|split].
  - intros p Hp. simpl in Hp. intros Hin.
    decompose [or] Hp; subst; simpl in Hin; intuition discriminate.
  - intros p Hp Hi. simpl in Hp.
    decompose [or] Hp; subst; try discriminate; try contradiction.
    exists [2; 2]. split; [reflexivity|simpl; intuition discriminate].
  - intros p Hp Hi. simpl in Hp. intros Hin.
    decompose [or] Hp; subst; simpl in Hin, Hi; intuition discriminate.
Qed.

Example C23_repeat_case : exists self : parser nat nat,
  built_parser 0 1 pair_productions None self /\
  conflict_free (pr_transitions self) /\ repeats_harmless 0 pair_productions 1 /\
  ~ no_repeated_neighbours pair_productions /\
  initial_ends_in_terminal 0 pair_productions 1 /\ non_terminal pair_productions 1 /\
  exists root, tree_for 0 pair_productions 1 root (map (Token (Some 7)) [3; 4; 3; 5]).
Proof.
  destruct (build (L := nat) 0 1 pair_productions None 100) as [self| |] eqn:Hb;
    [|vm_compute in Hb; discriminate..].
  exists self. apply build_built in Hb as B.
  assert (Hc : conflict_free_check (pr_transitions self) = true /\
    exists root, parse_from_tokens 50 self (map (Token (Some 7)) [3; 4; 3; 5]) = Done (ResultOk root, [])).
  { vm_compute in Hb. inversion Hb; subst self. split; [vm_compute; reflexivity|].
    eexists. vm_compute. reflexivity. }
  destruct Hc as (Hc & root & Hp). splits.
  - exact B.
  - now apply conflict_free_check_ok.
  - exact pair_harmless.
  - intros H. apply (H (Production 1 [2; 2; 5]) [] 2 [5]); [now left|reflexivity|].
    apply non_terminalb_spec. reflexivity.
  - exact (eof_ends pair_eof).
  - apply non_terminalb_spec. reflexivity.
  - exists root. refine (C16_whole_input_partial _ B pair_eof _ Hp).
    intros before t after Ht Hty.
    do 4 (destruct before as [|? before]; [inversion Ht; subst; try discriminate Hty; reflexivity|
      apply (f_equal (@tl _)) in Ht; cbn [tl map app] in Ht]).
    destruct before; discriminate.
Qed.

(** ** C22: every LL(1) sentence is accepted -- false in general *)
Definition C22_full_statement : Prop :=
  forall (L T : Type) (E : EqDec T) (eps init eof : T) (ps : list (production T))
         (self : parser L T) (tokens : list (token L T)),
    built_parser eps init ps None self ->
    ll1 eps ps init -> eof_discipline eps ps init eof -> non_terminal ps init ->
    derives eps ps [init] (map (@tok_type L T) tokens) ->
    Forall (fun t => tok_type t <> eps /\ ~ non_terminal ps (tok_type t)) tokens ->
    exists root, terminates_with (fun fuel => parse_from_tokens fuel self tokens)
                                 (Done (ResultOk root, [])).

(** 0 epsilon; S = 1 -> Z c $ | d B b $; Z = 2 -> A; A = 3 -> B | b; B = 4 -> epsilon;
    b = 5, c = 6, d = 7, $ = 8.  The sentence [b c $] is rejected. *)
Definition ll1_rejecting : list (production nat) :=
  [Production 1 [2; 6; 8]; Production 1 [7; 4; 5; 8]; Production 2 [3];
   Production 3 [4]; Production 3 [5]; Production 4 [0]].

Lemma ll1_rejecting_ll1 : ll1 0 ll1_rejecting 1.
Proof.
  destruct (cfg_new (insertion_order nat) 0 1 ll1_rejecting) as [g| |] eqn:Hg; try discriminate.
  assert (Hg2 := Hg). vm_compute in Hg. inversion Hg as [Hg'].
  destruct (ffs_from (insertion_order nat) 200 g) as [ffs| |] eqn:Hf;
    [|subst g; vm_compute in Hf; discriminate..].
  apply (ll1_check_ok _ _ _ Hg2 Hf).
  - apply no_repeated_neighbours_check. reflexivity.
  - apply non_terminalb_spec. reflexivity.
  - subst g. vm_compute in Hf. inversion Hf; subst ffs. vm_compute. reflexivity.
Qed.

Lemma ll1_rejecting_eof : eof_discipline 0 ll1_rejecting 1 8.
Proof.
  split; [discriminate|]. split; [apply non_terminalb_false; reflexivity|].
  split; [|split].
  - intros p Hp. simpl in Hp. intros Hin.
    decompose [or] Hp; subst; simpl in Hin; intuition discriminate.
  - intros p Hp Hi. simpl in Hp.
    decompose [or] Hp; subst; try discriminate; try contradiction.
    + exists [2; 6]. split; [reflexivity|simpl; intuition discriminate].
    + exists [7; 4; 5]. split; [reflexivity|simpl; intuition discriminate].
  - intros p Hp Hi. simpl in Hp. intros Hin.
    decompose [or] Hp; subst; simpl in Hin, Hi; intuition discriminate.
Qed.

Lemma ll1_rejecting_sentence : derives 0 ll1_rejecting [1] [5; 6; 8].
Proof.
  eapply derives_trans;
    [apply (@derives_production _ 0 ll1_rejecting (Production 1 [2; 6; 8])); simpl; auto|].
  apply (@derives_app _ 0 ll1_rejecting [2] [5] [6; 8] [6; 8]); [|apply derives_refl].
  eapply derives_trans;
    [apply (@derives_production _ 0 ll1_rejecting (Production 2 [3])); simpl; auto|].
  apply (@derives_production _ 0 ll1_rejecting (Production 3 [5])); simpl; auto 10.
Qed.

Theorem C22_full_statement_refuted : ~ C22_full_statement.
Proof.
  intros H.
  destruct (build (L := nat) 0 1 ll1_rejecting None 200) as [self| |] eqn:Hb;
    [|vm_compute in Hb; discriminate..].
  apply build_built in Hb as B.
  destruct (H _ _ _ _ _ 8 _ _ [Token None 5; Token None 6; Token None 8] B
              ll1_rejecting_ll1 ll1_rejecting_eof) as [root Hr].
  - apply non_terminalb_spec. reflexivity.
  - exact ll1_rejecting_sentence.
  - repeat (apply Forall_cons; [split; [discriminate|apply non_terminalb_false; reflexivity]|]). apply Forall_nil.
  - destruct (parse_from_tokens 100 self [Token None 5; Token None 6; Token None 8]) eqn:Hp.
    + assert (Hne : Done a <> OutOfFuel) by discriminate.
      pose proof (terminates_unique (parse_terminates _ _ _ Hp Hne) Hr) as Heq.
      vm_compute in Hb. inversion Hb; subst self. vm_compute in Hp. inversion Hp; subst a. discriminate.
    + vm_compute in Hb. inversion Hb; subst self. vm_compute in Hp. discriminate.
    + vm_compute in Hb. inversion Hb; subst self. vm_compute in Hp. discriminate.
Qed.
Print Assumptions C22_full_statement_refuted.

(** What holds: LL(1) sentences are accepted if no production is declared
    twice, repeated neighbours are harmless (C08, FollowSpec), every
    non-terminal is reachable, and a production starting with a nullable
    non-terminal X belongs in the textbook cell of every terminal following X
    (C13).  Missing: the grammars for which C08 or C13 fail. *)
Theorem C22_ll1_accepted_partial :
  forall (L T : Type) (E : EqDec T) (eps init : T) (ps : list (production T))
         (solver : option (syntax_error_solver L T))
         (self : parser L T) (tokens : list (token L T)),
    built_parser eps init ps solver self ->
    ll1 eps ps init -> initial_ends_in_terminal eps ps init -> non_terminal ps init ->
    NoDup ps -> repeats_harmless eps ps init ->
    (forall B, non_terminal ps B -> reachable_from eps ps init B) ->
    (forall q X rest a, In q ps -> p_output q = X :: rest -> non_terminal ps X ->
       nullable eps ps [X] -> can_follow eps ps init X a ->
       textbook_cell eps ps init (p_input q) a q) ->
    derives eps ps [init] (map (@tok_type L T) tokens) ->
    Forall (fun t => tok_type t <> eps /\ ~ non_terminal ps (tok_type t)) tokens ->
    exists root, tree_for eps ps init root tokens /\
      terminates_with (fun fuel => parse_from_tokens fuel self tokens) (Done (ResultOk root, [])).
Proof.
  intros L T E eps init ps solver self tokens B Hll Hend Hn Hnd Hrep Hr Hlead Hd Hl.
  assert (Hcf : conflict_free (pr_transitions self)).
  { intros A a l Hc. apply built_inv in B as (ho1 & ho2 & fuel & g & ffs & Hg & Hf & Hs).
    destruct (rdp_from_inv _ _ _ _ Hs) as (_ & _ & Ht).
    destruct (@C13_table_within_textbook_partial _ _ _ _ _ _ _ _ _ _ _ _ Hg Hf Ht Hr) as [[_ Hin] _].
    assert (Hlead' : forall q X rest b, In q ps -> p_output q = X :: rest -> non_terminal ps X ->
        nullable eps ps [X] -> in_set (get_follow_symbols ffs X) b ->
        textbook_cell eps ps init (p_input q) b q).
    { intros q X rest b Hq Ho HX HnX (s & Hs' & Hb). eapply Hlead; eauto.
      destruct (@C07_follow_sound _ _ _ _ _ _ _ _ _ _ _ _ _ Hg Hf Hs' Hb) as (H1 & H2 & _ & H4).
      split; auto. }
    specialize (Hin Hlead').
    assert (Hall : forall p, In p l -> textbook_cell eps ps init A a p).
    { intros p Hp. apply Hin. exists l. auto. }
    assert (Hndl : NoDup l).
    { destruct (@C11_table_contents _ _ _ _ _ _ _ _ _ _ _ _ A a Hg Hf Ht) as [_ Hk].
      destruct (Hk l Hc) as (keep & -> & _). now apply NoDup_filter, NoDup_filter. }
    destruct l as [|p [|q l]]; simpl; auto. exfalso.
    assert (p = q) by (apply (Hll A a); apply Hall; simpl; auto). subst q.
    inversion Hndl; subst. simpl in *. tauto. }
  destruct (C23_sentences_accepted_and_unambiguous B Hcf Hrep Hend Hn Hd Hl) as (root & H1 & _ & H2).
  exists root. auto.
Qed.
Print Assumptions C22_ll1_accepted_partial.

Example C22_case : ll1 Eps expr_productions Prog /\ NoDup expr_productions /\
  (forall q X rest a, In q expr_productions -> p_output q = X :: rest ->
       non_terminal expr_productions X -> nullable Eps expr_productions [X] ->
       can_follow Eps expr_productions Prog X a ->
       textbook_cell Eps expr_productions Prog (p_input q) a q).
Proof.
  split; [exact expr_ll1|]. split.
  - unfold expr_productions. repeat (constructor; [simpl; intuition discriminate|]). constructor.
  - intros q X rest a Hq Ho HX Hn. exfalso. exact (expr_leading Hq Ho HX Hn).
Qed.

(** ** C36: an initial symbol without productions *)
Theorem C36_initial_without_productions :
  forall (L T : Type) (E : EqDec T) (eps init : T) (ps : list (production T))
         (self : parser L T) (tok : token L T) (rest : list (token L T)),
    constructed_parser eps init ps None self -> ~ non_terminal ps init ->
    terminates_with (fun fuel => parse_from_tokens fuel self (tok :: rest))
                    (Done (ResultErr (FailedSymbol [] init), [])).
Proof.
  intros L T E eps init ps self tok rest B Hn. apply constructed_built in B. split; [discriminate|].
  pose proof (po_grammar (bf_of B)) as G.
  assert (Hc : transitions_get_productions (pr_transitions self) init (tok_type tok) = None).
  { apply (bf_none B). tauto. }
  exists 1. intros [|fuel] Hf; [lia|]. unfold parse_from_tokens.
  assert (Hi : get_initial_symbol (pr_grammar self) = init) by (apply (go_init G)). rewrite Hi.
  unfold inner_get_token_productions. rewrite Hc. simpl.
  unfold inner_parse_from_tokens_step, inner_parse_from_tokens_try_parse_productions. simpl.
  unfold inner_parse_from_tokens_try_fix_productions. rewrite (bf_solver B). reflexivity.
Qed.
Print Assumptions C36_initial_without_productions.

Example C36_case : exists self,
  built_parser (L := nat) Eps RParen expr_productions None self /\
  ~ non_terminal expr_productions RParen.
Proof.
  eexists. split; [apply build_built with (fuel := 200); vm_compute; reflexivity|].
  apply non_terminalb_false. reflexivity.
Qed.

(** ** C37: epsilon tokens are never consumed *)
Theorem C37_epsilon_tokens_never_consumed :
  forall (L T : Type) (E : EqDec T) (eps init : T) (ps : list (production T))
         (solver : option (syntax_error_solver L T)) (self : parser L T),
    built_parser eps init ps solver self ->
    (forall fuel tokens root h,
       parse_from_tokens fuel self tokens = Done (ResultOk root, h) ->
       exists w, tree_for eps ps init root w /\ prefix w tokens /\
                 Forall (fun t => tok_type t <> eps) w) /\
    (forall A l, transitions_get_productions (pr_transitions self) A eps = Some l -> l = []).
Proof.
  intros L T E eps init ps solver self B. split.
  - intros fuel tokens root h H. destruct (C14_parse_trees_valid _ _ B H) as (_ & _ & w & Hw & Hp).
    exists w. splits; auto.
    apply (proj1 (tree_leaves_all eps ps)) in Hw. eapply Forall_impl; [|exact Hw]. simpl. tauto.
  - intros A l Hl. apply built_built in B. destruct l as [|p l]; auto. exfalso.
    assert (Hp : In p (p :: l)) by now left.
    apply (bf_cells B _ _ Hl) in Hp as (Hp & _ & Hs).
    apply (selects_sem_terminal Hp) in Hs as [_ Hs]. congruence.
Qed.
Print Assumptions C37_epsilon_tokens_never_consumed.

Example C37_case : transitions_get_productions (pr_transitions expr_parser) ExprTail Eps = Some [].
Proof. vm_compute. reflexivity. Qed.

(** ** C38: trailing tokens do not change an accepted parse -- false in general *)
Definition C38_full_statement : Prop :=
  forall (L T : Type) (E : EqDec T) (eps init : T) (ps : list (production T))
         (self : parser L T) (tokens more : list (token L T)) (root : node L T),
    built_parser eps init ps None self ->
    terminates_with (fun fuel => parse_from_tokens fuel self tokens) (Done (ResultOk root, [])) ->
    terminates_with (fun fuel => parse_from_tokens fuel self (tokens ++ more))
                    (Done (ResultOk root, [])).

(** 0 epsilon; S = 1 -> Z c; Z = 2 -> X; X = 3 -> a c b | a; a = 4, b = 5, c = 6:
    [a c] is accepted, [a c b] is not *)
Definition trailing_productions : list (production nat) :=
  [Production 1 [2; 6]; Production 2 [3]; Production 3 [4; 6; 5]; Production 3 [4]].

Theorem C38_full_statement_refuted : ~ C38_full_statement.
Proof.
  intros H.
  destruct (build (L := nat) 0 1 trailing_productions None 200) as [self| |] eqn:Hb;
    [|vm_compute in Hb; discriminate..].
  apply build_built in Hb as B.
  destruct (parse_from_tokens 100 self [Token None 4; Token None 6]) as [[r h]| |] eqn:Hp1;
    [|vm_compute in Hb; inversion Hb; subst self; vm_compute in Hp1; discriminate..].
  destruct (parse_from_tokens 100 self [Token None 4; Token None 6; Token None 5]) as [[r' h']| |] eqn:Hp2;
    [|vm_compute in Hb; inversion Hb; subst self; vm_compute in Hp2; discriminate..].
  assert (Hne : forall x : parse_result nat nat * history nat nat, Done x <> OutOfFuel) by discriminate.
  pose proof (parse_terminates _ _ _ Hp1 (Hne _)) as H1.
  pose proof (parse_terminates _ _ _ Hp2 (Hne _)) as H2.
  vm_compute in Hb. inversion Hb as [Hself]. rewrite <- Hself in Hp1, Hp2.
  vm_compute in Hp1, Hp2. inversion Hp1; subst r h. inversion Hp2; subst r' h'.
  pose proof (H _ _ _ _ _ _ _ _ [Token None 5] _ B H1) as H3. simpl app in H3.
  pose proof (terminates_unique H2 H3) as Heq. discriminate.
Qed.
Print Assumptions C38_full_statement_refuted.

(** What holds: conflict-free tables.  Missing: tables with several candidates
    in a cell. *)
Theorem C38_trailing_tokens_partial :
  forall (L T : Type) (E : EqDec T) (eps init : T) (ps : list (production T))
         (solver : option (syntax_error_solver L T)) (self : parser L T)
         (tokens more : list (token L T)) (root : node L T) (fuel : nat) h,
    constructed_parser eps init ps solver self -> conflict_free (pr_transitions self) ->
    parse_from_tokens fuel self tokens = Done (ResultOk root, h) ->
    terminates_with (fun fuel => parse_from_tokens fuel self (tokens ++ more))
                    (Done (ResultOk root, [])).
Proof.
  intros L T E eps init ps solver self tokens more root fuel h B Hcf H. split; [discriminate|].
  eapply cf_parse with (self := self) (tokens := tokens); eauto.
  - intros A a. unfold inner_get_token_productions.
    destruct (transitions_get_productions (pr_transitions self) A a) as [l|] eqn:Hl; simpl; auto.
    rewrite map_length. eapply Hcf; eauto.
  - intros pos tok Hn. rewrite nth_error_app1; auto. apply nth_error_Some. congruence.
Qed.
Print Assumptions C38_trailing_tokens_partial.

Example C38_case : conflict_free (pr_transitions expr_parser) /\
  parse_from_tokens 100 expr_parser expr_tokens = Done (ResultOk expr_tree, []).
Proof. split; [exact expr_conflict_free|exact expr_parses]. Qed.

(** ** C40: a decision procedure *)
(** the same for any table with the candidates needed, see [covering] *)
Lemma covering_decides :
  forall (L T : Type) (E : EqDec T) (eps init eof : T) (ps : list (production T))
         (solver : option (syntax_error_solver L T)) (self : parser L T)
         (tokens before : list (token L T)) (t : token L T),
    constructed_parser eps init ps solver self -> conflict_free (pr_transitions self) ->
    covering eps init ps (candidates self) -> no_left_recursion_from eps ps init ->
    eof_discipline eps ps init eof -> non_terminal ps init ->
    tokens = before ++ [t] -> tok_type t = eof ->
    Forall (fun x => tok_type x <> eof) before ->
    (* the solver, if any, returns and answers positions inside the input, beyond the call's *)
    replying solver -> progressing solver ->
    (forall s h c fr, solver = Some s -> s h c = Reply (Some fr) ->
       fr_final_token_position fr < length tokens) ->
    exists res h,
      terminates_with (fun fuel => parse_from_tokens fuel self tokens) (Done (res, h)) /\
      ((exists root, res = ResultOk root) <->
       derives eps ps [init] (map (@tok_type L T) tokens) /\
       Forall (fun x => tok_type x <> eps /\ ~ non_terminal ps (tok_type x)) tokens) /\
      (forall root, res = ResultOk root -> tree_for eps ps init root tokens).
Proof.
  intros L T E eps init eof ps solver self tokens before t B Hcf Hrep Hlr He Hn Htok Ht Hb Hre Hpr Hin.
  destruct (C19_parsing_terminates tokens B Hlr Hpr) as [r Hr].
  assert (Hne : tokens <> []) by (rewrite Htok; destruct before; discriminate).
  destruct r as [[res h]|q|].
  2:{ exfalso. destruct Hr as [_ [n Hr]]. specialize (Hr n (le_n _)).
      destruct (C17_no_panic_partial _ B Hne Hr) as [(_ & s & h & c & Hs & Hc)|[_ Hno]].
      { destruct (Hre s h c Hs) as [a Ha]. congruence. }
      apply Hno. exists eof. split; auto. split; [exists before, t; auto|exact Hin]. }
  2:{ exfalso. now destruct Hr. }
  assert (Hlast : forall b x a, tokens = b ++ x :: a -> tok_type x = eof -> a = []).
  { intros b x a Hx Hxe. rewrite Htok in Hx.
    destruct a as [|y a]; auto. exfalso.
    destruct (app_eq_mid _ _ _ _ Hx) as [(m & H1 & H2)|(m & H1 & H2)].
    - destruct m as [|z m]; simpl in H2; [discriminate|]. inversion H2; subst.
      rewrite Forall_forall in Hb. apply (Hb z); auto. apply in_or_app. right. now left.
    - destruct m as [|z m]; simpl in H2; inversion H2. now destruct m. }
  assert (Hok : forall root, res = ResultOk root -> tree_for eps ps init root tokens).
  { intros root ->. destruct Hr as [_ [n Hr]]. specialize (Hr n (le_n _)).
    exact (C16_whole_input_partial _ B He Hlast Hr). }
  exists res, h. splits; auto. split.
  - intros [root Hres]. specialize (Hok root Hres). split; [eapply tree_derives; eauto|].
    apply (proj1 (tree_leaves_all eps ps)) in Hok. exact Hok.
  - intros [Hd Hl].
    destruct (covering_sentences B Hcf Hrep (eof_ends He) Hn Hd Hl)
      as (root & _ & _ & Hroot).
    exists root. pose proof (terminates_unique Hr Hroot) as Heq. now inversion Heq.
Qed.

Theorem C40_decision_procedure :
  forall (L T : Type) (E : EqDec T) (eps init eof : T) (ps : list (production T))
         (solver : option (syntax_error_solver L T)) (self : parser L T)
         (tokens before : list (token L T)) (t : token L T),
    built_parser eps init ps solver self -> conflict_free (pr_transitions self) ->
    repeats_harmless eps ps init -> no_left_recursion_from eps ps init ->
    eof_discipline eps ps init eof -> non_terminal ps init ->
    tokens = before ++ [t] -> tok_type t = eof ->
    Forall (fun x => tok_type x <> eof) before ->
    (* the solver, if any, returns and answers positions inside the input, beyond the call's *)
    replying solver -> progressing solver ->
    (forall s h c fr, solver = Some s -> s h c = Reply (Some fr) ->
       fr_final_token_position fr < length tokens) ->
    exists res h,
      terminates_with (fun fuel => parse_from_tokens fuel self tokens) (Done (res, h)) /\
      ((exists root, res = ResultOk root) <->
       derives eps ps [init] (map (@tok_type L T) tokens) /\
       Forall (fun x => tok_type x <> eps /\ ~ non_terminal ps (tok_type x)) tokens) /\
      (forall root, res = ResultOk root -> tree_for eps ps init root tokens).
Proof.
  intros L T E eps init eof ps solver self tokens before t B Hcf Hrep Hlr He Hn.
  intros. eapply (covering_decides _ B Hcf (harmless_covering (built_built B) Hrep Hn) Hlr He Hn); eauto.
Qed.
Print Assumptions C40_decision_procedure.

Example C40_case : built_parser (L := nat) Eps Prog expr_productions None expr_parser /\
  conflict_free (pr_transitions expr_parser) /\ repeats_harmless Eps expr_productions Prog /\
  no_left_recursion_from Eps expr_productions Prog /\ eof_discipline Eps expr_productions Prog Eof /\
  non_terminal expr_productions Prog /\
  expr_tokens = firstn 7 expr_tokens ++ [tk 8 Eof] /\
  Forall (fun x => tok_type x <> Eof) (firstn 7 expr_tokens) /\
  (* both outcomes occur *)
  parse_from_tokens 100 expr_parser expr_tokens = Done (ResultOk expr_tree, []) /\
  exists f, parse_from_tokens 100 expr_parser [tk 1 Id; tk 2 Id; tk 3 Eof] = Done (ResultErr f, []).
Proof.
  splits.
  - exact expr_built.
  - exact expr_conflict_free.
  - exact expr_harmless.
  - exact (no_left_recursion_anywhere (init := Prog) expr_no_left_recursion).
  - exact expr_eof.
  - apply non_terminalb_spec. reflexivity.
  - reflexivity.
  - simpl. repeat constructor; discriminate.
  - exact expr_parses.
  - eexists. vm_compute. reflexivity.
Qed.
