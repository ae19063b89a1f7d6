(** * Properties of choice, reports, solvers: C21, C24 - C35 *)

From Verif Require Import BaseFacts GrammarFacts DerivFacts FirstFacts FollowFacts TransitionsFacts.
From Verif Require Import ParserDeclined ParserPastChoice ChoiceSpec PastSpec ReportSpec LexSpec Examples PropParse.

Set Implicit Arguments.

(** the same parser with another solver *)
Definition with_solver {L T : Type} (self : parser L T) (s : option (syntax_error_solver L T))
  : parser L T :=
  {| pr_grammar := pr_grammar self; pr_solver := s; pr_transitions := pr_transitions self |}.

Lemma built_with_solver {L T : Type} {E : EqDec T} (eps init : T) ps sol (self : parser L T) sol' :
  built_parser eps init ps sol self -> built_parser eps init ps sol' (with_solver self sol').
Proof.
  intros H. apply built_inv in H as (ho1 & ho2 & fuel & g & ffs & Hg & Hf & Hs).
  exists ho1, ho2, fuel, g. split; auto.
  assert (H : rdp_from ho2 g ffs sol' = Done (with_solver self sol')).
  { unfold rdp_from in *. apply bind_done in Hs as (t & H1 & H2). inversion H2; subst self.
    rewrite H1. reflexivity. }
  destruct sol' as [s|].
  - unfold from_grammar_and_solver. now rewrite Hf.
  - unfold from_grammar, from_grammar_and_first_follow_symbols. now rewrite Hf.
Qed.

(** ** C24: ordered choice with sibling backtracking *)
Theorem C24_ordered_choice :
  forall (L T : Type) (E : EqDec T) (eps init : T) (ps : list (production T))
         (self : parser L T) (tok : token L T) (rest : list (token L T)),
    constructed_parser eps init ps None self ->
    (** a tree is returned iff ordered choice finds it *)
    (forall root,
       terminates_with (fun fuel => parse_from_tokens fuel self (tok :: rest))
                       (Done (ResultOk root, [])) <->
       exists q outs, choose eps ps (tok :: rest) (candidates self) init 0
                        (candidates self init (tok_type tok)) (Some (root, q, outs))) /\
    (** an error is returned iff ordered choice fails *)
    ((exists f, terminates_with (fun fuel => parse_from_tokens fuel self (tok :: rest))
                                (Done (ResultErr f, []))) <->
     choose eps ps (tok :: rest) (candidates self) init 0
            (candidates self init (tok_type tok)) None) /\
    (** the parse panics on an index iff ordered choice needs a lookahead beyond the input *)
    (terminates_with (fun fuel => parse_from_tokens fuel self (tok :: rest))
                     (Panicked PanicTokenOutOfRange) <->
     choose_past eps ps (tok :: rest) (candidates self) init 0
                 (candidates self init (tok_type tok))) /\
    (** nothing else can be the end of a parse *)
    (forall o, terminates_with (fun fuel => parse_from_tokens fuel self (tok :: rest)) o ->
       (exists root, o = Done (ResultOk root, [])) \/ (exists f, o = Done (ResultErr f, [])) \/
       o = Panicked PanicTokenOutOfRange).
Proof.
  intros L T E eps init ps self tok rest B. apply constructed_built in B.
  split; [intros root; split|split; [split|split; [split|]]].
  - intros [_ [n Hn]]. specialize (Hn n (le_n _)).
    apply (parse_choice_sound (bf_of B) (bf_solver B)) in Hn as (tok' & rest' & Heq & _ & Hc).
    inversion Heq; subst. exact Hc.
  - intros (q & outs & Hc).
    apply (parse_choice_complete (bf_of B) (bf_solver B)) in Hc as (n & res & Hn & ->).
    split; [discriminate|eauto].
  - intros (f & _ & n & Hn). specialize (Hn n (le_n _)).
    apply (parse_choice_sound (bf_of B) (bf_solver B)) in Hn as (tok' & rest' & Heq & _ & Hc).
    inversion Heq; subst. exact Hc.
  - intros Hc.
    apply (parse_choice_complete (bf_of B) (bf_solver B)) in Hc as (n & res & Hn & f & ->).
    exists f. split; [discriminate|eauto].
  - intros [_ [n Hn]]. specialize (Hn n (le_n _)).
    exact (parse_past_sound (bf_of B) (bf_solver B) _ _ _ Hn).
  - intros Hc. apply (parse_past_complete (bf_of B) (bf_solver B)) in Hc as [n Hn].
    split; [discriminate|eauto].
  - intros o [Ho [n Hn]]. specialize (Hn n (le_n _)). destruct o as [[res h]|q|]; [| |congruence].
    + apply (parse_choice_sound (bf_of B) (bf_solver B)) in Hn as (tok' & rest' & Heq & -> & Hc).
      destruct res as [root|f|f]; [left; eauto|right; left; eauto|destruct Hc].
    + right; right.
      assert (Hne : tok :: rest <> []) by discriminate.
      destruct (parse_panic (bf_of B) init 0 _ Hne Hn) as [[-> _]|[_ (s & _ & _ & Hs & _)]]; auto.
      rewrite (bf_solver B) in Hs. discriminate.
Qed.
Print Assumptions C24_ordered_choice.

(** 0 epsilon; S = 1 -> X Y $; X = 2 -> p | p q; Y = 3 -> r; p = 4, q = 5, r = 6, $ = 7:
    on [p q r $] the sibling X is tried again *)
Definition retry_productions : list (production nat) :=
  [Production 1 [2; 3; 7]; Production 2 [4]; Production 2 [4; 5]; Production 3 [6]].
Definition retry_parser (s : option (syntax_error_solver nat nat)) : parser nat nat :=
  with_solver (get_done (no_parser 0) (build 0 1 retry_productions None 100)) s.
Lemma retry_built s : built_parser 0 1 retry_productions s (retry_parser s).
Proof.
  apply built_with_solver with (sol := None). apply build_built with (fuel := 100).
  vm_compute. reflexivity.
Qed.
Definition nt (x : nat) : token nat nat := Token (Some x) x.
Definition nl (x : nat) : node nat nat := Node [] (nt x).
Definition ni (x : nat) (cs : list (node nat nat)) : node nat nat := Node cs (Token None x).
Definition retry_tokens : list (token nat nat) := [nt 4; nt 5; nt 6; nt 7].
Definition retry_tree : node nat nat := ni 1 [ni 2 [nl 4; nl 5]; ni 3 [nl 6]; nl 7].

Example C24_case : parse_from_tokens 50 (retry_parser None) retry_tokens =
                   Done (ResultOk retry_tree, []) /\
  candidates (retry_parser None) 2 4 = [[4]; [4; 5]].
Proof. split; vm_compute; reflexivity. Qed.

(** 0 epsilon; S = 1 -> X Y; X = 2 -> p | p q; Y = 3 -> r: on the input
    [p q] the first candidate of X fails to leave a Y, the second leaves no token for Y *)
Definition past_productions : list (production nat) :=
  [Production 1 [2; 3]; Production 2 [4]; Production 2 [4; 5]; Production 3 [6]].

Example C24_past_case :
  match build (L := nat) 0 1 past_productions None 100 with
  | Done self =>
      parse_from_tokens 50 self [nt 4; nt 5] = Panicked PanicTokenOutOfRange /\
      choose_past 0 past_productions [nt 4; nt 5] (candidates self) 1 0 (candidates self 1 4)
  | _ => False
  end.
Proof.
  destruct (build (L := nat) 0 1 past_productions None 100) as [self| |] eqn:Hb;
    [|vm_compute in Hb; discriminate..].
  apply build_built in Hb as B.
  assert (Hp : parse_from_tokens 50 self [nt 4; nt 5] = Panicked PanicTokenOutOfRange).
  { vm_compute in Hb. inversion Hb; subst self. vm_compute. reflexivity. }
  split; auto. apply built_built in B. exact (parse_past_sound (bf_of B) (bf_solver B) _ _ _ Hp).
Qed.

(** ** C26: error reports follow the candidates *)
Theorem C26_error_reports :
  forall (L T : Type) (E : EqDec T) (eps init : T) (ps : list (production T))
         (solver : option (syntax_error_solver L T)) (self : parser L T)
         (fuel : nat) (tokens : list (token L T)) (f : failed_symbol L T) h,
    constructed_parser eps init ps solver self ->
    parse_from_tokens fuel self tokens = Done (ResultErr f, h) ->
    exists tok rest fps, tokens = tok :: rest /\ f = FailedSymbol fps init /\
      failed_list eps ps tokens (candidates self) (answered (candidates self) solver h)
                  (candidates self init (tok_type tok)) 0 fps.
Proof.
  intros L T E eps init ps solver self fuel tokens f h B H. apply constructed_built in B.
  destruct (parse_shape (bf_of B) _ _ H) as (tok & rest & Ht & _ & fps & Hf & Hl).
  rewrite (bf_solver B) in Hl. exists tok, rest, fps. auto.
Qed.
Print Assumptions C26_error_reports.

Example C26_case : exists f, parse_from_tokens 100 expr_parser [tk 1 Id; tk 2 Plus; tk 3 Eof] =
  Done (ResultErr f, []) /\
  reported f (FailedProduction (FailedSymbol [] Term) [ParsedOk (leaf 2 Plus)] [ExprTail]).
Proof.
  eexists. split; [vm_compute; reflexivity|].
  eapply reported_inside; [simpl; left; reflexivity|].
  eapply reported_inside; [simpl; left; reflexivity|].
  apply reported_here. simpl. left. reflexivity.
Qed.

(** ** C27: error reports reconstruct the production -- false in general *)
Definition C27_full_statement : Prop :=
  forall (L T : Type) (E : EqDec T) (eps init : T) (ps : list (production T))
         (solver : option (syntax_error_solver L T)) (self : parser L T)
         (fuel : nat) (tokens : list (token L T)) (f : failed_symbol L T) h fs parsed pending,
    built_parser eps init ps solver self ->
    parse_from_tokens fuel self tokens = Done (ResultErr f, h) ->
    reported f (FailedProduction fs parsed pending) ->
    exists p, In p ps /\
      p_output p = map (@parsed_symbol_type L T) parsed ++ failed_symbol_type fs :: pending.

(** S = 1 -> A b c; A = 2 -> a; a = 3, b = 4, c = 5; on the input [a x] the
    report is: nothing parsed, b failed, [b c] pending *)
Definition misaligned_productions : list (production nat) :=
  [Production 1 [2; 4; 5]; Production 2 [3]].

Theorem C27_full_statement_refuted : ~ C27_full_statement.
Proof.
  intros H.
  destruct (build (L := nat) 0 1 misaligned_productions None 50) as [self| |] eqn:Hb;
    [|vm_compute in Hb; discriminate..].
  apply build_built in Hb as B.
  assert (Hp : parse_from_tokens 50 self [nt 3; nt 6] =
     Done (ResultErr (FailedSymbol [FailedProduction (FailedSymbol [] 4) [] [4; 5]] 1), []))
    by (vm_compute in Hb; inversion Hb; subst self; vm_compute; reflexivity).
  destruct (H _ _ _ _ _ _ _ _ _ _ _ _ (FailedSymbol [] 4) [] [4; 5] B Hp) as (p & Hin & Ho).
  { apply reported_here. simpl. auto. }
  simpl in Ho. destruct Hin as [<- |[<- |[]]]; discriminate.
Qed.
Print Assumptions C27_full_statement_refuted.

Section Reported.
  Context {L T : Type} {E : EqDec T}.
  Context {eps init : T} {ps : list (production T)} {self : parser L T}.
  Hypothesis P : parser_of eps init ps self.
  Variable tokens : list (token L T).
  Variable answer : T -> nat -> fixed_production L T -> nat -> Prop.
  Notation cands := (candidates self).

  Lemma candidate_declared A a out : In out (cands A a) ->
    exists p, In p ps /\ p_input p = A /\ p_output p = out.
  Proof.
    unfold candidates. destruct (transitions_get_productions (pr_transitions self) A a) as [l|] eqn:Hl.
    - intros H. apply in_map_iff in H as (p & Ho & Hp).
      destruct (po_cells P _ _ _ Hl Hp) as [H1 H2]. eauto.
    - intros [].
  Qed.

  Lemma failed_list_In outs p fps fp :
    failed_list eps ps tokens cands answer outs p fps -> In fp fps ->
    exists out, In out outs /\ failed_production_report eps ps tokens cands answer out p fp.
  Proof.
    intros H. revert fp. induction fps as [|f fps IH] in outs, H |- *; intros fp Hin; [destruct Hin|].
    inversion H as [|out outs' p' fp' fps' H1 H2]; subst.
    destruct Hin as [<- |Hin]; [exists out; simpl; auto|].
    destruct (IH _ H2 _ Hin) as (o & Ho & Hr). exists o. simpl. auto.
  Qed.

  (** every reported failed production is an accurate report of a declared one *)
  Lemma reported_accurate f fp : reported f fp -> forall A a p fps x,
    f = FailedSymbol fps x -> failed_list eps ps tokens cands answer (cands A a) p fps ->
    exists pr q, In pr ps /\ failed_production_report eps ps tokens cands answer (p_output pr) q fp.
  Proof.
    induction 1 as [fps x fp Hin|fps x f parsed pending fp Hin Hr IH]; intros A a p fps' x' Heq Hl.
    - inversion Heq; subst. destruct (failed_list_In _ Hl Hin) as (out & Ho & Hf).
      destruct (candidate_declared _ _ _ Ho) as (pr & H1 & _ & <-). eauto.
    - inversion Heq; subst. destruct (failed_list_In _ Hl Hin) as (out & Ho & Hf).
      inversion Hf as [u Y v p' q parsed' fs Hpre Hrep]; subst.
      inversion Hrep as [X0 p0 Hn Hne Hno HX|X0 p0 tok fps0 Hn Htok Hl0 HX]; subst.
      + inversion Hr as [? ? ? Hx|? ? ? ? ? ? Hx]; destruct Hx.
      + eapply IH; eauto.
  Qed.

  Lemma parsed_prefix_types u p parsed q : parsed_prefix eps ps tokens cands answer u p parsed q ->
    (forall x, In x u -> ~ non_terminal ps x) -> map (@parsed_symbol_type L T) parsed = u.
  Proof.
    induction 1 as [|X Xs n w p q parsed r Hn Ht Hb Hp IH|X Xs n w p q parsed r Hn|X Xs fs p q parsed r HX Hf Hp IH];
      intros Hall; simpl; auto.
    - rewrite (tree_root Ht), IH; auto. intros x Hx. apply Hall. now right.
    - exfalso. apply (Hall X); simpl; auto.
    - rewrite IH; [|intros x Hx; apply Hall; now right]. inversion Hf; subst; auto.
  Qed.

  Lemma parsed_prefix_keep keep u p parsed q :
    (forall x, keep x = true <-> ~ non_terminal ps x) ->
    (forall X p fp q, ~ answer X p fp q) ->
    parsed_prefix eps ps tokens cands answer u p parsed q ->
    map (@parsed_symbol_type L T) parsed = filter keep u.
  Proof.
    intros Hk Hno.
    induction 1 as [|X Xs n w p q parsed r Hn Ht Hb Hp IH|X Xs n w p q parsed r Hn Ht Hb Hp IH|X Xs fs p q parsed r HX Hf Hp IH];
      simpl; auto.
    - apply Hk in Hn. rewrite Hn. simpl. now rewrite (tree_root Ht), IH.
    - destruct (keep X) eqn:HX; auto. apply Hk in HX. contradiction.
    - exfalso. destruct (proj1 (fixed_needs_answer eps ps tokens cands answer) _ _ _ _ Hf) as (X' & p' & fp & q' & Ha).
      eapply Hno; eauto.
  Qed.
End Reported.

(** What holds: a reported failed production stands for a declared production
    [u ++ failed :: v]; the parsed symbols are those of [u] without the
    non-terminals (those fixed by a solver excepted), and the pending symbols
    are what remains of the production after as many symbols as are listed.
    So the report is exact when only terminals come before the failed symbol.
    Missing: exactness when a parsed non-terminal comes before. *)
Theorem C27_reports_partial :
  forall (L T : Type) (E : EqDec T) (eps init : T) (ps : list (production T))
         (solver : option (syntax_error_solver L T)) (self : parser L T)
         (fuel : nat) (tokens : list (token L T)) (f : failed_symbol L T) h fs parsed pending,
    constructed_parser eps init ps solver self ->
    parse_from_tokens fuel self tokens = Done (ResultErr f, h) ->
    reported f (FailedProduction fs parsed pending) ->
    exists p u v, In p ps /\ p_output p = u ++ failed_symbol_type fs :: v /\
      pending = skipn (length parsed + 1) (p_output p) /\
      (* exact if only terminals come before *)
      ((forall x, In x u -> ~ non_terminal ps x) ->
         map (@parsed_symbol_type L T) parsed = u /\ pending = v) /\
      (* without solver answers, the terminals of [u] are listed *)
      (forall keep, (forall x, keep x = true <-> ~ non_terminal ps x) -> declined solver h ->
         map (@parsed_symbol_type L T) parsed = filter keep u).
Proof.
  intros L T E eps init ps solver self fuel tokens f h fs parsed pending B H Hr.
  destruct (C26_error_reports _ _ B H) as (tok & rest & fps & Ht & Hf & Hl).
  apply constructed_built in B.
  destruct (reported_accurate (bf_of B) Hr _ _ Hf Hl) as (p & q & Hp & Hrep).
  inversion Hrep as [u Y v p' q' parsed' fs' Hpre Hfail Hout]; subst.
  assert (HY : failed_symbol_type fs = Y) by (inversion Hfail; subst; reflexivity). rewrite HY.
  exists p, u, v. rewrite <- Hout. splits; auto.
  - intros Hall. pose proof (parsed_prefix_types Hpre Hall) as Htypes. split; auto.
    assert (Hlen : length parsed = length u) by (rewrite <- Htypes; now rewrite map_length).
    rewrite Hlen, Nat.add_1_r. clear. induction u as [|x u IH]; auto.
  - intros keep Hk Hdecl. eapply parsed_prefix_keep; eauto.
    intros X0 p0 fp q0 (s & h1 & c & h2 & Hs & Hh & _ & _ & Ha). rewrite (Hdecl _ _ _ _ Hs Hh) in Ha. discriminate.
Qed.
Print Assumptions C27_reports_partial.

Example C27_case : exists f self, built_parser 0 1 misaligned_productions None self /\
  parse_from_tokens 50 self [nt 3; nt 6] = Done (ResultErr f, []) /\
  reported f (FailedProduction (FailedSymbol [] 4) [] [4; 5]).
Proof.
  eexists. eexists. split; [apply build_built with (fuel := 50); vm_compute; reflexivity|].
  split; [vm_compute; reflexivity|]. apply reported_here. simpl. auto.
Qed.

(** ** C28: lexemes never influence parsing *)
Theorem C28_lexemes_irrelevant :
  forall (L L' T : Type) (E : EqDec T) (f : L -> L') (eps init : T) (ps : list (production T))
         (self : parser L T) (self' : parser L' T) (tokens : list (token L T)) (fuel : nat),
    built_parser eps init ps None self -> built_parser eps init ps None self' ->
    parse_from_tokens fuel self' (map (map_token f) tokens) =
    match parse_from_tokens fuel self tokens with
    | Done (r, _) => Done (map_result f r, [])
    | Panicked q => Panicked q
    | OutOfFuel => OutOfFuel
    end.
Proof.
  intros L L' T E f eps init ps self self' tokens fuel B B'.
  assert (B2 : built_parser eps init ps None
     {| pr_grammar := pr_grammar self; pr_solver := None (A := syntax_error_solver L' T);
        pr_transitions := pr_transitions self |}).
  { apply built_inv in B as (ho1 & ho2 & n & g & ffs & Hg & Hf & Hs).
    exists ho1, ho2, n, g. split; auto. unfold from_grammar, from_grammar_and_first_follow_symbols.
    rewrite Hf. simpl. unfold rdp_from in *. apply bind_done in Hs as (t & H1 & H2). inversion H2; subst self.
    rewrite H1. reflexivity. }
  rewrite (built_parse_eq (map (map_token f) tokens) fuel B' B2).
  apply built_built in B. pose proof (bf_solver B) as Hsol. destruct self as [g s t]. simpl in *. subst s.
  apply parse_map_lex.
Qed.
Print Assumptions C28_lexemes_irrelevant.

Example C28_case :
  parse_from_tokens 100 expr_parser (map (map_token (fun l => l + 10)) expr_tokens) =
    Done (ResultOk (map_node (fun l => l + 10) expr_tree), []) /\
  map (map_token (fun l => l + 10)) expr_tokens <> expr_tokens.
Proof. split; [vm_compute; reflexivity|discriminate]. Qed.

(** ** C29: fixes need a solver that answered *)
Theorem C29_fix_needs_answer :
  forall (L T : Type) (E : EqDec T) (eps init : T) (ps : list (production T))
         (solver : option (syntax_error_solver L T)) (self : parser L T)
         (fuel : nat) (tokens : list (token L T)) (res : parse_result L T) h,
    constructed_parser eps init ps solver self ->
    parse_from_tokens fuel self tokens = Done (res, h) ->
    (solver = None -> h = [] /\ forall f, res <> ResultFix f) /\
    (forall f, res = ResultFix f ->
       exists s h1 c h2 fr, solver = Some s /\ h = h1 ++ c :: h2 /\ s h1 c = Reply (Some fr)).
Proof.
  intros L T E eps init ps solver self fuel tokens res h B H. apply constructed_built in B.
  assert (Hfix : forall f, res = ResultFix f ->
       exists s h1 c h2 fr, solver = Some s /\ h = h1 ++ c :: h2 /\ s h1 c = Reply (Some fr)).
  { intros f ->. destruct (parse_shape (bf_of B) _ _ H) as (tok & rest & _ & _ & q & Hf).
    destruct (proj1 (fixed_needs_answer _ _ _ _ _) _ _ _ _ Hf) as (X' & p' & fp & q' & s & h1 & c & h2 & H1 & H2 & _ & _ & H3).
    rewrite (bf_solver B) in H1. exists s, h1, c, h2. eauto. }
  split; auto. intros ->. split.
  - eapply parse_no_solver_calls; [exact (bf_solver B)|exact H].
  - intros f Hf. destruct (Hfix f Hf) as (s & _ & _ & _ & _ & Hs & _). discriminate.
Qed.
Print Assumptions C29_fix_needs_answer.

(** [id + eof] with the skipping solver is fixed *)
Example C29_case : exists f c h,
  parse_from_tokens 100 (expr_parser_with skipping_solver) [tk 1 Id; tk 2 Plus; tk 3 Star; tk 4 Eof] =
  Done (ResultFix f, c :: h).
Proof. eexists. eexists. eexists. vm_compute. reflexivity. Qed.

(** ** C30: a declining solver changes nothing *)
Theorem C30_declining_solver :
  forall (L T : Type) (E : EqDec T) (eps init : T) (ps : list (production T))
         (s : syntax_error_solver L T) (self self' : parser L T) (tokens : list (token L T)),
    built_parser eps init ps (Some s) self -> built_parser eps init ps None self' ->
    (* a solver that never answers: same result, panic or divergence *)
    ((forall h c, s h c = Reply None) -> forall fuel,
       match parse_from_tokens fuel self tokens with
       | Done (res, _) => parse_from_tokens fuel self' tokens = Done (res, [])
       | Panicked q => parse_from_tokens fuel self' tokens = Panicked q
       | OutOfFuel => parse_from_tokens fuel self' tokens = OutOfFuel
       end) /\
    (* a solver that did not answer during this parse *)
    (forall fuel res h, parse_from_tokens fuel self tokens = Done (res, h) ->
       declined (Some s) h ->
       terminates_with (fun fuel => parse_from_tokens fuel self' tokens) (Done (res, []))).
Proof.
  intros L T E eps init ps s self self' tokens B B'. split.
  - intros Hs fuel. pose proof (built_with_solver None B) as B2.
    rewrite (built_parse_eq tokens fuel B' B2).
    assert (Hself : self = with_solver self (Some s)).
    { apply built_built in B. pose proof (bf_solver B) as Hb. destruct self; simpl in *; subst. reflexivity. }
    pose proof (parse_declining (pr_grammar self) (pr_transitions self) s tokens fuel Hs) as H.
    change (parse_from_tokens fuel {| pr_grammar := pr_grammar self; pr_solver := Some s; pr_transitions := pr_transitions self |} tokens)
      with (parse_from_tokens fuel (with_solver self (Some s)) tokens) in H.
    rewrite <- Hself in H.
    change (parse_from_tokens fuel {| pr_grammar := pr_grammar self; pr_solver := None; pr_transitions := pr_transitions self |} tokens)
      with (parse_from_tokens fuel (with_solver self None) tokens) in H.
    destruct (parse_from_tokens fuel self tokens) as [[res h]|q|];
      destruct (parse_from_tokens fuel (with_solver self None) tokens) as [[res' h']|q'|] eqn:Hp;
      inversion H; subst; auto.
    rewrite (parse_no_solver_calls (with_solver self None) eq_refl _ _ Hp). reflexivity.
  - intros fuel res h H Hd. split; [discriminate|].
    pose proof (built_with_solver None B) as B2.
    destruct (@declined_parse L T E self (with_solver self None) tokens eq_refl (fun _ _ => eq_refl) eq_refl h) with (fuel := fuel) (res := res)
      as [n Hn]; auto.
    + intros s0 h1 c h2 Hs0. apply built_built in B. rewrite (bf_solver B) in Hs0. apply Hd; auto.
    + exists n. intros fuel' Hle. rewrite (built_parse_eq tokens fuel' B' B2). auto.
Qed.
Print Assumptions C30_declining_solver.

Example C30_case : exists f c h,
  parse_from_tokens 100 (expr_parser_with (fun _ _ => Reply None)) [tk 1 Id; tk 2 Plus; tk 3 Star; tk 4 Eof] =
  Done (ResultErr f, c :: h).
Proof. eexists. eexists. eexists. vm_compute. reflexivity. Qed.

(** ** C31: fixing is a last resort -- false in general *)
Definition C31_full_statement : Prop :=
  forall (L T : Type) (E : EqDec T) (eps init : T) (ps : list (production T))
         (s : syntax_error_solver L T) (self self' : parser L T)
         (tokens : list (token L T)) (root : node L T),
    built_parser eps init ps None self -> built_parser eps init ps (Some s) self' ->
    replying (Some s) ->
    terminates_with (fun fuel => parse_from_tokens fuel self tokens) (Done (ResultOk root, [])) ->
    exists h, terminates_with (fun fuel => parse_from_tokens fuel self' tokens)
                              (Done (ResultOk root, h)).

(** a solver that claims to have repaired whatever it is given *)
Definition eager_solver : syntax_error_solver nat nat :=
  fun _ c => Reply (Some (FixResult (S (call_position c)) (FixedProduction []))).

(** the same, one token further *)
Definition hasty_solver : syntax_error_solver nat nat :=
  fun _ c => Reply (Some (FixResult (2 + call_position c) (FixedProduction []))).

Lemma hasty_replies : replying (Some hasty_solver).
Proof. intros s h c Hs. inversion Hs; subst s. eexists. reflexivity. Qed.

(** In the grammar of C24_case, on the sentence [p q r $], the symbol Y is
    handed to the solver before X is tried again. *)
Theorem C31_full_statement_refuted : ~ C31_full_statement.
Proof.
  intros H.
  assert (H0 : parse_from_tokens 50 (retry_parser None) retry_tokens = Done (ResultOk retry_tree, []))
    by (vm_compute; reflexivity).
  destruct (H _ _ _ _ _ _ hasty_solver _ _ retry_tokens _ (retry_built None)
              (retry_built (Some hasty_solver)) hasty_replies
              (parse_terminates _ _ _ H0 ltac:(discriminate))) as [h Hh].
  destruct (parse_from_tokens 50 (retry_parser (Some hasty_solver)) retry_tokens) as [[r h']| |] eqn:Hp;
    [|vm_compute in Hp; discriminate..].
  pose proof (terminates_unique (parse_terminates _ _ _ Hp ltac:(discriminate)) Hh) as Heq.
  inversion Heq; subst r h'. vm_compute in Hp. discriminate Hp.
Qed.
Print Assumptions C31_full_statement_refuted.

Lemma cf_solvers {L T : Type} {E : EqDec T} (eps init : T) (ps : list (production T))
      (sol sol' : option (syntax_error_solver L T)) (self self' : parser L T) tokens root fuel h :
  built_parser eps init ps sol self -> built_parser eps init ps sol' self' ->
  conflict_free (pr_transitions self) ->
  parse_from_tokens fuel self tokens = Done (ResultOk root, h) ->
  terminates_with (fun fuel => parse_from_tokens fuel self' tokens) (Done (ResultOk root, [])).
Proof.
  intros B B' Hcf H. split; [discriminate|].
  pose proof (built_with_solver sol' B) as B2.
  destruct (@cf_parse L T E self (with_solver self sol') eq_refl (fun _ _ => eq_refl)) with
    (tokens := tokens) (tokens' := tokens) (fuel := fuel) (root := root) (h := h) as [n Hn]; auto.
  - intros A a. unfold inner_get_token_productions.
    destruct (transitions_get_productions (pr_transitions self) A a) as [l|] eqn:Hl; simpl; auto.
    rewrite map_length. eapply Hcf; eauto.
  - exists n. intros fuel' Hle. rewrite (built_parse_eq tokens fuel' B' B2). auto.
Qed.

(** What holds: the tree is found with any solver when no cell has two
    productions; and for every grammar, a parse with a solver that returns
    yields the tree unless the solver answered during the parse.
    Missing: solvers that answer, on tables with several candidates in a cell. *)
Theorem C31_last_resort_partial :
  forall (L T : Type) (E : EqDec T) (eps init : T) (ps : list (production T))
         (s : syntax_error_solver L T) (self self' : parser L T)
         (tokens : list (token L T)) (root : node L T),
    built_parser eps init ps None self -> built_parser eps init ps (Some s) self' ->
    terminates_with (fun fuel => parse_from_tokens fuel self tokens) (Done (ResultOk root, [])) ->
    (conflict_free (pr_transitions self) ->
       terminates_with (fun fuel => parse_from_tokens fuel self' tokens) (Done (ResultOk root, []))) /\
    (forall fuel res h, parse_from_tokens fuel self' tokens = Done (res, h) ->
       declined (Some s) h -> res = ResultOk root).
Proof.
  intros L T E eps init ps s self self' tokens root B B' Hok. split.
  - intros Hcf. destruct Hok as [_ [n Hn]].
    exact (cf_solvers _ _ B B' Hcf (Hn n (le_n n))).
  - intros fuel res h H Hd. destruct (C30_declining_solver tokens B' B) as [_ Hdec].
    pose proof (terminates_unique (Hdec _ _ _ H Hd) Hok) as Heq. now inversion Heq.
Qed.
Print Assumptions C31_last_resort_partial.

Example C31_case :
  terminates_with (fun fuel => parse_from_tokens fuel expr_parser expr_tokens) (Done (ResultOk expr_tree, [])) /\
  conflict_free (pr_transitions expr_parser) /\
  (* the solver is asked, declines, and the tree is found all the same *)
  exists c h, parse_from_tokens 50 (retry_parser (Some (fun _ _ => Reply None))) retry_tokens =
              Done (ResultOk retry_tree, c :: h).
Proof.
  split; [eapply parse_terminates; [exact expr_parses|discriminate]|].
  split; [exact expr_conflict_free|]. eexists. eexists. vm_compute. reflexivity.
Qed.

(** ** C32: Ok with a solver agrees with the solver-less parse -- false in general *)
Definition C32_full_statement : Prop :=
  forall (L T : Type) (E : EqDec T) (eps init : T) (ps : list (production T))
         (s : syntax_error_solver L T) (self self' : parser L T)
         (tokens : list (token L T)) (root : node L T) fuel h,
    built_parser eps init ps (Some s) self -> built_parser eps init ps None self' ->
    parse_from_tokens fuel self tokens = Done (ResultOk root, h) ->
    terminates_with (fun fuel => parse_from_tokens fuel self' tokens) (Done (ResultOk root, [])).

(** 0 epsilon; S = 1 -> V X y; V = 2 -> v | v a b; X = 3 -> a | P Q | c; P = 4 -> a | a b;
    Q = 5 -> c; a = 6, b = 7, c = 8, v = 9, y = 10.  On [v a b c y] the parse with the
    eager solver is V(v a b) X(c) y; without solver it is V(v) X(P(a b) Q(c)) y. *)
Definition two_trees_productions : list (production nat) :=
  [Production 1 [2; 3; 10]; Production 2 [9]; Production 2 [9; 6; 7];
   Production 3 [6]; Production 3 [4; 5]; Production 3 [8];
   Production 4 [6]; Production 4 [6; 7]; Production 5 [8]].

Definition two_trees_parser (s : option (syntax_error_solver nat nat)) : parser nat nat :=
  with_solver (get_done (no_parser 0) (build 0 1 two_trees_productions None 200)) s.
Lemma two_trees_built s : built_parser 0 1 two_trees_productions s (two_trees_parser s).
Proof.
  apply built_with_solver with (sol := None). apply build_built with (fuel := 200).
  vm_compute. reflexivity.
Qed.
Definition two_trees_tokens : list (token nat nat) := [nt 9; nt 6; nt 7; nt 8; nt 10].

Theorem C32_full_statement_refuted : ~ C32_full_statement.
Proof.
  intros H.
  destruct (parse_from_tokens 50 (two_trees_parser (Some eager_solver)) two_trees_tokens)
    as [[[root|f|f] h]| |] eqn:Hp; [|vm_compute in Hp; discriminate..].
  pose proof (H _ _ _ _ _ _ _ _ _ _ _ _ _ (two_trees_built (Some eager_solver)) (two_trees_built None) Hp) as H1.
  destruct (parse_from_tokens 50 (two_trees_parser None) two_trees_tokens) as [[r h']| |] eqn:Hp';
    [|vm_compute in Hp'; discriminate..].
  pose proof (terminates_unique (parse_terminates _ _ _ Hp' ltac:(discriminate)) H1) as Heq.
  inversion Heq; subst r h'. vm_compute in Hp, Hp'. inversion Hp; subst root. discriminate.
Qed.
Print Assumptions C32_full_statement_refuted.

(** What holds: when no cell has two productions, or the solver did not answer
    during the parse.  Missing: solvers that answered, on other tables. *)
Theorem C32_ok_agrees_partial :
  forall (L T : Type) (E : EqDec T) (eps init : T) (ps : list (production T))
         (s : syntax_error_solver L T) (self self' : parser L T)
         (tokens : list (token L T)) (root : node L T) fuel h,
    built_parser eps init ps (Some s) self -> built_parser eps init ps None self' ->
    conflict_free (pr_transitions self) \/ declined (Some s) h ->
    parse_from_tokens fuel self tokens = Done (ResultOk root, h) ->
    terminates_with (fun fuel => parse_from_tokens fuel self' tokens) (Done (ResultOk root, [])).
Proof.
  intros L T E eps init ps s self self' tokens root fuel h B B' [Hcf|Hd] H.
  - eapply cf_solvers with (self := self); eauto.
  - destruct (C30_declining_solver tokens B B') as [_ Hdec]. eapply Hdec; eauto.
Qed.
Print Assumptions C32_ok_agrees_partial.

Example C32_case :
  parse_from_tokens 100 (expr_parser_with skipping_solver) expr_tokens = Done (ResultOk expr_tree, []) /\
  (conflict_free (pr_transitions (expr_parser_with skipping_solver))).
Proof. split; [vm_compute; reflexivity|exact expr_conflict_free]. Qed.

(** ** C33: solver call arguments (of parses that return) *)
Theorem C33_solver_arguments :
  forall (L T : Type) (E : EqDec T) (eps init : T) (ps : list (production T))
         (solver : option (syntax_error_solver L T)) (self : parser L T)
         (fuel : nat) (tokens : list (token L T)),
    constructed_parser eps init ps solver self ->
    (forall res h c, parse_from_tokens fuel self tokens = Done (res, h) -> In c h ->
       call_tokens c = tokens /\ call_position c < length tokens) /\
    parse_from_tokens fuel self tokens <> Panicked PanicNoFailedProduction.
Proof.
  intros L T E eps init ps solver self fuel tokens B. split.
  - intros res h c H Hc. apply constructed_built in B.
    destruct (parse_shape (bf_of B) _ _ H) as (tok & rest & _ & Hall & _).
    rewrite Forall_forall in Hall. destruct (Hall c Hc) as (X & tk & before & outs & Hn & _ & _ & Hm).
    split; [destruct c; simpl in *; tauto|]. apply nth_error_Some. congruence.
  - intros H. destruct tokens as [|t tokens]; [simpl in H; discriminate H|].
    assert (Hne : t :: tokens <> []) by discriminate.
    destruct (C17_no_panic_partial _ B Hne H) as [[Hq _]|[Hq _]]; discriminate Hq.
Qed.
Print Assumptions C33_solver_arguments.

(** ** C34: which method is called -- the documented contract is not kept *)
Definition C34_full_statement : Prop :=
  forall (L T : Type) (E : EqDec T) (eps init : T) (ps : list (production T))
         (solver : option (syntax_error_solver L T)) (self : parser L T)
         (fuel : nat) (tokens : list (token L T)) res h c,
    built_parser eps init ps solver self ->
    parse_from_tokens fuel self tokens = Done (res, h) -> In c h ->
    exists X tok, nth_error tokens (call_position c) = Some tok /\ non_terminal ps X /\
      match c with
      | FixFailedProduction _ p fp =>
          length (candidates self X (tok_type tok)) = 1 /\
          failed_list eps ps tokens (candidates self) (answered (candidates self) solver h)
                      (candidates self X (tok_type tok)) p [fp]
      | FixFailedProductions _ p fps =>
          length (candidates self X (tok_type tok)) >= 2 /\
          failed_list eps ps tokens (candidates self) (answered (candidates self) solver h)
                      (candidates self X (tok_type tok)) p fps
      end.

(** fix_failed_productions for a symbol without any candidate: S = 1 -> a = 2 on [b] *)
Theorem C34_full_statement_refuted : ~ C34_full_statement.
Proof.
  intros H.
  destruct (build 0 1 [Production 1 [2]] (Some (fun _ _ => Reply None) : option (syntax_error_solver nat nat)) 50)
    as [self| |] eqn:Hb; [|vm_compute in Hb; discriminate..].
  apply build_built in Hb as B.
  assert (Hp : parse_from_tokens 50 self [nt 3] =
               Done (ResultErr (FailedSymbol [] 1), [FixFailedProductions [nt 3] 0 []]))
    by (vm_compute in Hb; inversion Hb; subst self; vm_compute; reflexivity).
  destruct (H _ _ _ _ _ _ _ _ _ _ _ _ _ B Hp (or_introl eq_refl)) as (X & tok & _ & _ & Hl & Hf).
  inversion Hf as [? Heq|]. rewrite <- Heq in Hl. simpl in Hl. lia.
Qed.
Print Assumptions C34_full_statement_refuted.

(** fix_failed_production for a symbol with two candidates, one of which had
    succeeded: S = 1 -> s X c; X = 2 -> x | x y; s = 3, x = 4, y = 5, c = 6; on [s x z] *)
Definition second_try_productions : list (production nat) :=
  [Production 1 [3; 2; 6]; Production 2 [4]; Production 2 [4; 5]].

Theorem C34_single_candidate_refuted : exists self h1 fp h2 f,
  built_parser 0 1 second_try_productions (Some (fun _ _ => Reply None)) self /\
  parse_from_tokens 50 self [nt 3; nt 4; nt 7] =
    Done (ResultErr f, h1 ++ FixFailedProduction [nt 3; nt 4; nt 7] 1 fp :: h2) /\
  (* the only symbol with candidates at that position has two *)
  forall X, candidates self X 4 = [] \/ (X = 2 /\ candidates self X 4 = [[4]; [4; 5]]).
Proof.
  destruct (build 0 1 second_try_productions (Some (fun _ _ => Reply None) : option (syntax_error_solver nat nat)) 50)
    as [self| |] eqn:Hb; [|vm_compute in Hb; discriminate..].
  apply build_built in Hb as B.
  exists self, [], (FailedProduction (FailedSymbol [] 5) [ParsedOk (nl 4)] []). eexists. eexists.
  split; auto. vm_compute in Hb. inversion Hb; subst self. split.
  - vm_compute. reflexivity.
  - intros X. destruct X as [|[|[|X]]]; vm_compute; auto.
Qed.
Print Assumptions C34_single_candidate_refuted.

(** What holds (calls of parses that return): the call reports exactly the
    outputs [outs] tried for some symbol at the call's position, which are the
    last candidates of that symbol there; fix_failed_production is called if
    one output was tried, fix_failed_productions if none or several were; and
    the symbol is on a single path: no other production was left to try above it.
    Missing: the count of the outputs tried is not that of the candidates when
    the symbol is tried again or has no candidate. *)
Theorem C34_solver_contract_partial :
  forall (L T : Type) (E : EqDec T) (eps init : T) (ps : list (production T))
         (solver : option (syntax_error_solver L T)) (self : parser L T)
         (fuel : nat) (tokens : list (token L T)) res h c,
    constructed_parser eps init ps solver self ->
    parse_from_tokens fuel self tokens = Done (res, h) -> In c h ->
    exists X tok before outs,
      nth_error tokens (call_position c) = Some tok /\
      candidates self X (tok_type tok) = before ++ outs /\
      single_path eps init ps tokens (candidates self) (answered (candidates self) solver h) X (call_position c) outs /\
      match c with
      | FixFailedProduction ts p fp =>
          length outs = 1 /\
          failed_list eps ps tokens (candidates self) (answered (candidates self) solver h) outs p [fp]
      | FixFailedProductions ts p fps =>
          length outs <> 1 /\
          failed_list eps ps tokens (candidates self) (answered (candidates self) solver h) outs p fps
      end.
Proof.
  intros L T E eps init ps solver self fuel tokens res h c B H Hc. apply constructed_built in B.
  destruct (parse_shape (bf_of B) _ _ H) as (tok & rest & _ & Hall & _).
  rewrite Forall_forall in Hall. destruct (Hall c Hc) as (X & tk & before & outs & H1 & H2 & H3 & H4).
  rewrite (bf_solver B) in H3, H4.
  exists X, tk, before, outs. splits; auto. destruct c; tauto.
Qed.
Print Assumptions C34_solver_contract_partial.

Example C33_C34_case : exists f c1 c2 h,
  parse_from_tokens 50 (retry_parser (Some (fun _ _ => Reply None))) [nt 4; nt 5; nt 5; nt 7] =
  Done (ResultErr f, c1 :: c2 :: h).
Proof. eexists. eexists. eexists. eexists. vm_compute. reflexivity. Qed.

(** ** C35: fix reports are aligned with the grammar *)
Theorem C35_fix_reports :
  forall (L T : Type) (E : EqDec T) (eps init : T) (ps : list (production T))
         (solver : option (syntax_error_solver L T)) (self : parser L T)
         (fuel : nat) (tokens : list (token L T)) (f : fixed_symbol L T) h,
    constructed_parser eps init ps solver self ->
    parse_from_tokens fuel self tokens = Done (ResultFix f, h) ->
    exists q, fixed_for eps ps tokens (candidates self) (answered (candidates self) solver h) init 0 f q.
Proof.
  intros L T E eps init ps solver self fuel tokens f h B H. apply constructed_built in B.
  destruct (parse_shape (bf_of B) _ _ H) as (tok & rest & _ & _ & q & Hf).
  rewrite (bf_solver B) in Hf. eauto.
Qed.
Print Assumptions C35_fix_reports.

(** [id + * eof] is fixed inside Prog, Expr and ExprTail *)
Example C35_case : exists fp h n m,
  parse_from_tokens 100 (expr_parser_with skipping_solver) [tk 1 Id; tk 2 Plus; tk 3 Star; tk 4 Eof] =
  Done (ResultFix (FixedSymbol (FixedProduction
          [FPartFixed (FixedSymbol (FixedProduction [FPartOk n; FPartFixed fp]) Expr); FPartOk m]) Prog), h).
Proof. eexists. eexists. eexists. eexists. vm_compute. reflexivity. Qed.
