(** * Fixed derivations account for the tokens: C83 *)

From Verif Require Import BaseFacts GrammarFacts ParserBuild MoreFacts ParserSound Examples PropParse PropReports.
From Verif Require Export AccountSpec ReportSpec.

Set Implicit Arguments.

Section Account.
  Context {L T : Type} {E : EqDec T}.
  Variables (eps : T) (ps : list (production T)).
  Hypothesis Hok : productions_ok eps ps.

  Lemma tree_lexemes_all :
    (forall X n w, tree_for (L := L) eps ps X n w -> tree_lexemes eps n = map (@tok_lex L T) w) /\
    (forall Xs ns w, forest_for (L := L) eps ps Xs ns w ->
       flat_map (tree_lexemes eps) ns = map (@tok_lex L T) w /\ length ns = length Xs).
  Proof.
    apply tree_forest_ind.
    - intros tok He Hn. simpl. destruct (eq_dec (tok_type tok) eps); congruence.
    - simpl. destruct (eq_dec eps eps); congruence.
    - intros p children w Hp _ [IH Hl].
      destruct children as [|n children]; [|exact IH].
      exfalso. destruct (Hok _ Hp) as (_ & Hne & _). apply Hne. now destruct (p_output p).
    - auto.
    - intros X Xs n ns w ws _ IH _ [IH' Hl]. simpl. now rewrite IH, IH', map_app, Hl.
  Qed.

  Lemma lexemes_join (tokens : list (token L T)) p q r : p <= q -> q <= r ->
    lexemes_between tokens p q ++ lexemes_between tokens q r = lexemes_between tokens p r.
  Proof.
    intros H1 H2. unfold lexemes_between. rewrite <- map_app. f_equal.
    replace (r - p) with ((q - p) + (r - q)) by lia.
    rewrite <- (firstn_skipn (q - p) (firstn (q - p + (r - q)) (skipn p tokens))).
    rewrite firstn_firstn, Nat.min_l by lia. f_equal.
    rewrite skipn_firstn_comm, <- skipn_add. f_equal; [lia|]. f_equal. lia.
  Qed.

  Lemma lexemes_word (tokens w : list (token L T)) p q : between tokens p w q ->
    map (@tok_lex L T) w = lexemes_between tokens p q /\ p <= q /\ (p <= length tokens -> q <= length tokens).
  Proof.
    intros [-> [r Hr]]. split; [|split].
    - unfold lexemes_between. rewrite Hr. replace (p + length w - p) with (length w) by lia.
      rewrite firstn_app, Nat.sub_diag, firstn_O, app_nil_r, firstn_all. reflexivity.
    - lia.
    - intros Hp. apply (f_equal (@length _)) in Hr. rewrite skipn_length, app_length in Hr. lia.
  Qed.

  Variable tokens : list (token L T).
  Variable candidates : T -> T -> list (list T).
  Variable answer : T -> nat -> fixed_production L T -> nat -> Prop.
  Hypothesis Hans : forall X p fp q, answer X p fp q ->
    p <= q <= length tokens /\ production_lexemes eps fp = lexemes_between tokens p q.

  Lemma fixed_lexemes :
    (forall X p fs q, fixed_for eps ps tokens candidates answer X p fs q ->
       p <= q <= length tokens /\ symbol_lexemes eps fs = lexemes_between tokens p q) /\
    (forall Xs p parts q, fixed_parts eps ps tokens candidates answer Xs p parts q ->
       p <= q /\ (p <= length tokens -> q <= length tokens) /\
       flat_map (part_lexemes eps) parts = lexemes_between tokens p q).
  Proof.
    apply fixed_mutind.
    - intros X p fp q H. apply Hans in H as [H1 H2]. auto.
    - intros pr p tok parts q Hp Hnth _ _ (H1 & H2 & H3) _. split; [|exact H3]. split; auto. apply H2.
      assert (p < length tokens) by (apply nth_error_Some; congruence). lia.
    - intros p. split; auto. split; auto. unfold lexemes_between. rewrite Nat.sub_diag. reflexivity.
    - intros X Xs n w p q parts r Ht Hb _ (H1 & H2 & H3).
      destruct (lexemes_word Hb) as (H4 & H5 & H6). split; [lia|]. split; [auto|].
      simpl. rewrite (proj1 tree_lexemes_all _ _ _ Ht), H4, H3. now apply lexemes_join.
    - intros X Xs fs p q parts r _ _ [[H1 H1'] H2] _ (H3 & H4 & H5). split; [lia|]. split; [auto|].
      cbn [flat_map]. rewrite H5. replace (part_lexemes eps (FPartFixed fs)) with (symbol_lexemes eps fs).
      + rewrite H2. now apply lexemes_join.
      + destruct fs as [[ps'] X']. reflexivity.
  Qed.
End Account.

Section Repaired.
  Context {L T : Type} {E : EqDec T}.
  Variables (eps : T) (ps : list (production T)).
  Variable tokens : list (token L T).
  Variable candidates : T -> T -> list (list T).
  Variable answer : T -> nat -> fixed_production L T -> nat -> Prop.

  Lemma fixed_repaired :
    (forall X p fp q, answer X p fp q -> repaired eps ps X fp) ->
    (forall X p fs q, fixed_for eps ps tokens candidates answer X p fs q ->
       exists fp, fs = FixedSymbol fp X /\ repaired eps ps X fp) /\
    (forall Xs p parts q, fixed_parts eps ps tokens candidates answer Xs p parts q ->
       flat_map part_symbols parts = Xs /\
       (forall n, In (FPartOk n) parts -> exists w, tree_for eps ps (tok_type (node_token n)) n w) /\
       (forall X fp, In (FPartFixed (FixedSymbol fp X)) parts -> repaired eps ps X fp)).
  Proof.
    intros Hans. apply fixed_mutind.
    - intros X p fp q H. exists fp. split; auto. eapply Hans; eauto.
    - intros pr p tok parts q Hp _ _ _ (H1 & H2 & H3) _. eexists. split; [reflexivity|].
      now apply repaired_production.
    - intros p. split; [reflexivity|]. split; [intros n []|intros X fp []].
    - intros X Xs n w p q parts r Ht _ _ (H1 & H2 & H3). cbn [flat_map part_symbols].
      rewrite (tree_root Ht), H1. split; [reflexivity|]. split.
      + intros n' [Hn|Hn]; auto. inversion Hn; subst n'. rewrite (tree_root Ht). eauto.
      + intros X' fp [Hn|Hn]; [discriminate|auto].
    - intros X Xs fs p q parts r _ _ (fp & -> & Hr) _ (H1 & H2 & H3). cbn [flat_map part_symbols].
      rewrite H1. split; [reflexivity|]. split.
      + intros n' [Hn|Hn]; [discriminate|auto].
      + intros X' fp' [Hn|Hn]; auto. now inversion Hn; subst.
  Qed.

  Lemma parts_last u X : forall p parts q, ~ non_terminal ps X -> X <> eps ->
    fixed_parts eps ps tokens candidates answer (u ++ [X]) p parts q ->
    exists tok, nth_error tokens (q - 1) = Some tok /\ tok_type tok = X /\ 0 < q.
  Proof.
    induction u as [|Y u IH]; intros p parts q HX He H; simpl in H.
    - inversion H as [|? ? n w ? q' ps' r Ht Hb Hf|? ? fs ? q' ps' r Hn]; subst; [|contradiction].
      inversion Hf; subst. inversion Ht as [tok Ht1 Ht2 Ht3| |pr cs w' Hp _ Hi]; subst; [|congruence|].
      + destruct Hb as [-> [rest Hr]]. exists tok. split; [|split; [auto|simpl; lia]].
        simpl. replace (p + 1 - 1) with p by lia.
        rewrite <- (firstn_skipn p tokens), Hr.
        assert (Hl : p <= length tokens).
        { destruct (le_lt_dec p (length tokens)); auto. rewrite skipn_all2 in Hr by lia. discriminate. }
        rewrite nth_error_app2; rewrite firstn_length_le by auto; [|lia]. now rewrite Nat.sub_diag.
      + exfalso. apply HX. exists pr. auto.
    - inversion H; subst; eapply IH; eauto.
  Qed.
End Repaired.

(** ** C83: if the solver accounts for the tokens it steps over, a fixed parse accounts for
    all the tokens it went over: its lexemes, in trees and gaps from left to right, are
    those of the tokens from the start of the input to some position *)
Theorem C83_fixes_account_for_tokens :
  forall (L T : Type) (E : EqDec T) (eps init : T) (ps : list (production T))
         (s : syntax_error_solver L T) (self : parser L T)
         (fuel : nat) (tokens : list (token L T)) (f : fixed_symbol L T) h,
    built_parser eps init ps (Some s) self -> accounting eps s ->
    parse_from_tokens fuel self tokens = Done (ResultFix f, h) ->
    exists q, q <= length tokens /\
      symbol_lexemes eps f = map (@tok_lex L T) (firstn q tokens).
Proof.
  intros L T E eps init ps s self fuel tokens f h B Hs H.
  pose proof (built_constructed B) as C.
  destruct (C35_fix_reports _ _ C H) as [q Hf]. exists q.
  pose proof (proj1 (C33_solver_arguments fuel tokens C)) as Hargs.
  assert (Hok : productions_ok eps ps) by apply (go_ok (po_grammar (bf_of (built_built B)))).
  destruct (@fixed_lexemes L T E eps ps Hok tokens (candidates self) (answered (candidates self) (Some s) h)) as [Hall _].
  - intros X p fp q' (s' & h1 & c & h2 & Hs' & Hh & _ & Hp & Hr). inversion Hs'; subst s'.
    assert (Hin : In c h) by (rewrite Hh; apply in_or_app; right; now left).
    destruct (Hargs _ _ _ H Hin) as [Ht _].
    destruct (Hs _ _ _ _ Hr) as [H1 H2]. rewrite Hp, Ht in *. auto.
  - destruct (Hall _ _ _ _ Hf) as [[_ H1] H2]. split; auto. rewrite H2. unfold lexemes_between. simpl.
    now rewrite Nat.sub_0_r.
Qed.
Print Assumptions C83_fixes_account_for_tokens.

(** ** With an end marker, everything is accounted for: all the tokens, unless the solver
    answered a call about the initial symbol itself *)
Theorem C83_whole_input_accounted_for :
  forall (L T : Type) (E : EqDec T) (eps init eof : T) (ps : list (production T))
         (s : syntax_error_solver L T) (self : parser L T)
         (fuel : nat) (tokens : list (token L T)) (f : fixed_symbol L T) h,
    built_parser eps init ps (Some s) self -> accounting eps s ->
    eof_discipline eps ps init eof ->
    (forall before t after, tokens = before ++ t :: after -> tok_type t = eof -> after = []) ->
    parse_from_tokens fuel self tokens = Done (ResultFix f, h) ->
    symbol_lexemes eps f = map (@tok_lex L T) tokens \/
    exists fp h1 c h2 q, f = FixedSymbol fp init /\ h = h1 ++ c :: h2 /\
      call_about (candidates self) init c /\ call_position c = 0 /\ s h1 c = Reply (Some (FixResult q fp)).
Proof.
  intros L T E eps init eof ps s self fuel tokens f h B Hs He Hlast H.
  pose proof (built_constructed B) as C.
  destruct (C35_fix_reports _ _ C H) as [q Hf].
  pose proof (proj1 (C33_solver_arguments fuel tokens C)) as Hargs.
  assert (Hok : productions_ok eps ps) by apply (go_ok (po_grammar (bf_of (built_built B)))).
  destruct (@fixed_lexemes L T E eps ps Hok tokens (candidates self) (answered (candidates self) (Some s) h)) as [Hall _].
  { intros X p fp q' (s' & h1 & c & h2 & Hs' & Hh & _ & Hp & Hr). inversion Hs'; subst s'.
    assert (Hin : In c h) by (rewrite Hh; apply in_or_app; right; now left).
    destruct (Hargs _ _ _ H Hin) as [Ht _].
    destruct (Hs _ _ _ _ Hr) as [H1 H2]. rewrite Hp, Ht in *. auto. }
  pose proof (Hall _ _ _ _ Hf) as [[_ Hq] Hlex].
  inversion Hf as [X p fp q' (s' & h1 & c & h2 & Hs' & Hh & Hab & Hp & Hr)|pr p tok parts q' Hpr Htok Hc Hparts Hx HX]; subst.
  - right. inversion Hs'; subst s'. exists fp, h1, c, h2, q. auto.
  - left. destruct He as (He1 & He2 & _ & He4 & _).
    destruct (He4 pr Hpr eq_refl) as (u & Ho & _). rewrite Ho in Hparts.
    destruct (parts_last _ He2 He1 Hparts) as (t & Ht & Hty & Hpos).
    apply nth_error_split in Ht as (l1 & l2 & -> & Hl).
    assert (l2 = []) as -> by (eapply Hlast; eauto).
    rewrite Hlex. unfold lexemes_between. simpl. rewrite Nat.sub_0_r.
    rewrite firstn_all2; [reflexivity|]. rewrite app_length. simpl. lia.
Qed.
Print Assumptions C83_whole_input_accounted_for.

(** ** If the solver answers with repaired productions of the symbol asked about, the whole
    result is a repaired derivation of the initial symbol *)
Theorem C83_fixes_conform :
  forall (L T : Type) (E : EqDec T) (eps init : T) (ps : list (production T))
         (s : syntax_error_solver L T) (self : parser L T)
         (fuel : nat) (tokens : list (token L T)) (f : fixed_symbol L T) h,
    built_parser eps init ps (Some s) self -> conforming eps ps (candidates self) s ->
    parse_from_tokens fuel self tokens = Done (ResultFix f, h) ->
    exists fp, f = FixedSymbol fp init /\ repaired eps ps init fp.
Proof.
  intros L T E eps init ps s self fuel tokens f h B Hs H.
  destruct (C35_fix_reports _ _ (built_constructed B) H) as [q Hf].
  refine (proj1 (@fixed_repaired L T eps ps tokens (candidates self) (answered (candidates self) (Some s) h) _)
    _ _ _ _ Hf).
  intros X p fp q' (s' & h1 & c & h2 & Hs' & Hh & Hab & Hp & Hr). inversion Hs'; subst s'.
  exact (Hs _ _ _ _ _ Hab Hr).
Qed.
Print Assumptions C83_fixes_conform.

(** ** A case: a solver that skips one token and records it in a gap *)
Definition skip_one (ts : list (token nat sym)) (p : nat) : solver_reply nat sym :=
  match nth_error ts p with
  | Some (Token (Some l) _) => Reply (Some (FixResult (S p) (FixedProduction [FPartGap [l] []])))
  | _ => Reply None
  end.
Definition gap_solver : syntax_error_solver nat sym := fun _ c => skip_one (call_tokens c) (call_position c).

Lemma gap_solver_accounts : accounting Eps gap_solver.
Proof.
  intros h c q fp H. unfold gap_solver, skip_one in H.
  destruct (nth_error (call_tokens c) (call_position c)) as [[[l|] t]|] eqn:Hn; try discriminate.
  inversion H; subst q fp. clear H.
  assert (Hlt : call_position c < length (call_tokens c)) by (apply nth_error_Some; congruence).
  split; [lia|]. unfold lexemes_between. replace (S (call_position c) - call_position c) with 1 by lia.
  revert Hn. generalize (call_position c) as p. intros p.
  assert (Hsk : forall l' (ts : list (token nat sym)) p, nth_error ts p = Some l' -> firstn 1 (skipn p ts) = [l']).
  { clear. intros x ts. induction ts as [|y ts IH]; intros [|p] H; simpl in *; try discriminate.
    - now inversion H.
    - now apply IH. }
  intros Hn. now rewrite (Hsk _ _ _ Hn).
Qed.

(** [id + * eof]: the [*] goes into a gap, and all four lexemes are in the result *)
Example C83_case :
  built_parser Eps Prog expr_productions (Some gap_solver) (expr_parser_with gap_solver) /\
  accounting Eps gap_solver /\
  exists f h, parse_from_tokens 100 (expr_parser_with gap_solver) [tk 1 Id; tk 2 Plus; tk 3 Star; tk 4 Eof] =
              Done (ResultFix f, h) /\
    symbol_lexemes Eps f = [Some 1; Some 2; Some 3; Some 4].
Proof.
  split; [apply expr_built_with|]. split; [exact gap_solver_accounts|].
  do 2 eexists. split; vm_compute; reflexivity.
Qed.

(** ** A case for the other two theorems: after a [+] that no term follows, the solver keeps
    the [+], and puts the next token into a gap for the rest of the production *)
Definition keep_plus (ts : list (token nat sym)) (p : nat) : solver_reply nat sym :=
  match nth_error ts p, nth_error ts (S p) with
  | Some (Token (Some a) Plus), Some (Token (Some b) _) =>
      Reply (Some (FixResult (S (S p))
        (FixedProduction [FPartOk (Node [] (tk a Plus)); FPartGap [b] [Term; ExprTail]])))
  | _, _ => Reply None
  end.
Definition tail_solver : syntax_error_solver nat sym := fun _ c =>
  match c with
  | FixFailedProduction ts p (FailedProduction (FailedSymbol _ Term) _ [ExprTail]) => keep_plus ts p
  | _ => Reply None
  end.

Lemma tail_solver_answers h c q fp : tail_solver h c = Reply (Some (FixResult q fp)) ->
  exists ts p fps parsed a b t,
    c = FixFailedProduction ts p (FailedProduction (FailedSymbol fps Term) parsed [ExprTail]) /\
    nth_error ts p = Some (tk a Plus) /\ nth_error ts (S p) = Some (Token (Some b) t) /\
    q = S (S p) /\
    fp = FixedProduction [FPartOk (Node [] (tk a Plus)); FPartGap [b] [Term; ExprTail]].
Proof.
  destruct c as [ts p [[fps Y] parsed pending]|ts p fps]; [|discriminate]. simpl.
  destruct Y; try discriminate.
  destruct pending as [|[] [|]]; try discriminate. unfold keep_plus.
  destruct (nth_error ts p) as [[[a|] []]|] eqn:H1; try discriminate.
  destruct (nth_error ts (S p)) as [[[b|] t]|] eqn:H2; try discriminate.
  intros H. inversion H; subst. exists ts, p, fps, parsed, a, b, t. auto.
Qed.

Lemma firstn_two {A : Type} (x y : A) : forall ts p,
  nth_error ts p = Some x -> nth_error ts (S p) = Some y -> firstn 2 (skipn p ts) = [x; y].
Proof.
  induction ts as [|z ts IH]; intros [|p] H1 H2; simpl in *; try discriminate.
  - inversion H1; subst. destruct ts; [discriminate|]. simpl in *. congruence.
  - now apply IH.
Qed.

Lemma tail_solver_accounts : accounting Eps tail_solver.
Proof.
  intros h c q fp H.
  destruct (tail_solver_answers _ _ H) as (ts & p & fps & parsed & a & b & t & -> & H1 & H2 & -> & ->).
  simpl. assert (S p < length ts) by (apply nth_error_Some; congruence). split; [lia|].
  unfold lexemes_between. replace (S (S p) - p) with 2 by lia.
  now rewrite (firstn_two _ _ H1 H2).
Qed.

Lemma expr_plus_candidates X : candidates (expr_parser_with tail_solver) X Plus =
  match X with ExprTail => [[Plus; Term; ExprTail]] | TermTail => [[Eps]] | _ => [] end.
Proof. destruct X; vm_compute; reflexivity. Qed.

Lemma tail_solver_conforms :
  conforming Eps expr_productions (candidates (expr_parser_with tail_solver)) tail_solver.
Proof.
  intros h c X q fp Hab H.
  destruct (tail_solver_answers _ _ H) as (ts & p & fps & parsed & a & b & t & -> & H1 & H2 & -> & ->).
  destruct Hab as (tok & before & outs & Hn & Hc & Hf). simpl in Hn, Hf.
  rewrite H1 in Hn. inversion Hn; subst tok. simpl in Hc. rewrite expr_plus_candidates in Hc.
  inversion Hf as [|out fp' outs' fps' Hr Hf']; subst. inversion Hf'; subst. clear Hf Hf'.
  assert (Hout : (X = ExprTail /\ out = [Plus; Term; ExprTail]) \/ out = [Eps]).
  { assert (Hin : In out (before ++ [out])) by (apply in_or_app; right; now left).
    rewrite <- Hc in Hin. destruct X; simpl in Hin; intuition. }
  destruct Hout as [[-> ->]| ->].
  - apply (@repaired_production _ _ Eps expr_productions (Production ExprTail [Plus; Term; ExprTail])).
    + simpl; auto.
    + reflexivity.
    + intros n [Hi|[Hi|[]]]; [|discriminate]. inversion Hi; subst n. exists [tk a Plus].
      apply tree_token; [discriminate|]. apply non_terminalb_false. reflexivity.
    + intros X' fp [Hi|[Hi|[]]]; discriminate.
  - exfalso. destruct Hr as (u & Y & v & fps' & parsed' & Ho & Hfp). inversion Hfp; subst.
    destruct u as [|? [|]]; discriminate.
Qed.

(** [id + * eof]: the result is a repaired derivation of the whole input *)
Example C83_case_conforming :
  built_parser Eps Prog expr_productions (Some tail_solver) (expr_parser_with tail_solver) /\
  accounting Eps tail_solver /\
  conforming Eps expr_productions (candidates (expr_parser_with tail_solver)) tail_solver /\
  eof_discipline Eps expr_productions Prog Eof /\
  exists f h, parse_from_tokens 100 (expr_parser_with tail_solver) [tk 1 Id; tk 2 Plus; tk 3 Star; tk 4 Eof] =
              Done (ResultFix f, h) /\
    symbol_lexemes Eps f = [Some 1; Some 2; Some 3; Some 4].
Proof.
  split; [apply expr_built_with|]. split; [exact tail_solver_accounts|].
  split; [exact tail_solver_conforms|]. split; [exact expr_eof|].
  do 2 eexists. split; vm_compute; reflexivity.
Qed.
