(** * Grammars that are LL(1) once factored need no factoring: C107 *)

From Verif Require Import ExactFacts ExpectFacts FollowSpec FollowRepeat BaseFacts GrammarFacts DerivFacts FollowFacts TransitionsFacts ParserSound ParserComplete.
From Verif Require Import ProductiveSpec LastSpec LastFacts ParserBuild Examples ExampleTools MoreFacts PropParse PropReports WorkSpec PropWork
  GuidedSpec ParserGuided PropGuided PropLimits PropPrefix PropLast PropEndMarker PropQuiet SuppliedSpec SuppliedFacts CoverFacts FactorFacts FactorLeft.
From Verif Require Export FactorSpec.

Set Implicit Arguments.

(** candidates stand in the order of declaration *)
Lemma candidates_declared_before {L T : Type} {E : EqDec T} (eps init : T) ps sol (self : parser L T) A a l1 out l2 out' :
  constructed_parser eps init ps sol self -> candidates self A a = l1 ++ out :: l2 -> In out' l2 -> out' <> out ->
  exists before after, ps = before ++ Production A out :: after /\ In (Production A out') after.
Proof.
  intros B Hc Hin Hne. unfold candidates in Hc.
  destruct (transitions_get_productions (pr_transitions self) A a) as [l|] eqn:Hl; [|now destruct l1].
  destruct (constructed_cells B _ _ Hl) as [keep ->].
  apply map_eq_app in Hc as (k1 & k2 & Hk & _ & Hc).
  apply map_eq_cons in Hc as (p & k3 & -> & <- & <-).
  unfold productions_of in Hk.
  apply filter_mid in Hk as (m1 & m2 & Hm & ->). apply filter_mid in Hm as Hm2.
  destruct Hm2 as (n1 & n2 & Hps & ->).
  apply in_map_iff in Hin as (q & <- & Hq).
  apply filter_In in Hq as [Hq _]. apply filter_In in Hq as [Hq Hqi].
  assert (Hp : In p (productions_of ps A)).
  { unfold productions_of. rewrite Hm. apply in_or_app. right. now left. }
  apply productions_of_In in Hp as [_ Hpi].
  assert (Hq' : In q (productions_of ps A)).
  { unfold productions_of. apply filter_In. split; auto. rewrite Hps. apply in_or_app. right. now right. }
  apply productions_of_In in Hq' as [_ Hqi'].
  exists n1, n2. destruct p as [pi po], q as [qi qo]; simpl in *; subst. auto.
Qed.

Section Wrong.
  Context {L T : Type} {E : EqDec T}.
  Variable eps init eof : T.
  Variable ps : list (production T).
  Variable cands : T -> T -> list (list T).
  Variable tokens : list (token L T).
  Hypothesis Heps : ~ non_terminal ps eps.
  Hypothesis Hcands : forall A a out, In out (cands A a) ->
    exists p, In p ps /\ p_input p = A /\ p_output p = out.
  Hypothesis Hll : ll1_once_factored eps ps init.
  Hypothesis Hlong : longer_first eps ps init.
  Hypothesis Heof : eof_discipline eps ps init eof.
  Hypothesis Hdecl : forall A a l1 out l2 out', cands A a = l1 ++ out :: l2 -> In out' l2 -> out' <> out ->
    exists before after, ps = before ++ Production A out :: after /\ In (Production A out') after.

  Notation types := (map (@tok_type L T)).
  Notation derives := (derives eps ps).
  Notation leaf := (@leaf L T eps ps).

  Lemma wrong_candidate_fails X u rest1 pos tok v l1 out l2 out0 ns0 w0 ns q :
    cands X (tok_type tok) = l1 ++ out :: l2 -> In out0 l2 -> out <> out0 ->
    placed eps init ps tokens X out0 ns0 w0 u rest1 pos -> w0 ++ rest1 = tok :: v -> nth_error tokens pos = Some tok ->
    ~ sequence eps ps tokens cands out pos (Some (ns, q)).
  Proof.
    intros Hc Hin Hne (Hp0 & Hf0 & Hctx & Hleaf & Hended & Hpos) Hw Hn Hseq.
    assert (Ho : In out (cands X (tok_type tok))) by (rewrite Hc; apply in_or_app; right; now left).
    destruct (@Hcands _ _ _ Ho) as ([X' out'] & Hp & HX & Hout). simpl in HX, Hout. subst X' out'.
    destruct (proj1 (proj2 (@choice_forests L T eps ps cands tokens Hcands)) _ _ _ Hseq _ _ eq_refl) as (w & v' & Hf & _ & Hs).
    destruct Hpos as (pre & post & Htok & <-). rewrite Htok, skipn_app, skipn_all, Nat.sub_diag in Hs. simpl in Hs.
    destruct (common_beginning out out0) as (c & r1 & r2 & -> & -> & Hways).
    assert (Hreach : reachable_from eps ps init X) by (exists u, (types rest1); exact Hctx).
    assert (Hnn : ~ nullable eps ps r1).
    { intros Hnull. destruct (@Hdecl _ _ _ _ _ _ Hc Hin ltac:(congruence)) as (b & a & Hps & Hafter).
      apply Hne. f_equal. eapply Hlong; eauto. }
    apply forest_split in Hf as (nc & n1 & wc & w1 & -> & -> & Hfc & Hf1).
    apply forest_split in Hf0 as (nc0 & n2 & wc0 & w2 & -> & -> & Hfc0 & Hf2).
    assert (Hl1 : Forall leaf w1) by exact (proj2 (@tree_leaves_all L T eps ps) _ _ _ Hf1).
    assert (Hl2 : Forall leaf w2) by exact (proj2 (@tree_leaves_all L T eps ps) _ _ _ Hf2).
    pose proof (proj1 (proj2 (@tree_derives_all L T eps ps) _ _ _ Hf1)) as Hd1.
    pose proof (proj1 (proj2 (@tree_derives_all L T eps ps) _ _ _ Hf2)) as Hd2.
    destruct w1 as [|a w1]; [exact (Hnn Hd1)|].
    assert (Hb : exists b y, w2 ++ rest1 = b :: y).
    { destruct w2 as [|b w2]; [|simpl; eauto]. destruct rest1 as [|b rest1]; [|simpl; eauto]. exfalso.
      (* the initial symbol's production, which ends in the marker *)
      simpl in Hctx. destruct Heof as (He1 & He2 & He3 & He4 & _).
      assert (HXi : X = init).
      { destruct (ends_once_derived Heof Hctx) as [H|[H|(x & H & _)]].
        - destruct u as [|y u]; [now inversion H|inversion H; destruct u; discriminate].
        - destruct u; discriminate.
        - apply app_inj_tail in H as [_ H]. subst X. exfalso. apply He2. exists (Production eof (c ++ r1)). auto. }
      subst X. destruct (He4 _ Hp0 eq_refl) as (u0 & Hu0 & _). destruct (He4 _ Hp eq_refl) as (u1 & Hu1 & Hin1).
      simpl in Hu0, Hu1. destruct r2 as [|y r2 _] using rev_ind.
      - rewrite app_nil_r in Hu0. subst c. destruct r1 as [|y r1 _] using rev_ind; [congruence|].
        rewrite app_assoc in Hu1. apply app_inj_tail in Hu1 as [<- _]. apply Hin1.
        apply in_or_app. left. apply in_or_app. right. now left.
      - rewrite app_assoc in Hu0. apply app_inj_tail in Hu0 as [_ ->].
        apply forest_split in Hf2 as (na & nb & wa & wb & _ & Hwab & _ & Hfb).
        symmetry in Hwab. apply app_eq_nil in Hwab as [_ ->].
        inversion Hfb as [|X' Xs' nt' ns' wt ws' Htt Hf3 HX1 HX2 HX3]; subst.
        apply app_eq_nil in HX3 as [-> _]. inversion Htt as [|Hx|p' ch w' Hp' Hfp' Hx]; subst; [congruence|].
        apply He2. exists p'. auto. }
    destruct Hb as (b & y & Hb).
    assert (Hlb : leaf b).
    { assert (H : Forall leaf (w2 ++ rest1)) by now apply Forall_app. rewrite Hb in H. now inversion H. }
    assert (Hla : leaf a) by now inversion Hl1.
    assert (Hfa : followed eps init ps (c ++ []) a).
    { split; auto. exists u, (types w1 ++ types rest1). rewrite app_nil_r. eapply derives_trans; [exact Hctx|].
      eapply derives_trans; [apply (@derives_ctx _ eps ps u (types rest1) [X] (c ++ r1)); exact (derives_production eps _ _ Hp)|].
      rewrite <- app_assoc. rewrite !(app_assoc u). exact (@derives_ctx _ eps ps (u ++ c) (types rest1) r1 (types (a :: w1)) Hd1). }
    assert (Hfb : followed eps init ps (c ++ []) b).
    { split; auto. exists u, (types y). rewrite app_nil_r. eapply derives_trans; [exact Hctx|].
      eapply derives_trans; [apply (@derives_ctx _ eps ps u (types rest1) [X] (c ++ r2)); exact (derives_production eps _ _ Hp0)|].
      change (tok_type b :: types y) with (types (b :: y)). rewrite <- Hb, map_app.
      rewrite <- app_assoc. rewrite !(app_assoc u). exact (@derives_ctx _ eps ps (u ++ c) (types rest1) r2 (types w2) Hd2). }
    assert (Hstream : wc0 ++ b :: (y ++ post) = wc ++ a :: (w1 ++ v')).
    { rewrite <- !app_assoc in Hs. simpl in Hs. rewrite <- Hs, app_comm_cons, <- Hb, <- app_assoc. reflexivity. }
    rewrite <- (app_nil_r c) in Hfc, Hfc0.
    destruct (proj2 (same_trees Heps Hll) _ _ _ Hfc c [] [] nc0 wc0 a (w1 ++ v') b (y ++ post) eq_refl Hfc0
                (eq_sym Hstream) Hfa Hfb) as (nsc & nsr & nsr2 & wc' & wr & wr2 & _ & _ & -> & -> & Hr & Hr2).
    inversion Hr; inversion Hr2; subst. rewrite !app_nil_r in Hstream. apply app_inv_head in Hstream.
    inversion Hstream; subst b. apply Hne. f_equal.
    apply (@Hll X c r1 r2 (tok_type a)); auto.
    - left. destruct Hla. apply types_can_start with (ws := w1); auto; split; auto.
    - destruct w2 as [|b w2].
      + right. split; [exact Hd2|]. simpl in Hb. subst rest1. destruct Hla. split; auto. split; auto. exists u, (types y). exact Hctx.
      + left. simpl in Hb. inversion Hb; subst b. destruct Hla. apply types_can_start with (ws := w2); auto; split; auto.
  Qed.
End Wrong.

(** for any table with the candidates needed, see [covering] *)
Lemma others_fail_exact :
  forall (L T : Type) (E : EqDec T) (eps init eof : T) (ps : list (production T))
         (solver : option (syntax_error_solver L T)) (self : parser L T) (before : list (token L T)) (t : token L T) root,
    constructed_parser eps init ps solver self -> covering eps init ps (candidates self) ->
    others_fail eps init ps (candidates self) (before ++ [t]) ->
    no_left_recursion_from eps ps init -> eof_discipline eps ps init eof -> non_terminal ps init ->
    tok_type t = eof -> tree_for eps ps init root (before ++ [t]) ->
    terminates_with (fun fuel => parse_from_tokens fuel self (before ++ [t])) (Done (ResultOk root, [])).
Proof.
  intros L T E eps init eof ps solver self before t root B Hcov Hno Hlr He Hinit Ht Htree.
  set (tokens := before ++ [t]) in *.
  pose proof (constructed_built B) as F.
  assert (Heps : ~ non_terminal ps eps) by apply (eps_not_nt (po_grammar (bf_of F))).
  pose proof (eof_ends He) as Hend.
  assert (Hpre : prefix tokens tokens) by (exists []; now rewrite app_nil_r).
  destruct (root_placed Heps Hcov Hend Hinit Htree Hpre) as (out & ns & tok & v & -> & Hpl & Hw & Hn & Hin).
  assert (Hwt : tokens ++ [] = tok :: v) by now rewrite app_nil_r.
  pose proof (constructed_without_solver B) as B0. set (self0 := with_solver self None) in *.
  pose proof (constructed_built B0) as F0.
  assert (Hne : tokens <> []) by (unfold tokens; destruct before; discriminate).
  assert (Hwin : forall r, choose eps ps tokens (candidates self) init 0 (candidates self init (tok_type tok)) r ->
      exists outs', r = Some (Node ns (Token None init), length tokens, outs')).
  { intros r Hch. exact (proj1 (@right_candidate_wins_if L T E eps init ps (candidates self) tokens Heps Hcov Hno)
        _ _ _ _ Hch out ns tokens [] [] tok v [] Hpl Hwt Hn eq_refl Hin). }
  assert (Hpr : progressing (None : option (syntax_error_solver L T))) by (intros s h c fr; discriminate).
  destruct (C19_parsing_terminates tokens B0 Hlr Hpr) as [r Hr].
  pose proof Hr as [Hnf [n Hrun]]. specialize (Hrun n (le_n _)).
  assert (Hch : exists q outs, choose eps ps tokens (candidates self) init 0 (candidates self init (tok_type tok))
                 (Some (Node ns (Token None init), q, outs))).
  { destruct r as [[res h]|pn|]; [| |congruence].
    - apply (parse_choice_sound (bf_of F0) (bf_solver F0)) in Hrun as (tok' & rest' & Htok & -> & Hc).
      assert (tok' = tok) by (rewrite Htok in Hn; now inversion Hn). subst tok'.
      destruct res as [root'|f|f].
      + destruct Hc as (q & outs & Hc). destruct (Hwin _ Hc) as [o Heq]. inversion Heq; subst. eauto.
      + destruct (Hwin _ Hc) as [o Heq]. discriminate.
      + destruct Hc.
    - exfalso. destruct (C17_no_panic_partial _ B0 Hne Hrun) as [(_ & s & h & c & Hs & _)|[_ Hno']]; [discriminate Hs|].
      apply Hno'. exists eof. split; auto. split; [exists before, t; auto|]. intros s h c fr; discriminate. }
  destruct Hch as (q & outs & Hch).
  assert (Htok : exists rest, tokens = tok :: rest) by (rewrite app_nil_r in Hwt; eauto).
  destruct Htok as [rest Htok].
  rewrite Htok. eapply C99_settled_not_asked; [exact B|exact Hinit|]. rewrite <- Htok.
  exact (proj1 (@placed_settled L T E eps init ps (candidates self) tokens Heps Hcov Hno)
           _ _ _ _ Hch out ns tokens [] [] tok v Hpl Hwt Hn eq_refl Hin).
Qed.

Lemma factored_exact :
  forall (L T : Type) (E : EqDec T) (eps init eof : T) (ps : list (production T))
         (solver : option (syntax_error_solver L T)) (self : parser L T) (before : list (token L T)) (t : token L T) root,
    constructed_parser eps init ps solver self -> covering eps init ps (candidates self) ->
    ll1_once_factored eps ps init -> longer_first eps ps init ->
    no_left_recursion_from eps ps init -> eof_discipline eps ps init eof -> non_terminal ps init ->
    tok_type t = eof -> tree_for eps ps init root (before ++ [t]) ->
    terminates_with (fun fuel => parse_from_tokens fuel self (before ++ [t])) (Done (ResultOk root, [])).
Proof.
  intros L T E eps init eof ps solver self before t root B Hcov Hll Hlong Hlr He Hinit Ht Htree.
  refine (@others_fail_exact L T E eps init eof ps solver self before t root B Hcov _ Hlr He Hinit Ht Htree).
  pose proof (constructed_built B) as F.
  assert (Heps : ~ non_terminal ps eps) by apply (eps_not_nt (po_grammar (bf_of F))).
  intros X u rest1 pos tok' v' l1 o l2 out0 ns0 w0 ns' q.
  apply (@wrong_candidate_fails L T E eps init eof ps (candidates self) (before ++ [t]) Heps (candidates_declared F) Hll Hlong He).
  intros A a k1 o1 k2 o2. exact (@candidates_declared_before L T E eps init ps solver self A a k1 o1 k2 o2 B).
Qed.

(** Ok answers are trees for all the tokens *)
Lemma ok_whole_input :
  forall (L T : Type) (E : EqDec T) (eps init eof : T) (ps : list (production T))
         (solver : option (syntax_error_solver L T)) (self : parser L T)
         (before : list (token L T)) (t : token L T) fuel root h,
    constructed_parser eps init ps solver self -> eof_discipline eps ps init eof -> non_terminal ps init ->
    Forall (fun x => tok_type x <> eof) before ->
    parse_from_tokens fuel self (before ++ [t]) = Done (ResultOk root, h) ->
    tree_for eps ps init root (before ++ [t]).
Proof.
  intros L T E eps init eof ps solver self before t fuel root h B He Hinit Hb Hr.
  assert (Heps : ~ non_terminal ps eps) by apply (eps_not_nt (po_grammar (bf_of (constructed_built B)))).
  destruct (C14_parse_trees_valid _ _ B Hr) as (_ & _ & w & Hw & rest & Hp).
  destruct (sentence_ends_in_eof He Heps Hinit Hw) as (b & t' & -> & Ht').
  destruct rest as [|z rest] using rev_ind; [rewrite app_nil_r in Hp; now rewrite Hp|]. clear IHrest. exfalso.
  rewrite app_assoc in Hp. apply app_inj_tail in Hp as [Hp _].
  rewrite Hp in Hb. apply Forall_app in Hb as [Hb _]. apply Forall_app in Hb as [_ Hb].
  inversion Hb; subst. contradiction.
Qed.

(** a parser that parses all sentences decides *)
Lemma exact_decides :
  forall (L T : Type) (E : EqDec T) (eps init eof : T) (ps : list (production T))
         (self : parser L T) (before : list (token L T)) (t : token L T),
    constructed_parser eps init ps None self ->
    (forall root, tree_for eps ps init root (before ++ [t]) ->
       terminates_with (fun fuel => parse_from_tokens fuel self (before ++ [t])) (Done (ResultOk root, []))) ->
    no_left_recursion_from eps ps init -> eof_discipline eps ps init eof -> non_terminal ps init ->
    tok_type t = eof -> Forall (fun x => tok_type x <> eof) before ->
    exists res,
      terminates_with (fun fuel => parse_from_tokens fuel self (before ++ [t])) (Done (res, [])) /\
      (forall root, res = ResultOk root <-> tree_for eps ps init root (before ++ [t])) /\
      ((exists f, res = ResultErr f) <-> forall root, ~ tree_for eps ps init root (before ++ [t])).
Proof.
  intros L T E eps init eof ps self before t B Hex Hlr He Hinit Ht Hb.
  set (tokens := before ++ [t]).
  assert (Hne : tokens <> []) by (unfold tokens; destruct before; discriminate).
  assert (Hpr : progressing (None : option (syntax_error_solver L T))) by (intros s h c fr; discriminate).
  destruct (C19_parsing_terminates tokens B Hlr Hpr) as [r Hr].
  destruct r as [[res h]|q|].
  2:{ exfalso. destruct Hr as [_ [n Hr]]. specialize (Hr n (le_n _)).
      destruct (C17_no_panic_partial _ B Hne Hr) as [(_ & s & h & c & Hs & _)|[_ Hno]]; [discriminate Hs|].
      apply Hno. exists eof. split; auto. split; [exists before, t; auto|]. intros s h c fr; discriminate. }
  2:{ exfalso. now destruct Hr. }
  pose proof Hr as [_ [n Hr']]. pose proof (Hr' n (le_n _)) as Hn. clear Hr'.
  destruct (C29_fix_needs_answer _ _ B Hn) as [Hnone _]. destruct (Hnone eq_refl) as [-> Hfix].
  assert (Hok : forall root, res = ResultOk root -> tree_for eps ps init root tokens).
  { intros root ->. eapply ok_whole_input; eauto. }
  assert (Hcomplete : forall root, tree_for eps ps init root tokens -> res = ResultOk root).
  { intros root Htr. pose proof (Hex root Htr) as H1.
    pose proof (terminates_unique Hr H1) as Heq. now inversion Heq. }
  exists res. split; [exact Hr|]. split; [split; auto|]. split.
  - intros [f ->] root Htr. specialize (Hcomplete _ Htr). discriminate.
  - intros Hno. destruct res as [root|f|f]; [|eauto|].
    + exfalso. apply (Hno root). auto.
    + exfalso. eapply Hfix; eauto.
Qed.

Lemma factored_decides :
  forall (L T : Type) (E : EqDec T) (eps init eof : T) (ps : list (production T))
         (self : parser L T) (before : list (token L T)) (t : token L T),
    constructed_parser eps init ps None self -> covering eps init ps (candidates self) ->
    ll1_once_factored eps ps init -> longer_first eps ps init ->
    no_left_recursion_from eps ps init -> eof_discipline eps ps init eof -> non_terminal ps init ->
    tok_type t = eof -> Forall (fun x => tok_type x <> eof) before ->
    exists res,
      terminates_with (fun fuel => parse_from_tokens fuel self (before ++ [t])) (Done (res, [])) /\
      (forall root, res = ResultOk root <-> tree_for eps ps init root (before ++ [t])) /\
      ((exists f, res = ResultErr f) <-> forall root, ~ tree_for eps ps init root (before ++ [t])).
Proof.
  intros L T E eps init eof ps self before t B Hcov Hll Hlong Hlr He Hinit Ht.
  apply (@exact_decides L T E eps init eof ps self before t B); auto.
  intros root. exact (factored_exact before t B Hcov Hll Hlong Hlr He Hinit Ht).
Qed.

(** ** With an end marker, every token list is decided *)
Theorem C107_decides :
  forall (L T : Type) (E : EqDec T) (eps init eof : T) (ps : list (production T))
         (self : parser L T) (before : list (token L T)) (t : token L T),
    built_parser eps init ps None self ->
    ll1_once_factored eps ps init -> longer_first eps ps init -> repeats_harmless eps ps init ->
    no_left_recursion_from eps ps init -> eof_discipline eps ps init eof -> non_terminal ps init ->
    tok_type t = eof -> Forall (fun x => tok_type x <> eof) before ->
    exists res,
      terminates_with (fun fuel => parse_from_tokens fuel self (before ++ [t])) (Done (res, [])) /\
      (forall root, res = ResultOk root <-> tree_for eps ps init root (before ++ [t])) /\
      ((exists f, res = ResultErr f) <-> forall root, ~ tree_for eps ps init root (before ++ [t])).
Proof.
  intros L T E eps init eof ps self before t B Hll Hlong Hrep Hlr He Hinit.
  exact (factored_decides t (built_constructed B)
           (harmless_covering (built_built B) Hrep Hinit) Hll Hlong Hlr He Hinit).
Qed.
Print Assumptions C107_decides.

(** ** ... with any solver: on the sentences it is never asked *)
Theorem C107_any_solver :
  forall (L T : Type) (E : EqDec T) (eps init eof : T) (ps : list (production T))
         (solver : option (syntax_error_solver L T)) (self : parser L T)
         (before : list (token L T)) (t : token L T),
    built_parser eps init ps solver self ->
    ll1_once_factored eps ps init -> longer_first eps ps init -> repeats_harmless eps ps init ->
    no_left_recursion_from eps ps init -> eof_discipline eps ps init eof -> non_terminal ps init ->
    tok_type t = eof -> Forall (fun x => tok_type x <> eof) before ->
    (forall root, tree_for eps ps init root (before ++ [t]) <->
       terminates_with (fun fuel => parse_from_tokens fuel self (before ++ [t])) (Done (ResultOk root, []))) /\
    (forall fuel root h, parse_from_tokens fuel self (before ++ [t]) = Done (ResultOk root, h) -> h = []).
Proof.
  intros L T E eps init eof ps solver self before t B Hll Hlong Hrep Hlr He Hinit Ht Hb.
  assert (H1 : forall root, tree_for eps ps init root (before ++ [t]) ->
     terminates_with (fun fuel => parse_from_tokens fuel self (before ++ [t])) (Done (ResultOk root, []))).
  { intros root. exact (factored_exact before t (built_constructed B)
      (harmless_covering (built_built B) Hrep Hinit) Hll Hlong Hlr He Hinit Ht). }
  split.
  - intros root. split; auto. intros [_ [n Hr]].
    exact (ok_whole_input _ _ (built_constructed B) He Hinit Hb (Hr n (le_n n))).
  - intros fuel root h Hr.
    pose proof (H1 _ (ok_whole_input _ _ (built_constructed B) He Hinit Hb Hr)) as H2.
    pose proof (terminates_unique (parse_terminates _ _ _ Hr ltac:(discriminate)) H2) as Heq. now inversion Heq.
Qed.
Print Assumptions C107_any_solver.

(** ** ... and with any adequate FIRST and FOLLOW sets, whatever the repeats *)
Theorem C107_supplied_sets :
  forall (L T : Type) (E : EqDec T) (eps init eof : T) (ps : list (production T))
         (ffs : first_follow_symbols T) (self : parser L T) (before : list (token L T)) (t : token L T),
    supplied_parser eps init ps ffs self -> at_least_textbook eps ps ffs init ->
    ll1_once_factored eps ps init -> longer_first eps ps init ->
    no_left_recursion_from eps ps init -> eof_discipline eps ps init eof -> non_terminal ps init ->
    tok_type t = eof -> Forall (fun x => tok_type x <> eof) before ->
    exists res,
      terminates_with (fun fuel => parse_from_tokens fuel self (before ++ [t])) (Done (res, [])) /\
      (forall root, res = ResultOk root <-> tree_for eps ps init root (before ++ [t])) /\
      ((exists f, res = ResultErr f) <-> forall root, ~ tree_for eps ps init root (before ++ [t])).
Proof.
  intros L T E eps init eof ps ffs self before t B Htb.
  exact (factored_decides t (supplied_constructed B) (supplied_covering B Htb)).
Qed.
Print Assumptions C107_supplied_sets.

(** ** The LL(1) grammars are among them *)
Theorem C107_covers_ll1 :
  forall (T : Type) (E : EqDec T) (eps init : T) (ps : list (production T)),
    ll1 eps ps init -> all_productive eps ps init ->
    ll1_once_factored eps ps init /\ (nullable_last eps ps -> longer_first eps ps init).
Proof.
  intros T E eps init ps Hll Hprod.
  assert (Hc : forall A c r1 r2, reachable_from eps ps init A ->
     In (Production A (c ++ r1)) ps -> In (Production A (c ++ r2)) ps ->
     nullable eps ps c \/ r1 = r2).
  { intros A c r1 r2 (u & v & Hd) H1 H2.
    assert (Hd2 : derives eps ps [init] (u ++ c ++ (r1 ++ v))).
    { eapply derives_trans; [exact Hd|]. rewrite (app_assoc c).
      exact (@derives_ctx _ eps ps u v [A] (c ++ r1) (derives_production eps _ _ H1)). }
    destruct (fill _ _ Hprod Hd2) as (w & Hw & Hr).
    apply derives_app_inv in Hw as (wc & wr & -> & Hwc & _). apply Forall_app in Hr as [Hr _].
    destruct wc as [|a wc]; [left; exact Hwc|right].
    inversion Hr as [|a' wc' [Ha1 Ha2] _]; subst.
    assert (Hs : can_start eps ps c a) by (split; auto; split; auto; exists wc; exact Hwc).
    assert (Heq : Production A (c ++ r1) = Production A (c ++ r2)).
    { apply (Hll A a); (split; [assumption|split; [reflexivity|left; apply can_start_app; now left]]). }
    inversion Heq as [Heq']. now apply app_inv_head in Heq'. }
  split.
  - intros A c r1 r2 a Hr H1 H2 Hw Ha1 Ha2. destruct (Hc A c r1 r2 Hr H1 H2) as [Hn|]; auto.
    assert (Hcell : forall r, In (Production A (c ++ r)) ps -> predicted eps ps init A r a ->
       textbook_cell eps ps init A a (Production A (c ++ r))).
    { intros r Hp [Ha|[Hnr Ha]]; (split; [assumption|split; [reflexivity|]]).
      - left. apply can_start_app. auto.
      - right. split; auto. simpl. apply (derives_app Hn Hnr). }
    pose proof (Hll A a _ _ (Hcell r1 H1 Ha1) (Hcell r2 H2 Ha2)) as Heq. inversion Heq as [Heq'].
    now apply app_inv_head in Heq'.
  - intros Hlast before after A c r1 r2 Hps H2 Hr Hw Hn.
    assert (H1 : In (Production A (c ++ r1)) ps) by (rewrite Hps; apply in_or_app; right; now left).
    assert (H2' : In (Production A (c ++ r2)) ps) by (rewrite Hps; apply in_or_app; right; now right).
    destruct (Hc A c r1 r2 Hr H1 H2') as [Hnc|]; auto.
    destruct (list_eq_dec eq_dec r1 r2) as [|Hne]; auto. exfalso.
    apply (Hlast before (Production A (c ++ r1)) after (Production A (c ++ r2)) Hps H2 eq_refl).
    + intros Heq. inversion Heq as [Heq']. apply app_inv_head in Heq'. now apply Hne.
    + apply (derives_app Hnc Hn).
Qed.
Print Assumptions C107_covers_ll1.

(** ** Both conditions are computed from the sets of the crate *)
Theorem C107_conditions_are_computed :
  forall (T : Type) (E : EqDec T) (ho ho' : hash_order T) (fuel : nat) (eps init : T)
         (ps : list (production T)) (g : grammar T) (ffs : first_follow_symbols T),
    cfg_new ho eps init ps = Done g -> ffs_from ho' fuel g = Done ffs ->
    non_terminal ps init -> no_repeated_neighbours ps ->
    (is_factored_ll1 eps (first_set ffs) (follow_set ffs) ps = true -> ll1_once_factored eps ps init) /\
    (is_longer_first eps (first_set ffs) ps = true -> longer_first eps ps init) /\
    ((forall A, non_terminal ps A -> reachable_from eps ps init A) ->
     (ll1_once_factored eps ps init -> is_factored_ll1 eps (first_set ffs) (follow_set ffs) ps = true) /\
     (longer_first eps ps init -> is_longer_first eps (first_set ffs) ps = true)).
Proof.
  intros T E ho ho' fuel eps init ps g ffs Hg Hf Hinit Hrep. splits4.
  - exact (@factored_sound T E eps init ps ho ho' g fuel ffs Hg Hf Hinit Hrep).
  - exact (@longer_first_sound T E eps init ps ho ho' g fuel ffs Hg Hf).
  - intros Hr. split.
    + exact (@factored_complete T E eps init ps ho ho' g fuel ffs Hg Hf Hr).
    + exact (@longer_first_complete T E eps init ps ho ho' g fuel ffs Hg Hf Hr).
Qed.
Print Assumptions C107_conditions_are_computed.

(** ** Left recursion is excluded, where symbols are productive *)
Theorem C107_not_left_recursive :
  forall (L T : Type) (E : EqDec T) (eps init : T) (ps : list (production T))
         (solver : option (syntax_error_solver L T)) (self : parser L T),
    constructed_parser eps init ps solver self -> ll1_once_factored eps ps init ->
    all_productive eps ps init -> initial_ends_in_terminal eps ps init ->
    no_left_recursion_from eps ps init.
Proof.
  intros L T E eps init ps solver self B Hll Hprod Hend.
  apply factored_no_left_recursion; auto. apply (go_ok (po_grammar (bf_of (constructed_built B)))).
Qed.
Print Assumptions C107_not_left_recursive.

(** ** What the user of the crate can check suffices *)
Theorem C107_checked :
  forall (L T : Type) (E : EqDec T) (ho ho' : hash_order T) (fuel : nat) (eps init eof : T)
         (ps : list (production T)) (g : grammar T) (ffs : first_follow_symbols T)
         (solver : option (syntax_error_solver L T)) (self : parser L T)
         (before : list (token L T)) (t : token L T),
    cfg_new ho eps init ps = Done g -> ffs_from ho' fuel g = Done ffs ->
    built_parser eps init ps solver self ->
    is_factored_ll1 eps (first_set ffs) (follow_set ffs) ps = true ->
    is_longer_first eps (first_set ffs) ps = true ->
    no_repeated_neighbours ps -> all_productive eps ps init ->
    eof_discipline eps ps init eof -> non_terminal ps init ->
    tok_type t = eof -> Forall (fun x => tok_type x <> eof) before ->
    forall root, tree_for eps ps init root (before ++ [t]) <->
      terminates_with (fun fuel => parse_from_tokens fuel self (before ++ [t])) (Done (ResultOk root, [])).
Proof.
  intros L T E ho ho' fuel eps init eof ps g ffs solver self before t Hg Hf B H1 H2 Hrep Hprod He Hinit Ht Hb.
  destruct (@C107_conditions_are_computed T E ho ho' fuel eps init ps g ffs Hg Hf Hinit Hrep) as (C1 & C2 & _).
  apply (@C107_any_solver L T E eps init eof ps solver self before t); auto.
  - exact (no_repeated_neighbours_harmless Hrep).
  - exact (C107_not_left_recursive (built_constructed B) (C1 H1) Hprod (eof_ends He)).
Qed.
Print Assumptions C107_checked.

(** ** The order of the alternatives is needed.
    0 epsilon; S = 1 -> Y c $; Y = 2 -> X; X = 3 -> a | a b; a = 4, b = 5, c = 6, $ = 7:
    [a b c $] is a sentence, and the parser rejects it. *)
Definition shorter_first_productions : list (production nat) :=
  [Production 1 [2; 6; 7]; Production 2 [3]; Production 3 [4]; Production 3 [4; 5]].
Definition shorter_first_parser : parser nat nat := Eval vm_compute in
  get_done (no_parser 0) (build (L := nat) 0 1 shorter_first_productions None 200).
(** the same with the longer alternative first *)
Definition longer_first_productions : list (production nat) :=
  [Production 1 [2; 6; 7]; Production 2 [3]; Production 3 [4; 5]; Production 3 [4]].
Definition longer_first_parser : parser nat nat := Eval vm_compute in
  get_done (no_parser 0) (build (L := nat) 0 1 longer_first_productions None 200).

Definition factored_checks (ps : list (production nat)) : option (bool * bool) :=
  match cfg_new (insertion_order nat) 0 1 ps with
  | Done g =>
      match ffs_from (insertion_order nat) 200 g with
      | Done ffs => Some (is_factored_ll1 0 (first_set ffs) (follow_set ffs) ps, is_longer_first 0 (first_set ffs) ps)
      | _ => None
      end
  | _ => None
  end.

Lemma factored_checks_ok ps b : factored_checks ps = Some (true, b) -> non_terminal ps 1 -> no_repeated_neighbours ps ->
  ll1_once_factored 0 ps 1 /\ (b = true -> longer_first 0 ps 1).
Proof.
  unfold factored_checks. destruct (cfg_new (insertion_order nat) 0 1 ps) as [g| |] eqn:Hg; try discriminate.
  destruct (ffs_from (insertion_order nat) 200 g) as [ffs| |] eqn:Hf; try discriminate.
  intros H Hi Hrep. injection H as H1 H2.
  destruct (@C107_conditions_are_computed nat _ _ _ _ 0 1 ps g ffs Hg Hf Hi Hrep) as (C1 & C2 & _). split; auto. intros ->. auto.
Qed.

Definition C107_without_order : Prop :=
  forall (L T : Type) (E : EqDec T) (eps init eof : T) (ps : list (production T))
         (self : parser L T) (before : list (token L T)) (t : token L T) (root : node L T),
    built_parser eps init ps None self ->
    ll1_once_factored eps ps init -> repeats_harmless eps ps init ->
    no_left_recursion_from eps ps init -> eof_discipline eps ps init eof -> non_terminal ps init ->
    tok_type t = eof -> Forall (fun x => tok_type x <> eof) before ->
    tree_for eps ps init root (before ++ [t]) ->
    terminates_with (fun fuel => parse_from_tokens fuel self (before ++ [t])) (Done (ResultOk root, [])).

Lemma shorter_first_eof : eof_discipline 0 shorter_first_productions 1 7.
Proof.
  split; [discriminate|]. split; [apply non_terminalb_false; reflexivity|].
  split; [|split]; intros p Hp; simpl in Hp.
  - intros Hin. decompose [or] Hp; subst; simpl in Hin; intuition discriminate.
  - intros Hi. decompose [or] Hp; subst; try discriminate; try contradiction.
    exists [2; 6]. split; [reflexivity|simpl; intuition discriminate].
  - intros Hi Hin. decompose [or] Hp; subst; simpl in Hin, Hi; intuition discriminate.
Qed.

Theorem C107_without_order_refuted : ~ C107_without_order.
Proof.
  intros H.
  assert (B : built_parser 0 1 shorter_first_productions None shorter_first_parser)
    by (apply build_built with (fuel := 200); vm_compute; reflexivity).
  assert (Hi : non_terminal shorter_first_productions 1) by (apply non_terminalb_spec; reflexivity).
  assert (Hrep : no_repeated_neighbours shorter_first_productions) by (apply no_repeated_neighbours_check; reflexivity).
  destruct (@factored_checks_ok shorter_first_productions false) as [Hll _]; [vm_compute; reflexivity|auto|auto|].
  assert (Hlr : no_left_recursion_from 0 shorter_first_productions 1).
  { apply no_left_recursion_anywhere, rank_check_ok with (N := fun x => Nat.eqb x 0)
      (rank := fun x => match x with 1 => 3 | 2 => 2 | 3 => 1 | 0 => 0 | _ => 0 end). reflexivity. }
  assert (Ht : exists root, tree_for 0 shorter_first_productions 1 root ([nt 4; nt 5; nt 6] ++ [nt 7])).
  { apply derives_tree.
    - eapply derives_trans; [apply (@derives_production _ 0 shorter_first_productions (Production 1 [2; 6; 7])); simpl; auto|].
      apply (@derives_ctx _ 0 shorter_first_productions [] [6; 7] [2] [4; 5]).
      eapply derives_trans; [apply (@derives_production _ 0 shorter_first_productions (Production 2 [3])); simpl; auto|].
      apply (@derives_production _ 0 shorter_first_productions (Production 3 [4; 5])); simpl; auto 10.
    - repeat constructor; simpl; try discriminate; apply non_terminalb_false; reflexivity. }
  destruct Ht as [root Ht].
  assert (Hb : Forall (fun x : token nat nat => tok_type x <> 7) [nt 4; nt 5; nt 6]) by (repeat constructor; discriminate).
  pose proof (H nat nat _ 0 1 7 _ _ [nt 4; nt 5; nt 6] (nt 7) root B Hll (no_repeated_neighbours_harmless Hrep) Hlr
    shorter_first_eof Hi eq_refl Hb Ht) as H1.
  assert (H2 : exists f, terminates_with (fun fuel => parse_from_tokens fuel shorter_first_parser ([nt 4; nt 5; nt 6] ++ [nt 7]))
     (Done (ResultErr f, []))).
  { eexists. apply parse_terminates with (k := 50); [vm_compute; reflexivity|discriminate]. }
  destruct H2 as [f H2]. pose proof (terminates_unique H1 H2) as Heq. discriminate.
Qed.
Print Assumptions C107_without_order_refuted.

(** ** A case: statements.
    0 epsilon; S = 1 -> L $; L = 2 -> I ; L | I ;; I = 3 -> id = X | id ( X ) | id; X = 4 -> n | id;
    id = 5, = is 6, ( is 7, ) is 8, ; is 9, n = 10, $ = 11.
    Every cell of L and of I on id holds all the alternatives. *)
Definition statements : list (production nat) :=
  [Production 1 [2; 11]; Production 2 [3; 9; 2]; Production 2 [3; 9];
   Production 3 [5; 6; 4]; Production 3 [5; 7; 4; 8]; Production 3 [5];
   Production 4 [10]; Production 4 [5]].
Definition statements_parser : parser nat nat := Eval vm_compute in
  get_done (no_parser 0) (build (L := nat) 0 1 statements None 200).

Example C107_case :
  built_parser 0 1 statements None statements_parser /\
  ll1_once_factored 0 statements 1 /\ longer_first 0 statements 1 /\ ~ ll1 0 statements 1 /\
  repeats_harmless 0 statements 1 /\ no_left_recursion_from 0 statements 1 /\
  eof_discipline 0 statements 1 11 /\ non_terminal statements 1 /\ all_productive 0 statements 1 /\
  candidates statements_parser 3 5 = [[5; 6; 4]; [5; 7; 4; 8]; [5]] /\
  (exists root, terminates_with (fun fuel => parse_from_tokens fuel statements_parser
     [nt 5; nt 9; nt 5; nt 7; nt 10; nt 8; nt 9; nt 5; nt 6; nt 5; nt 9; nt 11]) (Done (ResultOk root, []))) /\
  (exists f, terminates_with (fun fuel => parse_from_tokens fuel statements_parser
     [nt 5; nt 9; nt 5; nt 7; nt 10; nt 9; nt 11]) (Done (ResultErr f, []))) /\
  factored_checks longer_first_productions = Some (true, true) /\
  factored_checks shorter_first_productions = Some (true, false) /\
  (exists root, terminates_with (fun fuel => parse_from_tokens fuel longer_first_parser
     [nt 4; nt 5; nt 6; nt 7]) (Done (ResultOk root, []))).
Proof.
  assert (Hi : non_terminal statements 1) by (apply non_terminalb_spec; reflexivity).
  assert (Hrep : no_repeated_neighbours statements) by (apply no_repeated_neighbours_check; reflexivity).
  destruct (@factored_checks_ok statements true) as [Hll Hlong]; [vm_compute; reflexivity|auto|auto|].
  splits4; auto.
  - apply build_built with (fuel := 200). vm_compute. reflexivity.
  - intros H. assert (Heq : Production 3 [5; 6; 4] = Production 3 [5]); [|discriminate].
    apply (H 3 5); (split; [simpl; auto 10|split; [reflexivity|left]]);
      (split; [discriminate|split; [apply non_terminalb_false; reflexivity|]]).
    + exists [6; 4]. apply derives_refl.
    + exists []. apply derives_refl.
  - exact (no_repeated_neighbours_harmless Hrep).
  - apply no_left_recursion_anywhere, rank_check_ok with (N := fun x => Nat.eqb x 0)
      (rank := fun x => match x with 1 => 3 | 2 => 2 | 3 => 1 | 4 => 1 | _ => 0 end). reflexivity.
  - split; [discriminate|]. split; [apply non_terminalb_false; reflexivity|].
    split; [|split]; intros p Hp; simpl in Hp.
    + intros Hin. decompose [or] Hp; subst; simpl in Hin; intuition discriminate.
    + intros Hi'. decompose [or] Hp; subst; try discriminate; try contradiction.
      exists [2]. split; [reflexivity|simpl; intuition discriminate].
    + intros Hi' Hin. decompose [or] Hp; subst; simpl in Hin, Hi'; intuition discriminate.
  - assert (Hp : PrefixSpec.productive 0 statements)
      by (apply productive_check_ok with (rank := fun x => match x with 1 => 4 | 2 => 3 | 3 => 2 | 4 => 1 | _ => 0 end); reflexivity).
    intros X HX _. destruct (Hp X HX) as (w & Hw & Hr). exists w. auto.
  - eexists. apply parse_terminates with (k := 100); [vm_compute; reflexivity|discriminate].
  - eexists. apply parse_terminates with (k := 100); [vm_compute; reflexivity|discriminate].
  - eexists. apply parse_terminates with (k := 100); [vm_compute; reflexivity|discriminate].
Qed.
Print Assumptions C107_case.

(** ** The result needs no factoring, the work does: the grammar S -> a S b | a S c | d of C56 *)
Theorem C107_can_be_slow :
  built_parser 0 1 slow_productions None slow_parser /\
  ll1_once_factored 0 slow_productions 1 /\ longer_first 0 slow_productions 1 /\
  forall k,
    (exists root, terminates_with (fun fuel => parse_from_tokens fuel slow_parser (slow_tokens k))
                                  (Done (ResultOk root, []))) /\
    length (slow_tokens k) = 2 * k + 1 /\
    (forall budget fuel, budget < 2 ^ k ->
       parse_within budget fuel slow_parser (slow_tokens k) = OutOfFuel).
Proof.
  destruct C56_backtracking_exponential as (B & _ & H).
  destruct (@factored_checks_ok slow_productions true) as [Hll Hlong];
    [vm_compute; reflexivity|apply non_terminalb_spec; reflexivity|apply no_repeated_neighbours_check; reflexivity|].
  splits4; auto. intros k. destruct (H k) as (H1 & H2 & H3). auto.
Qed.
Print Assumptions C107_can_be_slow.
