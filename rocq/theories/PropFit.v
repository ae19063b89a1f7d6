(** * Grammars whose earlier alternatives never fit, and LL(k): C108 *)

From Verif Require Import ExactFacts ExpectFacts FollowSpec FollowRepeat BaseFacts GrammarFacts DerivFacts FollowFacts TransitionsFacts ParserSound ParserComplete.
From Verif Require Import ProductiveSpec LastSpec LastFacts ParserBuild Examples ExampleTools MoreFacts PropParse PropReports
  GuidedSpec ParserGuided PropGuided PropLimits PropPrefix PropLast PropEndMarker PropQuiet SuppliedSpec SuppliedFacts CoverFacts
  FactorFacts PropFactor FitFacts FitCheck FitCover.
From Verif Require Export FitSpec.

Set Implicit Arguments.

(** an earlier candidate that succeeds makes a beginning of the tokens *)
Lemma fits_others_fail :
  forall (L T : Type) (E : EqDec T) (eps init eof : T) (ps : list (production T))
         (cands : T -> T -> list (list T)) (before : list (token L T)) (t : token L T),
    (forall A a out, In out (cands A a) -> exists p, In p ps /\ p_input p = A /\ p_output p = out) ->
    (forall A a l1 out l2 out', cands A a = l1 ++ out :: l2 -> In out' l2 -> out' <> out ->
      exists before after, ps = before ++ Production A out :: after /\ In (Production A out') after) ->
    never_fits_early eps ps init -> eof_discipline eps ps init eof -> non_terminal ps init ->
    Forall (fun x => tok_type x <> eof) before ->
    others_fail eps init ps cands (before ++ [t]).
Proof.
  intros L T E eps init eof ps cands before t Hcands Hdecl Hfit He Hinit Hb.
  intros X u rest1 pos tok v l1 out l2 out0 ns0 w0 ns q Hc Hin Hne (Hp0 & Hf0 & Hctx & Hleaf & Hended & Hpos) Hw Hn Hseq.
  assert (Ho : In out (cands X (tok_type tok))) by (rewrite Hc; apply in_or_app; right; now left).
  destruct (proj1 (proj2 (@choice_forests L T eps ps cands (before ++ [t]) Hcands)) _ _ _ Hseq _ _ eq_refl) as (w & v' & Hf & _ & Hs).
  destruct Hpos as (pre & post & Htok & <-). rewrite Htok, skipn_app, skipn_all, Nat.sub_diag in Hs. simpl in Hs.
  pose proof (proj1 (proj2 (@tree_derives_all L T eps ps) _ _ _ Hf)) as Hd.
  pose proof (proj1 (proj2 (@tree_derives_all L T eps ps) _ _ _ Hf0)) as Hd0.
  pose proof (proj2 (@tree_leaves_all L T eps ps) _ _ _ Hf) as Hl.
  pose proof (proj2 (@tree_leaves_all L T eps ps) _ _ _ Hf0) as Hl0.
  (* what is derived ends in the marker, so nothing follows it *)
  assert (Hpost : post = []).
  { assert (Hform : derives eps ps [init] (u ++ map (@tok_type L T) (w0 ++ rest1))).
    { eapply derives_trans; [exact Hctx|]. rewrite map_app.
      apply (@derives_ctx _ eps ps u (map (@tok_type L T) rest1) [X]).
      eapply derives_trans; [exact (derives_production eps _ _ Hp0)|exact Hd0]. }
    assert (Hlast : exists z b, w0 ++ rest1 = z ++ [b]).
    { rewrite Hw. destruct (@exists_last _ (tok :: v)) as (z & b & ->); [discriminate|eauto]. }
    destruct Hlast as (z & b & Hz).
    assert (Hbe : tok_type b = eof \/ tok_type b = init).
    { rewrite Hz, map_app, app_assoc in Hform. simpl in Hform.
      destruct (ends_once_derived He Hform) as [H|[H|(x & H & _)]].
      - change [init] with ([] ++ [init]) in H. apply app_inj_tail in H as [_ H]. auto.
      - now destruct (u ++ map (@tok_type L T) z).
      - apply app_inj_tail in H as [_ H]. auto. }
    assert (Hlz : Forall (leaf eps ps) (w0 ++ rest1)) by now apply Forall_app.
    rewrite Hz in Hlz. apply Forall_app in Hlz as [_ Hlz].
    assert (Hb2 : ~ non_terminal ps (tok_type b)) by (inversion Hlz as [|b' l [_ H2] _]; exact H2).
    destruct Hbe as [Hbe|Hbe]; [|rewrite Hbe in Hb2; contradiction].
    destruct post as [|y post _] using rev_ind; [reflexivity|exfalso].
    rewrite Hz in Htok. rewrite !app_assoc in Htok. apply app_inj_tail in Htok as [Htok _].
    rewrite Htok in Hb. apply Forall_app in Hb as [Hb _]. apply Forall_app in Hb as [_ Hb].
    now inversion Hb. }
  subst post. rewrite app_nil_r in Hs.
  destruct (Hdecl _ _ _ _ _ _ Hc Hin ltac:(congruence)) as (b & a & Hps & Hafter).
  apply (@Hfit b a X out out0 u (map (@tok_type L T) rest1) (map (@tok_type L T) w) (map (@tok_type L T) (w0 ++ rest1))); auto.
  - apply Forall_map. exact Hl.
  - rewrite map_app. apply derives_app; [exact Hd0|apply derives_refl].
  - apply Forall_map. apply Forall_app. auto.
  - exists (map (@tok_type L T) v'). now rewrite Hs, map_app.
Qed.

Lemma fits_exact :
  forall (L T : Type) (E : EqDec T) (eps init eof : T) (ps : list (production T))
         (solver : option (syntax_error_solver L T)) (self : parser L T) (before : list (token L T)) (t : token L T) root,
    constructed_parser eps init ps solver self -> covering eps init ps (candidates self) ->
    never_fits_early eps ps init -> no_left_recursion_from eps ps init -> eof_discipline eps ps init eof ->
    non_terminal ps init -> tok_type t = eof -> Forall (fun x => tok_type x <> eof) before ->
    tree_for eps ps init root (before ++ [t]) ->
    terminates_with (fun fuel => parse_from_tokens fuel self (before ++ [t])) (Done (ResultOk root, [])).
Proof.
  intros L T E eps init eof ps solver self before t root B Hcov Hfit Hlr He Hinit Ht Hb Htree.
  refine (@others_fail_exact L T E eps init eof ps solver self before t root B Hcov _ Hlr He Hinit Ht Htree).
  pose proof (constructed_built B) as F.
  apply (@fits_others_fail L T E eps init eof ps (candidates self) before t (candidates_declared F)); auto.
  intros A a k1 o1 k2 o2. exact (@candidates_declared_before L T E eps init ps solver self A a k1 o1 k2 o2 B).
Qed.

(** ** With an end marker, every token list is decided *)
Theorem C108_decides :
  forall (L T : Type) (E : EqDec T) (eps init eof : T) (ps : list (production T))
         (self : parser L T) (before : list (token L T)) (t : token L T),
    built_parser eps init ps None self ->
    never_fits_early eps ps init -> repeats_harmless eps ps init ->
    no_left_recursion_from eps ps init -> eof_discipline eps ps init eof -> non_terminal ps init ->
    tok_type t = eof -> Forall (fun x => tok_type x <> eof) before ->
    exists res,
      terminates_with (fun fuel => parse_from_tokens fuel self (before ++ [t])) (Done (res, [])) /\
      (forall root, res = ResultOk root <-> tree_for eps ps init root (before ++ [t])) /\
      ((exists f, res = ResultErr f) <-> forall root, ~ tree_for eps ps init root (before ++ [t])).
Proof.
  intros L T E eps init eof ps self before t B Hfit Hrep Hlr He Hinit Ht Hb.
  apply (@exact_decides L T E eps init eof ps self before t (built_constructed B)); auto.
  intros root. exact (@fits_exact L T E eps init eof ps None self before t root (built_constructed B)
    (harmless_covering (built_built B) Hrep Hinit) Hfit Hlr He Hinit Ht Hb).
Qed.
Print Assumptions C108_decides.

(** ** ... with any solver: on the sentences it is never asked *)
Theorem C108_any_solver :
  forall (L T : Type) (E : EqDec T) (eps init eof : T) (ps : list (production T))
         (solver : option (syntax_error_solver L T)) (self : parser L T)
         (before : list (token L T)) (t : token L T),
    built_parser eps init ps solver self ->
    never_fits_early eps ps init -> repeats_harmless eps ps init ->
    no_left_recursion_from eps ps init -> eof_discipline eps ps init eof -> non_terminal ps init ->
    tok_type t = eof -> Forall (fun x => tok_type x <> eof) before ->
    (forall root, tree_for eps ps init root (before ++ [t]) <->
       terminates_with (fun fuel => parse_from_tokens fuel self (before ++ [t])) (Done (ResultOk root, []))) /\
    (forall fuel root h, parse_from_tokens fuel self (before ++ [t]) = Done (ResultOk root, h) -> h = []).
Proof.
  intros L T E eps init eof ps solver self before t B Hfit Hrep Hlr He Hinit Ht Hb.
  assert (H1 : forall root, tree_for eps ps init root (before ++ [t]) ->
     terminates_with (fun fuel => parse_from_tokens fuel self (before ++ [t])) (Done (ResultOk root, []))).
  { intros root. exact (@fits_exact L T E eps init eof ps solver self before t root (built_constructed B)
      (harmless_covering (built_built B) Hrep Hinit) Hfit Hlr He Hinit Ht Hb). }
  split.
  - intros root. split; auto. intros [_ [n Hr]].
    exact (ok_whole_input _ _ (built_constructed B) He Hinit Hb (Hr n (le_n n))).
  - intros fuel root h Hr.
    pose proof (H1 _ (ok_whole_input _ _ (built_constructed B) He Hinit Hb Hr)) as H2.
    pose proof (terminates_unique (parse_terminates _ _ _ Hr ltac:(discriminate)) H2) as Heq. now inversion Heq.
Qed.
Print Assumptions C108_any_solver.

(** ** ... and with any adequate FIRST and FOLLOW sets *)
Theorem C108_supplied_sets :
  forall (L T : Type) (E : EqDec T) (eps init eof : T) (ps : list (production T))
         (ffs : first_follow_symbols T) (self : parser L T) (before : list (token L T)) (t : token L T),
    supplied_parser eps init ps ffs self -> at_least_textbook eps ps ffs init ->
    never_fits_early eps ps init ->
    no_left_recursion_from eps ps init -> eof_discipline eps ps init eof -> non_terminal ps init ->
    tok_type t = eof -> Forall (fun x => tok_type x <> eof) before ->
    exists res,
      terminates_with (fun fuel => parse_from_tokens fuel self (before ++ [t])) (Done (res, [])) /\
      (forall root, res = ResultOk root <-> tree_for eps ps init root (before ++ [t])) /\
      ((exists f, res = ResultErr f) <-> forall root, ~ tree_for eps ps init root (before ++ [t])).
Proof.
  intros L T E eps init eof ps ffs self before t B Htb Hfit Hlr He Hinit Ht Hb.
  apply (@exact_decides L T E eps init eof ps self before t (supplied_constructed B)); auto.
  intros root. exact (@fits_exact L T E eps init eof ps None self before t root (supplied_constructed B)
    (supplied_covering B Htb) Hfit Hlr He Hinit Ht Hb).
Qed.
Print Assumptions C108_supplied_sets.

(** ** There is at most one tree: such a grammar is not ambiguous *)
Lemma fits_same_trees :
  forall (L T : Type) (E : EqDec T) (eps init : T) (ps : list (production T)),
    ~ non_terminal ps eps -> never_fits_early eps ps init ->
    let types := map (@tok_type L T) in
    (forall X n w, tree_for (L := L) eps ps X n w -> forall n0 w0 u y y0, tree_for eps ps X n0 w0 ->
       w ++ y = w0 ++ y0 -> Forall (leaf eps ps) y -> Forall (leaf eps ps) y0 ->
       derives eps ps [init] (u ++ X :: types y) -> derives eps ps [init] (u ++ X :: types y0) -> n = n0 /\ w = w0) /\
    (forall Xs ns w, forest_for (L := L) eps ps Xs ns w -> forall ns0 w0 u y y0, forest_for eps ps Xs ns0 w0 ->
       w ++ y = w0 ++ y0 -> Forall (leaf eps ps) y -> Forall (leaf eps ps) y0 ->
       derives eps ps [init] (u ++ Xs ++ types y) -> derives eps ps [init] (u ++ Xs ++ types y0) -> ns = ns0 /\ w = w0).
Proof.
  intros L T E eps init ps Heps Hfit types.
  assert (Hdiff : forall X out out0 ch ch0 w w0 u y y0, In (Production X out) ps -> In (Production X out0) ps ->
     forest_for (L := L) eps ps out ch w -> forest_for eps ps out0 ch0 w0 -> w ++ y = w0 ++ y0 ->
     Forall (leaf eps ps) y -> Forall (leaf eps ps) y0 ->
     derives eps ps [init] (u ++ X :: types y) -> derives eps ps [init] (u ++ X :: types y0) -> out = out0).
  { assert (G : forall before after X out out0 ch ch0 w w0 u y y0, ps = before ++ Production X out :: after ->
       In (Production X out0) after -> out <> out0 ->
       forest_for (L := L) eps ps out ch w -> forest_for eps ps out0 ch0 w0 -> w ++ y = w0 ++ y0 ->
       Forall (leaf eps ps) y0 -> derives eps ps [init] (u ++ X :: types y0) -> False).
    { intros before after X out out0 ch ch0 w w0 u y y0 Hps Hin Hne Hf Hf0 Hw Hy0 Hctx.
      apply (@Hfit before after X out out0 u (types y0) (types w) (types (w0 ++ y0))); auto.
      - exact (proj1 (proj2 (@tree_derives_all L T eps ps) _ _ _ Hf)).
      - apply Forall_map. exact (proj2 (@tree_leaves_all L T eps ps) _ _ _ Hf).
      - unfold types. rewrite map_app. apply derives_app; [|apply derives_refl].
        exact (proj1 (proj2 (@tree_derives_all L T eps ps) _ _ _ Hf0)).
      - apply Forall_map. apply Forall_app. split; auto. exact (proj2 (@tree_leaves_all L T eps ps) _ _ _ Hf0).
      - exists (types y). rewrite <- Hw. unfold types. now rewrite map_app. }
    intros X out out0 ch ch0 w w0 u y y0 Hp Hp0 Hf Hf0 Hw Hy Hy0 Hctx Hctx0.
    destruct (list_eq_dec eq_dec out out0) as [|Hne]; auto. exfalso.
    destruct (one_first ps Hp Hp0 ltac:(congruence)) as [(b & a & Hps & Hin)|(b & a & Hps & Hin)].
    - exact (@G b a X out out0 ch ch0 w w0 u y y0 Hps Hin Hne Hf Hf0 Hw Hy0 Hctx0).
    - exact (@G b a X out0 out ch0 ch w0 w u y0 y Hps Hin ltac:(congruence) Hf0 Hf (eq_sym Hw) Hy Hctx). }
  apply tree_forest_ind.
  - intros tok H1 H2 n0 w0 u y y0 Ht Hw _ _ _ _. inversion Ht as [tok' H3 H4 Hx|H3|p ch w' Hp Hf Hx]; subst.
    + simpl in Hw. inversion Hw; subst. auto.
    + exfalso. apply H1. congruence.
    + exfalso. apply H2. exists p. auto.
  - intros n0 w0 u y y0 Ht Hw _ _ _ _. inversion Ht as [tok' H3 H4 Hx|H3|p ch w' Hp Hf Hx]; subst.
    + contradiction.
    + auto.
    + exfalso. apply Heps. exists p. auto.
  - intros [X out] ch w Hp Hf IH n0 w0 u y y0 Ht Hw Hy Hy0 Hctx Hctx0. simpl in *.
    inversion Ht as [tok' H3 H4 Hx|H3|[X' out0] ch0 w' Hp0 Hf0 Hx]; simpl in *; subst.
    + exfalso. apply H4. eexists. split; [exact Hp|reflexivity].
    + exfalso. apply Heps. eexists. split; [exact Hp|reflexivity].
    + assert (out = out0) by (eapply Hdiff; eassumption). subst out0.
      assert (Hin : forall z, derives eps ps [init] (u ++ X :: z) -> derives eps ps [init] (u ++ out ++ z)).
      { intros z Hd. eapply derives_trans; [exact Hd|].
        apply (@derives_ctx _ eps ps u z [X] out). exact (derives_production eps _ _ Hp). }
      destruct (IH ch0 w0 u y y0 Hf0 Hw Hy Hy0 (Hin _ Hctx) (Hin _ Hctx0)) as [<- <-]. auto.
  - intros ns0 w0 u y y0 Hf _ _ _ _ _. inversion Hf; subst. auto.
  - intros X Xs n ns w ws Ht IH1 Hf IH2 ns0 w0 u y y0 Hf0 Hw Hy Hy0 Hctx Hctx0.
    inversion Hf0 as [|X1 Xs1 n1 ns1 w1 ws1 Ht1 Hf1]; subst. rewrite <- !app_assoc in Hw.
    assert (Hin : forall z nsz wz, forest_for (L := L) eps ps Xs nsz wz -> derives eps ps [init] (u ++ (X :: Xs) ++ types z) ->
       derives eps ps [init] (u ++ X :: types (wz ++ z))).
    { intros z nsz wz Hfz Hd. eapply derives_trans; [exact Hd|]. unfold types. rewrite map_app. simpl.
      apply derives_app; [apply derives_refl|].
      apply (@derives_app _ eps ps [X] [X]); [apply derives_refl|]. apply derives_app; [|apply derives_refl].
      exact (proj1 (proj2 (@tree_derives_all L T eps ps) _ _ _ Hfz)). }
    assert (Hlv : forall z nsz wz, forest_for (L := L) eps ps Xs nsz wz -> Forall (leaf eps ps) z -> Forall (leaf eps ps) (wz ++ z)).
    { intros z nsz wz Hfz Hz. apply Forall_app. split; auto. exact (proj2 (@tree_leaves_all L T eps ps) _ _ _ Hfz). }
    destruct (IH1 n1 w1 u _ _ Ht1 Hw (Hlv _ _ _ Hf Hy) (Hlv _ _ _ Hf1 Hy0) (Hin _ _ _ Hf Hctx) (Hin _ _ _ Hf1 Hctx0)) as [<- <-].
    apply app_inv_head in Hw.
    destruct (IH2 ns1 ws1 (u ++ [X]) y y0 Hf1 Hw Hy Hy0) as [<- <-]; auto; rewrite <- app_assoc; assumption.
Qed.

Theorem C108_unambiguous :
  forall (L T : Type) (E : EqDec T) (eps init : T) (ps : list (production T))
         (tokens : list (token L T)) (root root' : node L T),
    ~ non_terminal ps eps -> never_fits_early eps ps init ->
    tree_for eps ps init root tokens -> tree_for eps ps init root' tokens -> root = root'.
Proof.
  intros L T E eps init ps tokens root root' Heps Hfit H1 H2.
  apply (proj1 (@fits_same_trees L T E eps init ps Heps Hfit) _ _ _ H1 root' tokens [] [] []); auto; apply derives_refl.
Qed.
Print Assumptions C108_unambiguous.

(** ... and neither is any LL(k) grammar, in whatever order its alternatives are declared *)
Lemma ll_k_same_trees :
  forall (L T : Type) (E : EqDec T) (k : nat) (eps init : T) (ps : list (production T)),
    ~ non_terminal ps eps -> ll_k eps ps init k ->
    let types := map (@tok_type L T) in
    (forall X n w, tree_for (L := L) eps ps X n w -> forall n0 w0 u y y0 Ys, tree_for eps ps X n0 w0 ->
       w ++ y = w0 ++ y0 -> Forall (leaf eps ps) y -> Forall (leaf eps ps) y0 -> word eps ps u ->
       derives eps ps Ys (types y) -> derives eps ps Ys (types y0) ->
       derives eps ps [init] (u ++ X :: Ys) -> n = n0 /\ w = w0) /\
    (forall Xs ns w, forest_for (L := L) eps ps Xs ns w -> forall ns0 w0 u y y0 Ys, forest_for eps ps Xs ns0 w0 ->
       w ++ y = w0 ++ y0 -> Forall (leaf eps ps) y -> Forall (leaf eps ps) y0 -> word eps ps u ->
       derives eps ps Ys (types y) -> derives eps ps Ys (types y0) ->
       derives eps ps [init] (u ++ Xs ++ Ys) -> ns = ns0 /\ w = w0).
Proof.
  intros L T E k eps init ps Heps Hll types.
  assert (Hfd : forall Xs ns w, forest_for (L := L) eps ps Xs ns w -> derives eps ps Xs (types w) /\ Forall (leaf eps ps) w).
  { intros Xs ns w Hf. split; [exact (proj1 (proj2 (@tree_derives_all L T eps ps) _ _ _ Hf))|].
    exact (proj2 (@tree_leaves_all L T eps ps) _ _ _ Hf). }
  apply tree_forest_ind.
  - intros tok H1 H2 n0 w0 u y y0 Ys Ht Hw _ _ _ _ _ _. inversion Ht as [tok' H3 H4 Hx|H3|p ch w' Hp Hf Hx]; subst.
    + simpl in Hw. inversion Hw; subst. auto.
    + exfalso. apply H1. congruence.
    + exfalso. apply H2. exists p. auto.
  - intros n0 w0 u y y0 Ys Ht Hw _ _ _ _ _ _. inversion Ht as [tok' H3 H4 Hx|H3|p ch w' Hp Hf Hx]; subst.
    + contradiction.
    + auto.
    + exfalso. apply Heps. exists p. auto.
  - intros [X out] ch w Hp Hf IH n0 w0 u y y0 Ys Ht Hw Hy Hy0 Hu HYs HYs0 Hctx. simpl in *.
    inversion Ht as [tok' H3 H4 Hx|H3|[X' out0] ch0 w' Hp0 Hf0 Hx]; simpl in *; subst.
    + exfalso. apply H4. eexists. split; [exact Hp|reflexivity].
    + exfalso. apply Heps. eexists. split; [exact Hp|reflexivity].
    + destruct (Hfd _ _ _ Hf) as [Hd Hl]. destruct (Hfd _ _ _ Hf0) as [Hd0 Hl0].
      assert (out = out0).
      { apply (@Hll X out out0 u Ys (types (w ++ y)) (types (w0 ++ y0))); auto.
        - unfold types. rewrite map_app. now apply derives_app.
        - apply Forall_map. now apply Forall_app.
        - unfold types. rewrite map_app. now apply derives_app.
        - apply Forall_map. now apply Forall_app.
        - now rewrite Hw. }
      subst out0. destruct (IH ch0 w0 u y y0 Ys Hf0 Hw Hy Hy0 Hu HYs HYs0) as [<- <-]; auto.
      eapply derives_trans; [exact Hctx|].
      apply (@derives_ctx _ eps ps u Ys [X] out). exact (derives_production eps _ _ Hp).
  - intros ns0 w0 u y y0 Ys Hf _ _ _ _ _ _ _. inversion Hf; subst. auto.
  - intros X Xs n ns w ws Ht IH1 Hf IH2 ns0 w0 u y y0 Ys Hf0 Hw Hy Hy0 Hu HYs HYs0 Hctx.
    inversion Hf0 as [|X1 Xs1 n1 ns1 w1 ws1 Ht1 Hf1]; subst. rewrite <- !app_assoc in Hw.
    destruct (Hfd _ _ _ Hf) as [Hd Hl]. destruct (Hfd _ _ _ Hf1) as [Hd1 Hl1].
    assert (H1 : n = n1 /\ w = w1).
    { apply (IH1 n1 w1 u (ws ++ y) (ws1 ++ y0) (Xs ++ Ys)); auto; try now apply Forall_app.
      - unfold types. rewrite map_app. now apply derives_app.
      - unfold types. rewrite map_app. now apply derives_app. }
    destruct H1 as [<- <-]. apply app_inv_head in Hw.
    destruct (IH2 ns1 ws1 (u ++ types w) y y0 Ys Hf1 Hw Hy Hy0) as [<- <-]; auto.
    + apply Forall_app. split; auto. apply Forall_map. exact (proj1 (@tree_leaves_all L T eps ps) _ _ _ Ht).
    + eapply derives_trans; [exact Hctx|]. rewrite <- app_assoc. apply derives_app; [apply derives_refl|].
      apply (@derives_app _ eps ps [X]); [|apply derives_refl].
      exact (proj1 (proj1 (@tree_derives_all L T eps ps) _ _ _ Ht)).
Qed.

Theorem C108_ll_k_unambiguous :
  forall (L T : Type) (E : EqDec T) (k : nat) (eps init : T) (ps : list (production T))
         (tokens : list (token L T)) (root root' : node L T),
    ~ non_terminal ps eps -> ll_k eps ps init k ->
    tree_for eps ps init root tokens -> tree_for eps ps init root' tokens -> root = root'.
Proof.
  intros L T E k eps init ps tokens root root' Heps Hll H1 H2.
  apply (proj1 (@ll_k_same_trees L T E k eps init ps Heps Hll) _ _ _ H1 root' tokens [] [] [] []); auto; try apply derives_refl.
  constructor.
Qed.
Print Assumptions C108_ll_k_unambiguous.

(** ** Left recursion is excluded, where symbols are productive *)
Theorem C108_not_left_recursive :
  forall (L T : Type) (E : EqDec T) (eps init : T) (ps : list (production T))
         (solver : option (syntax_error_solver L T)) (self : parser L T),
    constructed_parser eps init ps solver self ->
    never_fits_early eps ps init -> all_productive eps ps init -> no_left_recursion_from eps ps init.
Proof.
  intros L T E eps init ps solver self B Hfit Hprod.
  apply fit_no_left_recursion; auto. apply (go_ok (po_grammar (bf_of (constructed_built B)))).
Qed.
Print Assumptions C108_not_left_recursive.

(** ** LL(k) grammars, for any [k], with their short alternatives later *)
Theorem C108_ll_k :
  forall (L T : Type) (E : EqDec T) (k : nat) (eps init eof : T) (ps : list (production T))
         (solver : option (syntax_error_solver L T)) (self : parser L T)
         (before : list (token L T)) (t : token L T),
    built_parser eps init ps solver self ->
    ll_k eps ps init k -> short_later eps ps init k -> all_productive eps ps init ->
    repeats_harmless eps ps init -> eof_discipline eps ps init eof -> non_terminal ps init ->
    tok_type t = eof -> Forall (fun x => tok_type x <> eof) before ->
    (forall root, tree_for eps ps init root (before ++ [t]) <->
       terminates_with (fun fuel => parse_from_tokens fuel self (before ++ [t])) (Done (ResultOk root, []))) /\
    (forall fuel root h, parse_from_tokens fuel self (before ++ [t]) = Done (ResultOk root, h) -> h = []).
Proof.
  intros L T E k eps init eof ps solver self before t B Hll Hshort Hprod Hrep He Hinit Ht Hb.
  pose proof (ll_k_fits Hprod Hll Hshort) as Hfit.
  apply (@C108_any_solver L T E eps init eof ps solver self before t B); auto.
  exact (C108_not_left_recursive (built_constructed B) Hfit Hprod).
Qed.
Print Assumptions C108_ll_k.

(** without solver, and with an error for everything else *)
Theorem C108_ll_k_decides :
  forall (L T : Type) (E : EqDec T) (k : nat) (eps init eof : T) (ps : list (production T))
         (self : parser L T) (before : list (token L T)) (t : token L T),
    built_parser eps init ps None self ->
    ll_k eps ps init k -> short_later eps ps init k -> all_productive eps ps init ->
    repeats_harmless eps ps init -> eof_discipline eps ps init eof -> non_terminal ps init ->
    tok_type t = eof -> Forall (fun x => tok_type x <> eof) before ->
    exists res,
      terminates_with (fun fuel => parse_from_tokens fuel self (before ++ [t])) (Done (res, [])) /\
      (forall root, res = ResultOk root <-> tree_for eps ps init root (before ++ [t])) /\
      ((exists f, res = ResultErr f) <-> forall root, ~ tree_for eps ps init root (before ++ [t])).
Proof.
  intros L T E k eps init eof ps self before t B Hll Hshort Hprod Hrep He Hinit Ht Hb.
  pose proof (ll_k_fits Hprod Hll Hshort) as Hfit.
  apply (@C108_decides L T E eps init eof ps self before t B); auto.
  exact (C108_not_left_recursive (built_constructed B) Hfit Hprod).
Qed.
Print Assumptions C108_ll_k_decides.

(** ** Both are checked by computing, given the beginnings of strings cut to [k] tokens *)
Theorem C108_checked :
  forall (L T : Type) (E : EqDec T) (k : nat) (eps init : T) (ps : list (production T))
         (solver : option (syntax_error_solver L T)) (self : parser L T) (firsts follows : T -> list (list T)),
    constructed_parser eps init ps solver self ->
    is_ll_k eps ps init k firsts follows = true ->
    ll_k eps ps init k /\ (is_short_later eps ps k firsts follows ps = true -> short_later eps ps init k).
Proof.
  intros L T E k eps init ps solver self firsts follows B H.
  assert (Heps : ~ non_terminal ps eps) by apply (eps_not_nt (po_grammar (bf_of (constructed_built B)))).
  split; [exact (@is_ll_k_sound T E eps ps init k firsts follows Heps H)|exact (@is_short_later_sound T E eps ps init k firsts follows Heps H)].
Qed.
Print Assumptions C108_checked.

(** ** The grammars of C107, and so the LL(1) grammars with nullable alternatives last, are among them *)
Theorem C108_covers_factored :
  forall (T : Type) (E : EqDec T) (eps init eof : T) (ps : list (production T)),
    ~ non_terminal ps eps -> eof_discipline eps ps init eof ->
    (ll1_once_factored eps ps init -> longer_first eps ps init -> never_fits_early eps ps init) /\
    (ll1 eps ps init -> nullable_last eps ps -> all_productive eps ps init -> never_fits_early eps ps init).
Proof.
  intros T E eps init eof ps Heps He. split.
  - intros Hll Hlong. exact (factored_never_fits Heps Hll Hlong He).
  - intros Hll Hlast Hprod. destruct (@C107_covers_ll1 T E eps init ps Hll Hprod) as [H1 H2].
    exact (factored_never_fits Heps H1 (H2 Hlast) He).
Qed.
Print Assumptions C108_covers_factored.

(** ** The order is needed: S -> Y c $; Y -> X; X -> a | a b is LL(2), and [a b c $] is rejected *)
Definition C108_without_order : Prop :=
  forall (L T : Type) (E : EqDec T) (k : nat) (eps init eof : T) (ps : list (production T))
         (self : parser L T) (before : list (token L T)) (t : token L T) (root : node L T),
    built_parser eps init ps None self -> ll_k eps ps init k -> all_productive eps ps init ->
    repeats_harmless eps ps init -> eof_discipline eps ps init eof -> non_terminal ps init ->
    tok_type t = eof -> Forall (fun x => tok_type x <> eof) before ->
    tree_for eps ps init root (before ++ [t]) ->
    terminates_with (fun fuel => parse_from_tokens fuel self (before ++ [t])) (Done (ResultOk root, [])).

Theorem C108_without_order_refuted : ~ C108_without_order.
Proof.
  intros H.
  assert (B : built_parser 0 1 shorter_first_productions None shorter_first_parser)
    by (apply build_built with (fuel := 200); vm_compute; reflexivity).
  assert (Hi : non_terminal shorter_first_productions 1) by (apply non_terminalb_spec; reflexivity).
  assert (Hrep : no_repeated_neighbours shorter_first_productions) by (apply no_repeated_neighbours_check; reflexivity).
  assert (Hll : ll_k 0 shorter_first_productions 1 2).
  { apply (@C108_checked nat nat _ 2 0 1 _ None shorter_first_parser
      (fun X => match X with 1 => [[4; 6]; [4; 5]] | _ => [[4]; [4; 5]] end)
      (fun X => match X with 1 => [[]] | _ => [[6; 7]] end) (built_constructed B)). vm_compute. reflexivity. }
  assert (Hprod : all_productive 0 shorter_first_productions 1).
  { assert (Hp : PrefixSpec.productive 0 shorter_first_productions)
      by (apply productive_check_ok with (rank := fun x => match x with 1 => 3 | 2 => 2 | 3 => 1 | _ => 0 end); reflexivity).
    intros X HX _. destruct (Hp X HX) as (w & Hw & Hr). exists w. auto. }
  assert (Ht : exists root, tree_for 0 shorter_first_productions 1 root ([nt 4; nt 5; nt 6] ++ [nt 7])).
  { apply derives_tree.
    - eapply derives_trans; [apply (@derives_production _ 0 shorter_first_productions (Production 1 [2; 6; 7])); simpl; auto|].
      apply (@derives_ctx _ 0 shorter_first_productions [] [6; 7] [2] [4; 5]).
      eapply derives_trans; [apply (@derives_production _ 0 shorter_first_productions (Production 2 [3])); simpl; auto|].
      apply (@derives_production _ 0 shorter_first_productions (Production 3 [4; 5])); simpl; auto 10.
    - repeat constructor; simpl; try discriminate; apply non_terminalb_false; reflexivity. }
  destruct Ht as [root Ht].
  assert (Hb : Forall (fun x : token nat nat => tok_type x <> 7) [nt 4; nt 5; nt 6]) by (repeat constructor; discriminate).
  pose proof (H nat nat _ 2 0 1 7 _ _ [nt 4; nt 5; nt 6] (nt 7) root B Hll Hprod (no_repeated_neighbours_harmless Hrep)
    shorter_first_eof Hi eq_refl Hb Ht) as H1.
  assert (H2 : exists f, terminates_with (fun fuel => parse_from_tokens fuel shorter_first_parser ([nt 4; nt 5; nt 6] ++ [nt 7]))
     (Done (ResultErr f, []))).
  { eexists. apply parse_terminates with (k := 50); [vm_compute; reflexivity|discriminate]. }
  destruct H2 as [f H2]. pose proof (terminates_unique H1 H2) as Heq. discriminate.
Qed.
Print Assumptions C108_without_order_refuted.

(** ** A case: assignments and calls.
    0 epsilon; S = 1 -> I $; I = 2 -> A | C; A = 3 -> id = n; C = 4 -> id ( N ); N = 5 -> n , N | n;
    id = 6, = is 7, n = 8, ( is 9, ) is 10, the comma 11, $ = 12.  It is LL(2); A and C start alike
    but share no symbol, so it is not LL(1) once factored. *)
Definition calls : list (production nat) :=
  [Production 1 [2; 12]; Production 2 [3]; Production 2 [4]; Production 3 [6; 7; 8];
   Production 4 [6; 9; 5; 10]; Production 5 [8; 11; 5]; Production 5 [8]].
Definition calls_parser : parser nat nat := Eval vm_compute in
  get_done (no_parser 0) (build (L := nat) 0 1 calls None 200).

Example C108_case :
  built_parser 0 1 calls None calls_parser /\
  ll_k 0 calls 1 2 /\ short_later 0 calls 1 2 /\ never_fits_early 0 calls 1 /\
  ~ ll1_once_factored 0 calls 1 /\ all_productive 0 calls 1 /\
  repeats_harmless 0 calls 1 /\ eof_discipline 0 calls 1 12 /\ non_terminal calls 1 /\
  candidates calls_parser 2 6 = [[3]; [4]] /\
  (exists root, terminates_with (fun fuel => parse_from_tokens fuel calls_parser
     [nt 6; nt 9; nt 8; nt 11; nt 8; nt 10; nt 12]) (Done (ResultOk root, []))) /\
  (exists f, terminates_with (fun fuel => parse_from_tokens fuel calls_parser
     [nt 6; nt 9; nt 8; nt 11; nt 10; nt 12]) (Done (ResultErr f, []))).
Proof.
  assert (B : built_parser 0 1 calls None calls_parser)
    by (apply build_built with (fuel := 200); vm_compute; reflexivity).
  assert (Hi : non_terminal calls 1) by (apply non_terminalb_spec; reflexivity).
  assert (Hrep : no_repeated_neighbours calls) by (apply no_repeated_neighbours_check; reflexivity).
  assert (Hprod : all_productive 0 calls 1).
  { assert (Hp : PrefixSpec.productive 0 calls)
      by (apply productive_check_ok with (rank := fun x => match x with 1 => 4 | 2 => 3 | 3 => 1 | 4 => 2 | 5 => 1 | _ => 0 end); reflexivity).
    intros X HX _. destruct (Hp X HX) as (w & Hw & Hr). exists w. auto. }
  destruct (@C108_checked nat nat _ 2 0 1 calls None calls_parser
      (fun X => match X with 3 => [[6; 7]] | 4 => [[6; 9]] | 5 => [[8; 11]; [8]] | _ => [[6; 7]; [6; 9]] end)
      (fun X => match X with 1 => [[]] | 5 => [[10; 12]] | _ => [[12]] end) (built_constructed B)) as [Hll Hshort];
    [vm_compute; reflexivity|]. specialize (Hshort ltac:(vm_compute; reflexivity)).
  splits4; auto.
  - exact (ll_k_fits Hprod Hll Hshort).
  - intros H. assert (Heq : [3] = [4]); [|discriminate].
    apply (H 2 [] [3] [4] 6).
    + exists [], [12]. apply (@derives_production _ 0 calls (Production 1 [2; 12])). simpl. auto.
    + simpl. auto.
    + simpl. auto.
    + intros x u v H1 H2. congruence.
    + left. split; [discriminate|]. split; [apply non_terminalb_false; reflexivity|].
      exists [7; 8]. apply (@derives_production _ 0 calls (Production 3 [6; 7; 8])). simpl. auto 10.
    + left. split; [discriminate|]. split; [apply non_terminalb_false; reflexivity|].
      exists [9; 5; 10]. apply (@derives_production _ 0 calls (Production 4 [6; 9; 5; 10])). simpl. auto 10.
  - exact (no_repeated_neighbours_harmless Hrep).
  - split; [discriminate|]. split; [apply non_terminalb_false; reflexivity|].
    split; [|split]; intros p Hp; simpl in Hp.
    + intros Hin. decompose [or] Hp; subst; simpl in Hin; intuition discriminate.
    + intros Hi'. decompose [or] Hp; subst; try discriminate; try contradiction.
      exists [2]. split; [reflexivity|simpl; intuition discriminate].
    + intros Hi' Hin. decompose [or] Hp; subst; simpl in Hin, Hi'; intuition discriminate.
  - eexists. apply parse_terminates with (k := 100); [vm_compute; reflexivity|discriminate].
  - eexists. apply parse_terminates with (k := 100); [vm_compute; reflexivity|discriminate].
Qed.
Print Assumptions C108_case.
