(** * Exactly which LL(1) grammars are parsed exactly: C103 *)

From Verif Require Import PropPrefix PrefixSpec PropEnd.
From Verif Require Import LeftRecFacts BaseFacts GrammarFacts DerivFacts FirstFacts FollowFacts FollowRepeat TransitionsFacts MoreFacts.
From Verif Require Import ProductiveSpec CutFacts CoverFacts ExpectFacts LastSpec LastFacts EndingFacts EndingCutFacts PlaceFacts ParserBuild Examples ExampleTools
  LL1Check PropParse PropReports PropGuided PropLocal PropHang PropLeftRec PropLast PropInOrder SuppliedSpec.

Set Implicit Arguments.

Lemma ending_exact :
  forall (L T : Type) (E : EqDec T) (eps init : T) (ps : list (production T))
         (self : parser L T) (tokens w : list (token L T)) (root : node L T),
    constructed_parser eps init ps None self -> covering eps init ps (candidates self) ->
    reachable_ll1 eps ps init -> no_early_ending eps ps init (candidates self) ->
    no_left_recursion_from eps ps init -> initial_ends_in_terminal eps ps init ->
    non_terminal ps init -> tree_for eps ps init root w -> prefix w tokens ->
    terminates_with (fun fuel => parse_from_tokens fuel self tokens) (Done (ResultOk root, [])).
Proof.
  intros L T E eps init ps self tokens w root B Hcov Hll Hord Hlr Hend Hinit Ht Hpre.
  pose proof (constructed_built B) as F.
  assert (Heps : ~ non_terminal ps eps) by apply (eps_not_nt (po_grammar (bf_of F))).
  destruct (root_placed Heps Hcov Hend Hinit Ht Hpre) as (out & ns & tok & v & -> & Hpl & Hw & Hn & Hin).
  assert (Htok : exists rest, tokens = tok :: rest).
  { destruct tokens as [|t ts]; simpl in Hn; inversion Hn. eauto. }
  destruct Htok as [rest ->].
  assert (Hpr : progressing (None : option (syntax_error_solver L T))) by (intros s h c fr; discriminate).
  destruct (C19_parsing_terminates (tok :: rest) B Hlr Hpr) as [r Hr].
  assert (Hwt : w ++ [] = tok :: v) by now rewrite app_nil_r.
  pose proof Hr as [Hne [n Hrun]]. specialize (Hrun n (le_n _)).
  destruct r as [[res h]|pn|]; [| |congruence].
  - apply (parse_choice_sound (bf_of F) (bf_solver F)) in Hrun as (tok' & rest' & Htok & -> & Hc).
    inversion Htok; subst tok' rest'.
    assert (Hwin : forall r, choose eps ps (tok :: rest) (candidates self) init 0
        (candidates self init (tok_type tok)) r ->
      exists outs', r = Some (Node ns (Token None init), length w, outs')).
    { intros r Hch.
      destruct (proj1 (@late_wins L T E eps init ps (candidates self) (tok :: rest) Heps (candidates_declared F) Hcov Hll Hord)
        _ _ _ _ Hch out ns w [] [] tok v [] Hpl Hwt Hn eq_refl Hin (fun H => H)) as [H|(? & l2 & o & ? & _ & Hl & _ & Hv)]; auto.
      exfalso. assert (Ho : In o (candidates self init (tok_type tok))) by (rewrite Hl; apply in_or_app; right; now left).
      apply (candidates_declared F) in Ho as (p & Hp & Hi & <-).
      apply (vanishes_nullable (candidates_declared F)) in Hv.
      destruct (Hend _ Hp Hi) as (u & t & Ho & Hte & Htn). rewrite Ho in Hv.
      apply nullable_app in Hv as [_ Hv]. apply Hte. eapply nullable_terminal; eauto. }
    destruct res as [root|f|f].
    + destruct Hc as (q & outs & Hc). destruct (Hwin _ Hc) as [o Heq]. inversion Heq; subst. exact Hr.
    + destruct (Hwin _ Hc) as [o Heq]. discriminate.
    + destruct Hc.
  - exfalso. assert (Hpn : pn = PanicTokenOutOfRange).
    { assert (Hne' : tok :: rest <> []) by discriminate.
      destruct (C17_no_panic_partial _ B Hne' Hrun) as [(_ & s & h & c & Hs & _)|[Hp _]]; [discriminate Hs|auto]. }
    subst pn. apply (parse_past_sound (bf_of F) (bf_solver F)) in Hrun.
    exact (proj1 (@late_not_past L T E eps init ps (candidates self) (tok :: rest) Heps (candidates_declared F) Hcov Hll Hord)
        _ _ _ Hrun out ns w [] [] tok v [] Hpl Hwt Hn eq_refl Hin (fun H => H)).
Qed.

(** ** Necessity *)
Lemma app_length_inj (A : Type) (a : list A) : forall b c d, a ++ b = c ++ d -> length a = length c -> a = c /\ b = d.
Proof.
  induction a as [|x a IH]; intros b [|y c] d H Hl; simpl in *; try discriminate; auto.
  inversion H; subst. destruct (IH _ _ _ H2) as [-> ->]; auto.
Qed.

Section Necessity.
  Context {L T : Type} {E : EqDec T}.
  Variable eps init : T.
  Variable ps : list (production T).
  Variable self : parser L T.
  Hypothesis B : constructed_parser eps init ps None self.
  Hypothesis Hprod : all_productive eps ps init.
  Hypothesis Hacc : forall root tokens, tree_for eps ps init root tokens ->
    terminates_with (fun fuel => parse_from_tokens fuel self tokens) (Done (ResultOk root, [])).

  Let F := constructed_built B.
  Let G := po_grammar (bf_of F).
  Let Heps : ~ non_terminal ps eps := eps_not_nt G.
  Let Hcands := candidates_declared F.
  Notation tokens_of := (tokens_of (L := L) eps).

  Lemma outputs_not_empty A a out : In out (candidates self A a) -> out <> [].
  Proof.
    intros H. apply Hcands in H as (p & Hp & _ & <-). exact (proj1 (proj2 (go_ok G p Hp))).
  Qed.

  (** the inner nodes of a tree that is returned were chosen where they start *)
  Lemma returned_chosen root tokens k m : non_terminal ps init -> tree_for eps ps init root tokens ->
    part_of eps root k m -> chosen_at (L := L) eps ps tokens (candidates self) k m.
  Proof.
    intros Hn Ht Hp. destruct (Hacc Ht) as [_ [n Hrun]]. specialize (Hrun n (le_n _)).
    apply (parse_choice_sound (bf_of F) (bf_solver F)) in Hrun as (tok & rest & -> & _ & q & o & Hc).
    assert (Hroot : tok_type (node_token root) = init) by exact (tree_root Ht).
    apply (@part_chosen L T E eps ps _ (candidates self) Heps Hcands outputs_not_empty _ _ _ Hp 0).
    - exists tok. right. now rewrite Hroot.
    - intros _. exists tok, (candidates self init (tok_type tok)), o. rewrite Hroot.
      split; auto. split; [apply incl_refl|].
      destruct (proj1 (@parts_all L T E eps ps _ (candidates self) Heps outputs_not_empty) _ _ _ _ Hc)
        with (n := root) (q := q) (o := o) as (-> & _); auto.
      apply Forall_forall. apply outputs_not_empty.
  Qed.

  Lemma filled_forest u Xs v : derives eps ps [init] (u ++ Xs ++ v) ->
    exists ns w, forest_for (L := L) eps ps Xs ns w.
  Proof.
    intros Hd. assert (H : exists x, derives eps ps Xs x /\ Forall (real_terminal eps ps) x).
    { destruct (@fill T E eps init ps (Xs ++ v) u Hprod Hd) as (x & Hx & Hr).
      apply derives_app_inv in Hx as (x1 & x2 & -> & H1 & _). exists x1. split; auto.
      now apply Forall_app in Hr as [? _]. }
    destruct H as (x & Hx & Hr).
    destruct (@derives_forest L T eps ps Xs (map (Token None) x)) as [ns Hf].
    - rewrite map_map. simpl. now rewrite map_id.
    - apply Forall_map. exact Hr.
    - eauto.
  Qed.

  (** ... with a given first token *)
  Lemma filled_forest_start u Xs v a : derives eps ps [init] (u ++ Xs ++ v) -> can_start eps ps Xs a ->
    exists ns w, forest_for (L := L) eps ps Xs ns (Token None a :: w).
  Proof.
    intros Hd (Hae & Han & z & Hz).
    assert (Hd2 : derives eps ps [init] ((u ++ [a]) ++ z ++ v)).
    { eapply derives_trans; [exact Hd|]. apply (@derives_ctx _ eps ps u v) in Hz. rewrite <- app_assoc. exact Hz. }
    destruct (filled_forest _ _ _ Hd2) as (nz & wz & Hf).
    assert (Hl : Forall (fun t => tok_type t <> eps /\ ~ non_terminal ps (tok_type t)) wz) by exact (proj2 (@tree_leaves_all L T eps ps) _ _ _ Hf).
    assert (Hdz : derives eps ps z (map (@tok_type L T) wz)) by exact (proj1 (proj2 (@tree_derives_all L T eps ps) _ _ _ Hf)).
    destruct (@derives_forest L T eps ps Xs (Token None a :: wz)) as [ns Hf2].
    - simpl. eapply derives_trans; [exact Hz|]. apply (@derives_app _ eps ps [a] [a] z); [apply derives_refl|exact Hdz].
    - constructor; auto.
    - eauto.
  Qed.

  Lemma forest_tokens Xs (ns : list (node L T)) w : forest_for eps ps Xs ns w ->
    list_sum (map tokens_of ns) = length w.
  Proof. intros Hf. exact (proj1 (proj2 (tree_tokens_of (L := L) (go_ok G)) _ _ _ Hf)). Qed.

  Lemma accepting_covering : non_terminal ps init -> covering eps init ps (candidates self).
  Proof.
    intros Hn p u v a Hp Hd Hs.
    assert (Hd2 : derives eps ps [init] (u ++ p_output p ++ v)).
    { eapply derives_trans; [exact Hd|].
      apply (@derives_ctx _ eps ps u v [p_input p] (p_output p)). now apply derives_production. }
    assert (Hd3 : derives eps ps [init] (u ++ (p_output p ++ v) ++ [])) by now rewrite app_nil_r.
    destruct (filled_forest_start _ _ Hd3 Hs) as (nf & wf & Hf).
    apply forest_split in Hf as (no & nv & wo & wv & -> & Hw & Hfo & Hfv).
    destruct (filled_forest [] u (p_input p :: v) Hd) as (nu & wu & Hfu).
    destruct (tree_in_context (go_ok G) Hd Hfu (tree_production p Hp Hfo) Hfv) as (root & Ht & Hpart).
    rewrite (forest_tokens Hfu) in Hpart.
    destruct (returned_chosen Hn Ht Hpart) as (tok & outs & o & Htok & Hi & Hc).
    { simpl. exists p. auto. }
    simpl in Hi, Hc.
    assert (tok = Token None a).
    { rewrite nth_error_app2, Nat.sub_diag in Htok by auto. rewrite <- Hw in Htok. simpl in Htok. congruence. }
    subst tok. simpl in Hi. apply Hi.
    destruct (proj1 (@choice_forests L T eps ps (candidates self) _ Hcands) _ _ _ _ Hc _ _ _ eq_refl)
      as (out & ns & w & w' & Ho & Hnode & Hf & _).
    inversion Hnode; subst ns.
    rewrite (forest_shape Hfo), <- (forest_shape Hf). exact Ho.
  Qed.

  Hypothesis Hll : reachable_ll1 eps ps init.

  Lemma accepting_no_early_ending : non_terminal ps init -> no_early_ending eps ps init (candidates self).
  Proof.
    intros Hn q before A after a l1 out l2 p Hq (u & v & Hd) Ho Hcell Hnot Hin Htb Hv Hva.
    assert (Hd2 : derives eps ps [init] ((u ++ before) ++ [A] ++ after ++ v)).
    { eapply derives_trans; [exact Hd|]. rewrite <- app_assoc.
      replace (before ++ [A] ++ after ++ v) with (p_output q ++ v) by (rewrite Ho, <- app_assoc; reflexivity).
      apply (@derives_ctx _ eps ps u v [p_input q] (p_output q)). now apply derives_production. }
    assert (HA : reachable_from eps ps init A) by (exists (u ++ before), (after ++ v); exact Hd2).
    (* other early candidates do not start with the token *)
    assert (Hno : forall o, In o (l1 ++ [out]) -> ~ can_start eps ps o a).
    { intros o Hoin Hs. apply Hnot.
      assert (Hoc : In o (candidates self A a)).
      { rewrite Hcell. apply in_app_or in Hoin as [|[<-|[]]]; apply in_or_app; [now left|right; now left]. }
      pose proof (Hll HA (start_textbook init (candidates self) Hcands _ Hoc Hs) Htb) as Heq. now subst p. }
    assert (Hout : In out (candidates self A a)) by (rewrite Hcell; apply in_or_app; right; now left).
    assert (Hnull : nullable eps ps out) by exact (vanishes_nullable Hcands Hv).
    assert (Hne : p_output p <> out) by (intros Heq; apply Hnot, in_or_app; right; left; auto).
    assert (Hcf : ~ can_follow eps ps init A a).
    { intros Hcf. destruct (Hcands _ _ _ Hout) as (p' & Hp' & Hi' & Ho').
      assert (Ht' : textbook_cell eps ps init A a p') by (split; auto; split; auto; right; rewrite Ho'; auto).
      pose proof (Hll HA Ht' Htb). subst p'. auto. }
    destruct Htb as (Hp & Hpi & [Hs|[_ H]]); [|contradiction].
    assert (Hna : ~ can_start eps ps after a).
    { intros (Hae & Han & z & Hz). apply Hcf. split; auto. split; auto. exists (u ++ before), (z ++ v).
      eapply derives_trans; [exact Hd2|].
      apply (@derives_ctx _ eps ps ((u ++ before) ++ [A]) v) in Hz. rewrite <- !app_assoc in Hz. simpl in Hz.
      rewrite <- !app_assoc. exact Hz. }
    (* a sentence that needs [p] there *)
    assert (Hd3 : derives eps ps [init] ((u ++ before) ++ p_output p ++ after ++ v)).
    { eapply derives_trans; [exact Hd2|]. apply (@derives_ctx _ eps ps (u ++ before) (after ++ v) [A] (p_output p)).
      rewrite <- Hpi. now apply derives_production. }
    destruct (filled_forest_start _ _ Hd3 Hs) as (np & wp & Hfp).
    assert (Hd4 : derives eps ps [init] ((u ++ before ++ [A]) ++ after ++ v)) by (rewrite <- !app_assoc in *; exact Hd2).
    destruct (filled_forest _ _ _ Hd4) as (na & wa & Hfa).
    assert (Hd5 : derives eps ps [init] (u ++ before ++ [A] ++ after ++ v)) by (rewrite <- app_assoc in Hd2; exact Hd2).
    destruct (filled_forest _ _ _ Hd5) as (nb & wb & Hfb).
    destruct (filled_forest [] u (p_input q :: v) Hd) as (nu & wu & Hfu).
    assert (Hd6 : derives eps ps [init] ((u ++ [p_input q]) ++ v ++ [])) by (rewrite app_nil_r, <- app_assoc; exact Hd).
    destruct (filled_forest _ _ _ Hd6) as (nv & wv & Hfv).
    set (nA := Node np (Token None A)).
    assert (HtA : tree_for eps ps A nA (Token None a :: wp)) by (unfold nA; rewrite <- Hpi; now apply tree_production).
    assert (Hfq : forest_for eps ps (p_output q) (nb ++ nA :: na) (wb ++ (Token None a :: wp) ++ wa)).
    { rewrite Ho. apply forest_app; auto. constructor; auto. }
    destruct (tree_in_context (go_ok G) Hd Hfu (tree_production q Hq Hfq) Hfv) as (root & Ht & Hpart).
    rewrite (forest_tokens Hfu) in Hpart.
    destruct (returned_chosen Hn Ht Hpart) as (tok & outs & o & Htok & Hi & Hc).
    { simpl. exists q. auto. }
    simpl in Hc.
    match type of Hc with choose _ _ ?t _ _ _ _ _ => set (tokens := t) in * end.
    assert (Hseq : exists out' qe, forest_for eps ps out' (nb ++ nA :: na) (wb ++ (Token None a :: wp) ++ wa) /\
              sequence eps ps tokens (candidates self) out' (length wu) (Some (nb ++ nA :: na, qe))).
    { clear -Hc Hfq Hcands. remember (Some _) as r eqn:Hr in Hc.
      induction Hc as [|? ? ? ? ? ? Hs|]; inversion Hr; subst; auto.
      eexists _, _. split; [|exact Hs].
      destruct (succ_forest Hcands Hs) as (w & v & Hf & _).
      rewrite (forest_shape Hf), <- (forest_shape Hfq). exact Hfq. }
    destruct Hseq as (out' & qe & Hf' & Hseq).
    assert (out' = before ++ A :: after).
    { rewrite (forest_shape Hf'), <- (forest_shape Hfq). exact Ho. }
    subst out'.
    destruct (@sequence_at L T E eps ps tokens (candidates self) Heps Hcands outputs_not_empty before (A :: after) _ _ _ Hseq)
      as (ns1 & ns2 & Hns & Hlen & Hs2).
    assert (ns1 = nb /\ ns2 = nA :: na) as [-> ->].
    { apply app_length_inj; auto. rewrite Hlen, (forest_shape Hfb). now rewrite map_length. }
    rewrite (forest_tokens Hfb) in Hs2.
    assert (HnA : non_terminal ps A) by (exists p; auto).
    assert (Htk : nth_error tokens (length wu + length wb) = Some (Token None a)).
    { unfold tokens. rewrite nth_error_app2 by lia. rewrite <- app_assoc.
      replace (length wu + length wb - length wu) with (length wb) by lia.
      rewrite nth_error_app2, Nat.sub_diag by auto. reflexivity. }
    inversion Hs2 as [| | | |? ? ? tok' r' _ Htk' Hb]; [exfalso; apply Heps; congruence|exfalso; congruence|].
    rewrite Htk in Htk'. inversion Htk'; subst tok'. simpl in Hb.
    destruct (early_stays Heps Hcands l1 l2 Hb Htk Hcell Hv Hno Hva Hna)
      as (o' & ns & w & ns' & qq & Ho' & Hr & Hf).
    assert (Heqn : nA = Node ns (Token None A)) by congruence. unfold nA in Heqn. injection Heqn as <-. apply Hnot.
    rewrite (forest_shape Hfp), <- (forest_shape Hf). exact Ho'.
  Qed.
End Necessity.

(** ** Exactly which LL(1) grammars have all their sentences parsed *)
Theorem C103_exactly_when :
  forall (L T : Type) (E : EqDec T) (eps init : T) (ps : list (production T)) (self : parser L T),
    constructed_parser eps init ps None self ->
    ll1 eps ps init -> all_productive eps ps init -> initial_ends_in_terminal eps ps init ->
    non_terminal ps init ->
    ((forall root tokens, tree_for eps ps init root tokens ->
        terminates_with (fun fuel => parse_from_tokens fuel self tokens) (Done (ResultOk root, []))) <->
     textbook_cells_filled eps ps init (candidates self) /\
     no_early_ending eps ps init (candidates self)).
Proof.
  intros L T E eps init ps self B Hll Hprod Hend Hn. split.
  - intros Hacc. split.
    + apply filled_covering. now apply accepting_covering.
    + apply accepting_no_early_ending; auto. now apply ll1_reachable.
  - intros [Hf Hord] root tokens Ht.
    assert (Hlr : no_left_recursion_from eps ps init).
    { apply ll1_no_left_recursion; auto. apply (go_ok (po_grammar (bf_of (constructed_built B)))). }
    apply (ending_exact B (proj2 (filled_covering _ _ _ _) Hf) (ll1_reachable Hll) Hord Hlr Hend Hn Ht).
    exists []. now rewrite app_nil_r.
Qed.
Print Assumptions C103_exactly_when.

(** ... then also when something follows *)
Theorem C103_whatever_follows :
  forall (L T : Type) (E : EqDec T) (eps init : T) (ps : list (production T)) (self : parser L T),
    constructed_parser eps init ps None self ->
    ll1 eps ps init -> all_productive eps ps init -> initial_ends_in_terminal eps ps init ->
    non_terminal ps init ->
    textbook_cells_filled eps ps init (candidates self) -> no_early_ending eps ps init (candidates self) ->
    forall tokens root, tree_for eps ps init root tokens -> forall more,
      terminates_with (fun fuel => parse_from_tokens fuel self (tokens ++ more)) (Done (ResultOk root, [])).
Proof.
  intros L T E eps init ps self B Hll Hprod Hend Hn Hf Hord tokens root Ht more.
  assert (Hlr : no_left_recursion_from eps ps init).
  { apply ll1_no_left_recursion; auto. apply (go_ok (po_grammar (bf_of (constructed_built B)))). }
  apply (ending_exact B (proj2 (filled_covering _ _ _ _) Hf) (ll1_reachable Hll) Hord Hlr Hend Hn Ht).
  exists more. reflexivity.
Qed.
Print Assumptions C103_whatever_follows.

(** For computed sets it is the condition on repeated neighbours that fills the cells. *)
Theorem C103_computed_sets :
  forall (L T : Type) (E : EqDec T) (eps init : T) (ps : list (production T)) (self : parser L T),
    built_parser eps init ps None self ->
    ll1 eps ps init -> all_productive eps ps init -> initial_ends_in_terminal eps ps init ->
    non_terminal ps init -> repeats_harmless eps ps init ->
    ((forall root tokens, tree_for eps ps init root tokens ->
        terminates_with (fun fuel => parse_from_tokens fuel self tokens) (Done (ResultOk root, []))) <->
     no_early_ending eps ps init (candidates self)).
Proof.
  intros L T E eps init ps self B Hll Hprod Hend Hn Hrep.
  rewrite (C103_exactly_when (built_constructed B) Hll Hprod Hend Hn).
  split; [tauto|]. intros H. split; auto. apply filled_covering. exact (harmless_covering (built_built B) Hrep Hn).
Qed.
Print Assumptions C103_computed_sets.


(** a sentence has the end marker as its last token only *)
Lemma eof_only_last {L T : Type} (eps init eof : T) ps (root : node L T) w :
  eof_discipline eps ps init eof -> ~ non_terminal ps eps -> non_terminal ps init ->
  tree_for eps ps init root w ->
  exists before t, w = before ++ [t] /\ tok_type t = eof /\ Forall (fun x => tok_type x <> eof) before.
Proof.
  intros (He & Hn & Hi & Hend & Ho) Hne Hinit Ht.
  assert (Hinner :
    (forall X (n : node L T) w, tree_for eps ps X n w -> X <> eof -> X <> init -> Forall (fun x => tok_type x <> eof) w) /\
    (forall Xs (ns : list (node L T)) w, forest_for eps ps Xs ns w -> ~ In eof Xs -> ~ In init Xs -> Forall (fun x => tok_type x <> eof) w)).
  { apply tree_forest_ind.
    - intros tok _ _ H _. auto.
    - constructor.
    - intros p ch v Hp Hf IH Hx Hin. apply IH.
      + now apply Ho.
      + now apply Hi.
    - constructor.
    - intros X Xs n ns v vs Htn IH1 Hf IH2 Hx Hin. apply Forall_app. split.
      + apply IH1; intros ->; [apply Hx|apply Hin]; now left.
      + apply IH2; intros H; [apply Hx|apply Hin]; now right. }
  assert (Hroot : exists p children, In p ps /\ p_input p = init /\ forest_for eps ps (p_output p) children w).
  { inversion Ht as [tok H1 H2 Hx|H1|p children w' Hp Hf Hx].
    - exfalso. apply H2. now rewrite Hx.
    - exfalso. apply Hne. now rewrite H1.
    - exists p, children. auto. }
  destruct Hroot as (p & children & Hp & Hpi & Hf).
  destruct (Hend p Hp Hpi) as (u & Hu & Hnu). pose proof (Hi p Hp) as Hni. rewrite Hu in Hf, Hni.
  apply forest_split in Hf as (n1 & n2 & w1 & w2 & -> & -> & Hf1 & Hf2).
  inversion Hf2 as [|X Xs n ns wt ws Htt Hf3 HX Hns Hws]; subst. inversion Hf3; subst.
  assert (Hx : exists tok, wt = [tok] /\ tok_type tok = eof).
  { inversion Htt as [tok H1 H2 H3|H1|q ? ? Hq _ Hqi]; subst.
    - eauto.
    - congruence.
    - exfalso. apply Hn. exists q; auto. }
  destruct Hx as (tok & -> & Htt'). exists w1, tok. rewrite app_nil_r. split; auto. split; auto.
  apply (proj2 Hinner _ _ _ Hf1); auto. intros H. apply Hni, in_or_app. now left.
Qed.

(** With an end marker the parser then decides every input ending in it. *)
Theorem C103_decides :
  forall (L T : Type) (E : EqDec T) (eps init eof : T) (ps : list (production T))
         (self : parser L T),
    constructed_parser eps init ps None self ->
    ll1 eps ps init -> all_productive eps ps init -> eof_discipline eps ps init eof -> non_terminal ps init ->
    ((forall (before : list (token L T)) (t : token L T),
        tok_type t = eof -> Forall (fun x => tok_type x <> eof) before ->
        exists res,
          terminates_with (fun fuel => parse_from_tokens fuel self (before ++ [t])) (Done (res, [])) /\
          (forall root, res = ResultOk root <-> tree_for eps ps init root (before ++ [t])) /\
          ((exists f, res = ResultErr f) <-> forall root, ~ tree_for eps ps init root (before ++ [t]))) <->
     textbook_cells_filled eps ps init (candidates self) /\
     no_early_ending eps ps init (candidates self)).
Proof.
  intros L T E eps init eof ps self B Hll Hprod He Hinit.
  rewrite <- (C103_exactly_when B Hll Hprod (eof_ends He) Hinit).
  assert (Hok : productions_ok eps ps) by apply (go_ok (po_grammar (bf_of (constructed_built B)))).
  split.
  - intros H root tokens Htr.
    pose proof (eof_only_last He (eps_not_nt (po_grammar (bf_of (constructed_built B)))) Hinit Htr) as Hw. destruct Hw as (before & t & -> & Ht & Hb).
    destruct (H before t Ht Hb) as (res & Hr & Hiff & _). apply Hiff in Htr. now subst res.
  - intros Hacc before t Ht Hb.
    set (tokens := before ++ [t]).
    assert (Hne : tokens <> []) by (unfold tokens; destruct before; discriminate).
    assert (Hpr : progressing (None : option (syntax_error_solver L T))) by (intros s h c fr; discriminate).
    assert (Hlr : no_left_recursion_from eps ps init) by (apply ll1_no_left_recursion; auto; exact (eof_ends He)).
    destruct (C19_parsing_terminates tokens B Hlr Hpr) as [r Hr].
    destruct r as [[res h]|q|].
    2:{ exfalso. destruct Hr as [_ [n Hr]]. specialize (Hr n (le_n _)).
        destruct (C17_no_panic_partial _ B Hne Hr) as [(_ & s & h & c & Hs & _)|[_ Hno]]; [discriminate Hs|].
        apply Hno. exists eof. split; auto. split; [exists before, t; auto|]. intros s h c fr; discriminate. }
    2:{ exfalso. now destruct Hr. }
    pose proof Hr as [_ [n Hr']]. pose proof (Hr' n (le_n _)) as Hn. clear Hr'.
    destruct (C29_fix_needs_answer _ _ B Hn) as [Hnone _]. destruct (Hnone eq_refl) as [-> Hfix].
    assert (Hl : forall b x a, tokens = b ++ x :: a -> tok_type x = eof -> a = []).
    { intros b x a Hx Hxe. unfold tokens in Hx.
      destruct a as [|y a]; auto. exfalso.
      destruct (app_eq_mid _ _ _ _ Hx) as [(m & H1 & H2)|(m & H1 & H2)].
      - destruct m as [|z m]; simpl in H2; [discriminate|]. inversion H2; subst.
        rewrite Forall_forall in Hb. apply (Hb z); auto. apply in_or_app. right. now left.
      - destruct m as [|z m]; simpl in H2; inversion H2. now destruct m. }
    assert (Htree : forall root, res = ResultOk root -> tree_for eps ps init root tokens).
    { intros root ->. exact (C16_whole_input_partial _ B He Hl Hn). }
    assert (Hcomplete : forall root, tree_for eps ps init root tokens -> res = ResultOk root).
    { intros root Htr. pose proof (terminates_unique Hr (Hacc _ _ Htr)) as Heq. now inversion Heq. }
    exists res. split; [exact Hr|]. split; [split; auto|]. split.
    + intros [f ->] root Htr. specialize (Hcomplete _ Htr). discriminate.
    + intros Hno. destruct res as [root|f|f]; [|eauto|].
      * exfalso. apply (Hno root). auto.
      * exfalso. eapply Hfix; eauto.
Qed.
Print Assumptions C103_decides.

(** Without an end marker: the outcome on every non-empty input is the right one.  Either a sentence
    comes first, and its tree is returned; or the input breaks off before a non-terminal, and the parse
    indexes past its end; or an error is reported. *)
Theorem C103_every_outcome :
  forall (L T : Type) (E : EqDec T) (eps init : T) (ps : list (production T))
         (self : parser L T),
    constructed_parser eps init ps None self ->
    ll1 eps ps init -> all_productive eps ps init -> initial_ends_in_terminal eps ps init ->
    non_terminal ps init ->
    ((forall tokens : list (token L T), tokens <> [] ->
        let sentence_first := fun root => exists w, prefix w tokens /\ tree_for eps ps init root w in
        let cut_short := Forall (fun t => real_terminal eps ps (tok_type t)) tokens /\
                         exists A v, non_terminal ps A /\ derives eps ps [init] (map (@tok_type L T) tokens ++ A :: v) in
        exists r, terminates_with (fun fuel => parse_from_tokens fuel self tokens) r /\
          (forall root, r = Done (ResultOk root, []) <-> sentence_first root) /\
          (r = Panicked PanicTokenOutOfRange <-> cut_short) /\
          ((exists f, r = Done (ResultErr f, [])) <-> (forall root, ~ sentence_first root) /\ ~ cut_short)) <->
     textbook_cells_filled eps ps init (candidates self) /\
     no_early_ending eps ps init (candidates self)).
Proof.
  intros L T E eps init ps self B Hll Hprod Hend Hinit.
  pose proof (constructed_built B) as F.
  assert (Heps : ~ non_terminal ps eps) by apply (eps_not_nt (po_grammar (bf_of F))).
  split.
  { intros H. rewrite <- (C103_exactly_when B Hll Hprod Hend Hinit). intros root tokens Ht.
    assert (Hne : tokens <> []).
    { intros ->. inversion Ht as [tok H1 H2 Hx|H1|p ch w' Hp Hf Hx]; subst.
      - contradiction.
      - destruct (Hend p Hp eq_refl) as (u & t & Ho & Hte & Htn).
        pose proof (proj1 (proj2 (@tree_derives_all L T eps ps) _ _ _ Hf)) as Hd. simpl in Hd. rewrite Ho in Hd.
        apply nullable_app in Hd as [_ Hd]. apply Hte. eapply nullable_terminal; eauto. }
    destruct (H tokens Hne) as (r & Hr & Hok & _). cbv zeta in Hok.
    rewrite (proj2 (Hok root)) in Hr; auto. exists tokens. split; auto. exists []. now rewrite app_nil_r. }
  intros [Hf Hord] tokens Hne sentence_first cut_short.
  assert (Hlr : no_left_recursion_from eps ps init) by (apply ll1_no_left_recursion; auto; apply (go_ok (po_grammar (bf_of (constructed_built B))))).
  assert (Hpr : progressing (None : option (syntax_error_solver L T))) by (intros s h c fr; discriminate).
  assert (Hcov : covering eps init ps (candidates self)) by now apply filled_covering.
  destruct (C19_parsing_terminates tokens B Hlr Hpr) as [r Hr].
  assert (HOk : forall root, r = Done (ResultOk root, []) <-> sentence_first root).
  { intros root. split.
    - intros ->. destruct Hr as [_ [fuel H]].
      destruct (C14_parse_trees_valid _ _ B (H fuel (le_n _))) as (_ & _ & w & Hw & Hp). exists w. auto.
    - intros (w & Hw & Ht). apply (terminates_unique Hr).
      exact (ending_exact B Hcov (ll1_reachable Hll) Hord Hlr Hend Hinit Ht Hw). }
  destruct tokens as [|tok rest]; [contradiction|].
  destruct (C24_ordered_choice tok rest B) as (COk & CErr & _ & C4).
  assert (Hcut : cut_short -> r = Panicked PanicTokenOutOfRange).
  { intros [Hreal (A & v & HA & Hd)].
    pose proof (derives_cut Hd _ eq_refl Hreal HA) as Hc.
    assert (Hno : forall res, choose eps ps (tok :: rest) (candidates self) init 0
                    (candidates self init (tok_type tok)) res -> False).
    { intros res Hch.
      inversion Hc as [? ? ? Hx|pr ? ? Hp Hcp Hx|? ? n w1 w2 Ht Hcc Hx]; subst; [|inversion Hcc].
      assert (Hpp : In (Production (p_input pr) (p_output pr)) ps) by (destruct pr; exact Hp).
      assert (Hin : In (p_output pr) (candidates self (p_input pr) (tok_type tok))).
      { apply (Hcov pr [] [] (tok_type tok) Hp); [apply derives_refl|].
        rewrite app_nil_r. destruct (cut_derives Hcp) as [x Hx].
        inversion Hreal as [|? ? [H1 H2] _]; subst. split; auto. split; auto. eexists; exact Hx. }
      destruct (proj1 (@cut_no_result L T E eps (p_input pr) ps (candidates self) (tok :: rest) Heps (candidates_declared F) Hcov
                         (ll1_reachable Hll) Hord) _ _ _ _ Hch (p_output pr) (tok :: rest) [] [] tok []
                  Hpp Hcp (derives_refl _ _ _) eq_refl eq_refl eq_refl Hin (fun H => H))
        as (n & l2 & o & outs' & _ & Ho & _ & Hv).
      assert (Hoc : In o (candidates self (p_input pr) (tok_type tok))) by (rewrite Ho; apply in_or_app; right; now left).
      apply (candidates_declared F) in Hoc as (q & Hq & Hqi & <-).
      apply (vanishes_nullable (candidates_declared F)) in Hv.
      destruct (Hend _ Hq Hqi) as (u & t & Hqo & Hte & Htn). rewrite Hqo in Hv.
      apply nullable_app in Hv as [_ Hv]. apply Hte. eapply nullable_terminal; eauto. }
    destruct (C4 r Hr) as [[root ->]|[[f ->]| ->]]; auto; exfalso.
    - destruct (proj1 (COk root) Hr) as (q & outs & H). exact (Hno _ H).
    - exact (Hno _ (proj1 CErr (ex_intro _ f Hr))). }
  assert (HPast : r = Panicked PanicTokenOutOfRange <-> cut_short).
  { split; auto. intros ->. destruct Hr as [_ [fuel H]].
    destruct (C48_out_of_range_is_truncated _ _ B (fun s h c fr Hs => ltac:(discriminate Hs)) (H fuel (le_n _)))
      as (H1 & (A & v & HA & Hd) & _). split; eauto. }
  exists r. split; auto. split; auto. split; auto.
  split.
  - intros [f ->]. split.
    + intros root H. apply HOk in H. discriminate.
    + intros H. apply HPast in H. discriminate.
  - intros [H1 H2]. destruct (C4 r Hr) as [[root ->]|[[f ->]| ->]].
    + elim (H1 root). now apply HOk.
    + now exists f.
    + elim H2. now apply HPast.
Qed.
Print Assumptions C103_every_outcome.

(** what C22 and C69 assume is a special case *)
Theorem C103_in_order :
  forall (T : Type) (eps init : T) (ps : list (production T)) (cands : T -> T -> list (list T)),
    nothing_vanishes_early eps ps init cands -> no_early_ending eps ps init cands.
Proof.
  intros T eps init ps cands H q before A after a l1 out l2 p Hq (u & v & Hd) Ho Hc Hnot Hin Htb Hv _.
  apply (H A a l1 out l2 p) in Hv; auto.
  - exists (u ++ before), (after ++ v). eapply derives_trans; [exact Hd|]. rewrite <- app_assoc.
    replace (before ++ A :: after ++ v) with (p_output q ++ v) by (rewrite Ho, <- app_assoc; reflexivity).
    apply (@derives_ctx _ eps ps u v [p_input q] (p_output q)). now apply derives_production.
  - intros Heq. apply Hnot, in_or_app. right. left. auto.
Qed.
Print Assumptions C103_in_order.

(** 0 epsilon; S = 1 -> A c $ | d X b $; A = 2 -> X | b; X = 4 -> epsilon; b = 5, c = 6, d = 7, $ = 8.
    On b the candidate [X] vanishes before [b] is tried, but c fails at once.  In the grammar that
    refutes C22 this choice is inside another symbol, which ends with it. *)
Definition ll1_noticed : list (production nat) :=
  [Production 1 [2; 6; 8]; Production 1 [7; 4; 5; 8]; Production 2 [4];
   Production 2 [5]; Production 4 [0]].
Definition noticed_parser : parser nat nat := Eval vm_compute in
  get_done (no_parser 0) (build (L := nat) 0 1 ll1_noticed None 200).
Definition rejecting_parser : parser nat nat := Eval vm_compute in
  get_done (no_parser 0) (build (L := nat) 0 1 ll1_rejecting None 200).

(** the conditions are met by a real grammar whose table cells do hold a vanishing alternative first, and fail on the grammar of C69 that rejects a sentence *)

Example C103_case :
  built_parser 0 1 ll1_noticed None noticed_parser /\
  ll1 0 ll1_noticed 1 /\ all_productive 0 ll1_noticed 1 /\ initial_ends_in_terminal 0 ll1_noticed 1 /\
  non_terminal ll1_noticed 1 /\ repeats_harmless 0 ll1_noticed 1 /\
  no_early_ending 0 ll1_noticed 1 (candidates noticed_parser) /\
  ~ nothing_vanishes_early 0 ll1_noticed 1 (candidates noticed_parser) /\
  (exists root, parse_from_tokens 100 noticed_parser [Token None 5; Token None 6; Token None 8] = Done (ResultOk root, [])).
Proof.
  splits.
  - apply build_built with (fuel := 200). vm_compute. reflexivity.
  - destruct (cfg_new (insertion_order nat) 0 1 ll1_noticed) as [g| |] eqn:Hg; try discriminate.
    assert (Hg2 := Hg). vm_compute in Hg. inversion Hg as [Hg'].
    destruct (ffs_from (insertion_order nat) 200 g) as [ffs| |] eqn:Hf;
      [|subst g; vm_compute in Hf; discriminate..].
    apply (ll1_check_ok _ _ _ Hg2 Hf).
    + apply no_repeated_neighbours_check. reflexivity.
    + apply non_terminalb_spec. reflexivity.
    + subst g. vm_compute in Hf. inversion Hf; subst ffs. vm_compute. reflexivity.
  - intros X HX _.
    assert (Hp : PrefixSpec.productive 0 ll1_noticed)
      by (apply productive_check_ok with (rank := fun x => match x with 1 => 3 | 2 => 2 | 4 => 1 | _ => 0 end); reflexivity).
    destruct (Hp _ HX) as (w & Hw & Hr). exists w. auto.
  - intros p Hp Hi. simpl in Hp. decompose [or] Hp; subst; try discriminate; try contradiction.
    + exists [2; 6], 8. splits; try reflexivity; try discriminate. apply non_terminalb_false. reflexivity.
    + exists [7; 4; 5], 8. splits; try reflexivity; try discriminate. apply non_terminalb_false. reflexivity.
  - apply non_terminalb_spec. reflexivity.
  - apply no_repeated_neighbours_harmless. apply no_repeated_neighbours_check. reflexivity.
  - intros q before A after a l1 out l2 p Hq _ Ho Hc Hnot Hin _ _ Hva.
    destruct (cells_check noticed_parser (fun A a => Nat.eqb A 2 && Nat.eqb a 5) eq_refl A a) as [H|H].
    + rewrite Hc, app_length in H. destruct l2; [destruct Hin|simpl in H; lia].
    + apply andb_true_iff in H as [H1 H2]. apply Nat.eqb_eq in H1, H2. subst A a.
      simpl in Hq. decompose [or] Hq; subst; try contradiction; simpl in Ho;
        repeat (destruct before as [|? before]; simpl in Ho; try discriminate; inversion Ho; subst).
      (* c is no symbol that vanishes *)
      inversion Hva as [|? ?|? o ? HX Ho2 _ _]; subst. vm_compute in Ho2. exact Ho2.
  - intros H.
    assert (Hr : reachable_from 0 ll1_noticed 1 2).
    { exists [], [6; 8]. apply (@derives_production _ 0 ll1_noticed (Production 1 [2; 6; 8])). simpl; auto. }
    apply (H 2 5 [] [4] [[5]] (Production 2 [5]) Hr eq_refl); [now left|discriminate| |].
    + split; [simpl; auto 10|]. split; auto. left. split; [discriminate|]. split; [apply non_terminalb_false; reflexivity|].
      exists []. apply derives_refl.
    + apply vanishes_symbol with (out := [0]); [apply non_terminalb_spec; reflexivity|now left| |constructor].
      constructor. constructor.
  - eexists. vm_compute. reflexivity.
Qed.

Example C103_lost_case :
  built_parser 0 1 ll1_rejecting None rejecting_parser /\
  ll1 0 ll1_rejecting 1 /\ all_productive 0 ll1_rejecting 1 /\ eof_discipline 0 ll1_rejecting 1 8 /\
  repeats_harmless 0 ll1_rejecting 1 /\
  ~ no_early_ending 0 ll1_rejecting 1 (candidates rejecting_parser).
Proof.
  splits.
  - apply build_built with (fuel := 200). vm_compute. reflexivity.
  - exact ll1_rejecting_ll1.
  - intros X HX _.
    assert (Hp : PrefixSpec.productive 0 ll1_rejecting)
      by (apply productive_check_ok with (rank := fun x => match x with 1 => 4 | 2 => 3 | 3 => 2 | 4 => 1 | _ => 0 end); reflexivity).
    destruct (Hp _ HX) as (w & Hw & Hr). exists w. auto.
  - exact ll1_rejecting_eof.
  - apply no_repeated_neighbours_harmless. apply no_repeated_neighbours_check. reflexivity.
  - intros H.
    assert (Hr : reachable_from 0 ll1_rejecting 1 2).
    { exists [], [6; 8]. apply (@derives_production _ 0 ll1_rejecting (Production 1 [2; 6; 8])). simpl; auto. }
    apply (H (Production 2 [3]) [] 3 [] 5 [] [4] [[5]] (Production 3 [5])); auto.
    + simpl; auto 10.
    + simpl. intros [?|[]]; discriminate.
    + now left.
    + split; [simpl; auto 10|]. split; auto. left. split; [discriminate|]. split; [apply non_terminalb_false; reflexivity|].
      exists []. apply derives_refl.
    + apply vanishes_symbol with (out := [0]); [apply non_terminalb_spec; reflexivity|now left| |constructor].
      constructor. constructor.
    + constructor.
Qed.

(** the three outcomes on the grammar above: "d" breaks off before X; "b c d" is no sentence *)
Example C103_outcomes_case :
  parse_from_tokens 100 noticed_parser [Token None 7] = Panicked PanicTokenOutOfRange /\
  (exists f, parse_from_tokens 100 noticed_parser [Token None 5; Token None 6; Token None 7] = Done (ResultErr f, [])) /\
  (exists root, parse_from_tokens 100 noticed_parser [Token None 7; Token None 5; Token None 8; Token None 5] = Done (ResultOk root, [])).
Proof. split; [|split]; [|eexists|eexists]; vm_compute; reflexivity. Qed.
