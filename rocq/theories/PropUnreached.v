(** * Unreachable productions and LL(1) grammars whose tables have conflicts: C73 *)

From Verif Require Import BaseFacts GrammarFacts DerivFacts ParserSound ParserBuild CoverFacts.
From Verif Require Import FollowRepeat PropParse PropFollow PropSupplied Examples ExampleTools MoreFacts
  LastSpec PropLast PropApart PropQuiet.
From Verif Require Export ApartSpec.

Set Implicit Arguments.

Lemma sublist_order (A : Type) (l l' : list A) : sublist l l' -> NoDup l' ->
  forall before p after q, l' = before ++ p :: after -> In q after -> In p l -> In q l ->
  exists b a, l = b ++ p :: a /\ In q a.
Proof.
  induction 1 as [|x l l' Hs IH|x l l' Hs IH]; intros Hnd before p after q Hl Hq Hpl Hql.
  - destruct Hpl.
  - inversion Hnd as [|? ? Hx Hnd']; subst.
    destruct before as [|y before]; simpl in Hl; inversion Hl; subst.
    + exists [], l. split; auto. destruct Hql as [->|]; auto. contradiction.
    + assert (Hpn : In p (before ++ p :: after)) by (apply in_or_app; right; now left).
      assert (Hqn : In q (before ++ p :: after)) by (apply in_or_app; right; now right).
      destruct Hpl as [->|Hpl]; [contradiction|]. destruct Hql as [->|Hql]; [contradiction|].
      destruct (IH Hnd' before p after q eq_refl Hq Hpl Hql) as (b & a & -> & Ha).
      exists (y :: b), a. auto.
  - inversion Hnd as [|? ? Hx Hnd']; subst.
    destruct before as [|y before]; simpl in Hl; inversion Hl; subst.
    + exfalso. apply Hx. eapply sublist_In; eauto.
    + eapply IH; eauto.
Qed.

Section Part.
  Context {T : Type} {E : EqDec T}.
  Variables eps init : T.
  Variables ps ps' : list (production T).
  Hypothesis Hpart : reachable_part_of eps init ps ps'.

  Let Hext : extends_grammar ps ps' := reachable_extends Hpart.
  Notation reach := (reachable_from eps ps' init).

  Lemma part_root : reach init.
  Proof. exists [], []. constructor. Qed.

  Lemma part_production p : In p ps' -> reach (p_input p) -> In p ps /\ Forall reach (p_output p).
  Proof.
    intros Hp Hr. split; [now apply (proj2 Hpart)|]. apply Forall_forall. intros x Hx.
    apply in_split in Hx as (u & v & Ho). eapply reach_step; eauto.
  Qed.

  Lemma part_derives u v : derives eps ps' u v -> Forall reach u -> derives eps ps u v /\ Forall reach v.
  Proof.
    induction 1 as [u|u v w Hs _ IH]; intros Hu; [split; auto; constructor|].
    assert (Hv : derive1 eps ps u v /\ Forall reach v).
    { destruct Hs as [x y p Hp|x y]; apply Forall_app in Hu as [Hx Hy]; inversion Hy as [|? ? Hh Hy']; subst.
      - destruct (@part_production p Hp Hh) as [H1 H2]. split; [now constructor|].
        repeat (apply Forall_app; split); auto.
      - split; [constructor|]. apply Forall_app. auto. }
    destruct Hv as [H1 H2]. destruct (IH H2) as [H3 H4]. split; auto. econstructor; eauto.
  Qed.

  Lemma part_non_terminal X : reach X -> non_terminal ps' X -> non_terminal ps X.
  Proof. intros Hr (p & Hp & Hi). exists p. split; auto. apply (proj2 Hpart); auto. now rewrite Hi. Qed.

  Lemma part_reachable X : reach X -> reachable_from eps ps init X.
  Proof.
    intros (u & v & Hd). exists u, v. apply (part_derives Hd). constructor; auto using part_root.
  Qed.

  Lemma part_start w a : Forall reach w -> can_start eps ps' w a -> can_start eps ps w a.
  Proof.
    intros Hw (H1 & H2 & v & Hd). split; auto. split.
    - intros Hn. apply H2. eapply ext_non_terminal; eauto.
    - exists v. now apply part_derives.
  Qed.

  Lemma part_cell A a p : reach A -> textbook_cell eps ps' init A a p -> textbook_cell eps ps init A a p.
  Proof.
    intros HA (Hp & Hi & Hc). subst A. destruct (@part_production p Hp HA) as [H1 H2]. split; auto. split; auto.
    destruct Hc as [Hs|[Hn (F1 & F2 & u & v & Hd)]]; [left; now apply part_start|right]. split.
    - now apply part_derives.
    - split; auto. split; [intros Hx; apply F2; eapply ext_non_terminal; eauto|].
      exists u, v. apply part_derives; auto using part_root.
  Qed.

  Lemma part_ll1 : ll1 eps ps init -> reachable_ll1 eps ps' init.
  Proof. intros H A a p q HA Hp Hq. apply (H A a); now apply part_cell. Qed.

  Lemma part_nullable_last : NoDup ps' -> nullable_last eps ps -> reachable_nullable_last eps ps' init.
  Proof.
    intros Hnd H before p after q Hps Hr Hq Hi Hne Hnull.
    assert (Hp' : In p ps') by (rewrite Hps; apply in_or_app; right; now left).
    assert (Hq' : In q ps') by (rewrite Hps; apply in_or_app; right; now right).
    destruct (@part_production p Hp' Hr) as [Hp Ho]. rewrite <- Hi in Hr.
    destruct (@part_production q Hq' Hr) as [Hq1 _].
    destruct (sublist_order (proj1 Hpart) Hnd before p after q Hps Hq Hp Hq1) as (b & a & Hl & Ha).
    apply (H b p a q Hl Ha Hi Hne). now apply part_derives.
  Qed.

  Lemma part_no_left_recursion : no_left_recursion_from eps ps init -> no_left_recursion_from eps ps' init.
  Proof.
    intros H A HA Hr (w & v & Hs & Hd). apply (H A).
    - now apply part_non_terminal.
    - now apply part_reachable.
    - assert (H1 : derive1 eps ps [A] w /\ Forall reach w).
      { remember [A] as s eqn:Hsing. destruct Hs as [x y p Hp|x y].
        - destruct x as [|? [|]]; inversion Hsing; subst. destruct (@part_production p Hp Hr) as [G1 G2].
          split; [exact (derive1_production eps _ [] [] p G1)|]. simpl. rewrite app_nil_r. auto.
        - destruct x as [|? [|]]; inversion Hsing; subst. split; [exact (derive1_epsilon _ _ [] [])|constructor]. }
      destruct H1 as [H1 H2]. exists w, v. split; auto. now apply part_derives.
  Qed.

  Lemma part_ends : initial_ends_in_terminal eps ps init -> initial_ends_in_terminal eps ps' init.
  Proof.
    intros H p Hp Hi. destruct (@part_production p Hp) as [H1 H2]; [rewrite Hi; apply part_root|].
    destruct (H p H1 Hi) as (u & t & Ho & He & Hn). exists u, t. split; auto. split; auto.
    intros Ht. apply Hn. apply part_non_terminal; auto. rewrite Ho in H2.
    apply Forall_app in H2 as [_ H2]. now inversion H2.
  Qed.

  Lemma part_harmless : repeats_harmless eps ps init -> repeats_harmless eps ps' init.
  Proof.
    intros H p u B v w C a Hp Hr Ho HB Hd HC Hn Hs.
    destruct (@part_production p Hp Hr) as [H1 H2].
    assert (RB : reach B).
    { rewrite Ho in H2. apply Forall_app in H2 as [_ H2]. now inversion H2. }
    assert (FB : Forall reach [B]) by auto.
    destruct (part_derives Hd FB) as [Hd1 Hd2].
    assert (RC : reach C) by (apply Forall_app in Hd2 as [_ Hd2]; now inversion Hd2).
    apply follow_by_rules_iff. apply (ext_follow (ps := ps)); auto. apply follow_by_rules_iff.
    apply (H p u B v w C a); auto using part_reachable, part_non_terminal, part_start.
    apply part_derives; auto.
  Qed.

  (** trees of the reachable part are trees of the whole *)
  Lemma part_trees (L : Type) :
    (forall X n w, tree_for (L := L) eps ps X n w -> reach X -> tree_for eps ps' X n w) /\
    (forall Xs ns w, forest_for (L := L) eps ps Xs ns w -> Forall reach Xs -> forest_for eps ps' Xs ns w).
  Proof.
    apply tree_forest_ind.
    - intros t He Hn Hr. constructor; auto. intros Hn'. apply Hn. now apply part_non_terminal.
    - intros _. constructor.
    - intros p cs w Hp _ IH Hr. pose proof (@ext_In _ ps ps' Hext p Hp) as Hp'. constructor; auto.
      apply IH. now apply part_production.
    - intros _. constructor.
    - intros X Xs n ns w ws _ IH1 _ IH2 Hx. inversion Hx; subst. constructor; auto.
  Qed.
End Part.

(** What holds when tables have conflicts: if the reachable part is LL(1), with nullable
    alternatives last, harmless repeats, no left recursion and an end marker, the two parsers
    accept the same inputs with the same trees, whatever solvers they have.  Only the
    reachable part has to meet these conditions.  Missing: grammars outside this class and
    that of C73_unreachable_productions_partial, and the contents of error reports. *)
Theorem C73_unreachable_ll1_partial :
  forall (L T : Type) (E : EqDec T) (eps init : T) (ps ps' : list (production T))
         (solver solver' : option (syntax_error_solver L T)) (self self' : parser L T)
         (tokens : list (token L T)) (root : node L T),
    reachable_part_of eps init ps ps' -> NoDup ps' -> non_terminal ps init ->
    built_parser eps init ps solver self -> built_parser eps init ps' solver' self' ->
    ll1 eps ps init -> nullable_last eps ps -> repeats_harmless eps ps init ->
    no_left_recursion_from eps ps init -> initial_ends_in_terminal eps ps init ->
    (exists fuel h, parse_from_tokens fuel self tokens = Done (ResultOk root, h)) <->
    (exists fuel h, parse_from_tokens fuel self' tokens = Done (ResultOk root, h)).
Proof.
  intros L T E eps init ps ps' solver solver' self self' tokens root Hpart Hnd Hn B B' Hll Hlast Hrep Hlr Hend.
  destruct (C99_nullable_last_any_solver tokens B Hll Hlast Hrep Hlr Hend Hn) as [A1 A2].
  assert (Hn' : non_terminal ps' init) by (eapply ext_non_terminal; [apply (reachable_extends Hpart)|exact Hn]).
  destruct (reachable_last_any_solver tokens B' (part_ll1 Hpart Hll) (part_nullable_last Hpart Hnd Hlast)
    (part_harmless Hpart Hrep) (part_no_left_recursion Hpart Hlr) (part_ends Hpart Hend) Hn') as [A1' A2'].
  split; intros (fuel & h & H).
  - destruct (A2 _ _ _ H) as (_ & w & Ht & Hp).
    assert (Ht' : tree_for eps ps' init root w).
    { apply (proj1 (part_trees Hpart L)); auto using part_root. }
    destruct (A1' _ _ Ht' Hp) as [_ [n Hr]]. exists n, []. apply Hr. lia.
  - destruct (A2' _ _ _ H) as (_ & w & Ht & Hp).
    apply (proj1 (reachable_trees (L := L) Hpart)) in Ht; [|apply part_root].
    destruct (A1 _ _ Ht Hp) as [_ [n Hr]]. exists n, []. apply Hr. lia.
Qed.
Print Assumptions C73_unreachable_ll1_partial.

(** the grammar of C69_case with unreachable productions that are left recursive and have
    nullable alternatives first; they enlarge the cells of the symbol 3 *)
Definition ll1_unreached : list (production nat) :=
  Production 16 [0] :: Production 16 [16; 3; 7] :: ll1_reordered.

Example C73_case_ll1 :
  let self' := parser_of_productions ll1_unreached in
  reachable_part_of 0 1 ll1_reordered ll1_unreached /\ NoDup ll1_unreached /\ non_terminal ll1_reordered 1 /\
  built_parser 0 1 ll1_reordered None reordered_parser /\ built_parser 0 1 ll1_unreached None self' /\
  ll1 0 ll1_reordered 1 /\ nullable_last 0 ll1_reordered /\ repeats_harmless 0 ll1_reordered 1 /\
  no_left_recursion_from 0 ll1_reordered 1 /\ initial_ends_in_terminal 0 ll1_reordered 1 /\
  ~ conflict_free (pr_transitions self') /\ ~ no_left_recursion 0 ll1_unreached /\
  candidates reordered_parser 3 7 = [] /\ candidates self' 3 7 = [[4]] /\
  exists root, parse_from_tokens 60 self' [Token (Some 9) 5; Token None 6; Token None 8] = Done (ResultOk root, []).
Proof.
  intros self'. destruct C69_case as (H1 & H2 & H3 & H4 & H5 & H6 & H7 & H8 & H9 & _).
  splits; auto.
  - split; [repeat constructor|].
    assert (R1 : reachable_from 0 ll1_unreached 1 1) by (exists [], []; constructor).
    assert (R2 : reachable_from 0 ll1_unreached 1 2)
      by (eapply reach_step with (p := Production 1 [2; 6; 8]) (u := []); eauto; simpl; auto).
    assert (R3 : reachable_from 0 ll1_unreached 1 3)
      by (eapply reach_step with (p := Production 2 [3]) (u := []); eauto; simpl; auto 10).
    assert (R4 : reachable_from 0 ll1_unreached 1 4)
      by (eapply reach_step with (p := Production 3 [4]) (u := []); eauto; simpl; auto 10).
    assert (R16 : ~ reachable_from 0 ll1_unreached 1 16).
    { intros Hr. apply (@reachable_closed nat 0 1 ll1_unreached (fun x => x <> 16)) in Hr; auto.
      intros q Hq Hi. unfold ll1_unreached, ll1_reordered in Hq. simpl in Hq.
      decompose [or] Hq; try contradiction; subst q; repeat constructor; simpl in *; lia. }
    intros p Hp. unfold ll1_unreached in Hp. simpl in Hp.
    decompose [or] Hp; try contradiction; subst p; simpl; split; auto 10; try contradiction;
      intros Hr; exfalso; decompose [or] Hr; try discriminate; contradiction.
  - unfold ll1_unreached, ll1_reordered. repeat constructor; simpl; intuition discriminate.
  - exists (insertion_order nat), (insertion_order nat), 200,
      (get_done (pr_grammar (no_parser 0)) (cfg_new (insertion_order nat) 0 1 ll1_unreached)).
    split; vm_compute; reflexivity.
  - eapply eof_ends; eauto.
  - intros H. specialize (H 3 5 [Production 3 [5]; Production 3 [4]] eq_refl). simpl in H. lia.
  - intros H. apply (H 16); [apply non_terminalb_spec; reflexivity|].
    exists [16; 3; 7], [3; 7]. split; [|constructor].
    apply (derive1_production 0 ll1_unreached [] [] (Production 16 [16; 3; 7])). simpl. auto.
  - eexists. vm_compute. reflexivity.
Qed.
