(** * LL(k) and the usual LL(1): C108, continued *)

From Verif Require Import ExpectFacts BaseFacts GrammarFacts DerivFacts FirstFacts FollowFacts TransitionsFacts.
From Verif Require Import ProductiveSpec LastSpec MoreFacts PropEndMarker FitFacts.
From Verif Require Import Examples ExampleTools PropParse PropFit.
From Verif Require Export FitSpec.

Set Implicit Arguments.

(** ** More lookahead admits more grammars *)
Theorem C108_more_lookahead :
  forall (T : Type) (eps init : T) (ps : list (production T)) (k k' : nat),
    k <= k' -> ll_k eps ps init k -> ll_k eps ps init k'.
Proof.
  intros T eps init ps k k' Hk H A out1 out2 x y v1 v2 H1 H2 Hx Hwx Hd1 Hw1 Hd2 Hw2 Heq.
  apply (@H A out1 out2 x y v1 v2); auto.
  rewrite <- (Nat.min_l k k' Hk), <- !firstn_firstn, Heq. reflexivity.
Qed.
Print Assumptions C108_more_lookahead.

Section Ladder.
  Context {T : Type} {E : EqDec T}.
  Variables eps init eof : T.
  Variable ps : list (production T).
  Hypothesis Heps : ~ non_terminal ps eps.
  Hypothesis Heof : eof_discipline eps ps init eof.

  Notation derives := (derives eps ps).
  Notation word := (word eps ps).

  (** with an end marker, nothing reachable vanishes together with all that follows it *)
  Lemma not_all_vanish X out x y : In (Production X out) ps -> derives [init] (x ++ X :: y) ->
    nullable eps ps (out ++ y) -> False.
  Proof.
    intros Hp Hctx Hd. apply nullable_app in Hd as [Ho Hy].
    assert (Hne : ~ nullable eps ps [eof]).
    { intros H. apply nullable_terminal in H; destruct Heof as (? & ? & _); auto. }
    destruct (ends_once_derived Heof Hctx) as [H|[H|(z & H & _)]].
    - destruct x as [|a x]; [|inversion H; destruct x; discriminate]. simpl in H. inversion H; subst X y.
      destruct Heof as (_ & _ & _ & He4 & _). destruct (He4 _ Hp eq_refl) as (u & Hu & _). simpl in Hu. subst out.
      apply nullable_app in Ho as [_ Ho]. auto.
    - destruct x; discriminate.
    - destruct y as [|b y _] using rev_ind.
      + apply app_inj_tail in H as [_ H]. subst X. destruct Heof as (_ & He2 & _). apply He2. eexists. split; [exact Hp|reflexivity].
      + rewrite app_comm_cons, app_assoc in H. apply app_inj_tail in H as [_ H]. subst b.
        apply nullable_app in Hy as [_ Hy]. auto.
  Qed.

  Lemma ll1_ll_1 : ll1 eps ps init -> ll_k eps ps init 1.
  Proof.
    intros Hll A out1 out2 x y v1 v2 H1 H2 Hctx Hx Hd1 Hw1 Hd2 Hw2 Heq.
    destruct v1 as [|a v1]; [exfalso; exact (@not_all_vanish _ _ _ _ H1 Hctx Hd1)|].
    destruct v2 as [|b v2]; [exfalso; exact (@not_all_vanish _ _ _ _ H2 Hctx Hd2)|].
    simpl in Heq. inversion Heq; subst b.
    assert (Hin : forall out v, In (Production A out) ps -> derives (out ++ y) (a :: v) -> word (a :: v) ->
       textbook_cell eps ps init A a (Production A out)).
    { intros out v Hp Hd Hw. split; auto. split; auto. inversion Hw as [|a' v' [Ha1 Ha2] _]; subst. simpl.
      apply derives_app_inv in Hd as (w & z & Hwz & Hdw & Hdz).
      destruct w as [|c w]; simpl in Hwz.
      - right. split; [exact Hdw|]. subst z. split; auto. split; auto. exists x, v.
        eapply derives_trans; [exact Hctx|]. apply derives_app; [apply derives_refl|].
        apply (@derives_app _ eps ps [A] [A] y); [apply derives_refl|exact Hdz].
      - inversion Hwz; subst c. left. split; auto. split; auto. exists w. exact Hdw. }
    specialize (Hin out1 v1 H1 Hd1 Hw1) as Hc1. specialize (Hin out2 v2 H2 Hd2 Hw2) as Hc2.
    pose proof (Hll A a _ _ Hc1 Hc2) as He. now inversion He.
  Qed.

  Lemma ll_1_ll1 : all_productive eps ps init -> (forall X, non_terminal ps X -> reachable_from eps ps init X) ->
    ll_k eps ps init 1 -> ll1 eps ps init.
  Proof.
    intros Hprod Hreach Hll A a [A1 out1] [A2 out2] (H1 & E1 & C1) (H2 & E2 & C2). simpl in *. subst A1 A2. f_equal.
    (* a context in which both can make [a] the next token *)
    assert (Hctx : exists x y, derives [init] (x ++ A :: y) /\
       can_start eps ps (out1 ++ y) a /\ can_start eps ps (out2 ++ y) a).
    { assert (Hs : forall out y, can_start eps ps out a -> can_start eps ps (out ++ y) a).
      { intros out y Ha. apply can_start_app. auto. }
      assert (Hf : forall out v, a <> eps -> ~ non_terminal ps a -> nullable eps ps out -> can_start eps ps (out ++ a :: v) a).
      { intros out v Ha1 Ha2 Hn. apply can_start_app. right. split; auto. split; auto. split; auto. exists v. apply derives_refl. }
      destruct C1 as [C1|[N1 F1]], C2 as [C2|[N2 F2]].
      - destruct (Hreach A) as (x & y & Hd); [eexists; split; [exact H1|reflexivity]|]. exists x, y. auto.
      - destruct F2 as (Ha1 & Ha2 & x & v & Hd). exists x, (a :: v). auto.
      - destruct F1 as (Ha1 & Ha2 & x & v & Hd). exists x, (a :: v). auto.
      - destruct F1 as (Ha1 & Ha2 & x & v & Hd). exists x, (a :: v). auto. }
    destruct Hctx as (x & y & Hctx & (Ha1 & Ha2 & r1 & Hr1) & (_ & _ & r2 & Hr2)).
    destruct (@fill_left T E eps init ps x A y Hprod Hctx) as (x' & _ & Hx & Hctx').
    assert (Hgo : forall out r, In (Production A out) ps -> derives (out ++ y) (a :: r) ->
       exists v, derives (out ++ y) (a :: v) /\ word (a :: v)).
    { intros out r Hp Hr.
      assert (Hd : derives [init] ((x ++ [a]) ++ r)).
      { eapply derives_trans; [exact Hctx|]. rewrite <- app_assoc. apply derives_app; [apply derives_refl|].
        eapply derives_trans; [|exact Hr]. apply (@derives_ctx _ eps ps [] y [A] out). exact (derives_production eps _ _ Hp). }
      destruct (@fill T E eps init ps r (x ++ [a]) Hprod Hd) as (v & Hv & Hwv).
      exists v. split; [|constructor; auto].
      eapply derives_trans; [exact Hr|]. apply (@derives_app _ eps ps [a] [a] r); [apply derives_refl|exact Hv]. }
    destruct (Hgo out1 r1 H1 Hr1) as (v1 & Hd1 & Hw1). destruct (Hgo out2 r2 H2 Hr2) as (v2 & Hd2 & Hw2).
    exact (@Hll A out1 out2 x' y _ _ H1 H2 Hctx' Hx Hd1 Hw1 Hd2 Hw2 eq_refl).
  Qed.

  Lemma nullable_last_short_later : nullable_last eps ps -> short_later eps ps init 1.
  Proof.
    intros Hlast before after A out1 out2 x y w v Hps Hin Hne _ _ Hd _ Hlen _ _ _.
    destruct w as [|a w]; [|simpl in Hlen; lia].
    apply (Hlast before (Production A out1) after (Production A out2) Hps Hin eq_refl); [congruence|exact Hd].
  Qed.
End Ladder.

(** ** With an end marker, LL(1) as the crate computes it is LL(k) for k = 1 *)
Theorem C108_ll1_is_ll_1 :
  forall (T : Type) (E : EqDec T) (eps init eof : T) (ps : list (production T)),
    ~ non_terminal ps eps -> eof_discipline eps ps init eof ->
    (ll1 eps ps init -> ll_k eps ps init 1) /\
    (all_productive eps ps init -> (forall X, non_terminal ps X -> reachable_from eps ps init X) ->
     ll_k eps ps init 1 -> ll1 eps ps init) /\
    (nullable_last eps ps -> short_later eps ps init 1).
Proof.
  intros T E eps init eof ps Heps He. split; [|split].
  - exact (ll1_ll_1 He).
  - exact (@ll_1_ll1 T E eps init ps).
  - exact (@nullable_last_short_later T eps init ps).
Qed.
Print Assumptions C108_ll1_is_ll_1.

(** the grammar of C108_case is LL(2), hence LL(3), and not LL(1); it obeys the end marker discipline *)
Example C108_ladder_case :
  ll_k 0 calls 1 2 /\ ll_k 0 calls 1 3 /\ ~ ll_k 0 calls 1 1 /\ ~ ll1 0 calls 1 /\ eof_discipline 0 calls 1 12.
Proof.
  destruct C108_case as (B & H2 & _ & _ & _ & _ & _ & He & _).
  assert (H1 : ~ ll_k 0 calls 1 1).
  { intros H. assert (Heq : [3] = [4]); [|discriminate].
    assert (Hw : forall w, forallb (fun a => negb (Nat.eqb a 0) && negb (existsb (fun p => Nat.eqb (p_input p) a) calls)) w = true -> word 0 calls w).
    { intros w Hf. apply Forall_forall. intros a Ha. rewrite forallb_forall in Hf. specialize (Hf a Ha).
      apply andb_true_iff in Hf as [Ha0 Hf]. apply negb_true_iff, Nat.eqb_neq in Ha0. split; auto.
      apply negb_true_iff in Hf. intros (p & Hp & Hi). assert (Ht : existsb (fun p => Nat.eqb (p_input p) a) calls = true).
      { apply existsb_exists. exists p. split; auto. now apply Nat.eqb_eq. } congruence. }
    apply (@H 2 [3] [4] [] [12] [6; 7; 8; 12] [6; 9; 8; 10; 12]); try (apply Hw; reflexivity); try reflexivity; try (simpl; auto 10; fail).
    - apply (@derives_production _ 0 calls (Production 1 [2; 12])). simpl. auto.
    - apply (@derives_ctx _ 0 calls [] [12] [3] [6; 7; 8]).
      apply (@derives_production _ 0 calls (Production 3 [6; 7; 8])). simpl. auto 10.
    - eapply derives_trans.
      + apply (@derives_ctx _ 0 calls [] [12] [4] [6; 9; 5; 10]).
        apply (@derives_production _ 0 calls (Production 4 [6; 9; 5; 10])). simpl. auto 10.
      + apply (@derives_ctx _ 0 calls [6; 9] [10; 12] [5] [8]).
        apply (@derives_production _ 0 calls (Production 5 [8])). simpl. auto 10. }
  split; [exact H2|split; [|split; [exact H1|split; [|exact He]]]].
  - exact (@C108_more_lookahead nat 0 1 calls 2 3 ltac:(lia) H2).
  - intros Hll. apply H1. apply (@C108_ll1_is_ll_1 nat _ 0 1 12 calls); auto.
    intros (p & Hp & Hi). simpl in Hp. decompose [or] Hp; subst; try discriminate; contradiction.
Qed.
Print Assumptions C108_ladder_case.

(** ** The condition is sufficient, not necessary: S -> X $; X -> a | a b (S = 1, X = 2, a = 3, b = 4,
    $ = 5).  The alternative [a] fits early where [a b] is right, and every sentence is accepted. *)
Definition fits_early : list (production nat) :=
  [Production 1 [2; 5]; Production 2 [3]; Production 2 [3; 4]].
Definition fits_early_parser : parser nat nat := Eval vm_compute in
  get_done (no_parser 0) (build (L := nat) 0 1 fits_early None 200).

Theorem C108_not_necessary :
  exists (ps : list (production nat)) (self : parser nat nat),
    built_parser 0 1 ps None self /\ eof_discipline 0 ps 1 5 /\ ~ never_fits_early 0 ps 1 /\
    forall tokens root, tree_for 0 ps 1 root tokens ->
      terminates_with (fun fuel => parse_from_tokens fuel self tokens) (Done (ResultOk root, [])).
Proof.
  exists fits_early, fits_early_parser.
  assert (Hnt : forall x, non_terminal fits_early x -> x = 1 \/ x = 2).
  { intros x (p & Hp & Hi). simpl in Hp. decompose [or] Hp; subst; auto; contradiction. }
  assert (Hleaf : forall x n w, x <> 0 -> x <> 1 -> x <> 2 -> tree_for (L := nat) 0 fits_early x n w ->
     exists l, n = Node [] (Token l x) /\ w = [Token l x]).
  { intros x n w H0 H1 H2 Ht. inversion Ht as [[l ty] H3 H4 Hx|H3|p ch w' Hp Hf Hx]; subst.
    - exists l. auto.
    - congruence.
    - destruct (Hnt (p_input p)) as [H|H]; [exists p; auto|congruence|congruence]. }
  split; [|split; [|split]].
  - apply build_built with (fuel := 200). vm_compute. reflexivity.
  - split; [discriminate|]. split; [intros H; apply Hnt in H as [H|H]; discriminate|].
    split; [|split]; intros p Hp; simpl in Hp.
    + intros Hin. decompose [or] Hp; subst; simpl in Hin; intuition discriminate.
    + intros Hi'. decompose [or] Hp; subst; try discriminate; try contradiction.
      exists [2]. split; [reflexivity|simpl; intuition discriminate].
    + intros Hi' Hin. decompose [or] Hp; subst; simpl in Hin, Hi'; intuition discriminate.
  - intros H. apply (@H [Production 1 [2; 5]] [Production 2 [3; 4]] 2 [3] [3; 4] [] [5] [3] [3; 4; 5]).
    + reflexivity.
    + simpl. auto.
    + discriminate.
    + apply (@derives_production _ 0 fits_early (Production 1 [2; 5])). simpl. auto.
    + apply derives_refl.
    + repeat constructor; [discriminate|]. intros Hn. apply Hnt in Hn as [Hn|Hn]; discriminate.
    + apply derives_refl.
    + repeat constructor; try discriminate; intros Hn; apply Hnt in Hn as [Hn|Hn]; discriminate.
    + exists [4; 5]. reflexivity.
  - intros tokens root Ht.
    inversion Ht as [tok H3 H4 Hx|H3|p ch w' Hp Hf Hx]; subst.
    { exfalso. apply H4. rewrite Hx. exists (Production 1 [2; 5]). simpl. auto. }
    assert (p = Production 1 [2; 5]).
    { simpl in Hp. decompose [or] Hp; subst; try discriminate; try contradiction; reflexivity. }
    subst p. cbn [p_output p_input] in *.
    inversion Hf as [|X1 Xs1 n1 ns1 w1 ws1 Ht1 Hf1]; subst.
    inversion Hf1 as [|X2 Xs2 n2 ns2 w2 ws2 Ht2 Hf2]; subst. inversion Hf2; subst.
    apply Hleaf in Ht2 as (l2 & -> & ->); try discriminate.
    inversion Ht1 as [tok H3 H4 Hx1|H3|p ch w' Hp1 Hf3 Hx1]; subst.
    { exfalso. apply H4. rewrite Hx1. exists (Production 2 [3]). simpl. auto. }
    assert (Hpc : p = Production 2 [3] \/ p = Production 2 [3; 4]).
    { simpl in Hp1. decompose [or] Hp1; subst; try discriminate; try contradiction; auto. }
    destruct Hpc; subst p; cbn [p_output p_input] in *.
    + inversion Hf3 as [|X3 Xs3 n3 ns3 w3 ws3 Ht3 Hf4]; subst. inversion Hf4; subst.
      apply Hleaf in Ht3 as (l3 & -> & ->); try discriminate.
      apply parse_terminates with (k := 50); [vm_compute; reflexivity|discriminate].
    + inversion Hf3 as [|X3 Xs3 n3 ns3 w3 ws3 Ht3 Hf4]; subst.
      inversion Hf4 as [|X4 Xs4 n4 ns4 w4 ws4 Ht4 Hf5]; subst. inversion Hf5; subst.
      apply Hleaf in Ht3 as (l3 & -> & ->); try discriminate.
      apply Hleaf in Ht4 as (l4 & -> & ->); try discriminate.
      apply parse_terminates with (k := 50); [vm_compute; reflexivity|discriminate].
Qed.
Print Assumptions C108_not_necessary.
