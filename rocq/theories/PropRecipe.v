(** * Every reduced LL(1) grammar can be prepared for the parser: C89 *)

From Verif Require Import BaseFacts GrammarFacts DerivFacts FollowRepeat ParserSound ParserBuild MoreFacts.
From Verif Require Import LeftRecFacts Examples LL1Check PropFirstFollow PropParse PropLeftRec PropLast.
From Verif Require Export RecipeSpec.
From Verif Require Import SplitFacts PropSplit.

Set Implicit Arguments.

(** ** grammars with the same productions in another order *)
Section SameSet.
  Context {T : Type} {E : EqDec T}.
  Variable eps : T.
  Variables ps qs : list (production T).
  Hypothesis Hsame : forall p, In p ps <-> In p qs.

  Lemma same_nt A : non_terminal ps A <-> non_terminal qs A.
  Proof. split; intros (p & Hp & Hi); exists p; split; auto; now apply Hsame. Qed.

  Lemma same_derives u v : derives eps ps u v <-> derives eps qs u v.
  Proof.
    assert (H : forall l m, (forall p : production T, In p l -> In p m) -> forall u v, derives eps l u v -> derives eps m u v).
    { intros l m Hlm x y H. induction H as [|x y z H1 _ IH]; [apply derives_refl|].
      eapply derives_trans; [|exact IH]. apply derives_step. destruct H1; constructor; auto. }
    split; apply H; intros p; apply Hsame.
  Qed.

  Lemma same_nullable w : nullable eps ps w <-> nullable eps qs w.
  Proof. apply same_derives. Qed.

  Lemma same_can_start w a : can_start eps ps w a <-> can_start eps qs w a.
  Proof.
    unfold can_start. rewrite same_nt.
    split; intros (H1 & H2 & v & H3); (split; [auto|split; [auto|exists v; now apply same_derives]]).
  Qed.

  Lemma same_can_follow S A a : can_follow eps ps S A a <-> can_follow eps qs S A a.
  Proof.
    unfold can_follow. rewrite same_nt.
    split; intros (H1 & H2 & u & v & H3); (split; [auto|split; [auto|exists u, v; now apply same_derives]]).
  Qed.

  Lemma same_cell S A a p : textbook_cell eps ps S A a p <-> textbook_cell eps qs S A a p.
  Proof. unfold textbook_cell. now rewrite Hsame, same_can_start, same_nullable, same_can_follow. Qed.

  Lemma same_ll1 S : ll1 eps ps S -> ll1 eps qs S.
  Proof. intros H A a p q Hp Hq. apply (H A a); now apply same_cell. Qed.

  Lemma same_productive S : all_productive eps ps S -> all_productive eps qs S.
  Proof.
    intros H X HX (u & v & Hr). destruct (H X) as (w & Hw & Hf).
    - now apply same_nt.
    - exists u, v. now apply same_derives.
    - exists w. split; [now apply same_derives|]. eapply Forall_impl; [|exact Hf].
      intros a [H1 H2]. split; auto. now rewrite <- same_nt.
  Qed.

  Lemma same_eof S eof : eof_discipline eps ps S eof -> eof_discipline eps qs S eof.
  Proof.
    intros (H1 & H2 & H3 & H4 & H5). split; [auto|]. split; [now rewrite <- same_nt|].
    split; [|split]; intros p Hp; apply Hsame in Hp; auto.
  Qed.

  Lemma same_trees {L : Type} X n w : tree_for (L := L) eps ps X n w <-> tree_for eps qs X n w.
  Proof.
    assert (H : forall l m, (forall p : production T, In p l <-> In p m) -> (forall A, non_terminal l A <-> non_terminal m A) ->
      (forall X n w, tree_for (L := L) eps l X n w -> tree_for eps m X n w) /\
      (forall Xs ns w, forest_for (L := L) eps l Xs ns w -> forest_for eps m Xs ns w)).
    { intros l m Hlm Hnt. apply tree_forest_ind.
      - intros tok H1 H2. constructor; auto. now rewrite <- Hnt.
      - constructor.
      - intros p children v Hp _ IH. constructor; auto. now apply Hlm.
      - constructor.
      - intros Y Ys y ys v vs _ IH1 _ IH2. now constructor. }
    split; apply H; auto; try apply same_nt; intros; symmetry; [apply Hsame|apply same_nt].
  Qed.

  Lemma same_repeated A : In A (repeated ps) <-> In A (repeated qs).
  Proof.
    assert (H : forall l m, (forall p : production T, In p l <-> In p m) -> In A (repeated l) -> In A (repeated m)).
    { intros l m Hlm HA. pose proof (al_nt l A HA) as (q & Hq & Hi).
      destruct (al_occurs l A HA) as (p & u & v & Hp & Ho).
      apply (@nt_repeated T E m p u A v); auto; [now apply Hlm|]. exists q. split; auto. now apply Hlm. }
    split; apply H; auto. intros p. symmetry. apply Hsame.
  Qed.

  Lemma same_fresh alias : fresh_aliases alias eps ps -> fresh_aliases alias eps qs.
  Proof.
    intros [H1 H2]. split.
    - intros A B HA HB. apply H1; now apply same_repeated.
    - intros A HA. apply same_repeated in HA. destruct (H2 A HA) as (H3 & H4 & H5).
      split; [auto|]. split; [now rewrite <- same_nt|]. intros (p & Hp & Hin). apply H5. exists p. split; auto.
      now apply Hsame.
  Qed.

  Lemma same_is_alias alias X : is_alias alias ps X = is_alias alias qs X.
  Proof.
    apply eq_iff_eq_true. unfold is_alias. rewrite !existsb_exists.
    split; intros (A & HA & Heq); exists A; split; auto; now apply same_repeated.
  Qed.

  Lemma same_merge {L : Type} alias (n : node L T) : merge_aliases alias ps n = merge_aliases alias qs n.
  Proof.
    revert n. fix IH 1. intros [children tok]. simpl. rewrite same_is_alias.
    destruct (is_alias alias qs (tok_type tok)).
    - destruct children as [|c [|c' cs]]; auto.
    - f_equal. induction children as [|c cs IHc]; simpl; auto. rewrite IH. now rewrite IHc.
  Qed.
End SameSet.

(** ** at most one nullable alternative *)
Lemma ll1_one_nullable {T : Type} {E : EqDec T} (eps init : T) ps :
  productions_ok eps ps -> all_productive eps ps init -> initial_ends_in_terminal eps ps init ->
  ll1 eps ps init -> forall p q, In p ps -> In q ps -> p_input p = p_input q ->
  reachable_from eps ps init (p_input p) ->
  nullable eps ps (p_output p) -> nullable eps ps (p_output q) -> p = q.
Proof.
  intros Hok Hprod Hend Hll p q Hp Hq Hi Hr Hnp Hnq.
  assert (Hpn : non_terminal ps (p_input p)) by now exists p.
  destruct (@followed T E eps init ps Hok (can_follow eps ps init)) with (X := p_input p) as [Heq|[a Ha]]; auto.
  - intros r u A mid Z v a Hr' (u' & v' & Hd) Ho HA Hm (He & Hn & w & Hw) _.
    split; auto. split; auto. exists (u' ++ u), (w ++ v ++ v').
    eapply derives_trans; [exact Hd|].
    change (p_input r :: v') with ([p_input r] ++ v').
    replace ((u' ++ u) ++ A :: a :: w ++ v ++ v')
      with (u' ++ (u ++ [A] ++ [] ++ (a :: w) ++ v) ++ v') by (simpl; rewrite <- !app_assoc; simpl; now rewrite <- !app_assoc).
    apply derives_ctx. eapply derives_trans; [now apply derives_production|]. rewrite Ho.
    apply derives_app; [apply derives_refl|].
    apply (@derives_app _ eps ps [A] [A]); [apply derives_refl|].
    apply derives_app; [exact Hm|].
    apply (@derives_app _ eps ps [Z] (a :: w)); [exact Hw|apply derives_refl].
  - intros r u A v a Hr' _ Ho HA Hv (He & Hn & u' & v' & Hd).
    split; auto. split; auto. exists (u' ++ u), v'.
    eapply derives_trans; [exact Hd|].
    change (p_input r :: a :: v') with ([p_input r] ++ a :: v').
    replace ((u' ++ u) ++ A :: a :: v')
      with (u' ++ (u ++ [A] ++ []) ++ a :: v') by (simpl; now rewrite <- !app_assoc).
    apply derives_ctx. eapply derives_trans; [now apply derives_production|]. rewrite Ho.
    apply derives_app; [apply derives_refl|].
    apply (@derives_app _ eps ps [A] [A]); [apply derives_refl|exact Hv].
  - exfalso. apply (@init_not_nullable T eps init ps); auto.
    + now rewrite <- Heq.
    + rewrite <- Heq. eapply derives_trans; [now apply derives_production|exact Hnp].
  - apply (Hll (p_input p) a); (split; [auto|split; [auto|right; auto]]).
Qed.

(** FIRST says exactly which outputs are nullable *)
Lemma nullable_by_spec {T : Type} {E : EqDec T} ho ho' fuel (eps init : T) ps g ffs :
  cfg_new ho eps init ps = Done g -> ffs_from ho' fuel g = Done ffs ->
  forall p, In p ps -> (nullable_by eps ffs (p_output p) = true <-> nullable eps ps (p_output p)).
Proof.
  intros Hg Hf p Hp. unfold nullable_by. rewrite forallb_forall, nullable_forall, Forall_forall.
  split; intros H X HX; specialize (H X HX);
    destruct (@first_some T E eps init ps ho ho' g fuel ffs Hg Hf p X Hp HX) as [s Hs];
    destruct (@C05_first_exact _ _ _ _ _ _ _ _ _ _ _ _ Hg Hf Hs) as [_ Hn].
  - rewrite Hs in H. apply existsb_exists in H as (x & Hx & Heq). apply eqb_iff in Heq. subst x. now apply Hn.
  - rewrite Hs. apply existsb_exists. exists eps. split; [now apply Hn|apply eqb_self].
Qed.

Lemma moved_same {T : Type} {E : EqDec T} (eps : T) ffs ps p :
  In p ps <-> In p (nullable_moved_last eps ffs ps).
Proof.
  unfold nullable_moved_last. rewrite in_app_iff, !filter_In.
  destruct (nullable_by eps ffs (p_output p)); simpl; split; intuition discriminate.
Qed.

Lemma moved_nullable_last {T : Type} {E : EqDec T} ho ho' fuel (eps init : T) ps g ffs :
  cfg_new ho eps init ps = Done g -> ffs_from ho' fuel g = Done ffs ->
  reduced eps ps init -> initial_ends_in_terminal eps ps init -> ll1 eps ps init ->
  nullable_last eps (nullable_moved_last eps ffs ps).
Proof.
  intros Hg Hf Hred Hend Hll before p after q Hps Hq Hi Hne Hn.
  assert (Hok : productions_ok eps ps) by (eapply go_ok; eapply cfg_new_grammar_of; eauto).
  assert (Hp' : In p ps).
  { apply moved_same with (eps := eps) (ffs := ffs). rewrite Hps. apply in_or_app. right. now left. }
  assert (Hq' : In q ps).
  { apply moved_same with (eps := eps) (ffs := ffs). rewrite Hps. apply in_or_app. right. now right. }
  apply (@same_nullable T eps ps _ (moved_same eps ffs ps)) in Hn.
  assert (Hnp := proj2 (@nullable_by_spec T E ho ho' fuel eps init ps g ffs Hg Hf p Hp') Hn).
  assert (Hnq : nullable_by eps ffs (p_output q) = true).
  { unfold nullable_moved_last in Hps. apply app_eq_mid in Hps as [(m & H1 & H2)|(m & H1 & H2)].
    - destruct m as [|z m].
      + simpl in H2. assert (Hin : In q (filter (fun p => nullable_by eps ffs (p_output p)) ps))
          by (rewrite <- H2; now right). now apply filter_In in Hin.
      + simpl in H2. injection H2 as Hz _. subst z.
        assert (Hin : In p (filter (fun p => negb (nullable_by eps ffs (p_output p))) ps))
          by (rewrite H1; apply in_or_app; right; now left).
        apply filter_In in Hin as [_ Hin]. rewrite Hnp in Hin. discriminate.
    - assert (Hin : In q (filter (fun p => nullable_by eps ffs (p_output p)) ps))
        by (rewrite H2; apply in_or_app; right; now right). now apply filter_In in Hin. }
  apply (@nullable_by_spec T E ho ho' fuel eps init ps g ffs Hg Hf q Hq') in Hnq.
  apply Hne. symmetry.
  apply (@ll1_one_nullable T E eps init ps); auto.
  - intros X HX _. now apply Hred.
  - apply Hred. now exists p.
Qed.

(** ** the theorem *)
Theorem C89_any_ll1_grammar :
  forall (L T : Type) (E : EqDec T) (ho ho' : hash_order T) (fuel : nat) (eps init eof : T)
         (ps : list (production T)) (g : grammar T) (ffs : first_follow_symbols T) (alias : T -> T),
    cfg_new ho eps init ps = Done g -> ffs_from ho' fuel g = Done ffs ->
    ll1 eps ps init -> reduced eps ps init -> eof_discipline eps ps init eof -> non_terminal ps init ->
    fresh_aliases alias eps ps ->
    (exists self, built_parser (L := L) eps init (prepared alias eps ffs ps) None self) /\
    forall (self : parser L T), built_parser eps init (prepared alias eps ffs ps) None self ->
    forall (before : list (token L T)) (t : token L T),
      tok_type t = eof -> Forall (fun x => tok_type x <> eof) before ->
      exists res,
        terminates_with (fun fuel => parse_from_tokens fuel self (before ++ [t])) (Done (res, [])) /\
        (forall root, (exists root', res = ResultOk root' /\ merge_aliases alias ps root' = root) <->
                      tree_for eps ps init root (before ++ [t])) /\
        ((exists f, res = ResultErr f) <-> forall root, ~ tree_for eps ps init root (before ++ [t])).
Proof.
  intros L T E ho ho' fuel eps init eof ps g ffs alias Hg Hf Hll Hred He Hinit Hfr.
  set (qs := nullable_moved_last eps ffs ps).
  assert (Hsame : forall p, In p ps <-> In p qs) by (intros p; apply moved_same).
  assert (Hok : productions_ok eps ps) by (eapply go_ok; eapply cfg_new_grammar_of; eauto).
  assert (Hokq : productions_ok eps qs) by (intros p Hp; apply Hok; now apply Hsame).
  assert (Hfrq : fresh_aliases alias eps qs) by (eapply same_fresh; eauto).
  assert (Hinitq : non_terminal qs init) by (apply (@same_nt T ps qs Hsame); auto).
  assert (Hprod : all_productive eps ps init) by (intros X HX _; now apply Hred).
  assert (Heq : eof_discipline eps qs init eof) by (eapply same_eof; eauto).
  assert (Hllq : ll1 eps qs init) by (eapply same_ll1; eauto).
  destruct (@C88_same_language L T E eps init qs alias Hokq Hfrq Hinitq) as (Hex & _).
  split; [exact (Hex None)|].
  intros self B before t Ht Hb.
  assert (Hlast : nullable_last eps qs) by (eapply moved_nullable_last; eauto; eapply eof_ends; eauto).
  assert (Hlr : no_left_recursion_from eps qs init).
  { apply ll1_no_left_recursion; auto; [eapply same_productive; eauto|eapply eof_ends; eauto]. }
  destruct (@C88_split_decides L T E eps init eof qs alias self before t Hokq Hfrq B Hllq Hlast Hlr Heq Hinitq Ht Hb)
    as (res & H1 & H2 & H3).
  exists res. split; [auto|]. split.
  - intros root. rewrite (@same_trees T eps ps qs Hsame L), <- H2.
    split; intros (root' & Hr & <-); exists root'; split; auto; [symmetry|]; now apply same_merge.
  - rewrite H3. split; intros H root Htr; apply (H root); now apply (@same_trees T eps ps qs Hsame L).
Qed.
Print Assumptions C89_any_ll1_grammar.

(** ** A case, with both problems.  0 epsilon; S = 1 -> Z c $ | d B b $ | e P P $; Z = 2 -> A;
    A = 3 -> B | b; B = 4 -> epsilon; P = 10 -> f Q; Q = 12 -> epsilon | g;
    b = 5, c = 6, d = 7, $ = 8, e = 9, f = 11, g = 13; the alias of x is x + 20. *)
Definition rough : list (production nat) :=
  [Production 1 [2; 6; 8]; Production 1 [7; 4; 5; 8]; Production 1 [9; 10; 10; 8]; Production 2 [3];
   Production 3 [4]; Production 3 [5]; Production 4 [0]; Production 10 [11; 12];
   Production 12 [0]; Production 12 [13]].
Definition rough_alias (x : nat) : nat := x + 20.
Definition no_grammar : grammar nat := pr_grammar (no_parser 0).
Definition rough_grammar : grammar nat := Eval vm_compute in
  get_done no_grammar (cfg_new (insertion_order nat) 0 1 rough).
Definition rough_ffs : first_follow_symbols nat := Eval vm_compute in
  get_done (FirstFollowSymbols [] []) (ffs_from (insertion_order nat) 200 rough_grammar).
Definition rough_prepared : list (production nat) := Eval vm_compute in
  prepared rough_alias 0 rough_ffs rough.
Definition rough_parser : parser nat nat := Eval vm_compute in
  get_done (no_parser 0) (build (L := nat) 0 1 rough None 200).
Definition prepared_parser : parser nat nat := Eval vm_compute in
  get_done (no_parser 0) (build (L := nat) 0 1 rough_prepared None 200).

Lemma rough_ok : productions_ok 0 rough.
Proof. apply productions_ok_check. reflexivity. Qed.

Lemma rough_init : non_terminal rough 1.
Proof. apply non_terminalb_spec. reflexivity. Qed.

Lemma rough_fresh : fresh_aliases rough_alias 0 rough.
Proof.
  split.
  - intros A B _ _ H. unfold rough_alias in H. lia.
  - intros A HA. change (repeated rough) with [10] in HA. destruct HA as [<-|[]].
    split; [discriminate|]. split.
    + apply non_terminalb_false. reflexivity.
    + intros (p & Hp & Hin). simpl in Hp. decompose [or] Hp; subst; simpl in Hin; intuition discriminate.
Qed.

Lemma rough_ll1 : ll1 0 rough 1.
Proof.
  apply (split_ll1_inv rough_ok rough_fresh rough_init).
  set (sp := split_repeats rough_alias rough). vm_compute in sp.
  destruct (cfg_new (insertion_order nat) 0 1 sp) as [g| |] eqn:Hg; try discriminate.
  assert (Hg2 := Hg). vm_compute in Hg. inversion Hg as [Hg'].
  destruct (ffs_from (insertion_order nat) 200 g) as [ffs| |] eqn:Hf;
    [|subst g; vm_compute in Hf; discriminate..].
  apply (ll1_check_ok _ _ _ Hg2 Hf).
  - apply no_repeated_neighbours_check. reflexivity.
  - apply non_terminalb_spec. reflexivity.
  - subst g. vm_compute in Hf. inversion Hf; subst ffs. vm_compute. reflexivity.
Qed.

Lemma rough_reduced : reduced 0 rough 1.
Proof.
  assert (Hf : forall x, fin rough x).
  { assert (Ht : forall x, non_terminalb rough x = false -> fin rough x).
    { intros x Hx. apply fin_terminal. now apply non_terminalb_false. }
    assert (Hp : forall X out, In (Production X out) rough ->
                               (forall y, In y out -> fin rough y) -> fin rough X).
    { intros X out Hin Hout. exact (fin_production (Production X out) Hin (fins_forall _ Hout)). }
    assert (H4 : fin rough 4) by (apply Hp with [0]; [simpl; tauto|intros y [<-|[]]; now apply Ht]).
    assert (H3 : fin rough 3) by (apply Hp with [5]; [simpl; tauto|intros y [<-|[]]; now apply Ht]).
    assert (H2 : fin rough 2) by (apply Hp with [3]; [simpl; tauto|intros y [<-|[]]; auto]).
    assert (H1 : fin rough 1)
      by (apply Hp with [2; 6; 8]; [simpl; tauto|intros y [<-|[<-|[<-|[]]]]; auto; now apply Ht]).
    assert (H12 : fin rough 12) by (apply Hp with [0]; [simpl; tauto|intros y [<-|[]]; now apply Ht]).
    assert (H10 : fin rough 10)
      by (apply Hp with [11; 12]; [simpl; tauto|intros y [<-|[<-|[]]]; auto; now apply Ht]).
    intros x. destruct x as [|[|[|[|[|[|[|[|[|[|[|[|[|x]]]]]]]]]]]]]; auto; apply Ht; reflexivity. }
  assert (Hr : forall Z X, reachable_from 0 rough 1 Z -> (exists p, In p rough /\ p_input p = Z /\ In X (p_output p)) ->
                           reachable_from 0 rough 1 X).
  { intros Z X HZ Hp. eapply reachable_part; eauto. }
  assert (R1 : reachable_from 0 rough 1 1) by (exists [], []; apply derives_refl).
  assert (R2 : reachable_from 0 rough 1 2)
    by (apply (Hr 1 2 R1); exists (Production 1 [2; 6; 8]); simpl; auto 20).
  assert (R4 : reachable_from 0 rough 1 4)
    by (apply (Hr 1 4 R1); exists (Production 1 [7; 4; 5; 8]); simpl; auto 20).
  assert (R10 : reachable_from 0 rough 1 10)
    by (apply (Hr 1 10 R1); exists (Production 1 [9; 10; 10; 8]); simpl; auto 20).
  assert (R3 : reachable_from 0 rough 1 3)
    by (apply (Hr 2 3 R2); exists (Production 2 [3]); simpl; auto 20).
  assert (R12 : reachable_from 0 rough 1 12)
    by (apply (Hr 10 12 R10); exists (Production 10 [11; 12]); simpl; auto 20).
  intros A HA. split; [|exact (proj1 (fin_yield 0 rough) A (Hf A))].
  destruct HA as (p & Hp & <-). simpl in Hp. decompose [or] Hp; subst; simpl; auto; contradiction.
Qed.

Lemma rough_eof : eof_discipline 0 rough 1 8.
Proof.
  split; [discriminate|]. split; [apply non_terminalb_false; reflexivity|].
  split; [|split].
  - intros p Hp. simpl in Hp. intros Hin.
    decompose [or] Hp; subst; simpl in Hin; intuition discriminate.
  - intros p Hp Hi. simpl in Hp.
    decompose [or] Hp; subst; try discriminate; try contradiction.
    + exists [2; 6]. split; [reflexivity|simpl; intuition discriminate].
    + exists [7; 4; 5]. split; [reflexivity|simpl; intuition discriminate].
    + exists [9; 10; 10]. split; [reflexivity|simpl; intuition discriminate].
  - intros p Hp Hi. simpl in Hp. intros Hin.
    decompose [or] Hp; subst; simpl in Hin, Hi; intuition discriminate.
Qed.

Example C89_case :
  cfg_new (insertion_order nat) 0 1 rough = Done rough_grammar /\
  ffs_from (insertion_order nat) 200 rough_grammar = Done rough_ffs /\
  ll1 0 rough 1 /\ reduced 0 rough 1 /\ eof_discipline 0 rough 1 8 /\ non_terminal rough 1 /\
  fresh_aliases rough_alias 0 rough /\
  prepared rough_alias 0 rough_ffs rough =
    [Production 1 [2; 6; 8]; Production 1 [7; 4; 5; 8]; Production 1 [9; 10; 30; 8];
     Production 3 [5]; Production 10 [11; 12]; Production 12 [13];
     Production 2 [3]; Production 3 [4]; Production 4 [0]; Production 12 [0]; Production 30 [10]] /\
  built_parser 0 1 rough None rough_parser /\
  built_parser 0 1 (prepared rough_alias 0 rough_ffs rough) None prepared_parser /\
  (** two sentences the parser of the grammar as it stands rejects *)
  forall sentence, In sentence
    [ [Token (Some 1) 5; Token (Some 2) 6; Token None 8];
      [Token (Some 1) 9; Token (Some 2) 11; Token (Some 3) 11; Token None 8] ] ->
    (exists f, parse_from_tokens 60 rough_parser sentence = Done (ResultErr f, [])) /\
    (exists root, parse_from_tokens 60 prepared_parser sentence = Done (ResultOk root, [])) /\
    exists before t, sentence = before ++ [t] /\ tok_type t = 8 /\ Forall (fun x => tok_type x <> 8) before.
Proof.
  splits; auto using rough_ll1, rough_reduced, rough_eof, rough_init, rough_fresh.
  - apply build_built with (fuel := 200). vm_compute. reflexivity.
  - apply build_built with (fuel := 200). vm_compute. reflexivity.
  - intros s [<-|[<-|[]]]; (split; [eexists; vm_compute; reflexivity|]);
      (split; [eexists; vm_compute; reflexivity|]).
    + exists [Token (Some 1) 5; Token (Some 2) 6], (Token None 8). split; [reflexivity|]. split; [reflexivity|].
      repeat constructor; discriminate.
    + exists [Token (Some 1) 9; Token (Some 2) 11; Token (Some 3) 11], (Token None 8).
      split; [reflexivity|]. split; [reflexivity|]. repeat constructor; discriminate.
Qed.
