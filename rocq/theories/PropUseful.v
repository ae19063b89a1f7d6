(** * Productions that no derivation of a token string uses: C85 *)

From Verif Require Import BaseFacts GrammarFacts DerivFacts ParserSound ParserBuild CoverFacts.
From Verif Require Import ForeverFacts PropReports PropParse PropFollow PropSupplied PropApart Examples PropForever.
From Verif Require Export UsefulSpec.

Set Implicit Arguments.

Section Useful.
  Context {T : Type} (eps init : T) (ps ps' : list (production T)).
  Hypothesis H : useful_part_of eps init ps ps'.
  Hypothesis Heps : ~ non_terminal ps' eps.

  Let real (a : T) : Prop := a <> eps /\ ~ non_terminal ps' a.
  Let ends (s : list T) : Prop := exists w, derives eps ps' s w /\ Forall real w.

  Lemma useful_In p : In p ps -> In p ps'.
  Proof. destruct H as [Hs _]. clear - Hs. intros Hp; induction Hs; simpl in *; intuition. Qed.

  Lemma ends_app u v : ends (u ++ v) <-> ends u /\ ends v.
  Proof.
    split.
    - intros (w & Hd & Hw). apply derives_app_inv in Hd as (w1 & w2 & -> & H1 & H2).
      apply Forall_app in Hw as [Hw1 Hw2]. split; [exists w1|exists w2]; auto.
    - intros [(w1 & H1 & Hw1) (w2 & H2 & Hw2)]. exists (w1 ++ w2). split; [now apply derives_app|].
      apply Forall_app. auto.
  Qed.

  (** a symbol of a useful production that has productions has a useful one *)
  Lemma useful_extends : extends_grammar ps ps'.
  Proof.
    split; [apply H|]. intros x [(p & Hp & Hx) Hn] Hx'. pose proof (useful_In p Hp) as Hp'.
    apply (proj2 H p Hp') in Hp as (u & v & w & Hd & He & Hw).
    apply in_split in Hx as (l & r & Ho).
    assert (Hends : ends (u ++ p_output p ++ v)) by (exists w; auto).
    rewrite Ho in Hends.
    replace (u ++ (l ++ x :: r) ++ v) with ((u ++ l) ++ [x] ++ (r ++ v)) in Hends
      by (rewrite <- !app_assoc; reflexivity).
    apply ends_app in Hends as [Hl Hends]. pose proof Hends as Hxr. apply ends_app in Hends as [(wx & Hdx & Hwx) Hr].
    assert (Hreach : derives eps ps' [init] ((u ++ l) ++ x :: (r ++ v))).
    { eapply derives_trans; [exact Hd|]. eapply derives_trans.
      - apply derives_step. apply (derive1_production eps ps' u v p Hp').
      - rewrite Ho, <- !app_assoc. apply derives_refl. }
    remember [x] as s eqn:Es. destruct Hdx as [|y z Hs Hrest]; subst s.
    - inversion Hwx as [|? ? [_ Hr1] _]; subst. now apply Hr1.
    - apply derive1_single in Hs as [(q & Hq & Hi & Hqo)|[Hxe _]]; [|subst x; auto]. subst y.
      apply Hn. exists q. split; auto. apply (proj2 H q Hq).
      assert (Hall : ends ((u ++ l) ++ p_output q ++ (r ++ v))).
      { apply ends_app. split; auto. apply ends_app. split; auto. exists z; auto. }
      destruct Hall as (w' & Hd' & Hw'). exists (u ++ l), (r ++ v), w'.
      rewrite Hi. auto.
  Qed.

  (** a parse tree of the initial symbol uses useful productions only *)
  Lemma useful_trees {L : Type} :
    (forall X n w, tree_for (L := L) eps ps' X n w -> forall u v,
       derives eps ps' [init] (u ++ X :: v) -> ends u -> ends v -> tree_for eps ps X n w) /\
    (forall Xs ns w, forest_for (L := L) eps ps' Xs ns w -> forall u v,
       derives eps ps' [init] (u ++ Xs ++ v) -> ends u -> ends v -> forest_for eps ps Xs ns w).
  Proof.
    assert (Hforest : forall Xs ns w, forest_for (L := L) eps ps' Xs ns w -> ends Xs).
    { intros Xs ns w Hf. exists (map (@tok_type L T) w).
      split; [apply (proj2 (tree_derives_all (L := L) eps ps')) in Hf; tauto|].
      apply (proj2 (tree_leaves_all (L := L) eps ps')) in Hf. rewrite Forall_map. exact Hf. }
    apply tree_forest_ind.
    - intros t He Hn u v _ _ _. constructor; auto. intros (p & Hp & Hi). apply Hn. exists p. split; auto.
      now apply useful_In.
    - intros. constructor.
    - intros p cs w Hp Hf IH u v Hd Hu Hv. 
      assert (Hd' : derives eps ps' [init] (u ++ p_output p ++ v)).
      { eapply derives_trans; [exact Hd|]. apply derives_step. now constructor. }
      constructor; [|now apply (IH u v)]. apply (proj2 H p Hp).
      assert (Hall : ends (u ++ p_output p ++ v)).
      { apply ends_app. split; auto. apply ends_app. split; eauto. }
      destruct Hall as (w' & Hd2 & Hw'). exists u, v, w'. auto.
    - intros. constructor.
    - intros X Xs n ns w ws Ht IH1 Hf IH2 u v Hd Hu Hv. constructor.
      + apply (IH1 u (Xs ++ v)); auto. apply ends_app. split; eauto.
      + apply (IH2 (u ++ [X]) v); auto.
        * now rewrite <- app_assoc.
        * apply ends_app. split; auto. exists (map (@tok_type L T) w). split; [now apply (tree_derives (L := L)) in Ht|].
          apply (proj1 (tree_leaves_all (L := L) eps ps')) in Ht. rewrite Forall_map. exact Ht.
  Qed.
End Useful.

Lemma extends_conflict_free {L T : Type} {E : EqDec T} (eps init : T) (ps ps' : list (production T))
      (solver solver' : option (syntax_error_solver L T)) (self self' : parser L T) :
  extends_grammar ps ps' -> built_parser eps init ps solver self -> built_parser eps init ps' solver' self' ->
  conflict_free (pr_transitions self') -> conflict_free (pr_transitions self).
Proof.
  intros Hext B B' Hcf A a l Hl.
  apply built_inv in B as (ho1 & ho2 & n & g & ffs & Hg & Hf & Hs).
  apply built_inv in B' as (ho1' & ho2' & n' & g' & ffs' & Hg' & Hf' & Hs').
  apply rdp_from_inv in Hs as (_ & _ & Ht). apply rdp_from_inv in Hs' as (_ & _ & Ht').
  destruct (proj2 (proj2 (@C53_more_productions_more_candidates _ _ _ _ _ _ _ _ _ _ _ _ _ _ _ _ _ _ _ _ _ Hext Hg Hf Ht Hg' Hf' Ht')) A a l Hl)
    as (l' & Hl' & Hsub).
  apply Hcf in Hl'. enough (length l <= length l') by lia.
  clear - Hsub. induction Hsub; simpl; lia.
Qed.

(** ** On a table without conflicts useless productions do not matter *)
Theorem C85_useless_productions :
  forall (L T : Type) (E : EqDec T) (eps init : T) (ps ps' : list (production T))
         (solver solver' : option (syntax_error_solver L T)) (self self' : parser L T)
         (tokens : list (token L T)) (root : node L T),
    useful_part_of eps init ps ps' -> non_terminal ps init ->
    built_parser eps init ps solver self -> built_parser eps init ps' solver' self' ->
    conflict_free (pr_transitions self') ->
    repeats_harmless eps ps init -> initial_ends_in_terminal eps ps init ->
    conflict_free (pr_transitions self) /\
    ((exists fuel h, parse_from_tokens fuel self tokens = Done (ResultOk root, h)) <->
     (exists fuel h, parse_from_tokens fuel self' tokens = Done (ResultOk root, h))).
Proof.
  intros L T E eps init ps ps' solver solver' self self' tokens root Hr Hn B B' Hcf Hrep Hend.
  assert (Heps : ~ non_terminal ps' eps).
  { pose proof (built_ok B') as Hok. intros (p & Hp & Hi). destruct (Hok p Hp) as (Hx & _). auto. }
  pose proof (useful_extends Hr Heps) as Hext.
  pose proof (extends_conflict_free Hext B B' Hcf) as Hcf'. split; auto.
  split; intros (fuel & h & H).
  - destruct (C65_growing_grammar_keeps_trees _ _ B B' Hext Hcf H) as [_ [n Hn']].
    exists n, []. apply Hn'. lia.
  - destruct (C14_parse_trees_valid _ _ (built_constructed B') H) as (_ & _ & w & Hw & Hp).
    assert (Hw' : tree_for eps ps init root w).
    { apply (proj1 (useful_trees Hr (L := L)) init root w Hw [] []); [apply derives_refl| |];
        (exists []; split; [apply derives_refl|constructor]). }
    destruct (C23_conflict_free_exact B Hcf' Hrep Hend Hn Hw' Hp) as [_ [n Hn']].
    exists n, []. apply Hn'. lia.
Qed.
Print Assumptions C85_useless_productions.

(** symbols of which every production mentions one of them again derive no token string *)
Lemma barren_stays {T : Type} (eps : T) (ps : list (production T)) (barren : T -> Prop) s w :
  ~ barren eps -> (forall p, In p ps -> barren (p_input p) -> Exists barren (p_output p)) ->
  derives eps ps s w -> Exists barren s -> Exists barren w.
Proof.
  intros He Hb. induction 1 as [|x y z Hs _ IH]; auto. intros Hx. apply IH. clear IH.
  destruct Hs as [u v p Hp|u v]; apply Exists_app in Hx as [Hx|Hx]; try (apply Exists_app; auto; fail).
  - inversion Hx as [? ? Hx0|? ? Hx0]; subst; apply Exists_app; right; apply Exists_app; auto.
  - inversion Hx as [? ? Hx0|? ? Hx0]; subst; [contradiction|]. apply Exists_app; auto.
Qed.

Lemma barren_useless {T : Type} (eps init : T) (ps : list (production T)) (barren : T -> Prop) p :
  ~ barren eps -> (forall A, barren A -> non_terminal ps A) ->
  (forall p, In p ps -> barren (p_input p) -> Exists barren (p_output p)) ->
  In p ps -> Exists barren (p_output p) -> ~ useful eps init ps p.
Proof.
  intros He Hn Hb Hp Hx (u & v & w & _ & Hd & Hw).
  apply (barren_stays He Hb) in Hd; [|apply Exists_app; right; apply Exists_app; auto].
  rewrite Forall_forall in Hw. apply Exists_exists in Hd as (a & Ha & Hba). apply (Hw a Ha). auto.
Qed.

Lemma derives_at {T : Type} (eps : T) (ps : list (production T)) u v p s w :
  In p ps -> s = u ++ p_input p :: v -> derives eps ps (u ++ p_output p ++ v) w -> derives eps ps s w.
Proof. intros Hp -> Hd. eapply derives_trans; [apply derives_step; now constructor|exact Hd]. Qed.

Lemma derives_at_eps {T : Type} (eps : T) (ps : list (production T)) u v s w :
  s = u ++ eps :: v -> derives eps ps (u ++ v) w -> derives eps ps s w.
Proof. intros -> Hd. eapply derives_trans; [apply derives_step; now constructor|exact Hd]. Qed.

Ltac at_ u v p := apply (@derives_at _ _ _ u v p); [simpl; tauto|reflexivity|simpl].
Ltac at_eps u v := apply (@derives_at_eps _ _ _ u v); [reflexivity|simpl].
Ltac real_tokens := repeat (constructor; [split; [discriminate|now apply non_terminalb_false]|]); constructor.

(** ** With conflicts they do: [1 -> 4 $], and the symbol 6 that derives no token string
    added.  The sentence [4 $] is accepted, and then the parser never returns on it. *)
Definition lean_productions : list (production nat) := [Production 1 [4; 9]].
Definition barren_first : list (production nat) :=
  [Production 1 [6]; Production 6 [6; 5]; Production 6 [4; 6]; Production 1 [4; 9]].

Lemma barren_first_useful : useful_part_of 0 1 lean_productions barren_first.
Proof.
  split; [repeat constructor|]. intros p Hp.
  assert (Hb : Exists (fun x => x = 6) (p_output p) -> In p lean_productions <-> useful 0 1 barren_first p).
  { intros Hx. split.
    - intros [<-|[]]. apply Exists_exists in Hx as (x & [<-|[<-|[]]] & Hx); discriminate Hx.
    - intros Hu. exfalso. revert Hu. apply barren_useless with (barren := fun x => x = 6); [discriminate| | |exact Hp|exact Hx].
      + intros A ->. exists (Production 6 [6; 5]). simpl. auto.
      + intros q [<-|[<-|[<-|[<-|[]]]]] Hi; try discriminate; simpl; auto. }
  destruct Hp as [<-|[<-|[<-|[<-|[]]]]]; try (apply Hb; simpl; auto; fail).
  split; [intros _|intros _; simpl; auto].
  exists [], [], [4; 9]. split; [apply derives_refl|]. split; [apply derives_refl|]. real_tokens.
Qed.

Lemma barren_first_forever :
  choose_forever 0 barren_first [nt 4; nt 9] (candidates (parser_of_productions barren_first)) 1 0
    (candidates (parser_of_productions barren_first) 1 4).
Proof.
  assert (HA : choose_forever 0 barren_first [nt 4; nt 9] (candidates (parser_of_productions barren_first)) 6 0 [[6; 5]; [4; 6]]).
  { cofix go. apply choose_forever_first.
    apply sequence_forever_non_terminal with (tok := nt 4);
      [apply non_terminalb_spec; reflexivity|reflexivity|].
    apply branch_forever_here. exact go. }
  replace (candidates (parser_of_productions barren_first) 1 4) with [[6]; [4; 9]] by (vm_compute; reflexivity).
  apply choose_forever_first.
  apply sequence_forever_non_terminal with (tok := nt 4);
    [apply non_terminalb_spec; reflexivity|reflexivity|].
  apply branch_forever_here. exact HA.
Qed.

(** 1 -> 2 4 $; 2 -> 3; 3 -> epsilon | 5 ([reached]), with 1 -> 6 and 6 -> 3 5 6 added: the
    sentence [5 4 $] is rejected, because 5 is now in FOLLOW of 3 *)
Definition barren_last : list (production nat) := reached ++ [Production 1 [6]; Production 6 [3; 5; 6]].

Lemma barren_last_useful : useful_part_of 0 1 reached barren_last.
Proof.
  split; [repeat constructor|]. intros p Hp. unfold barren_last in Hp. apply in_app_iff in Hp as [Hp|Hp].
  - split; [intros _|auto].
    assert (D : derives 0 barren_last [1] [2; 4; 9]) by (at_ (@nil nat) (@nil nat) (Production 1 [2; 4; 9]); apply derives_refl).
    assert (D3 : derives 0 barren_last [1] [3; 4; 9])
      by (eapply derives_trans; [exact D|]; at_ (@nil nat) [4; 9] (Production 2 [3]); apply derives_refl).
    assert (E3 : derives 0 barren_last [3; 4; 9] [4; 9]).
    { at_ (@nil nat) [4; 9] (Production 3 [0]). at_eps (@nil nat) [4; 9]. apply derives_refl. }
    destruct Hp as [<-|[<-|[<-|[<-|[]]]]].
    + exists [], [], [4; 9]. split; [apply derives_refl|]. split; [|real_tokens].
      at_ (@nil nat) [4; 9] (Production 2 [3]). exact E3.
    + exists [], [4; 9], [4; 9]. split; [exact D|]. split; [exact E3|real_tokens].
    + exists [], [4; 9], [4; 9]. split; [exact D3|]. split; [|real_tokens].
      at_eps (@nil nat) [4; 9]. apply derives_refl.
    + exists [], [4; 9], [5; 4; 9]. split; [exact D3|]. split; [apply derives_refl|real_tokens].
  - split.
    + intros Hr. exfalso. destruct Hp as [<-|[<-|[]]]; simpl in Hr; decompose [or] Hr; try discriminate; contradiction.
    + intros Hu. exfalso. revert Hu. apply barren_useless with (barren := fun x => x = 6); [discriminate| | | |].
      * intros A ->. exists (Production 6 [3; 5; 6]). simpl. auto 10.
      * intros q Hq Hi. simpl in Hq. decompose [or] Hq; try contradiction; subst q; try discriminate. simpl. auto.
      * apply in_app_iff. auto.
      * destruct Hp as [<-|[<-|[]]]; simpl; auto.
Qed.

Theorem C85_conflicts_let_useless_productions_matter :
  let hangs := [Token (Some 4) 4; Token (Some 9) 9] in
  let lost := [Token (Some 7) 5; Token (Some 8) 4; Token None 9] in
  useful_part_of 0 1 lean_productions barren_first /\
  (exists root, parse_from_tokens 60 (parser_of_productions lean_productions) hangs = Done (ResultOk root, [])) /\
  diverges (fun fuel => parse_from_tokens fuel (parser_of_productions barren_first) hangs) /\
  useful_part_of 0 1 reached barren_last /\
  (exists root, parse_from_tokens 60 (parser_of_productions reached) lost = Done (ResultOk root, [])) /\
  (exists e, parse_from_tokens 60 (parser_of_productions barren_last) lost = Done (ResultErr e, [])).
Proof.
  intros hangs lost. split; [exact barren_first_useful|]. split; [eexists; vm_compute; reflexivity|]. split.
  - assert (B : built_parser 0 1 barren_first None (parser_of_productions barren_first)).
    { exists (insertion_order nat), (insertion_order nat), 200,
        (get_done (pr_grammar (no_parser 0)) (cfg_new (insertion_order nat) 0 1 barren_first)).
      split; vm_compute; reflexivity. }
    apply (C58_forever_diverges B). exact barren_first_forever.
  - split; [exact barren_last_useful|]. split; eexists; vm_compute; reflexivity.
Qed.
Print Assumptions C85_conflicts_let_useless_productions_matter.

(** 6 derives no token string and 8 cannot be reached *)
Definition with_useless : list (production nat) :=
  Production 8 [5; 2] :: Production 1 [6] :: small_productions ++ [Production 6 [5; 2; 6]].

Example C85_case :
  useful_part_of 0 1 small_productions with_useless /\ non_terminal small_productions 1 /\
  built_parser 0 1 small_productions None (parser_of_productions small_productions) /\
  built_parser 0 1 with_useless None (parser_of_productions with_useless) /\
  conflict_free (pr_transitions (parser_of_productions with_useless)) /\
  repeats_harmless 0 small_productions 1 /\ initial_ends_in_terminal 0 small_productions 1 /\
  exists root, parse_from_tokens 60 (parser_of_productions with_useless)
    [Token (Some 7) 3; Token (Some 8) 3; Token (Some 9) 4; Token None 9] = Done (ResultOk root, []).
Proof.
  split.
  { split; [unfold with_useless; do 2 constructor; unfold small_productions; simpl; repeat constructor|].
    assert (Hb : forall p, In p with_useless -> Exists (fun x => x = 6) (p_output p) -> ~ useful 0 1 with_useless p).
    { intros p Hp Hx. apply barren_useless with (barren := fun x => x = 6); [discriminate| | |exact Hp|exact Hx].
      - intros A ->. exists (Production 6 [5; 2; 6]). simpl. auto 10.
      - intros q Hq Hi. simpl in Hq. decompose [or] Hq; try contradiction; subst q; try discriminate. simpl. auto. }
    assert (D : derives 0 with_useless [1] [2; 9]) by (at_ (@nil nat) (@nil nat) (Production 1 [2; 9]); apply derives_refl).
    intros p Hp. simpl in Hp. destruct Hp as [<-|[<-|[<-|[<-|[<-|[<-|[]]]]]]]; split; intros Hu; simpl; auto.
    - exfalso. simpl in Hu. decompose [or] Hu; try discriminate; contradiction.
    - exfalso. destruct Hu as (u & v & w & Hd & _). assert (Hr : reachable_from 0 with_useless 1 8) by (exists u, v; exact Hd).
      apply (@reachable_closed nat 0 1 with_useless (fun x => x <> 8)) in Hr; auto.
      intros q Hq Hi. simpl in Hq. decompose [or] Hq; try contradiction; subst q; repeat constructor; simpl in *; lia.
    - exfalso. simpl in Hu. decompose [or] Hu; try discriminate; contradiction.
    - exfalso. revert Hu. apply Hb; simpl; auto.
    - exists [], [], [4; 9]. split; [apply derives_refl|]. split; [|real_tokens].
      at_ (@nil nat) [9] (Production 2 [4]). apply derives_refl.
    - exists [], [9], [3; 4; 9]. split; [exact D|]. split; [|real_tokens].
      simpl. at_ [3] [9] (Production 2 [4]). apply derives_refl.
    - exists [], [9], [4; 9]. split; [exact D|]. split; [apply derives_refl|real_tokens].
    - exfalso. simpl in Hu. decompose [or] Hu; try discriminate; contradiction.
    - exfalso. revert Hu. apply Hb; simpl; auto 10. }
  destruct C73_case_partial as (_ & Hn & B & _ & _ & Hrep & Hend & _).
  split; [exact Hn|]. split; [exact B|]. split.
  { exists (insertion_order nat), (insertion_order nat), 200,
      (get_done (pr_grammar (no_parser 0)) (cfg_new (insertion_order nat) 0 1 with_useless)).
    split; vm_compute; reflexivity. }
  split; [apply conflict_free_check_ok; vm_compute; reflexivity|].
  split; [exact Hrep|]. split; [exact Hend|]. eexists. vm_compute. reflexivity.
Qed.
