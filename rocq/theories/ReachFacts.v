(** * Reports reach the first offending token (proofs) *)

From Verif Require Import BaseFacts GrammarFacts DerivFacts ParserSound ParserComplete ChoiceSpec RecoverSpec ParserRecover
  ParserGuided PropEnd ExpectFacts.
From Verif Require Export ReachSpec GuidedSpec QuietSpec ExpectSpec.

Set Implicit Arguments.

Scheme reach_g := Minimality for guided Sort Prop
  with reach_gf := Minimality for guided_forest Sort Prop.
Combined Scheme reach_guided_ind from reach_g, reach_gf.

Section Reach.
  Context {L T : Type} {E : EqDec T}.
  Variable eps : T.
  Variable ps : list (production T).
  Variable tokens : list (token L T).
  Variable cands : T -> T -> list (list T).
  Hypothesis Hcands : forall A a out, In out (cands A a) ->
    exists p, In p ps /\ p_input p = A /\ p_output p = out.
  Hypothesis Heps : ~ non_terminal ps eps.

  Notation guided_on ts := (guided eps ps ts cands).
  Notation forest_on ts := (guided_forest eps ps ts cands).

  Definition agree (K : nat) (ts : list (token L T)) : Prop :=
    forall i, i < K -> nth_error ts i = nth_error tokens i.

  Lemma guided_agree K (ts : list (token L T)) : agree K ts ->
    (forall X p n q, guided_on tokens X p n q -> p <= q /\ (q < K -> guided_on ts X p n q)) /\
    (forall Xs p ns q, forest_on tokens Xs p ns q -> p <= q /\ (q < K -> forest_on ts Xs p ns q)).
  Proof.
    intros Hag. apply reach_guided_ind.
    - intros tok p He Hn Hnth. split; [lia|]. intros Hq. constructor; auto. rewrite Hag; auto; lia.
    - intros p. split; auto. constructor.
    - intros A p tok out ns q HA Hn Hin _ [Hle IH]. split; auto. intros Hq. econstructor; eauto.
      rewrite Hag; auto; lia.
    - intros p. split; auto. constructor.
    - intros X Xs p n q ns q' _ [H1 IH1] _ [H2 IH2]. split; [lia|]. intros Hq. econstructor; [apply IH1; lia|auto].
  Qed.

  Lemma forest_app (ts : list (token L T)) u v : forall p ns q, forest_on ts (u ++ v) p ns q ->
    exists ns1 r ns2, forest_on ts u p ns1 r /\ forest_on ts v r ns2 q.
  Proof.
    induction u as [|X u IH]; intros p ns q H; simpl in H.
    - exists [], p, ns. split; [constructor|exact H].
    - inversion H as [|X' Xs' p' n r ns' q' H1 H2]; subst. destruct (IH _ _ _ H2) as (ns1 & r' & ns2 & Ha & Hb).
      exists (n :: ns1), r', ns2. split; auto. econstructor; eauto.
  Qed.

  (** with fixed extents, what comes before a symbol ends in one place *)
  Lemma one_end (ts : list (token L T)) X out Y v : fixed_extents eps ps ts cands -> In (Production X out) ps ->
    forall u u0 p ns q ns' q', out = u0 ++ u ++ Y :: v -> forest_on ts u p ns q -> forest_on ts u p ns' q' -> q' = q.
  Proof.
    intros Hfx Hp. induction u as [|Z u IH]; intros u0 p ns q ns' q' Ho H1 H2.
    - inversion H1; inversion H2; subst; auto.
    - inversion H1 as [|? ? ? n1 r1 ns1 ? Ha Hb]; subst. inversion H2 as [|? ? ? n2 r2 ns2 ? Ha' Hb']; subst.
      assert (Hrs : has_right_sibling ps Z).
      { destruct u as [|W u]; simpl in Hp.
        - exists (Production X (u0 ++ Z :: Y :: v)), u0, Y, v. auto.
        - exists (Production X (u0 ++ Z :: W :: u ++ Y :: v)), u0, W, (u ++ Y :: v). auto. }
      assert (r2 = r1) by (symmetry; eapply Hfx; eauto). subst r2.
      apply (IH (u0 ++ [Z]) r1 ns1 q ns2 q'); auto. now rewrite <- app_assoc.
  Qed.

  Hypothesis Hfx : forall ts : list (token L T), fixed_extents eps ps ts cands.

  Section Upto.
    Variable K : nat.
    Notation named := (named_at eps ps tokens).
    Notation derive := (RecoverSpec.derive eps ps tokens cands None).
    Notation attempt := (RecoverSpec.attempt eps ps tokens cands None).
    Notation parse := (RecoverSpec.parse eps ps tokens cands None).
    Notation branch := (RecoverSpec.branch eps ps tokens cands None).
    Notation retry := (RecoverSpec.retry eps ps tokens cands None).

    (** the report names something at or behind [K], or [outs] fail on all inputs that are the same before [K] *)
    Definition no_way (outs : list (list T)) (p : nat) : Prop :=
      forall ts, agree K ts -> forall out ns q, In out outs -> ~ forest_on ts out p ns q.
    Definition no_symbol (Y : T) (p : nat) : Prop :=
      forall ts, agree K ts -> forall n q, ~ guided_on ts Y p n q.
    Definition far (f : failed_symbol L T) (p : nat) : Prop := exists Z r, named f p Z r /\ K <= r.

    (** what the failure of a sequence means *)
    Definition stuck (Xs : list T) (p : nat) (f : failed_symbol L T) : Prop :=
      exists u v ns q, Xs = u ++ failed_symbol_type f :: v /\ forest_on tokens u p ns q /\
        (far f q \/ no_symbol (failed_symbol_type f) q).

    Lemma itself f p : named f p (failed_symbol_type f) p.
    Proof. destruct f. constructor. Qed.

    Lemma stuck_cons X Xs p n q f : guided_on tokens X p n q -> stuck Xs q f -> stuck (X :: Xs) p f.
    Proof.
      intros Hg (u & v & ns & r & -> & Hf & H). exists (X :: u), v, (n :: ns), r.
      split; auto. split; auto. econstructor; eauto.
    Qed.

    Lemma stuck_production X out p f before fps : In (Production X out) ps -> stuck out p f ->
      In (production_report out f before) fps -> far (FailedSymbol fps X) p \/ no_way [out] p.
    Proof.
      intros Hp (u & v & ns & q & -> & Hf & H) Hin.
      destruct (proj2 (@guided_trees _ _ eps ps tokens cands Hcands) _ _ _ _ Hf) as (w & z & Hw & Hq & Hs).
      assert (Hin' : forall Z r, named f q Z r -> named (FailedSymbol fps X) p Z r).
      { intros Z r Hn. eapply named_inside; [exact Hin|exact Hp|exact Hw| |exact Hn]. split; auto. exists z; auto. }
      destruct H as [(Z & r & Hn & Hr)|H]; [left; exists Z, r; auto|].
      destruct (Nat.lt_ge_cases q K) as [Hlt|Hge].
      2:{ left. exists (failed_symbol_type f), q. split; auto. apply Hin', itself. }
      right. intros ts Hag o ns' q' [<-|[]] Hno.
      apply forest_app in Hno as (ns1 & r & ns2 & H1 & H2).
      pose proof (proj2 (proj2 (guided_agree Hag) _ _ _ _ Hf) Hlt) as Hf'.
      assert (r = q) by exact (@one_end ts X _ _ v (@Hfx ts) Hp u [] p ns q ns1 r eq_refl Hf' H1). subst r.
      inversion H2; subst. eapply H; eauto.
    Qed.

    Lemma symbol_failed X p tok fps : non_terminal ps X -> nth_error tokens p = Some tok ->
      far (FailedSymbol fps X) p \/ no_way (cands X (tok_type tok)) p ->
      far (FailedSymbol fps X) p \/ no_symbol X p.
    Proof.
      intros HX Hn [H|H]; auto. destruct (Nat.lt_ge_cases p K) as [Hlt|Hge].
      2:{ left. exists X, p. split; auto. constructor. }
      right. intros ts Hag n q Hg. inversion Hg as [? ? ? Hnt|? Hx|? ? tok' out ns ? HA Hnth Hin Hf]; subst.
      - contradiction.
      - contradiction.
      - rewrite (Hag _ Hlt), Hn in Hnth. inversion Hnth; subst tok'. exact (H ts Hag _ _ _ Hin Hf).
    Qed.

    Lemma far_mono fps fps' X p : incl fps fps' -> far (FailedSymbol fps X) p -> far (FailedSymbol fps' X) p.
    Proof.
      intros Hi (Z & r & Hn & Hr). exists Z, r. split; auto. inversion Hn; subst; [constructor|]. eapply named_inside; eauto.
    Qed.

    Lemma no_way_cons out outs p : no_way [out] p -> no_way outs p -> no_way (out :: outs) p.
    Proof. intros H1 H2 ts Hag o ns q [<-|Hin]; [apply (H1 ts Hag); now left|apply (H2 ts Hag); auto]. Qed.

    Notation allowed X outs := (forall out, In out outs -> In (Production X out) ps).

    Lemma built_not_failed X parts q left f : built X parts q left <> @DFailed L T f.
    Proof. unfold built. destruct (trees parts); discriminate. Qed.

    Lemma not_fixed_trees : forall (X : T) parts q left fs q' ns, trees parts = Some ns -> built X parts q left <> @DFixed L T fs q'.
    Proof. intros X parts q left fs q' ns H. unfold built. rewrite H. discriminate. Qed.

    Lemma reach_run :
      (forall single X p outs h r h', derive single X p outs h r h' -> allowed X outs ->
         (forall fs q, r <> DFixed fs q) /\
         forall f, r = DFailed f -> exists fps, f = FailedSymbol fps X /\ (far f p \/ no_way outs p)) /\
      (forall single X p outs fps h r h', attempt single X p outs fps h r h' -> allowed X outs ->
         (forall fs q, r <> inl (DFixed fs q)) /\ (forall f, r <> inl (DFailed f)) /\
         forall fps', r = inr fps' -> incl fps fps' /\ (far (FailedSymbol fps' X) p \/ no_way outs p)) /\
      (forall single Xs p h r h', parse single Xs p h r h' ->
         (forall parts q, r = PParts parts q -> exists ns, trees parts = Some ns) /\
         forall f before, r = PFailed f before -> stuck Xs p f) /\
      (forall single X p outs Xs h r h', branch single X p outs Xs h r h' ->
         forall tok, non_terminal ps X -> nth_error tokens p = Some tok -> outs = cands X (tok_type tok) ->
         (forall parts q, r = PParts parts q -> exists ns, trees parts = Some ns) /\
         forall f before, r = PFailed f before -> stuck (X :: Xs) p f) /\
      (forall single X p outs Xs f0 before0 h r h', retry single X p outs Xs f0 before0 h r h' ->
         forall tok, non_terminal ps X -> nth_error tokens p = Some tok -> incl outs (cands X (tok_type tok)) ->
         stuck (X :: Xs) p f0 ->
         (forall parts q, r = PParts parts q -> exists ns, trees parts = Some ns) /\
         forall f before, r = PFailed f before -> stuck (X :: Xs) p f).
    Proof.
      assert (Hall : forall X a outs, incl outs (cands X a) -> allowed X outs).
      { intros X a outs Hi out Ho. destruct (Hcands _ _ _ (Hi _ Ho)) as ([X' o] & Hp & H1 & H2). simpl in *. now subst. }
      assert (Hguided : forall X p outs tok single h n q left h', non_terminal ps X -> nth_error tokens p = Some tok ->
        incl outs (cands X (tok_type tok)) -> derive single X p outs h (DTree n q left) h' ->
        guided_on tokens X p n q /\ incl left outs).
      { intros X p outs tok single h n q left h' HX Hn Hi Hd.
        destruct (proj1 (@derived_guided _ _ _ _ _ _ _) _ _ _ _ _ _ _ Hd _ _ _ eq_refl) as (Hl & out & ns & Ho & -> & Hf).
        split; auto. eapply guided_production; eauto. }
      apply recover_mutind.
      - intros single X p outs h r h' _ IH Ha. destruct (IH Ha) as (H1 & H2 & _). split.
        + intros fs q ->. exact (H1 fs q eq_refl).
        + intros f ->. elim (H2 f eq_refl).
      - intros single X p outs h fps h' _ IH _ Ha. split; [discriminate|].
        intros f Hf. inversion Hf; subst f. exists fps. split; auto. apply (proj2 (proj2 (IH Ha)) fps eq_refl).
      - intros X p outs h fps h' s _ _ Hs. discriminate Hs.
      - intros X p outs h fps h' s fp q _ _ Hs. discriminate Hs.
      - intros single X p fps h _. split; [discriminate|]. split; [discriminate|]. intros fps' H. inversion H; subst.
        split; [apply incl_refl|]. right. intros ts _ out ns q [].
      - intros single X p out outs fps h parts q h' _ [IH _] _. destruct (IH _ _ eq_refl) as [ns Hns].
        split; [|split; [|discriminate]].
        + intros fs q' H. inversion H as [H']. exact (@not_fixed_trees _ _ _ _ _ _ _ Hns H').
        + intros f H. inversion H as [H']. exact (@built_not_failed _ _ _ _ _ H').
      - intros single X p out outs fps h f before h' r h'' _ [_ IH1] _ IH2 Ha.
        destruct IH2 as (H1 & H2 & H3); [intros o Ho; apply Ha; now right|].
        split; auto. split; auto. intros fps' ->. destruct (H3 _ eq_refl) as [Hi Hd].
        split; [eapply incl_tran; [apply incl_appl, incl_refl|exact Hi]|].
        destruct Hd as [Hd|Hd]; auto.
        destruct (@stuck_production X out p f before fps') as [Hs|Hs]; auto.
        + apply Ha. now left.
        + apply (IH1 _ _ eq_refl).
        + apply Hi, in_or_app. right. now left.
        + right. now apply no_way_cons.
      - intros single p h. split; [|discriminate]. intros parts q H. inversion H; subst. exists []. reflexivity.
      - intros single Xs p h r h' _ [IH1 IH2]. destruct r as [parts q|f before]; (split; [intros ? ? H|intros ? ? H]); inversion H; subst.
        + destruct (IH1 _ _ eq_refl) as [ns Hns]. eexists. simpl. now rewrite Hns.
        + eapply stuck_cons; [apply guided_epsilon|eapply IH2; eauto].
      - intros single Xs p tok h r h' Hnt Hne Hn _ [IH1 IH2].
        destruct r as [parts q|f before]; (split; [intros ? ? H|intros ? ? H]); inversion H; subst.
        + destruct (IH1 _ _ eq_refl) as [ns Hns]. eexists. simpl. now rewrite Hns.
        + eapply stuck_cons; [apply guided_token; auto|eapply IH2; eauto].
      - intros single X Xs p h Hnt Hne Hm. split; [discriminate|]. intros f before H. inversion H; subst.
        exists [], Xs, [], p. split; auto. split; [constructor|]. simpl.
        destruct (Nat.lt_ge_cases p K) as [Hlt|Hge]; [|left; exists X, p; split; [constructor|auto]].
        right. intros ts Hag n q Hg. inversion Hg as [tok ? ? ? Hnth|? Hx|? ? tok' out ns ? HA]; subst.
        + rewrite (Hag _ Hlt) in Hnth. exact (Hm _ Hnth eq_refl).
        + contradiction.
        + contradiction.
      - intros single X Xs p tok h r h' HX Hn _ IH. exact (IH tok HX Hn eq_refl).
      - intros single X p outs Xs h f h' _ IH tok HX Hn ->. split; [discriminate|]. intros f' before H. inversion H; subst.
        destruct (IH (Hall _ _ _ (@incl_refl _ _))) as [_ Hf]. destruct (Hf _ eq_refl) as (fps & -> & Hd).
        exists [], Xs, [], p. split; auto. split; [constructor|]. exact (symbol_failed HX Hn Hd).
      - intros single X p outs Xs h fs q h' r h'' _ IH _ _ tok HX Hn ->. exfalso.
        exact (proj1 (IH (Hall _ _ _ (@incl_refl _ _))) fs q eq_refl).
      - intros single X p outs Xs h n q left h' parts q' h'' _ _ _ [IH _] tok HX Hn ->. split; [|discriminate].
        intros parts' q'' H. inversion H; subst. destruct (IH _ _ eq_refl) as [ns Hns]. eexists. simpl. now rewrite Hns.
      - intros single X p outs Xs h n q left h' f before h'' r h''' Hd _ _ [_ IH] _ IHr tok HX Hn ->.
        destruct (Hguided _ _ _ _ _ _ _ _ _ _ HX Hn (@incl_refl _ _) Hd) as [Hg Hl].
        apply (IHr tok HX Hn Hl). eapply stuck_cons; eauto.
      - intros single X p outs Xs f before h r h' _ _ _ tok HX Hn Hi Hs. split; [discriminate|].
        intros f' before' H. inversion H; subst. exact Hs.
      - intros single X p outs Xs f before h n q left h' parts q' h'' _ _ _ [IH _] tok HX Hn Hi Hs. split; [|discriminate].
        intros parts' q'' H. inversion H; subst. destruct (IH _ _ eq_refl) as [ns Hns]. eexists. simpl. now rewrite Hns.
      - intros single X p outs Xs f before h n q left h' f' before' h'' r h''' Hd _ _ [_ IH] _ IHr tok HX Hn Hi Hs.
        destruct (Hguided _ _ _ _ _ _ _ _ _ _ HX Hn Hi Hd) as [Hg Hl].
        apply (IHr tok HX Hn); [eapply incl_tran; eauto|]. eapply stuck_cons; eauto.
    Qed.
  End Upto.

  (** what is named stands where it was expected *)
  Lemma named_expected init f p Y q : named_at eps ps tokens f p Y q ->
    expected eps init ps tokens p (failed_symbol_type f) -> expected eps init ps tokens q Y.
  Proof.
    induction 1 as [fps Y p|fps X f parsed pending u v ns w p q Y r Hin Hp Hf Hb Hn IH]; intros He; auto.
    apply IH. eapply expected_inside; eauto.
  Qed.
End Reach.
