(** * Grammars that are LL(1) once factored (proofs) *)

From Verif Require Import ExactFacts PropFirstFollow BaseFacts GrammarFacts DerivFacts FollowFacts TransitionsFacts ParserSound ParserComplete
  ParserGuided ChoiceSpec LastSpec LastFacts GuidedSpec PropGuided.
From Verif Require Export FactorSpec.

Set Implicit Arguments.

Lemma common_beginning {T : Type} {E : EqDec T} (o1 o2 : list T) :
  exists c r1 r2, o1 = c ++ r1 /\ o2 = c ++ r2 /\ part_ways r1 r2.
Proof.
  revert o2. induction o1 as [|x o1 IH]; intros o2.
  - exists [], [], o2. splits4; auto. intros y u v H. discriminate.
  - destruct o2 as [|y o2].
    + exists [], (x :: o1), []. splits4; auto. intros z u v _ H. discriminate.
    + destruct (eq_dec x y) as [<-|Hne].
      * destruct (IH o2) as (c & r1 & r2 & -> & -> & Hp). exists (x :: c), r1, r2. auto.
      * exists [], (x :: o1), (y :: o2). splits4; auto. intros z u v H1 H2. inversion H1; inversion H2; subst. auto.
Qed.

Section Factor.
  Context {L T : Type} {E : EqDec T}.
  Variable eps init : T.
  Variable ps : list (production T).
  Hypothesis Heps : ~ non_terminal ps eps.
  Hypothesis Hll : ll1_once_factored eps ps init.

  Notation derives := (derives eps ps).
  Notation types := (map (@tok_type L T)).
  Notation leaf := (@leaf L T eps ps).
  Notation tree := (@tree_for L T eps ps).
  Notation forest := (@forest_for L T eps ps).

  (** [t] comes after [Xs] in a form of the initial symbol *)
  Definition followed (Xs : list T) (t : token L T) : Prop :=
    leaf t /\ exists u v, derives [init] (u ++ Xs ++ tok_type t :: v).

  Lemma followed_tail X Xs t : followed (X :: Xs) t -> followed Xs t.
  Proof.
    intros (Hl & u & v & H). split; auto. exists (u ++ [X]), v. rewrite <- app_assoc. exact H.
  Qed.

  (** the token after a beginning of what is followed *)
  Lemma followed_head c r t nsr w z a y : followed (c ++ r) t -> forest r nsr w -> w ++ t :: z = a :: y ->
    followed c a.
  Proof.
    intros (Hl & u & v & H) Hf Hw.
    pose proof (proj2 (@tree_leaves_all L T eps ps) _ _ _ Hf) as Hlw.
    assert (Ha : leaf a /\ exists v', types w ++ tok_type t :: v = tok_type a :: v').
    { destruct w as [|b w]; inversion Hw; subst; simpl; [eauto|]. inversion Hlw; subst. eauto. }
    destruct Ha as (Ha & v' & Hv'). split; auto. exists u, v'.
    eapply derives_trans; [exact H|]. rewrite <- Hv', <- app_assoc, !(app_assoc u).
    apply (@derives_ctx _ eps ps (u ++ c) (tok_type t :: v) r). apply (proj2 (@tree_derives_all L T eps ps) _ _ _ Hf).
  Qed.

  Lemma followed_predicted A r t nsr w z a y : followed [A] t -> forest r nsr w -> w ++ t :: z = a :: y ->
    predicted eps ps init A r (tok_type a).
  Proof.
    intros ((Hl1 & Hl2) & u & v & H) Hf Hw.
    pose proof (proj2 (@tree_leaves_all L T eps ps) _ _ _ Hf) as Hlw.
    pose proof (proj1 (proj2 (@tree_derives_all L T eps ps) _ _ _ Hf)) as Hd.
    destruct w as [|b w]; inversion Hw; subst.
    - right. split; [exact Hd|]. split; auto. split; auto. exists u, v. exact H.
    - left. inversion Hlw; subst. eapply types_can_start with (ws := w); eauto.
  Qed.

  Lemma followed_production X out t : In (Production X out) ps -> followed [X] t -> followed out t.
  Proof.
    intros Hp (Hl & u & v & H). split; auto. exists u, v. eapply derives_trans; [exact H|].
    apply (@derives_ctx _ eps ps u (tok_type t :: v) [X] out). exact (derives_production eps _ _ Hp).
  Qed.

  (** trees with permitted continuations in the same tokens are the same *)
  Lemma same_trees :
    (forall X n w, tree X n w -> forall n0 w0 t z t0 z0, tree X n0 w0 ->
       w ++ t :: z = w0 ++ t0 :: z0 -> followed [X] t -> followed [X] t0 -> n = n0 /\ w = w0) /\
    (forall Xs ns w, forest Xs ns w -> forall c r r2 ns0 w0 t z t0 z0, Xs = c ++ r ->
       forest (c ++ r2) ns0 w0 -> w ++ t :: z = w0 ++ t0 :: z0 -> followed Xs t -> followed (c ++ r2) t0 ->
       exists nsc nsr nsr2 wc wr wr2, ns = nsc ++ nsr /\ ns0 = nsc ++ nsr2 /\ w = wc ++ wr /\ w0 = wc ++ wr2 /\
         forest r nsr wr /\ forest r2 nsr2 wr2).
  Proof.
    apply tree_forest_ind.
    - intros tok H1 H2 n0 w0 t z t0 z0 Ht Hw _ _. inversion Ht as [tok' H3 H4 Hx|H3|p ch w' Hp Hf Hx]; subst.
      + simpl in Hw. inversion Hw; subst. auto.
      + exfalso. apply H1. congruence.
      + exfalso. apply H2. exists p. auto.
    - intros n0 w0 t z t0 z0 Ht Hw _ _. inversion Ht as [tok' H3 H4 Hx|H3|p ch w' Hp Hf Hx]; subst.
      + contradiction.
      + auto.
      + exfalso. apply Heps. exists p. auto.
    - intros [X out] ch w Hp Hf IH n0 w0 t z t0 z0 Ht Hw Hft Hft0. simpl in *.
      inversion Ht as [tok' H3 H4 Hx|H3|[X' out0] ch0 w' Hp0 Hf0 Hx]; simpl in *; subst.
      + exfalso. apply H4. exists (Production (tok_type tok') out). auto.
      + exfalso. apply Heps. exists (Production eps out). auto.
      + destruct (common_beginning out out0) as (c & r & r2 & -> & -> & Hways).
        destruct (IH c r r2 ch0 w0 t z t0 z0 eq_refl Hf0 Hw (@followed_production _ _ _ Hp Hft) (@followed_production _ _ _ Hp0 Hft0))
          as (nsc & nsr & nsr2 & wc & wr & wr2 & -> & -> & -> & -> & Hr & Hr2).
        rewrite <- !app_assoc in Hw. apply app_inv_head in Hw.
        assert (Ha : exists a y, wr ++ t :: z = a :: y) by (destruct wr; simpl; eauto).
        destruct Ha as (a & y & Ha). pose proof Ha as Ha2. rewrite Hw in Ha2.
        assert (Heq : r = r2).
        { eapply Hll; [|exact Hp|exact Hp0|exact Hways| |].
          - destruct Hft as (_ & u & v & H). exists u, (tok_type t :: v). exact H.
          - eapply followed_predicted; [exact Hft|exact Hr|exact Ha].
          - eapply followed_predicted; [exact Hft0|exact Hr2|exact Ha2]. }
        subst r2. destruct r as [|x r]; [|exfalso; now apply (Hways x r r)].
        inversion Hr; inversion Hr2; subst. auto.
    - intros c r r2 ns0 w0 t z t0 z0 Hc Hf Hw Hft Hft0. symmetry in Hc. apply app_eq_nil in Hc as [-> ->].
      exists [], [], ns0, [], [], w0. splits4; auto; constructor.
    - intros X Xs n ns w ws Ht IH1 Hf IH2 c r r2 ns0 w0 t z t0 z0 Hc Hf0 Hw Hft Hft0.
      destruct c as [|X' c]; simpl in Hc.
      + subst r. exists [], (n :: ns), ns0, [], (w ++ ws), w0. splits4; auto. now constructor.
      + inversion Hc; subst X' Xs. simpl in Hf0. inversion Hf0 as [|X1 Xs1 n1 ns1 w1 ws1 Ht1 Hf1]; subst.
        rewrite <- !app_assoc in Hw.
        assert (Ha : exists a y, ws ++ t :: z = a :: y) by (destruct ws; simpl; eauto).
        assert (Ha1 : exists a y, ws1 ++ t0 :: z0 = a :: y) by (destruct ws1; simpl; eauto).
        destruct Ha as (a & y & Ha), Ha1 as (a1 & y1 & Ha1).
        assert (Hsame : n = n1 /\ w = w1).
        { eapply IH1; [exact Ht1|rewrite Ha, Ha1 in Hw; exact Hw| |].
          - apply (@followed_head [X] (c ++ r) t ns ws z a y); auto.
          - apply (@followed_head [X] (c ++ r2) t0 ns1 ws1 z0 a1 y1); auto. }
        destruct Hsame as [<- <-]. apply app_inv_head in Hw.
        destruct (IH2 c r r2 ns1 ws1 t z t0 z0 eq_refl Hf1 Hw (followed_tail Hft) (followed_tail Hft0))
          as (nsc & nsr & nsr2 & wc & wr & wr2 & -> & -> & -> & -> & Hr & Hr2).
        exists (n :: nsc), nsr, nsr2, (w ++ wc), wr, wr2. splits4; auto; now rewrite <- app_assoc.
  Qed.
End Factor.

(** ** The check *)
Section Check.
  Context {T : Type} {E : EqDec T}.
  Variables eps init : T.
  Variable ps : list (production T).
  Variables ho ho' : hash_order T.
  Variable g : grammar T.
  Variable fuel : nat.
  Variable ffs : first_follow_symbols T.
  Hypothesis Hg : cfg_new ho eps init ps = Done g.
  Hypothesis Hf : ffs_from ho' fuel g = Done ffs.
  Hypothesis Hinit : non_terminal ps init.

  Notation first := (first_set ffs).
  Notation follow := (follow_set ffs).

  Lemma drop_common_spec (c r1 r2 : list T) : part_ways r1 r2 -> drop_common (c ++ r1) (c ++ r2) = (r1, r2).
  Proof.
    intros Hw. induction c as [|x c IH]; simpl.
    - destruct r1 as [|x r1]; [reflexivity|]. destruct r2 as [|y r2]; [reflexivity|]. simpl.
      destruct (eq_dec x y) as [->|]; [|reflexivity]. exfalso. now apply (Hw y r1 r2).
    - destruct (eq_dec x x); [auto|congruence].
  Qed.

  Lemma predictions_complete A c r a : no_repeated_neighbours ps -> In (Production A (c ++ r)) ps ->
    predicted eps ps init A r a -> In a (predictions eps first follow A r).
  Proof.
    intros Hrep Hp Ha. assert (Hi : incl r (c ++ r)) by (intros y Hy; apply in_or_app; auto).
    unfold predictions. apply in_or_app. destruct Ha as [Ha|[Hn Ha]].
    - left. exact (proj2 (@starts_with_iff T E eps init ps ho ho' g fuel ffs Hg Hf _ r a Hp Hi) Ha).
    - right. rewrite (proj2 (@may_be_empty_iff T E eps init ps ho ho' g fuel ffs Hg Hf _ r Hp Hi) Hn).
      assert (HA : non_terminal ps A) by (exists (Production A (c ++ r)); auto).
      destruct (proj2 (@C08_follow_complete_partial _ _ _ _ _ _ _ _ _ _ Hg Hf) Hrep A a HA) as (s & Hs & Hin).
      + exists init. auto.
      + unfold follow_set. now rewrite Hs.
  Qed.

  Lemma factored_sound : no_repeated_neighbours ps -> is_factored_ll1 eps first follow ps = true ->
    ll1_once_factored eps ps init.
  Proof.
    intros Hrep H A c r1 r2 a _ H1 H2 Hw Ha1 Ha2. unfold is_factored_ll1 in H.
    rewrite forallb_forall in H. specialize (H _ H1). rewrite forallb_forall in H. specialize (H _ H2).
    cbn [p_input p_output] in H. rewrite (proj2 (eqb_iff _ _) eq_refl) in H. rewrite (drop_common_spec c Hw) in H.
    cbn [negb orb apart fst snd] in H. unfold apart in H. cbn [fst snd] in H. apply orb_true_iff in H as [H|H].
    - now apply same_output_iff.
    - rewrite forallb_forall in H. specialize (H a ltac:(eapply predictions_complete; eassumption)).
      apply negb_true_iff, among_not in H. destruct H. eapply predictions_complete; eassumption.
  Qed.

  Lemma longer_first_sound : is_longer_first eps first ps = true -> longer_first eps ps init.
  Proof.
    intros H before after A c r1 r2 Hps H2 _ Hw Hn.
    assert (Hp : In (Production A (c ++ r1)) ps) by (rewrite Hps; apply in_or_app; right; now left).
    assert (Hi : incl r1 (c ++ r1)) by (intros y Hy; apply in_or_app; auto).
    apply (@may_be_empty_iff T E eps init ps ho ho' g fuel ffs Hg Hf _ r1 Hp Hi) in Hn. clear Hp Hi.
    rewrite Hps in H. clear Hps. induction before as [|q before IH]; simpl in H; apply andb_true_iff in H as [H Hrest]; auto.
    rewrite forallb_forall in H. specialize (H _ H2). cbn [p_input p_output] in H.
    rewrite (proj2 (eqb_iff _ _) eq_refl), (drop_common_spec c Hw) in H. cbn [negb orb fst snd] in H.
    rewrite Hn, orb_false_r in H. now apply same_output_iff.
  Qed.

  Lemma drop_common_parts (o1 o2 : list T) : exists c r1 r2,
    o1 = c ++ r1 /\ o2 = c ++ r2 /\ part_ways r1 r2 /\ drop_common o1 o2 = (r1, r2).
  Proof.
    destruct (common_beginning o1 o2) as (c & r1 & r2 & -> & -> & Hw). exists c, r1, r2.
    splits4; auto. now apply drop_common_spec.
  Qed.

  Lemma predictions_sound A c r a : reachable_from eps ps init A ->
    (forall X, non_terminal ps X -> reachable_from eps ps init X) -> In (Production A (c ++ r)) ps ->
    In a (predictions eps first follow A r) -> predicted eps ps init A r a.
  Proof.
    intros HA Hr Hp Ha. assert (Hi : incl r (c ++ r)) by (intros y Hy; apply in_or_app; auto).
    unfold predictions in Ha. apply in_app_or in Ha as [Ha|Ha].
    - left. exact (proj1 (@starts_with_iff T E eps init ps ho ho' g fuel ffs Hg Hf _ r a Hp Hi) Ha).
    - right. destruct (may_be_empty eps first r) eqn:He; [|destruct Ha].
      split; [exact (proj1 (@may_be_empty_iff T E eps init ps ho ho' g fuel ffs Hg Hf _ r Hp Hi) He)|].
      unfold follow_set in Ha. destruct (get_follow_symbols ffs A) as [s|] eqn:Hs; [|destruct Ha].
      destruct (@C07_follow_sound _ _ _ _ _ _ _ _ _ _ _ _ _ Hg Hf Hs Ha) as (H1 & H2 & _ & H3).
      split; auto.
  Qed.

  Lemma factored_complete : (forall X, non_terminal ps X -> reachable_from eps ps init X) ->
    ll1_once_factored eps ps init -> is_factored_ll1 eps first follow ps = true.
  Proof.
    intros Hr H. unfold is_factored_ll1. apply forallb_forall. intros [A o1] H1. apply forallb_forall. intros [A2 o2] H2.
    cbn [p_input p_output]. destruct (eqb A A2) eqn:HA; [|reflexivity]. apply eqb_iff in HA. subst A2. cbn [negb orb].
    destruct (drop_common_parts o1 o2) as (c & r1 & r2 & -> & -> & Hw & ->).
    unfold apart. cbn [fst snd]. destruct (same_output r1 r2) eqn:Hs; [reflexivity|]. cbn [orb].
    apply forallb_forall. intros a Ha. apply negb_true_iff, among_not. intros Hb.
    assert (HA : reachable_from eps ps init A) by (apply Hr; exists (Production A (c ++ r1)); auto).
    assert (Heq : r1 = r2) by (apply (H A c r1 r2 a); auto; eapply predictions_sound; eauto).
    apply same_output_iff in Heq. congruence.
  Qed.

  Lemma longer_first_complete : (forall X, non_terminal ps X -> reachable_from eps ps init X) ->
    longer_first eps ps init -> is_longer_first eps first ps = true.
  Proof.
    intros Hr H.
    assert (G : forall after before, ps = before ++ after -> is_longer_first eps first after = true); [|now apply (G ps [])].
    induction after as [|[A o1] after IH]; intros before Hps; simpl; [reflexivity|].
    apply andb_true_iff. split; [|apply (IH (before ++ [Production A o1])); now rewrite <- app_assoc].
    assert (H1 : In (Production A o1) ps) by (rewrite Hps; apply in_or_app; right; now left).
    assert (HA : reachable_from eps ps init A) by (apply Hr; exists (Production A o1); auto).
    apply forallb_forall. intros [A2 o2] H2. cbn [p_input p_output].
    destruct (eqb A A2) eqn:HAe; [|reflexivity]. apply eqb_iff in HAe. subst A2. cbn [negb orb].
    destruct (drop_common_parts o1 o2) as (c & r1 & r2 & -> & -> & Hw & ->). cbn [fst snd].
    destruct (same_output r1 r2) eqn:Hs; [reflexivity|]. cbn [orb].
    apply negb_true_iff, not_true_iff_false. intros Hn.
    assert (Hi : incl r1 (c ++ r1)) by (intros y Hy; apply in_or_app; auto).
    apply (@may_be_empty_iff T E eps init ps ho ho' g fuel ffs Hg Hf _ r1 H1 Hi) in Hn.
    assert (Heq : r1 = r2) by (apply (H before after A c r1 r2); auto).
    apply same_output_iff in Heq. congruence.
  Qed.
End Check.
