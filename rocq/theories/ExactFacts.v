(** * The computed checks decide what they should (proofs) *)

From Verif Require Import BaseFacts GrammarFacts DerivFacts FirstFacts FollowFacts TransitionsFacts.
From Verif Require Export Examples PropFirstFollow PropFollow LastSpec RecipeSpec FollowSpec ExactSpec.

Set Implicit Arguments.

Section Facts.
  Context {T : Type} {E : EqDec T}.

  Lemma among_iff (x : T) l : among x l = true <-> In x l.
  Proof. unfold among. destruct (in_dec eq_dec x l); split; congruence. Qed.
  Lemma among_not (x : T) l : among x l = false <-> ~ In x l.
  Proof. unfold among. destruct (in_dec eq_dec x l); split; congruence. Qed.
  Lemma same_output_iff (u v : list T) : same_output u v = true <-> u = v.
  Proof. unfold same_output. destruct (list_eq_dec eq_dec u v); split; congruence. Qed.

  (** ** saturation *)
  Lemma new_in_spec (s l : list T) x : In x (new_in s l) <-> In x l /\ ~ In x s.
  Proof. unfold new_in. rewrite filter_In, negb_true_iff, among_not. tauto. Qed.

  Lemma saturate_keeps (P : T -> Prop) f n : (forall s, (forall x, In x s -> P x) -> forall x, In x (f s) -> P x) ->
    forall s, (forall x, In x s -> P x) -> forall x, In x (saturate n f s) -> P x.
  Proof.
    intros Hf. induction n as [|n IH]; intros s Hs x Hx; simpl in Hx; auto.
    destruct (new_in s (f s)) as [|y l] eqn:Hn; auto. apply (IH (y :: l ++ s)); auto.
    intros z Hz. rewrite app_comm_cons in Hz. apply in_app_or in Hz as [Hz|Hz]; auto.
    rewrite <- Hn in Hz. apply new_in_spec in Hz as [Hz _]. apply (Hf s); auto.
  Qed.

  Definition missing (U s : list T) : nat := length (filter (fun x => negb (among x s)) U).

  Lemma filter_short (A : Type) (f : A -> bool) l : length (filter f l) <= length l.
  Proof. induction l as [|x l IH]; simpl; auto. destruct (f x); simpl; lia. Qed.

  Lemma filter_le (A : Type) (f g : A -> bool) l : (forall x, f x = true -> g x = true) ->
    length (filter f l) <= length (filter g l).
  Proof.
    intros H. induction l as [|x l IH]; simpl; auto.
    destruct (f x) eqn:Hf; [rewrite (H x Hf); simpl; lia|]. destruct (g x); simpl; lia.
  Qed.

  Lemma filter_lt (A : Type) (f g : A -> bool) l y : (forall x, f x = true -> g x = true) ->
    In y l -> f y = false -> g y = true -> length (filter f l) < length (filter g l).
  Proof.
    intros H Hin Hf Hg. induction l as [|x l IH]; [destruct Hin|].
    pose proof (filter_le f g l H) as Hle. simpl. destruct Hin as [->|Hin].
    - rewrite Hf, Hg. simpl. lia.
    - specialize (IH Hin). destruct (f x) eqn:Hfx; [rewrite (H x Hfx); simpl; lia|]. destruct (g x); simpl; lia.
  Qed.

  Lemma saturate_closed (U : list T) f : (forall s, incl (f s) U) ->
    forall n s, missing U s <= n -> incl (f (saturate n f s)) (saturate n f s).
  Proof.
    intros HU. induction n as [|n IH]; intros s Hm; simpl.
    - intros x Hx. destruct (in_dec eq_dec x s) as [Hi|Hi]; auto. exfalso.
      assert (H : length (filter (fun y : T => false) U) < missing U s).
      { apply filter_lt with (y := x); try discriminate; auto; [apply (HU s x Hx)|].
        apply negb_true_iff, among_not. exact Hi. }
      lia.
    - destruct (new_in s (f s)) as [|y l] eqn:Hn.
      + intros x Hx. destruct (in_dec eq_dec x s) as [Hi|Hi]; auto.
        assert (H : In x (new_in s (f s))) by (apply new_in_spec; auto). rewrite Hn in H. destruct H.
      + apply IH. assert (Hy : In y (new_in s (f s))) by (rewrite Hn; now left).
        apply new_in_spec in Hy as [Hyf Hys].
        enough (missing U (y :: l ++ s) < missing U s) by lia.
        apply filter_lt with (y := y).
        * intros x Hx. apply negb_true_iff, among_not in Hx. apply negb_true_iff, among_not.
          intros H. apply Hx. rewrite app_comm_cons. apply in_or_app. now right.
        * apply (HU s y Hyf).
        * apply negb_false_iff, among_iff. now left.
        * apply negb_true_iff, among_not. exact Hys.
  Qed.

  (** ** symbols that vanish *)
  Section Vanish.
    Variable eps : T.
    Variable ps : list (production T).
    Variable cands : T -> T -> list (list T).
    Hypothesis Heps : ~ non_terminal ps eps.

    Lemma vanish_step_spec a s X : In X (vanish_step eps ps cands a s) <->
      non_terminal ps X /\ exists out, In out (cands X a) /\ forall Y, In Y out -> Y = eps \/ In Y s.
    Proof.
      unfold vanish_step. rewrite in_map_iff. split.
      - intros (p & <- & Hp). apply filter_In in Hp as [Hp H]. split; [now exists p|].
        apply existsb_exists in H as (out & Ho & Ha). exists out. split; auto.
        intros Y HY. rewrite forallb_forall in Ha. specialize (Ha Y HY).
        apply orb_true_iff in Ha as [H|H]; [left; now apply eqb_iff|right; now apply among_iff].
      - intros ((p & Hp & <-) & out & Ho & Ha). exists p. split; auto. apply filter_In. split; auto.
        apply existsb_exists. exists out. split; auto. apply forallb_forall. intros Y HY.
        apply orb_true_iff. destruct (Ha Y HY) as [H|H]; [left; now apply eqb_iff|right; now apply among_iff].
    Qed.

    Lemma vanishes_parts a Xs : (forall Y, In Y Xs -> Y = eps \/
        (non_terminal ps Y /\ exists out, In out (cands Y a) /\ vanishes eps ps cands a out)) ->
      vanishes eps ps cands a Xs.
    Proof.
      induction Xs as [|X Xs IH]; intros H; [constructor|].
      destruct (H X (or_introl eq_refl)) as [-> |(HX & out & Ho & Hv)].
      - constructor. apply IH. intros Y HY. apply H. now right.
      - econstructor; eauto. apply IH. intros Y HY. apply H. now right.
    Qed.

    Lemma vanishing_spec a X : In X (vanishing eps ps cands a) <->
      non_terminal ps X /\ exists out, In out (cands X a) /\ vanishes eps ps cands a out.
    Proof.
      split.
      - intros H. revert X H. unfold vanishing. apply saturate_keeps; [|intros ? []].
        intros s Hs X HX. apply vanish_step_spec in HX as (HX & out & Ho & Ha). split; auto. exists out. split; auto.
        apply vanishes_parts. intros Y HY. destruct (Ha Y HY); auto.
      - intros (HX & out & Ho & Hv).
        assert (Hcl : incl (vanish_step eps ps cands a (vanishing eps ps cands a)) (vanishing eps ps cands a)).
        { apply saturate_closed with (U := map (@p_input T) ps).
          - intros s Y HY. unfold vanish_step in HY. apply in_map_iff in HY as (p & <- & Hp).
            apply filter_In in Hp as [Hp _]. now apply in_map.
          - unfold missing. rewrite <- (map_length (@p_input T) ps).
            apply filter_short. }
        assert (Hall : forall Y, In Y out -> Y = eps \/ In Y (vanishing eps ps cands a)).
        { clear HX Ho X. induction Hv as [|Xs _ IH|X o Xs HX Ho Hv1 IH1 _ IH2]; intros Y HY.
          - destruct HY.
          - destruct HY as [<-|HY]; auto.
          - destruct HY as [<-|HY]; auto. right. apply Hcl, vanish_step_spec. split; auto. exists o. auto. }
        apply Hcl, vanish_step_spec. split; auto. exists out. auto.
    Qed.

    Lemma all_vanish_iff a Xs : all_vanish eps ps cands a Xs = true <-> vanishes eps ps cands a Xs.
    Proof.
      unfold all_vanish. rewrite forallb_forall. split.
      - intros H. apply vanishes_parts. intros Y HY. specialize (H Y HY). apply orb_true_iff in H as [H|H].
        + left. now apply eqb_iff.
        + right. apply among_iff in H. now apply vanishing_spec.
      - induction 1 as [|Xs _ IH|X out Xs HX Ho Hv _ _ IH]; intros Y HY; [destruct HY| |].
        + destruct HY as [<-|HY]; auto. apply orb_true_iff. left. now apply eqb_iff.
        + destruct HY as [<-|HY]; auto. apply orb_true_iff. right. apply among_iff, vanishing_spec. eauto.
    Qed.
  End Vanish.

  (** ** the check for early endings *)
  Lemma before_output_spec (out o : list T) l : In out l ->
    (In o (before_output out l) <-> exists l1 l2, l = l1 ++ o :: l2 /\ ~ In out (l1 ++ [o]) /\ In out l2).
  Proof.
    induction l as [|x l IH]; intros Hin; [destruct Hin|]. simpl.
    destruct (same_output x out) eqn:Hx.
    - apply same_output_iff in Hx as ->. split; [intros []|].
      intros (l1 & l2 & Hl & Hni & _). exfalso. apply Hni. destruct l1 as [|y l1]; simpl in *; inversion Hl; subst; auto.
    - assert (Hne : x <> out) by (intros ->; rewrite (proj2 (same_output_iff out out) eq_refl) in Hx; discriminate).
      destruct Hin as [->|Hin]; [congruence|]. specialize (IH Hin). split.
      + intros [->|Ho].
        * exists [], l. split; auto. split; auto. intros [?|[]]; auto.
        * apply IH in Ho as (l1 & l2 & -> & Hni & Hi). exists (x :: l1), l2. split; auto. split; auto.
          intros [?|?]; auto.
      + intros (l1 & l2 & Hl & Hni & Hi). destruct l1 as [|y l1]; simpl in Hl; inversion Hl; subst; [now left|].
        right. apply IH. exists l1, l2. split; auto. split; auto. intros H. apply Hni. now right.
  Qed.

  Lemma uses_spec (out : list T) A after : In (A, after) (uses out) <-> exists before, out = before ++ A :: after.
  Proof.
    induction out as [|X out IH]; simpl.
    - split; [intros []|]. intros (b & H). destruct b; discriminate.
    - split.
      + intros [H|H]; [inversion H; subst; now exists []|]. apply IH in H as (b & ->). now exists (X :: b).
      + intros (b & H). destruct b as [|y b]; simpl in H; inversion H; subst; [now left|]. right. apply IH. eauto.
  Qed.

  Section Checks.
    Variables eps init : T.
    Variable ps : list (production T).
    Variable first follow : T -> list T.
    Variable cands : T -> T -> list (list T).
    Hypothesis Hfill : textbook_cells_filled eps ps init cands.
    (** the sets select at least what the textbook selects *)
    Hypothesis Hcomp : forall A a p, textbook_cell eps ps init A a p -> In a (selects eps first follow p).

    Lemma is_exact_sound : is_exact eps ps first follow cands = true -> no_early_ending eps ps init cands.
    Proof.
      unfold is_exact. rewrite forallb_forall. intros H q before A after a l1 out l2 p Hq (u & v & Hd) Ho Hc Hni Hi Htb Hv Hva.
      specialize (H q Hq). rewrite forallb_forall in H.
      specialize (H (A, after) (proj2 (uses_spec _ _ _) (ex_intro _ before Ho))). rewrite forallb_forall in H.
      pose proof Htb as (Hp & HA & _). specialize (H p Hp). simpl in H.
      rewrite (proj2 (eqb_iff _ _) HA) in H. simpl in H. rewrite forallb_forall in H.
      specialize (H a (Hcomp Htb)). apply orb_true_iff in H as [H|H].
      - rewrite (proj2 (all_vanish_iff _ _ _ _ _) Hva) in H. discriminate.
      - apply negb_true_iff in H. rewrite <- not_true_iff_false in H. apply H.
        apply existsb_exists. exists out. split; [|now apply all_vanish_iff].
        apply before_output_spec; [|exists l1, l2; auto].
        apply (Hfill (A := A)); auto. exists (u ++ before), (after ++ v).
        eapply derives_trans; [exact Hd|]. rewrite <- app_assoc.
        replace (before ++ A :: after ++ v) with (p_output q ++ v) by (rewrite Ho, <- app_assoc; reflexivity).
        apply (@derives_ctx _ eps ps u v [p_input q] (p_output q)). now apply derives_production.
    Qed.

    (** the checks on LL(1) *)
    Lemma is_ll1_sound : is_ll1 eps ps first follow = true -> ll1 eps ps init.
    Proof.
      unfold is_ll1. rewrite forallb_forall. intros H A a p q Hp Hq.
      pose proof Hp as (Hpp & HpA & _). pose proof Hq as (Hqp & HqA & _).
      specialize (H p Hpp). rewrite forallb_forall in H. specialize (H q Hqp).
      assert (Hi : p_input p = p_input q) by congruence.
      rewrite (proj2 (eqb_iff _ _) Hi) in H. simpl in H. apply orb_true_iff in H as [H|H].
      - apply same_output_iff in H. destruct p, q; simpl in *; congruence.
      - rewrite forallb_forall in H. specialize (H a (Hcomp Hp)).
        rewrite (proj2 (among_iff _ _) (Hcomp Hq)) in H. discriminate.
    Qed.

    (** ... and nothing else, in a grammar where everything is reachable *)
    Hypothesis Hsound : forall p a, In p ps -> In a (selects eps first follow p) ->
      textbook_cell eps ps init (p_input p) a p.

    Lemma is_ll1_complete : ll1 eps ps init -> is_ll1 eps ps first follow = true.
    Proof.
      intros Hll. unfold is_ll1. apply forallb_forall. intros p Hp. apply forallb_forall. intros q Hq.
      destruct (eqb (p_input p) (p_input q)) eqn:Hi; auto. apply eqb_iff in Hi. simpl.
      destruct (same_output (p_output p) (p_output q)) eqn:Ho; auto. simpl.
      apply forallb_forall. intros a Ha. apply negb_true_iff, among_not. intros Hb.
      pose proof (Hsound _ _ Hp Ha) as H1. pose proof (Hsound _ _ Hq Hb) as H2. rewrite <- Hi in H2.
      pose proof (Hll _ _ _ _ H1 H2) as ->. rewrite (proj2 (same_output_iff _ _) eq_refl) in Ho. discriminate.
    Qed.

    Lemma is_exact_complete : (forall A, non_terminal ps A -> reachable_from eps ps init A) ->
      no_early_ending eps ps init cands -> is_exact eps ps first follow cands = true.
    Proof.
      intros Hr H. unfold is_exact. apply forallb_forall. intros q Hq. apply forallb_forall. intros [A after] Hu.
      apply uses_spec in Hu as (before & Ho). apply forallb_forall. intros p Hp. simpl.
      destruct (eqb (p_input p) A) eqn:HA; auto. apply eqb_iff in HA. subst A. simpl.
      apply forallb_forall. intros a Ha. pose proof (Hsound _ _ Hp Ha) as Htb.
      destruct (all_vanish eps ps cands a after) eqn:Hva; auto. apply all_vanish_iff in Hva. simpl.
      apply negb_true_iff, not_true_iff_false. intros He. apply existsb_exists in He as (o & Hob & Hv).
      apply all_vanish_iff in Hv. apply before_output_spec in Hob as (l1 & l2 & Hc & Hni & Hi);
        [|apply (Hfill (A := p_input p)); auto; apply Hr; now exists p].
      refine (@H q before (p_input p) after a l1 o l2 p Hq _ Ho Hc Hni Hi Htb Hv Hva).
      apply Hr. now exists q.
    Qed.
  End Checks.

  (** ** the computed sets select as the textbook does *)
  Section Selects.
    Variables eps init : T.
    Variable ps : list (production T).
    Variables ho ho' : hash_order T.
    Variable g : grammar T.
    Variable fuel : nat.
    Variable ffs : first_follow_symbols T.
    Hypothesis Hg : cfg_new ho eps init ps = Done g.
    Hypothesis Hf : ffs_from ho' fuel g = Done ffs.

    Notation first := (first_set ffs).
    Notation follow := (follow_set ffs).

    Lemma first_here p X : In p ps -> In X (p_output p) -> get_first_symbols ffs X = Some (first X).
    Proof.
      intros Hp HX. destruct (@C06_first_follow_hygiene _ _ _ _ _ _ _ _ _ _ Hg Hf) as [H _].
      assert (Hx : exists s, get_first_symbols ffs X = Some s) by (apply H; exists p; auto).
      destruct Hx as [s Hs]. unfold first_set. now rewrite Hs.
    Qed.

    Lemma first_tokens p X a : In p ps -> In X (p_output p) -> a <> eps ->
      (In a (first X) <-> ~ non_terminal ps a /\ exists v, derives eps ps [X] (a :: v)).
    Proof.
      intros Hp HX Ha. destruct (@C05_first_exact _ _ _ _ _ _ _ _ _ _ _ _ Hg Hf (first_here _ _ Hp HX)) as [H _]. auto.
    Qed.

    Lemma first_empty p X : In p ps -> In X (p_output p) -> (among eps (first X) = true <-> nullable eps ps [X]).
    Proof.
      intros Hp HX. rewrite among_iff.
      destruct (@C05_first_exact _ _ _ _ _ _ _ _ _ _ _ _ Hg Hf (first_here _ _ Hp HX)) as [_ H]. exact H.
    Qed.

    Lemma may_be_empty_iff p out : In p ps -> incl out (p_output p) ->
      (may_be_empty eps first out = true <-> nullable eps ps out).
    Proof.
      intros Hp. unfold may_be_empty. induction out as [|X out IH]; intros Hi; simpl.
      - split; auto. intros _. apply derives_refl.
      - rewrite andb_true_iff, (first_empty _ _ Hp (Hi X (or_introl eq_refl))), IH by (intros y Hy; apply Hi; now right).
        split; [intros [H1 H2]; now apply nullable_cons|apply nullable_cons].
    Qed.

    Lemma starts_with_iff p out a : In p ps -> incl out (p_output p) ->
      (In a (starts_with eps first out) <-> can_start eps ps out a).
    Proof.
      intros Hp. induction out as [|X out IH]; intros Hi; simpl.
      - split; [intros []|apply can_start_nil].
      - assert (HX : In X (p_output p)) by (apply Hi; now left).
        assert (Hi' : incl out (p_output p)) by (intros y Hy; apply Hi; now right).
        rewrite in_app_iff, filter_In, negb_true_iff, can_start_cons. split.
        + intros [[Ha Hne]|Ha].
          * assert (Hae : a <> eps) by (intros ->; rewrite (proj2 (eqb_iff eps eps) eq_refl) in Hne; discriminate).
            left. apply (first_tokens _ _ Hp HX Hae) in Ha as (Hn & v & Hd). split; auto. split; auto. now exists v.
          * destruct (among eps (first X)) eqn:He; [|destruct Ha].
            right. split; [now apply (first_empty _ _ Hp HX)|now apply IH].
        + intros [(Hae & Hn & v & Hd)|[Hn Ha]].
          * left. split; [apply (first_tokens _ _ Hp HX Hae); split; auto; now exists v|].
            apply not_true_iff_false. rewrite eqb_iff. exact Hae.
          * right. rewrite (proj2 (first_empty _ _ Hp HX) Hn). now apply IH.
    Qed.

    Lemma selects_complete : non_terminal ps init -> repeats_harmless eps ps init ->
      forall A a p, textbook_cell eps ps init A a p -> In a (selects eps first follow p).
    Proof.
      intros Hinit Hrep A a p (Hp & HA & Hc). unfold selects. apply in_or_app. destruct Hc as [Hs|[Hn Hfol]].
      - left. now apply (@starts_with_iff p (p_output p) a Hp (incl_refl _)).
      - right. rewrite (proj2 (@may_be_empty_iff p (p_output p) Hp (incl_refl _)) Hn).
        destruct (proj2 (@C08_nullable_complete_partial _ _ _ _ _ _ _ _ _ _ Hg Hf Hinit) Hrep A a) as (s & Hs & Hi); auto.
        + now exists p.
        + apply (derives_trans (v := p_output p)); auto. subst A. now apply derives_production.
        + subst A. unfold follow_set. now rewrite Hs.
    Qed.

    Lemma selects_sound : (forall A, non_terminal ps A -> reachable_from eps ps init A) ->
      forall p a, In p ps -> In a (selects eps first follow p) -> textbook_cell eps ps init (p_input p) a p.
    Proof.
      intros Hr p a Hp Ha. split; auto. split; auto. unfold selects in Ha. apply in_app_or in Ha as [Ha|Ha].
      - left. now apply (@starts_with_iff p (p_output p) a Hp (incl_refl _)).
      - right. destruct (may_be_empty eps first (p_output p)) eqn:He; [|destruct Ha].
        split; [now apply (@may_be_empty_iff p (p_output p) Hp (incl_refl _))|].
        unfold follow_set in Ha. destruct (get_follow_symbols ffs (p_input p)) as [s|] eqn:Hs; [|destruct Ha].
        destruct (@C07_follow_sound _ _ _ _ _ _ _ _ _ _ _ _ _ Hg Hf Hs Ha) as (H1 & H2 & _ & H3).
        split; auto.
    Qed.
  End Selects.
End Facts.
