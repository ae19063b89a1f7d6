(** * SplitFacts: what replacing repeated neighbours keeps *)

From Verif Require Import BaseFacts DerivFacts FollowRepeat ParserSound.
From Verif Require Export SplitSpec LastSpec FollowSpec.

Set Implicit Arguments.

Section SplitFacts.
  Context {T : Type} {E : EqDec T}.
  Variable eps : T.
  Variable ps : list (production T).
  Variable alias : T -> T.
  Hypothesis Hok : productions_ok eps ps.
  Hypothesis Hfresh : fresh_aliases alias eps ps.

  Notation ps' := (split_repeats alias ps).
  Notation al A := (In A (repeated ps)).

  Lemma al_nt A : al A -> non_terminal ps A.
  Proof.
    intros H. apply filter_In in H as [H _]. unfold non_terminals in H.
    rewrite nodup_In, in_map_iff in H. destruct H as (p & H1 & H2). exists p. auto.
  Qed.

  Lemma twice_spec A out : twice A out = true <-> exists u v, out = u ++ A :: A :: v.
  Proof.
    induction out as [|X out IH]; simpl.
    - split; [discriminate|]. intros (u & v & H). now destruct u.
    - destruct out as [|Y out].
      + split; [discriminate|]. intros ([|? [|? ?]] & v & H); inversion H.
      + rewrite orb_true_iff, andb_true_iff, !eqb_iff, IH. split.
        * intros [[-> ->]|(u & v & ->)]; [now exists [], out|now exists (X :: u), v].
        * intros ([|Z u] & v & H); simpl in H; inversion H; subst; [auto|right; eauto].
  Qed.

  Lemma nt_repeated p u A v : In p ps -> p_output p = u ++ A :: A :: v -> non_terminal ps A -> al A.
  Proof.
    intros Hp Ho (q & Hq & Hi). unfold repeated. apply filter_In. split.
    - unfold non_terminals. rewrite nodup_In, in_map_iff. eauto.
    - apply existsb_exists. exists p. split; auto. apply twice_spec. eauto.
  Qed.

  Lemma al_occurs A : al A -> exists p u v, In p ps /\ p_output p = u ++ A :: A :: v.
  Proof.
    intros H. apply filter_In in H as [_ H]. apply existsb_exists in H as (p & Hp & H).
    apply twice_spec in H as (u & v & H). eauto.
  Qed.

  (** the symbol an alias stands for *)
  Definition unalias (X : T) : T :=
    match find (fun A => eqb (alias A) X) (repeated ps) with Some A => A | None => X end.

  Lemma unalias_alias A : al A -> unalias (alias A) = A.
  Proof.
    intros HA. unfold unalias.
    destruct (find (fun A0 => eqb (alias A0) (alias A)) (repeated ps)) as [B|] eqn:HB.
    - apply find_some in HB as [HB1 HB2]. apply eqb_iff in HB2. now apply (proj1 Hfresh).
    - apply find_none with (x := A) in HB; auto. rewrite eqb_self in HB. discriminate.
  Qed.

  Lemma unalias_cases X : unalias X = X /\ is_alias alias ps X = false \/
    exists A, al A /\ X = alias A /\ unalias X = A.
  Proof.
    unfold unalias, is_alias.
    destruct (find (fun A => eqb (alias A) X) (repeated ps)) as [B|] eqn:HB.
    - right. exists B. apply find_some in HB as [HB1 HB2]. apply eqb_iff in HB2. auto.
    - left. split; auto. destruct (existsb (fun A => eqb (alias A) X) (repeated ps)) eqn:Hx; auto.
      apply existsb_exists in Hx as (A & H1 & H2). apply find_none with (x := A) in HB; auto. congruence.
  Qed.

  Lemma unalias_id X : (forall A, al A -> X <> alias A) -> unalias X = X.
  Proof. intros H. destruct (unalias_cases X) as [[-> _]|(A & HA & -> & _)]; auto. exfalso. now apply (H A). Qed.

  Lemma is_alias_alias A : al A -> is_alias alias ps (alias A) = true.
  Proof. intros HA. unfold is_alias. apply existsb_exists. exists A. split; auto. apply eqb_self. Qed.

  Lemma is_alias_id X : (forall A, al A -> X <> alias A) -> is_alias alias ps X = false.
  Proof.
    intros H. destruct (unalias_cases X) as [[_ Hx]|(A & HA & -> & _)]; auto. exfalso. now apply (H A).
  Qed.

  Lemma eps_fresh A : al A -> eps <> alias A.
  Proof. intros HA Heq. destruct Hfresh as [_ H]. destruct (H A HA) as [H1 _]. congruence. Qed.

  Lemma nt_fresh X A : non_terminal ps X -> al A -> X <> alias A.
  Proof. intros HX HA ->. destruct Hfresh as [_ H]. now destruct (H A HA) as [_ [H1 _]]. Qed.

  Lemma out_fresh p X A : In p ps -> In X (p_output p) -> al A -> X <> alias A.
  Proof.
    intros Hp HX HA ->. destruct Hfresh as [_ H]. destruct (H A HA) as [_ [_ H1]]. apply H1. now exists p.
  Qed.

  Lemma input_fresh p A : In p ps -> al A -> p_input p <> alias A.
  Proof. intros Hp HA. apply nt_fresh; auto. now exists p. Qed.

  Lemma eps_not_input : ~ non_terminal ps eps.
  Proof. intros (p & Hp & Hi). now destruct (@Hok p Hp) as [H _]. Qed.

  Lemma unalias_nt A : non_terminal ps A -> unalias A = A.
  Proof. intros HA. apply unalias_id. intros B HB. now apply nt_fresh. Qed.

  (** ** the split outputs *)
  Lemma split_unalias last out :
    (forall X A, In X out -> al A -> X <> alias A) ->
    map unalias (split_output alias ps last out) = out.
  Proof.
    revert last. induction out as [|X out IH]; intros last H; auto. simpl.
    destruct (match last with Some Y => eqb Y X && existsb (eqb X) (repeated ps) | None => false end) eqn:Hc; simpl.
    - destruct last as [Y|]; [|discriminate]. apply andb_prop in Hc as [_ Hc].
      apply existsb_exists in Hc as (Z & HZ & Heq). apply eqb_iff in Heq. subst Z.
      rewrite unalias_alias by auto. rewrite IH; auto. intros Z A HZ'. apply H. now right.
    - rewrite IH; [|intros Z A HZ'; apply H; now right]. rewrite unalias_id; auto.
      intros A HA. apply H; auto. now left.
  Qed.

  Definition split_production (p : production T) : production T :=
    Production (p_input p) (split_output alias ps None (p_output p)).

  Lemma split_out p : In p ps -> map unalias (p_output (split_production p)) = p_output p.
  Proof. intros Hp. apply split_unalias. intros X A HX. now apply out_fresh with p. Qed.

  Lemma split_In q : In q ps' <->
    (exists p, In p ps /\ q = split_production p) \/
    (exists A, al A /\ q = Production (alias A) [A]).
  Proof.
    unfold split_repeats. rewrite in_app_iff, !in_map_iff. split.
    - intros [(p & <- & Hp)|(A & <- & HA)]; [left; exists p|right; exists A]; auto.
    - intros [(p & Hp & ->)|(A & HA & ->)]; [left; exists p|right; exists A]; auto.
  Qed.

  Lemma split_nt X : non_terminal ps' X <-> non_terminal ps X \/ exists A, al A /\ X = alias A.
  Proof.
    split.
    - intros (q & Hq & <-). apply split_In in Hq as [(p & Hp & ->)|(A & HA & ->)]; simpl; eauto.
      left. exists p. auto.
    - intros [(p & Hp & <-)|(A & HA & ->)].
      + exists (split_production p). split; auto. apply split_In. eauto.
      + exists (Production (alias A) [A]). split; auto. apply split_In. eauto.
  Qed.

  Lemma not_nt X : ~ non_terminal ps' X -> ~ non_terminal ps X /\ unalias X = X /\ is_alias alias ps X = false.
  Proof.
    intros H. split; [|destruct (unalias_cases X) as [H1|(A & HA & -> & _)]; auto].
    - intros HX. apply H. apply split_nt. auto.
    - exfalso. apply H. apply split_nt. eauto.
  Qed.

  (** ** derivations *)
  Lemma unalias_derive1 u v : derive1 eps ps' u v -> derives eps ps (map unalias u) (map unalias v).
  Proof.
    intros H. destruct H as [u v q Hq|u v].
    - rewrite !map_app. cbn [map].
      apply split_In in Hq as [(p & Hp & ->)|(A & HA & ->)].
      + rewrite (split_out _ Hp). cbn [split_production p_input].
        rewrite unalias_id; [|intros A HA; now apply input_fresh].
        apply derives_step. now constructor.
      + simpl. rewrite unalias_alias by auto. rewrite (unalias_nt (al_nt _ HA)). apply derives_refl.
    - rewrite !map_app. cbn [map]. rewrite unalias_id; [|intros A HA; now apply eps_fresh].
      apply derives_step. constructor.
  Qed.

  Lemma unalias_derives u v : derives eps ps' u v -> derives eps ps (map unalias u) (map unalias v).
  Proof.
    intros H. induction H as [|u v w H1 _ IH]; [apply derives_refl|].
    eapply derives_trans; [apply unalias_derive1; exact H1|exact IH].
  Qed.

  Lemma unalias_nullable w : nullable eps ps' w -> nullable eps ps (map unalias w).
  Proof. intros H. now apply unalias_derives in H. Qed.

  Lemma unalias_can_start w a : can_start eps ps' w a -> can_start eps ps (map unalias w) a.
  Proof.
    intros (H1 & H2 & v & H3). apply not_nt in H2 as (H2 & H4 & _). split; auto. split; auto.
    exists (map unalias v). apply unalias_derives in H3. simpl in H3. now rewrite H4 in H3.
  Qed.

  Lemma unalias_can_follow S A a : can_follow eps ps' S A a -> can_follow eps ps (unalias S) (unalias A) a.
  Proof.
    intros (H1 & H2 & u & v & H3). apply not_nt in H2 as (H2 & H4 & _). split; auto. split; auto.
    exists (map unalias u), (map unalias v). apply unalias_derives in H3.
    rewrite map_app in H3. simpl in H3. now rewrite H4 in H3.
  Qed.

  Lemma unalias_reachable S A : reachable_from eps ps' S A -> reachable_from eps ps (unalias S) (unalias A).
  Proof.
    intros (u & v & H). exists (map unalias u), (map unalias v). apply unalias_derives in H.
    now rewrite map_app in H.
  Qed.

  (** ** what is kept *)
  Lemma split_ok : productions_ok eps ps'.
  Proof.
    intros q Hq. apply split_In in Hq as [(p & Hp & ->)|(A & HA & ->)].
    - destruct (@Hok p Hp) as (H1 & H2 & H3). pose proof (split_out _ Hp) as Hs. split; [auto|]. split.
      + intros Heq. rewrite Heq in Hs. simpl in Hs. auto.
      + intros Hin. apply (in_map unalias) in Hin. rewrite Hs in Hin.
        rewrite unalias_id in Hin; [|intros A HA; now apply eps_fresh].
        cbn [split_production p_output]. rewrite (H3 Hin). reflexivity.
    - split; [|split].
      + simpl. intros Heq. now apply (@eps_fresh A).
      + discriminate.
      + simpl. intros [->|[]]. reflexivity.
  Qed.

  Lemma split_cell S A a q : non_terminal ps S ->
    textbook_cell eps ps' S A a q ->
    (exists p, textbook_cell eps ps S A a p /\ q = split_production p) \/
    (exists B, al B /\ A = alias B /\ q = Production A [B]).
  Proof.
    intros HS (Hq & Hi & H). apply split_In in Hq as [(p & Hp & ->)|(B & HB & ->)].
    - left. exists p. split; auto. split; auto. split; auto.
      destruct H as [H|[H1 H2]].
      + left. apply unalias_can_start in H. now rewrite split_out in H.
      + right. apply unalias_nullable in H1. rewrite split_out in H1 by auto. split; auto.
        apply unalias_can_follow in H2. simpl in Hi. subst A.
        rewrite !unalias_nt in H2; auto. now exists p.
    - right. exists B. simpl in Hi. subst A. auto.
  Qed.

  Lemma split_ll1 S : non_terminal ps S -> ll1 eps ps S -> ll1 eps ps' S.
  Proof.
    intros HS Hll A a q r Hq Hr. apply split_cell in Hq; auto. apply split_cell in Hr; auto.
    destruct Hq as [(p & Hq & ->)|(B & HB & -> & ->)], Hr as [(p' & Hr & ->)|(B' & HB' & Heq & ->)].
    - f_equal. eapply Hll; eauto.
    - exfalso. destruct Hq as (Hp & Hi & _). apply (@input_fresh p B'); congruence.
    - exfalso. destruct Hr as (Hp & Hi & _). now apply (@input_fresh p' B).
    - apply (proj1 Hfresh) in Heq; auto. now subst.
  Qed.

  Lemma split_nullable_last : nullable_last eps ps -> nullable_last eps ps'.
  Proof.
    intros Hlast before q after r Hps Hr Hi Hne Hn.
    assert (Hq : In q ps') by (rewrite Hps; apply in_or_app; right; now left).
    assert (Hr' : In r ps') by (rewrite Hps; apply in_or_app; right; now right).
    assert (Hno : forall p, In p ps ->
              ~ In (split_production p) (map (fun A => Production (alias A) [A]) (repeated ps))).
    { intros p Hp Hx. apply in_map_iff in Hx as (A & Hx & HA).
      apply (f_equal (@p_input T)) in Hx. simpl in Hx. now apply (@input_fresh p A). }
    apply split_In in Hq as [(p & Hp & ->)|(A & HA & ->)].
    2:{ apply split_In in Hr' as [(p' & Hp' & ->)|(B & HB & ->)]; simpl in Hi.
        - now apply (@input_fresh p' A).
        - apply (proj1 Hfresh) in Hi; auto. now subst. }
    apply split_In in Hr' as [(p' & Hp' & ->)|(B & HB & ->)]; simpl in Hi.
    2:{ now apply (@input_fresh p B). }
    apply unalias_nullable in Hn. rewrite split_out in Hn by auto.
    unfold split_repeats in Hps.
    (* the second one is among the split productions as well *)
    assert (Hmap : exists b x a y, ps = b ++ x :: a /\ split_production x = split_production p /\
      In y a /\ split_production y = split_production p').
    { apply app_eq_mid in Hps as [(m & H1 & H2)|(m & H1 & H2)].
      - destruct m as [|z m].
        + exfalso. apply (Hno p Hp). simpl in H2. rewrite <- H2. now left.
        + simpl in H2. inversion H2 as [[Hz Hm]]. subst z.
          apply map_eq_app in H1 as (b & k & Hk & _ & H1). apply map_eq_cons in H1 as (x & a & -> & Hx & Ha).
          assert (Hin : In (split_production p') m).
          { rewrite Hm in Hr. apply in_app_or in Hr as [Hr|Hr]; auto. exfalso. now apply (Hno p'). }
          rewrite <- Ha in Hin. apply in_map_iff in Hin as (y & Hy & Hya).
          exists b, x, a, y. auto.
      - exfalso. apply (Hno p Hp). rewrite H2. apply in_or_app. right. now left. }
    destruct Hmap as (b & x & a & y & Hb & Hx & Hy & Hye).
    assert (Hxp : In x ps) by (rewrite Hb; apply in_or_app; right; now left).
    assert (Hyp : In y ps) by (rewrite Hb; apply in_or_app; right; now right).
    apply (Hlast b x a y Hb Hy).
    - injection Hx; injection Hye. intros. congruence.
    - intros ->. apply Hne. congruence.
    - rewrite <- (split_out x Hxp), Hx, (split_out p Hp). exact Hn.
  Qed.

  Lemma split_no_left_recursion S : non_terminal ps S ->
    no_left_recursion_from eps ps S -> no_left_recursion_from eps ps' S.
  Proof.
    intros HS Hlr A HA HSA (w & v & H1 & H2).
    apply unalias_reachable in HSA. rewrite (unalias_nt HS) in HSA.
    apply derive1_single in H1.
    assert (HB : forall B q, non_terminal ps B -> reachable_from eps ps S B ->
                 derives eps ps (p_output q) (B :: map unalias v) -> In q ps -> p_input q = B -> False).
    { intros B q HB HSB Hd Hq Hi. apply (Hlr B HB HSB).
      exists (p_output q), (map unalias v). split; auto.
      pose proof (@derive1_production _ eps ps [] [] q Hq) as Hs. rewrite app_nil_r in Hs. simpl in Hs.
      now rewrite Hi in Hs. }
    apply unalias_derives in H2 as H2'. cbn [map] in H2'.
    apply split_nt in HA as [HA|(B & HB' & ->)].
    - rewrite (unalias_nt HA) in *. destruct H1 as [(q & Hq & Hi & ->)|[-> ->]].
      + apply split_In in Hq as [(p & Hp & ->)|(B & HB' & ->)].
        * rewrite split_out in H2' by auto. exact (HB A p HA HSA H2' Hp Hi).
        * simpl in Hi. apply (@nt_fresh A B); auto.
      + now apply eps_not_input.
    - pose proof (al_nt _ HB') as HBn. rewrite (unalias_alias _ HB') in *. destruct H1 as [(q & Hq & Hi & ->)|[Heq ->]].
      2:{ now apply (@eps_fresh B). }
      apply split_In in Hq as [(p & Hp & ->)|(C & HC & ->)].
      + simpl in Hi. now apply (@input_fresh p B).
      + simpl in Hi. apply (proj1 Hfresh) in Hi; auto. subst C. simpl in H2.
        inversion H2 as [Heq|u1 u2 Hs Hrest]; subst.
        * apply (@nt_fresh B B); auto.
        * apply derive1_single in Hs as [(q & Hq & Hi & ->)|[-> ->]].
          2:{ now apply eps_not_input. }
          apply unalias_derives in Hrest. cbn [map] in Hrest. rewrite (unalias_alias _ HB') in Hrest.
          apply split_In in Hq as [(p & Hp & ->)|(C & HC2 & ->)].
          -- rewrite split_out in Hrest by auto. exact (HB B p HBn HSA Hrest Hp Hi).
          -- simpl in Hi. apply (@nt_fresh B C); auto.
  Qed.

  Lemma split_ends last u t : ~ non_terminal ps t ->
    exists u', split_output alias ps last (u ++ [t]) = u' ++ [t] /\
      u' = split_output alias ps last u.
  Proof.
    intros Ht. revert last. induction u as [|X u IH]; intros last; simpl.
    - exists []. split; auto. destruct last as [Y|]; auto.
      destruct (eqb Y t && existsb (eqb t) (repeated ps)) eqn:Hc; auto.
      apply andb_prop in Hc as [_ Hc]. apply existsb_exists in Hc as (Z & HZ & Heq).
      apply eqb_iff in Heq. subst Z. apply al_nt in HZ. contradiction.
    - destruct (match last with Some Y => eqb Y X && existsb (eqb X) (repeated ps) | None => false end).
      + destruct (IH None) as (u' & -> & ->). now exists (alias X :: split_output alias ps None u).
      + destruct (IH (Some X)) as (u' & -> & ->). now exists (X :: split_output alias ps (Some X) u).
  Qed.

  Lemma split_initial_ends S : non_terminal ps S ->
    initial_ends_in_terminal eps ps S -> initial_ends_in_terminal eps ps' S.
  Proof.
    intros HS H q Hq Hi. apply split_In in Hq as [(p & Hp & ->)|(A & HA & ->)].
    - destruct (H p Hp Hi) as (u & t & Ho & H1 & H2). cbn [split_production p_output]. rewrite Ho.
      destruct (split_ends None u H2) as (u' & -> & _). exists u', t. split; auto. split; auto.
      intros Hn. apply split_nt in Hn as [Hn|(A & HA & ->)]; auto.
      apply (@out_fresh p (alias A) A); auto. rewrite Ho. apply in_or_app. right. now left.
    - simpl in Hi. exfalso. apply (@nt_fresh S A); auto.
  Qed.

  Lemma split_eof S eof : non_terminal ps S ->
    eof_discipline eps ps S eof -> eof_discipline eps ps' S eof.
  Proof.
    intros HS (H1 & H2 & H3 & H4 & H5). destruct HS as (p0 & Hp0 & Hi0).
    assert (HS : non_terminal ps S) by now exists p0.
    assert (Heof : forall A, al A -> eof <> alias A).
    { intros A HA. apply (@out_fresh p0); auto. destruct (H4 p0 Hp0 Hi0) as (u & -> & _).
      apply in_or_app. right. now left. }
    assert (Hmem : forall p X, In p ps -> unalias X = X -> In X (p_output (split_production p)) -> In X (p_output p)).
    { intros p X Hp HX Hin. apply (in_map unalias) in Hin. rewrite split_out in Hin; auto. now rewrite HX in Hin. }
    split; [auto|]. split; [|split; [|split]].
    - intros Hn. apply split_nt in Hn as [Hn|(A & HA & Heq)]; auto. now apply (Heof A).
    - intros q Hq Hin. apply split_In in Hq as [(p & Hp & ->)|(A & HA & ->)].
      + apply (H3 p Hp). apply Hmem; auto. now apply unalias_nt.
      + simpl in Hin. destruct Hin as [->|[]]. destruct (al_occurs _ HA) as (p & u & v & Hp & Ho).
        apply (H3 p Hp). rewrite Ho. apply in_or_app. right. now left.
    - intros q Hq Hi. apply split_In in Hq as [(p & Hp & ->)|(A & HA & ->)].
      + destruct (H4 p Hp Hi) as (u & Ho & Hu). cbn [split_production p_output]. rewrite Ho.
        destruct (split_ends None u H2) as (u' & -> & ->). exists (split_output alias ps None u). split; auto.
        intros Hin. apply Hu. apply (in_map unalias) in Hin. rewrite split_unalias in Hin.
        * rewrite unalias_id in Hin; auto.
        * intros X A HX HA. apply (@out_fresh p); auto. rewrite Ho. apply in_or_app. now left.
      + simpl in Hi. exfalso. apply (@nt_fresh S A); auto.
    - intros q Hq Hi Hin. apply split_In in Hq as [(p & Hp & ->)|(A & HA & ->)].
      + apply (H5 p Hp Hi). apply Hmem; auto. apply unalias_id. auto.
      + simpl in Hin. destruct Hin as [<-|[]]. apply H2. now apply al_nt.
  Qed.

  (** no output of the new grammar repeats a non-terminal *)
  Lemma split_separated p : In p ps -> forall out last u A v before,
    p_output p = before ++ out -> (match last with Some Y => exists b, before = b ++ [Y] | None => True end) ->
    split_output alias ps last out = u ++ A :: A :: v -> ~ non_terminal ps' A.
  Proof.
    intros Hp. induction out as [|X out IH]; intros last u A v before Hb Hl Hs HA; simpl in Hs.
    - now destruct u.
    - assert (Hb' : p_output p = (before ++ [X]) ++ out) by now rewrite <- app_assoc.
      destruct (match last with Some Y => eqb Y X && existsb (eqb X) (repeated ps) | None => false end) eqn:Hc.
      + destruct u as [|Z u]; simpl in Hs; inversion Hs as [[Hx Ho]]; subst.
        * (* an alias and the symbol after it *)
          assert (HX : al X).
          { destruct last as [Y|]; [|discriminate]. apply andb_prop in Hc as [_ Hc].
            apply existsb_exists in Hc as (Z & HZ & Heq). apply eqb_iff in Heq. now subst Z. }
          destruct out as [|W out]; simpl in Ho; [discriminate|]. injection Ho as HW _.
          apply (@out_fresh p W X); auto. rewrite Hb. apply in_or_app. right. right. now left.
        * exact (IH None u A v (before ++ [X]) Hb' I Ho HA).
      + destruct u as [|Z u]; simpl in Hs; inversion Hs as [[Hx Ho]]; subst.
        * destruct out as [|W out]; simpl in Ho; [discriminate|].
          destruct (eqb A W && existsb (eqb W) (repeated ps)) eqn:Hc2.
          -- injection Ho as HW _. apply andb_prop in Hc2 as [Hw Hc2]. apply eqb_iff in Hw. subst W.
             apply existsb_exists in Hc2 as (Z & HZ & Heq). apply eqb_iff in Heq. subst Z.
             apply (@nt_fresh A A); auto. now apply al_nt.
          -- injection Ho as HW _. subst W. rewrite eqb_self in Hc2. simpl in Hc2.
             assert (HAl : al A).
             { apply (@nt_repeated p before A out); auto.
               apply split_nt in HA as [HA|(B & HB & Heq)]; auto. exfalso.
               apply (@out_fresh p A B); auto. rewrite Hb. apply in_or_app. right. now left. }
             assert (existsb (eqb A) (repeated ps) = true).
             { apply existsb_exists. exists A. split; auto. apply eqb_self. }
             congruence.
        * refine (IH (Some Z) u A v (before ++ [Z]) Hb' _ Ho HA). eauto.
  Qed.

  Lemma split_no_repeated : no_repeated_neighbours ps'.
  Proof.
    intros q u A v Hq Ho. apply split_In in Hq as [(p & Hp & ->)|(B & HB & ->)].
    - exact (split_separated _ Hp _ None u v [] eq_refl I Ho).
    - simpl in Ho. destruct u as [|? [|? ?]]; discriminate.
  Qed.

  (** ** derivations of the original grammar in the new one *)
  Lemma unalias_inv X' A u v : unalias X' = A -> non_terminal ps A ->
    derives eps ps' (u ++ X' :: v) (u ++ A :: v).
  Proof.
    intros <- HA. destruct (unalias_cases X') as [[H3 H4]|(B & HB & -> & H3)].
    - rewrite H3. apply derives_refl.
    - rewrite H3. apply derives_step.
      apply (@derive1_production _ eps ps' u v (Production (alias B) [B])). apply split_In. eauto.
  Qed.

  Lemma lift_derive1 u v : derive1 eps ps u v -> forall u', map unalias u' = u ->
    exists v', map unalias v' = v /\ derives eps ps' u' v'.
  Proof.
    intros H u' Hu. destruct H as [u v p Hp|u v].
    - apply map_eq_app in Hu as (a & b & -> & <- & Hu). apply map_eq_cons in Hu as (X' & c & -> & HX & <-).
      exists (a ++ p_output (split_production p) ++ c). split.
      + rewrite !map_app, split_out; auto.
      + eapply derives_trans; [apply (unalias_inv _ a c HX); now exists p|].
        apply derives_step. apply (@derive1_production _ eps ps' a c (split_production p)).
        apply split_In. eauto.
    - apply map_eq_app in Hu as (a & b & -> & <- & Hu). apply map_eq_cons in Hu as (X' & c & -> & HX & <-).
      exists (a ++ c). split; [apply map_app|].
      destruct (unalias_cases X') as [[H3 H4]|(B & HB & -> & H3)].
      + assert (X' = eps) by congruence. subst X'. apply derives_step. constructor.
      + exfalso. apply eps_not_input. rewrite <- HX, H3. now apply al_nt.
  Qed.

  Lemma lift_derives u v : derives eps ps u v -> forall u', map unalias u' = u ->
    exists v', map unalias v' = v /\ derives eps ps' u' v'.
  Proof.
    intros H. induction H as [|u v w H1 _ IH]; intros u' Hu.
    - exists u'. split; auto. apply derives_refl.
    - destruct (lift_derive1 H1 _ Hu) as (v' & Hv & Hd). destruct (IH _ Hv) as (w' & Hw & Hd').
      exists w'. split; auto. eapply derives_trans; eauto.
  Qed.

  Lemma unalias_terminal X' a : unalias X' = a -> ~ non_terminal ps a -> X' = a.
  Proof.
    intros H Ha. destruct (unalias_cases X') as [[H3 _]|(B & HB & -> & H3)]; [congruence|].
    exfalso. apply Ha. rewrite <- H, H3. now apply al_nt.
  Qed.

  Lemma split_cell_inv S A a p : non_terminal ps S -> (forall B, al B -> a <> alias B) ->
    textbook_cell eps ps S A a p -> textbook_cell eps ps' S A a (split_production p).
  Proof.
    intros HS Hal (Hp & Hi & H).
    assert (Hnt : forall b, (forall B, al B -> b <> alias B) -> ~ non_terminal ps b -> ~ non_terminal ps' b).
    { intros b Hb H1 H2. apply split_nt in H2 as [H2|(B & HB & ->)]; auto. now apply (Hb B). }
    split; [apply split_In; eauto|]. split; auto.
    destruct H as [(H1 & H2 & v & H3)|[H1 (H2 & H3 & u & v & H4)]].
    - left. split; auto. split; [auto|]. apply lift_derives with (u' := p_output (split_production p)) in H3;
        [|now apply split_out].
      destruct H3 as ([|b v'] & Hv & Hd); [discriminate|]. injection Hv as Hb Hv.
      rewrite (unalias_terminal _ Hb H2) in Hd. now exists v'.
    - right. split.
      + apply lift_derives with (u' := p_output (split_production p)) in H1; [|now apply split_out].
        destruct H1 as ([|b v'] & Hv & Hd); [exact Hd|discriminate].
      + split; auto. split; [auto|].
        apply lift_derives with (u' := [S]) in H4; [|simpl; now rewrite unalias_nt].
        destruct H4 as (z & Hz & Hd).
        apply map_eq_app in Hz as (u' & b & -> & <- & Hu). apply map_eq_cons in Hu as (X' & c & -> & HX & Hc).
        apply map_eq_cons in Hc as (a' & v' & -> & Ha & <-).
        rewrite (unalias_terminal _ Ha H3) in Hd. exists u', v'.
        eapply derives_trans; [exact Hd|]. apply (unalias_inv _ u' (a :: v') HX). exists p. auto.
  Qed.

  Lemma split_ll1_inv S : non_terminal ps S -> ll1 eps ps' S -> ll1 eps ps S.
  Proof.
    intros HS Hll A a p q Hp Hq.
    assert (Hsym : symbol_of ps a).
    { destruct Hp as (Hp & Hi & [(H1 & H2 & v & H3)|(_ & H1 & H2 & u & v & H3)]).
      - apply derives_symbols in H3; [now apply Forall_inv in H3|].
        apply Forall_forall. intros s Hs. eapply output_symbol_of; eauto.
      - apply derives_symbols in H3.
        + apply Forall_app in H3 as [_ H3]. apply Forall_inv_tail in H3. now apply Forall_inv in H3.
        + constructor; [now left|constructor]. }
    assert (Hal : forall B, al B -> a <> alias B).
    { intros B HB. destruct Hsym as [Hs|[(r & Hr & Hs) _]]; [now apply nt_fresh|now apply (@out_fresh r)]. }
    assert (Heq : split_production p = split_production q)
      by (eapply Hll; eapply split_cell_inv; eauto).
    destruct Hp as (Hp & Hip & _), Hq as (Hq & Hiq & _).
    pose proof (split_out _ Hp) as H1. rewrite Heq, (split_out _ Hq) in H1.
    destruct p, q. simpl in *. congruence.
  Qed.

  (** ** trees *)
  Context {L : Type}.
  Notation merge := (merge_aliases alias ps).

  Lemma merge_tree :
    (forall X n w, tree_for (L := L) eps ps' X n w -> tree_for eps ps (unalias X) (merge n) w) /\
    (forall Xs ns w, forest_for (L := L) eps ps' Xs ns w ->
       forest_for eps ps (map unalias Xs) (map merge ns) w).
  Proof.
    apply tree_forest_ind.
    - intros tok H1 H2. apply not_nt in H2 as (H2 & H3 & H4). simpl. rewrite H3, H4. now constructor.
    - rewrite unalias_id by (intros A HA; now apply eps_fresh). simpl.
      rewrite is_alias_id by (intros A HA; now apply eps_fresh). constructor.
    - intros q children w Hq Hf IH. apply split_In in Hq as [(p & Hp & ->)|(A & HA & ->)].
      + rewrite split_out in IH by auto. cbn [split_production p_input merge_aliases tok_type].
        rewrite unalias_id by (intros A HA; now apply input_fresh).
        rewrite is_alias_id by (intros A HA; now apply input_fresh). now constructor.
      + cbn [p_input p_output] in *. cbn [merge_aliases tok_type].
        rewrite is_alias_alias, unalias_alias by auto.
        inversion Hf as [|X Xs n ns w1 ws Ht Hns]; subst. inversion Hns; subst.
        simpl in IH. rewrite (unalias_nt (al_nt _ HA)) in IH.
        inversion IH as [|X Xs n' ns w2 ws Ht' Hns']; subst. inversion Hns'; subst.
        match goal with H : _ ++ [] = _ ++ [] |- _ => rewrite !app_nil_r in H; subst end.
        now rewrite app_nil_r.
    - constructor.
    - intros X Xs n ns w ws _ IH1 _ IH2. now constructor.
  Qed.

  Lemma split_tree :
    (forall X n w, tree_for (L := L) eps ps X n w -> forall X', unalias X' = X ->
       exists n', tree_for eps ps' X' n' w /\ merge n' = n) /\
    (forall Xs ns w, forest_for (L := L) eps ps Xs ns w -> forall Xs', map unalias Xs' = Xs ->
       exists ns', forest_for eps ps' Xs' ns' w /\ map merge ns' = ns).
  Proof.
    apply tree_forest_ind.
    - intros tok H1 H2 X' HX. destruct (unalias_cases X') as [[H3 H4]|(A & HA & -> & H3)].
      + assert (X' = tok_type tok) by congruence. subst X'. exists (Node [] tok). split.
        * constructor; auto. intros Hn. apply split_nt in Hn as [Hn|(A & HA & Heq)]; auto.
          rewrite Heq, (is_alias_alias _ HA) in H4. discriminate.
        * simpl. now rewrite H4.
      + exfalso. apply H2. rewrite <- HX, H3. now apply al_nt.
    - intros X' HX. destruct (unalias_cases X') as [[H3 H4]|(A & HA & -> & H3)].
      + assert (X' = eps) by congruence. subst X'. exists (Node [] (Token None eps)). split.
        * constructor.
        * simpl. now rewrite H4.
      + exfalso. apply eps_not_input. rewrite <- HX, H3. now apply al_nt.
    - intros p children w Hp _ IH X' HX.
      destruct (IH _ (split_out _ Hp)) as (ns' & Hf & Hm).
      assert (Ht : tree_for eps ps' (p_input p) (Node ns' (Token None (p_input p))) w).
      { apply (@tree_production _ _ eps ps' (split_production p)); auto. apply split_In. eauto. }
      assert (Hmt : merge (Node ns' (Token None (p_input p))) = Node children (Token None (p_input p))).
      { simpl. rewrite is_alias_id by (intros A HA; now apply input_fresh). now rewrite Hm. }
      destruct (unalias_cases X') as [[H3 H4]|(A & HA & -> & H3)].
      + assert (X' = p_input p) by congruence. subst X'. eauto.
      + assert (A = p_input p) by congruence. subst A.
        exists (Node [Node ns' (Token None (p_input p))] (Token None (alias (p_input p)))). split.
        * apply (@tree_production _ _ eps ps' (Production (alias (p_input p)) [p_input p])).
          -- apply split_In. eauto.
          -- rewrite <- (app_nil_r w). constructor; [exact Ht|constructor].
        * cbn [merge_aliases tok_type]. rewrite (is_alias_alias _ HA). exact Hmt.
    - intros [|X' Xs'] H; [|discriminate]. exists []. split; [constructor|auto].
    - intros X Xs n ns w ws _ IH1 _ IH2 [|X' Xs'] H; [discriminate|].
      simpl in H. inversion H as [[HX HXs]].
      destruct (IH1 _ HX) as (n' & H1 & H2). destruct (IH2 _ HXs) as (ns' & H3 & H4).
      exists (n' :: ns'). split; [now constructor|]. simpl. congruence.
  Qed.
End SplitFacts.
