(** * Grammars that are LL(1) once factored have alternatives that never fit early *)

From Verif Require Import ExactFacts BaseFacts GrammarFacts DerivFacts FollowFacts TransitionsFacts ParserSound ParserComplete.
From Verif Require Import ProductiveSpec LastSpec LastFacts MoreFacts PropEndMarker FactorFacts.
From Verif Require Export FitSpec FactorSpec.

Set Implicit Arguments.

Section Cover.
  Context {T : Type} {E : EqDec T}.
  Variables eps init eof : T.
  Variable ps : list (production T).
  Hypothesis Heps : ~ non_terminal ps eps.
  Hypothesis Hll : ll1_once_factored eps ps init.
  Hypothesis Hlong : longer_first eps ps init.
  Hypothesis Heof : eof_discipline eps ps init eof.

  Notation types := (map (@tok_type T T)).
  Notation derives := (derives eps ps).
  Notation word := (word eps ps).
  Notation leaf := (@leaf T T eps ps).
  Notation tokens_of := (map (Token (@None T))).

  Lemma tokens_types (w : list T) : types (tokens_of w) = w.
  Proof. rewrite map_map. simpl. apply map_id. Qed.

  Lemma word_forest Xs w : derives Xs w -> word w -> exists ns, forest_for (L := T) eps ps Xs ns (tokens_of w).
  Proof.
    intros Hd Hw. apply derives_forest; auto.
    - rewrite tokens_types. exact Hd.
    - apply Forall_map. exact Hw.
  Qed.

  Lemma factored_never_fits : never_fits_early eps ps init.
  Proof.
    intros before after X out out0 u y0 wt vt Hps Hin Hne Hctx Hwt Hww Hvt Hwv [rest Hbeg].
    assert (Hp : In (Production X out) ps) by (rewrite Hps; apply in_or_app; right; now left).
    assert (Hp0 : In (Production X out0) ps) by (rewrite Hps; apply in_or_app; right; now right).
    apply derives_app_inv in Hvt as (v0 & vy & -> & Hv0 & Hvy).
    apply Forall_app in Hwv as [Hwv0 Hwvy].
    assert (Hctx1 : derives [init] (u ++ X :: vy)).
    { eapply derives_trans; [exact Hctx|]. apply derives_app; [apply derives_refl|].
      apply (@derives_app _ eps ps [X] [X] y0 vy); [apply derives_refl|exact Hvy]. }
    destruct (common_beginning out out0) as (c & r1 & r2 & -> & -> & Hways).
    assert (Hreach : reachable_from eps ps init X) by (exists u, vy; exact Hctx1).
    assert (Hnn : ~ nullable eps ps r1).
    { intros Hnull. apply Hne. f_equal. eapply Hlong; eauto. }
    apply derives_app_inv in Hwt as (tc & t1 & -> & Hdc & Hd1).
    apply derives_app_inv in Hv0 as (tc0 & t2 & -> & Hdc0 & Hd2).
    apply Forall_app in Hww as [Hwc Hw1]. apply Forall_app in Hwv0 as [Hwc0 Hw2].
    destruct t1 as [|a t1]; [exact (Hnn Hd1)|].
    assert (Hb : exists b y, t2 ++ vy = b :: y).
    { destruct t2 as [|b t2]; [|simpl; eauto]. destruct vy as [|b vy]; [|simpl; eauto]. exfalso.
      destruct Heof as (He1 & He2 & He3 & He4 & _).
      assert (HXi : X = init).
      { destruct (ends_once_derived Heof Hctx1) as [H|[H|(x & H & _)]].
        - destruct u as [|y u]; [now inversion H|inversion H; destruct u; discriminate].
        - destruct u; discriminate.
        - apply app_inj_tail in H as [_ H]. subst X. exfalso. apply He2. exists (Production eof (c ++ r1)). auto. }
      subst X. destruct (He4 _ Hp0 eq_refl) as (u0 & Hu0 & _). destruct (He4 _ Hp eq_refl) as (u1 & Hu1 & Hin1).
      simpl in Hu0, Hu1. destruct r2 as [|y r2 _] using rev_ind.
      - rewrite app_nil_r in Hu0. subst c. destruct r1 as [|y r1 _] using rev_ind; [congruence|].
        rewrite app_assoc in Hu1. apply app_inj_tail in Hu1 as [<- _]. apply Hin1.
        apply in_or_app. left. apply in_or_app. right. now left.
      - rewrite app_assoc in Hu0. apply app_inj_tail in Hu0 as [_ ->].
        apply derives_app_inv in Hd2 as (ta & tb & Hab & _ & Hb).
        symmetry in Hab. apply app_eq_nil in Hab as [_ ->].
        destruct (word_forest Hb (Forall_nil _)) as (nb & Hfb).
        inversion Hfb as [|X' Xs' nt' ns' wt' ws' Htt Hf3 HX1 HX2 HX3]; subst.
        apply app_eq_nil in HX3 as [-> _]. inversion Htt as [|Hx|p' ch w' Hp' Hfp' Hx]; subst; [congruence|].
        apply He2. exists p'. auto. }
    destruct Hb as (b & y & Hb).
    assert (Hlb : leaf (Token None b)).
    { assert (H : Forall (fun a => a <> eps /\ ~ non_terminal ps a) (t2 ++ vy)) by now apply Forall_app.
      rewrite Hb in H. now inversion H. }
    assert (Hla : leaf (Token None a)) by now inversion Hw1.
    assert (Hfa : followed eps init ps (c ++ []) (Token (@None T) a)).
    { split; auto. exists u, (t1 ++ vy). rewrite app_nil_r. simpl. eapply derives_trans; [exact Hctx1|].
      eapply derives_trans; [apply (@derives_ctx _ eps ps u vy [X] (c ++ r1)); exact (derives_production eps _ _ Hp)|].
      rewrite <- app_assoc, !(app_assoc u). exact (@derives_ctx _ eps ps (u ++ c) vy r1 (a :: t1) Hd1). }
    assert (Hfb : followed eps init ps (c ++ []) (Token (@None T) b)).
    { split; auto. exists u, y. rewrite app_nil_r. simpl. eapply derives_trans; [exact Hctx1|].
      eapply derives_trans; [apply (@derives_ctx _ eps ps u vy [X] (c ++ r2)); exact (derives_production eps _ _ Hp0)|].
      rewrite <- Hb, <- app_assoc, !(app_assoc u). exact (@derives_ctx _ eps ps (u ++ c) vy r2 t2 Hd2). }
    destruct (word_forest Hdc Hwc) as (nc & Hfc). destruct (word_forest Hdc0 Hwc0) as (nc0 & Hfc0).
    assert (Hstream : tokens_of tc ++ Token None a :: tokens_of (t1 ++ rest) = tokens_of tc0 ++ Token None b :: tokens_of y).
    { change (tokens_of tc ++ tokens_of (a :: t1 ++ rest) = tokens_of tc0 ++ tokens_of (b :: y)).
      rewrite <- !map_app. f_equal. rewrite <- Hb, !app_assoc. rewrite Hbeg, <- !app_assoc. reflexivity. }
    rewrite <- (app_nil_r c) in Hfc, Hfc0.
    destruct (proj2 (same_trees Heps Hll) _ _ _ Hfc c [] [] nc0 _ _ _ _ _ eq_refl Hfc0 Hstream Hfa Hfb)
      as (nsc & nsr & nsr2 & wc' & wr & wr2 & _ & _ & H1 & H2 & Hr & Hr2).
    inversion Hr; inversion Hr2; subst. rewrite app_nil_r in H1, H2. rewrite H1, H2 in Hstream. apply app_inv_head in Hstream.
    inversion Hstream; subst b. apply Hne. f_equal.
    apply (@Hll X c r1 r2 a); auto.
    - left. destruct Hla. split; auto. split; auto. exists t1. exact Hd1.
    - destruct Hla. destruct t2 as [|b t2].
      + right. split; [exact Hd2|]. simpl in Hb. subst vy. split; auto. split; auto. exists u, y. exact Hctx1.
      + left. simpl in Hb. inversion Hb; subst b. split; auto. split; auto. exists t2. exact Hd2.
  Qed.
End Cover.
