(** * The computation of RecoverSpec.v / StopSpec.v is functional and total (proofs) *)

From Verif Require Import BaseFacts.
From Verif Require Export ParserStopRecover.

Set Implicit Arguments.

Lemma nt_dec (T : Type) (E : EqDec T) (ps : list (production T)) X : non_terminal ps X \/ ~ non_terminal ps X.
Proof.
  induction ps as [|p l IH].
  - right. intros (q & [] & _).
  - destruct (eqb (p_input p) X) eqn:He.
    + left. apply eqb_iff in He. exists p. split; [now left|auto].
    + apply eqb_ne_iff in He. destruct IH as [(q & Hq & HX)|IH].
      * left. exists q. split; [now right|auto].
      * right. intros (q & [<- |Hq] & HX); [auto|]. apply IH. exists q. auto.
Qed.

Section StopFacts.
  Context {L T : Type} {E : EqDec T}.
  Variable eps : T.
  Variable ps : list (production T).
  Hypothesis Heps : ~ non_terminal ps eps.
  Variable tokens : list (token L T).
  Variable cands : T -> T -> list (list T).
  Variable solver : option (syntax_error_solver L T).
  Notation derive := (derive eps ps tokens cands solver).
  Notation attempt := (attempt eps ps tokens cands solver).
  Notation parse := (RecoverSpec.parse eps ps tokens cands solver).
  Notation branch := (branch eps ps tokens cands solver).
  Notation retry := (retry eps ps tokens cands solver).
  Notation derive_stops := (derive_stops eps ps tokens cands solver).
  Notation attempt_stops := (attempt_stops eps ps tokens cands solver).
  Notation parse_stops := (parse_stops eps ps tokens cands solver).
  Notation branch_stops := (branch_stops eps ps tokens cands solver).
  Notation retry_stops := (retry_stops eps ps tokens cands solver).

  Lemma not_failed X (parts : list (fixed_production_part L T)) q lft f : built X parts q lft <> DFailed f.
  Proof. unfold built. destruct (trees parts); discriminate. Qed.

  Ltac clash :=
    match goal with
    | H1 : ?a = ?b, H2 : ?a = ?c |- _ => rewrite H1 in H2; try discriminate H2; inversion H2; subst; clear H2
    end.

  Lemma functional :
    (forall single X p outs h r h', derive single X p outs h r h' ->
       forall r2 h2, derive single X p outs h r2 h2 -> r2 = r /\ h2 = h') /\
    (forall single X p outs fps h r h', attempt single X p outs fps h r h' ->
       forall r2 h2, attempt single X p outs fps h r2 h2 -> r2 = r /\ h2 = h') /\
    (forall single Xs p h r h', parse single Xs p h r h' ->
       forall r2 h2, parse single Xs p h r2 h2 -> r2 = r /\ h2 = h') /\
    (forall single X p outs Xs h r h', branch single X p outs Xs h r h' ->
       forall r2 h2, branch single X p outs Xs h r2 h2 -> r2 = r /\ h2 = h') /\
    (forall single X p outs Xs f b h r h', retry single X p outs Xs f b h r h' ->
       forall r2 h2, retry single X p outs Xs f b h r2 h2 -> r2 = r /\ h2 = h').
  Proof.
    apply recover_mutind.
    - intros single X p outs h r h' _ IH r2 h2 H.
      destruct single;
      inversion_clear H as [? ? ? ? ? ? ? Ha|? ? ? ? ? ? ? Ha|? ? ? ? ? ? ? Ha|? ? ? ? ? ? ? ? ? Ha];
        simpl in IH, Ha; apply IH in Ha as [Ha Hb]; try discriminate; inversion Ha; auto.
    - intros single X p outs h fps h' _ IH Hno r2 h2 H.
      destruct single; inversion_clear H as [? ? ? ? ? ? ? Ha|? ? ? ? ? ? ? Ha|? ? ? ? ? ? ? Ha Hs Hr|? ? ? ? ? ? ? ? ? Ha Hs Hr];
        simpl in IH, Ha; apply IH in Ha as [Ha Hb]; try discriminate; inversion Ha; auto;
        destruct Hno; congruence.
    - intros X p outs h fps h' s _ IH Hs Hr r2 h2 H.
      inversion_clear H as [? ? ? ? ? ? ? Ha|? ? ? ? ? ? ? Ha Hno|? ? ? ? ? ? s' Ha Hs' Hr'|? ? ? ? ? ? s' ? ? Ha Hs' Hr'];
        simpl in Ha; apply IH in Ha as [Ha Hb]; try discriminate; inversion Ha as [Hf]; rewrite ?Hf, ?Hb in *; auto;
        try (destruct Hno; congruence);
        assert (s' = s) by congruence; subst s'; rewrite Hr in Hr';
        try discriminate; auto.
    - intros X p outs h fps h' s fp q _ IH Hs Hr r2 h2 H.
      inversion_clear H as [? ? ? ? ? ? ? Ha|? ? ? ? ? ? ? Ha Hno|? ? ? ? ? ? s' Ha Hs' Hr'|? ? ? ? ? ? s' ? ? Ha Hs' Hr'];
        simpl in Ha; apply IH in Ha as [Ha Hb]; try discriminate; inversion Ha as [Hf]; rewrite ?Hf, ?Hb in *; auto;
        try (destruct Hno; congruence);
        assert (s' = s) by congruence; subst s'; rewrite Hr in Hr';
        try discriminate; inversion Hr'; auto.
    - intros single X p fps h r2 h2 H. inversion H; subst; auto.
    - intros single X p out outs fps h parts q h' _ IH r2 h2 H.
      inversion H as [|? ? ? ? ? ? ? ? ? ? Hp|? ? ? ? ? ? ? ? ? ? ? ? Hp Ha]; subst;
        apply IH in Hp as [Hp ->]; try discriminate. inversion Hp; subst; auto.
    - intros single X p out outs fps h f b h' r h'' _ IH1 _ IH2 r2 h2 H.
      inversion H as [|? ? ? ? ? ? ? ? ? ? Hp|? ? ? ? ? ? ? ? ? ? ? ? Hp Ha]; subst;
        apply IH1 in Hp as [Hp ->]; try discriminate. inversion Hp; subst. auto.
    - intros single p h r2 h2 H. inversion H; subst; auto.
    - intros single Xs p h r h' _ IH r2 h2 H.
      inversion H; subst; try contradiction; try congruence.
      match goal with Hp : parse _ Xs _ _ _ _ |- _ => apply IH in Hp as [-> ->] end. auto.
    - intros single Xs p tok h r h' Hnt He Htok _ IH r2 h2 H.
      inversion H as [|? ? ? ? ? ? Hp|? ? ? tok2 ? ? ? Hnt2 He2 Htok2 Hp HX|? ? ? ? ? Hnt2 He2 Hno|? ? ? ? ? ? ? ? Hnt2]; subst;
        try congruence; try contradiction.
      + assert (tok2 = tok) by congruence. subst tok2. apply IH in Hp as [-> ->]. auto.
      + exfalso. eapply Hno; eauto.
    - intros single X Xs p h Hnt He Hno r2 h2 H.
      inversion H as [|? ? ? ? ? ? Hp|? ? ? tok2 ? ? ? Hnt2 He2 Htok2 Hp HX|? ? ? ? ? Hnt2 He2 Hno2|? ? ? ? ? ? ? ? Hnt2]; subst;
        try congruence; try contradiction; auto.
      exfalso. eapply Hno; eauto.
    - intros single X Xs p tok h r h' Hnt Htok _ IH r2 h2 H.
      inversion H as [|? ? ? ? ? ? Hp|? ? ? tok2 ? ? ? Hnt2 He2 Htok2 Hp HX|? ? ? ? ? Hnt2 He2 Hno2|? ? ? ? tok2 ? ? ? Hnt2 Htok2 Hb]; subst;
        try congruence; try contradiction.
      rewrite Htok in Htok2. inversion Htok2; subst. auto.
    - intros single X p outs Xs h f h' _ IH r2 h2 H.
      inversion H as [? ? ? ? ? ? ? ? Hd|? ? ? ? ? ? ? ? ? ? ? Hd Hp|? ? ? ? ? ? ? ? ? ? ? ? ? Hd Hp|? ? ? ? ? ? ? ? ? ? ? ? ? ? ? Hd Hp Hr]; subst;
        apply IH in Hd as [Hd ->]; inversion Hd; subst; auto.
    - intros single X p outs Xs h fs q h' r h'' _ IH1 _ IH2 r2 h2 H.
      inversion H as [? ? ? ? ? ? ? ? Hd|? ? ? ? ? ? ? ? ? ? ? Hd Hp|? ? ? ? ? ? ? ? ? ? ? ? ? Hd Hp|? ? ? ? ? ? ? ? ? ? ? ? ? ? ? Hd Hp Hr]; subst;
        apply IH1 in Hd as [Hd ->]; inversion Hd; subst. apply IH2 in Hp as [-> ->]. auto.
    - intros single X p outs Xs h n q lft h' parts q' h'' _ IH1 _ IH2 r2 h2 H.
      inversion H as [? ? ? ? ? ? ? ? Hd|? ? ? ? ? ? ? ? ? ? ? Hd Hp|? ? ? ? ? ? ? ? ? ? ? ? ? Hd Hp|? ? ? ? ? ? ? ? ? ? ? ? ? ? ? Hd Hp Hr]; subst;
        apply IH1 in Hd as [Hd ->]; inversion Hd; subst; apply IH2 in Hp as [Hp ->]; inversion Hp; subst. auto.
    - intros single X p outs Xs h n q lft h' f b h'' r h3 _ IH1 _ IH2 _ IH3 r2 h2 H.
      inversion H as [? ? ? ? ? ? ? ? Hd|? ? ? ? ? ? ? ? ? ? ? Hd Hp|? ? ? ? ? ? ? ? ? ? ? ? ? Hd Hp|? ? ? ? ? ? ? ? ? ? ? ? ? ? ? Hd Hp Hr]; subst;
        apply IH1 in Hd as [Hd ->]; inversion Hd; subst; apply IH2 in Hp as [Hp ->]; inversion Hp; subst. auto.
    - intros single X p outs Xs f b h d h' _ IH Hnd r2 h2 H.
      inversion H as [? ? ? ? ? ? ? ? ? ? Hd|? ? ? ? ? ? ? ? ? ? ? ? ? ? ? Hd Hp|? ? ? ? ? ? ? ? ? ? ? ? ? ? ? ? ? Hd Hp Hr]; subst;
        apply IH in Hd as [Hd ->]; subst; auto; exfalso; eapply Hnd; eauto.
    - intros single X p outs Xs f b h n q lft h' parts q' h'' _ IH1 _ IH2 r2 h2 H.
      inversion H as [? ? ? ? ? ? ? ? ? ? Hd Hnd|? ? ? ? ? ? ? ? ? ? ? ? ? ? ? Hd Hp|? ? ? ? ? ? ? ? ? ? ? ? ? ? ? ? ? Hd Hp Hr]; subst;
        apply IH1 in Hd as [Hd ->]; subst; [exfalso; eapply Hnd; eauto| |]; inversion Hd; subst;
        apply IH2 in Hp as [Hp ->]; inversion Hp; subst. auto.
    - intros single X p outs Xs f b h n q lft h' f' b' h'' r h3 _ IH1 _ IH2 _ IH3 r2 h2 H.
      inversion H as [? ? ? ? ? ? ? ? ? ? Hd Hnd|? ? ? ? ? ? ? ? ? ? ? ? ? ? ? Hd Hp|? ? ? ? ? ? ? ? ? ? ? ? ? ? ? ? ? Hd Hp Hr]; subst;
        apply IH1 in Hd as [Hd ->]; subst; [exfalso; eapply Hnd; eauto| |]; inversion Hd; subst;
        apply IH2 in Hp as [Hp ->]; inversion Hp; subst. auto.
  Qed.

  (** ** what returns does not stop *)
  Definition big (N : nat) (w : why) : Prop := match w with TooDeep n => N <= n | _ => True end.

  Lemma big_mono N M w : big N w -> M <= N -> big M w.
  Proof. destruct w; simpl; auto. lia. Qed.
  Lemma big_below N w : big (S N) w -> big N (below w).
  Proof. destruct w as [| | |[|n]]; simpl; auto; lia. Qed.

  Ltac bigm := eapply big_mono; [eassumption|lia].

  Let FD := proj1 functional.
  Let FA := proj1 (proj2 functional).
  Let FP := proj1 (proj2 (proj2 functional)).

  Lemma returns_no_stop :
    (forall single X p outs h r h', derive single X p outs h r h' ->
       exists N, forall w, big N w -> ~ derive_stops w single X p outs h) /\
    (forall single X p outs fps h r h', attempt single X p outs fps h r h' ->
       exists N, forall w, big N w -> ~ attempt_stops w single X p outs h) /\
    (forall single Xs p h r h', parse single Xs p h r h' ->
       exists N, forall w, big N w -> ~ parse_stops w single Xs p h) /\
    (forall single X p outs Xs h r h', branch single X p outs Xs h r h' ->
       exists N, forall w, big N w -> ~ branch_stops w single X p outs Xs h) /\
    (forall single X p outs Xs f b h r h', retry single X p outs Xs f b h r h' ->
       exists N, forall w, big N w -> ~ retry_stops w single X p outs Xs h).
  Proof.
    apply recover_mutind.
    - intros single X p outs h r h' Ha [N IH]. exists (S N). intros w Hb H.
      inversion H; subst.
      + simpl in Hb. lia.
      + eapply IH; [apply big_below; eassumption|eassumption].
      + simpl in Ha. match goal with H1 : attempt _ _ _ _ _ _ (inr _) _ |- _ =>
          destruct (FA Ha H1); discriminate end.
      + simpl in Ha. match goal with H1 : attempt _ _ _ _ _ _ (inr _) _ |- _ =>
          destruct (FA Ha H1); discriminate end.
    - intros single X p outs h fps h' Ha [N IH] Hno. exists (S N). intros w Hb H.
      inversion H; subst.
      + simpl in Hb. lia.
      + eapply IH; [apply big_below; eassumption|eassumption].
      + destruct Hno; congruence.
      + destruct Hno; congruence.
    - intros X p outs h fps h' s Ha [N IH] Hs Hr. exists (S N). intros w Hb H.
      inversion H as [|? ? ? ? ? ? H1|? ? ? ? ? ? s' H1 Hs' Hr'|? ? ? ? ? ? s' H1 Hs' Hr']; subst w.
      + simpl in Hb. lia.
      + eapply IH; [apply big_below; eassumption|eassumption].
      + destruct (FA Ha H1) as [Hf Hh]. inversion Hf; subst. congruence.
      + destruct (FA Ha H1) as [Hf Hh]. inversion Hf; subst. congruence.
    - intros X p outs h fps h' s fp q Ha [N IH] Hs Hr. exists (S N). intros w Hb H.
      inversion H as [|? ? ? ? ? ? H1|? ? ? ? ? ? s' H1 Hs' Hr'|? ? ? ? ? ? s' H1 Hs' Hr']; subst w.
      + simpl in Hb. lia.
      + eapply IH; [apply big_below; eassumption|eassumption].
      + destruct (FA Ha H1) as [Hf Hh]. inversion Hf; subst. congruence.
      + destruct (FA Ha H1) as [Hf Hh]. inversion Hf; subst. congruence.
    - intros single X p fps h. exists 0. intros w _ H. inversion H.
    - intros single X p out outs fps h parts q h' Hp [N IH]. exists N. intros w Hb H.
      inversion_clear H as [? ? ? ? ? ? ? H1|? ? ? ? ? ? ? ? ? ? H1 H2].
      + eapply IH; eauto.
      + destruct (FP Hp H1). discriminate.
    - intros single X p out outs fps h f b h' r h'' Hp [N1 IH1] Ha [N2 IH2]. exists (N1 + N2). intros w Hb H.
      inversion_clear H as [? ? ? ? ? ? ? H1|? ? ? ? ? ? ? ? ? ? H1 H2].
      + eapply IH1; [bigm|eauto].
      + destruct (FP Hp H1) as [_ ->]. eapply IH2; [bigm|eauto].
    - intros single p h. exists 0. intros w _ H. inversion H.
    - intros single Xs p h r h' Hp [N IH]. exists N. intros w Hb H.
      inversion H; subst; try contradiction; try congruence. eapply IH; eauto.
    - intros single Xs p tok h r h' Hnt He Htok Hp [N IH]. exists N. intros w Hb H.
      inversion H; subst; try contradiction; try congruence. eapply IH; eauto.
    - intros single X Xs p h Hnt He Hno. exists 0. intros w Hb H.
      inversion H; subst; try contradiction; try congruence. eapply Hno; eauto.
    - intros single X Xs p tok h r h' Hnt Htok Hb [N IH]. exists N. intros w Hbig H.
      inversion H as [? ? ? ? ? Hnt2 Htok2|? ? ? ? ? Hp|? ? ? ? tok2 ? Hnt2 He2 Htok2 Hp|? ? ? ? ? tok2 ? Hnt2 Htok2 Hb2]; subst;
        try contradiction; try congruence.
      assert (tok2 = tok) by congruence. subst. eapply IH; eauto.
    - intros single X p outs Xs h f h' Hd [N IH]. exists N. intros w Hb H.
      inversion_clear H as [? ? ? ? ? ? ? H1|? ? ? ? ? ? ? ? ? ? H1 H2|? ? ? ? ? ? ? ? ? ? ? H1 H2|? ? ? ? ? ? ? ? ? ? ? ? ? ? H1 H2 H3];
        [eapply IH; eauto|..]; destruct (FD Hd H1); discriminate.
    - intros single X p outs Xs h fs q h' r h'' Hd [N1 IH1] Hp [N2 IH2]. exists (N1 + N2). intros w Hb H.
      inversion_clear H as [? ? ? ? ? ? ? H1|? ? ? ? ? ? ? ? ? ? H1 H2|? ? ? ? ? ? ? ? ? ? ? H1 H2|? ? ? ? ? ? ? ? ? ? ? ? ? ? H1 H2 H3];
        [eapply IH1; [bigm|eauto]|..]; destruct (FD Hd H1) as [Hx ->]; inversion Hx; subst.
      eapply IH2; [bigm|eauto].
    - intros single X p outs Xs h n q lft h' parts q' h'' Hd [N1 IH1] Hp [N2 IH2]. exists (N1 + N2). intros w Hb H.
      inversion_clear H as [? ? ? ? ? ? ? H1|? ? ? ? ? ? ? ? ? ? H1 H2|? ? ? ? ? ? ? ? ? ? ? H1 H2|? ? ? ? ? ? ? ? ? ? ? ? ? ? H1 H2 H3];
        [eapply IH1; [bigm|eauto]|..]; destruct (FD Hd H1) as [Hx ->]; inversion Hx; subst.
      + eapply IH2; [bigm|eauto].
      + destruct (FP Hp H2). discriminate.
    - intros single X p outs Xs h n q lft h' f b h'' r h3 Hd [N1 IH1] Hp [N2 IH2] Hr [N3 IH3].
      exists (N1 + N2 + N3). intros w Hb H.
      inversion_clear H as [? ? ? ? ? ? ? H1|? ? ? ? ? ? ? ? ? ? H1 H2|? ? ? ? ? ? ? ? ? ? ? H1 H2|? ? ? ? ? ? ? ? ? ? ? ? ? ? H1 H2 H3];
        [eapply IH1; [bigm|eauto]|..]; destruct (FD Hd H1) as [Hx ->]; inversion Hx; subst.
      + eapply IH2; [bigm|eauto].
      + destruct (FP Hp H2) as [_ ->]. eapply IH3; [bigm|eauto].
    - intros single X p outs Xs f b h d h' Hd [N IH] Hnd. exists N. intros w Hb H.
      inversion_clear H as [? ? ? ? ? ? ? H1|? ? ? ? ? ? ? ? ? ? ? H1 H2|? ? ? ? ? ? ? ? ? ? ? ? ? ? H1 H2 H3];
        [eapply IH; eauto|..]; destruct (FD Hd H1) as [Hx ->]; exfalso; eapply Hnd; eauto.
    - intros single X p outs Xs f b h n q lft h' parts q' h'' Hd [N1 IH1] Hp [N2 IH2]. exists (N1 + N2). intros w Hb H.
      inversion_clear H as [? ? ? ? ? ? ? H1|? ? ? ? ? ? ? ? ? ? ? H1 H2|? ? ? ? ? ? ? ? ? ? ? ? ? ? H1 H2 H3];
        [eapply IH1; [bigm|eauto]|..]; destruct (FD Hd H1) as [Hx ->]; inversion Hx; subst.
      + eapply IH2; [bigm|eauto].
      + destruct (FP Hp H2). discriminate.
    - intros single X p outs Xs f b h n q lft h' f' b' h'' r h3 Hd [N1 IH1] Hp [N2 IH2] Hr [N3 IH3].
      exists (N1 + N2 + N3). intros w Hb H.
      inversion_clear H as [? ? ? ? ? ? ? H1|? ? ? ? ? ? ? ? ? ? ? H1 H2|? ? ? ? ? ? ? ? ? ? ? ? ? ? H1 H2 H3];
        [eapply IH1; [bigm|eauto]|..]; destruct (FD Hd H1) as [Hx ->]; inversion Hx; subst.
      + eapply IH2; [bigm|eauto].
      + destruct (FP Hp H2) as [_ ->]. eapply IH3; [bigm|eauto].
  Qed.

  (** ** what stops for a reason other than depth stops for no other reason *)
  Definition shallow (w : why) : Prop := forall n, w <> TooDeep n.
  Lemma below_ne w w0 : shallow w0 -> w <> w0 -> below w <> w0.
  Proof. intros H1 H2. destruct w as [| | |[|n]]; simpl; auto. Qed.
  Lemma below_shallow w : shallow w -> below w = w.
  Proof. destruct w as [| | |[|n]]; simpl; auto. intros H. exfalso. eapply H; eauto. Qed.

  Let ND := proj1 returns_no_stop.
  Let NA := proj1 (proj2 returns_no_stop).
  Let NP := proj1 (proj2 (proj2 returns_no_stop)).

  Lemma stops_once :
    (forall w0 single X p outs h, derive_stops w0 single X p outs h -> shallow w0 ->
       exists N, forall w, big N w -> w <> w0 -> ~ derive_stops w single X p outs h) /\
    (forall w0 single X p outs h, attempt_stops w0 single X p outs h -> shallow w0 ->
       exists N, forall w, big N w -> w <> w0 -> ~ attempt_stops w single X p outs h) /\
    (forall w0 single Xs p h, parse_stops w0 single Xs p h -> shallow w0 ->
       exists N, forall w, big N w -> w <> w0 -> ~ parse_stops w single Xs p h) /\
    (forall w0 single X p outs Xs h, branch_stops w0 single X p outs Xs h -> shallow w0 ->
       exists N, forall w, big N w -> w <> w0 -> ~ branch_stops w single X p outs Xs h) /\
    (forall w0 single X p outs Xs h, retry_stops w0 single X p outs Xs h -> shallow w0 ->
       exists N, forall w, big N w -> w <> w0 -> ~ retry_stops w single X p outs Xs h).
  Proof.
    assert (HnA : forall w single X p outs h fps h', shallow w -> attempt single X p outs [] h (inr fps) h' ->
              ~ attempt_stops w single X p outs h).
    { intros w single X p outs h fps h' Hs Ha. destruct (NA Ha) as [N HN]. apply HN.
      destruct w; simpl; auto. exfalso. eapply Hs; eauto. }
    apply stops_mutind.
    - intros single X p outs h Hs. exfalso. eapply Hs; eauto.
    - intros w0 single X p outs h Ha IH Hs. rewrite (below_shallow Hs) in *. destruct (IH Hs) as [N IHN].
      exists (S N). intros w Hb Hne H.
      inversion H as [|? ? ? ? ? ? H1|? ? ? ? ? ? s' H1 Hs' Hr'|? ? ? ? ? ? s' H1 Hs' Hr']; subst w.
      + simpl in Hb. lia.
      + eapply IHN; [apply big_below; eassumption|now apply below_ne|eassumption].
      + subst single. eapply HnA; [exact Hs|exact H1|exact Ha].
      + subst single. eapply HnA; [exact Hs|exact H1|exact Ha].
    - intros X p outs h fps h' s Ha Hs Hr Hsh. destruct (NA Ha) as [N HN]. exists (S N). intros w Hb Hne H.
      inversion H as [|? ? ? ? ? ? H1|? ? ? ? ? ? s' H1 Hs' Hr'|? ? ? ? ? ? s' H1 Hs' Hr']; subst w.
      + simpl in Hb. lia.
      + eapply HN; [apply big_below; eassumption|eassumption].
      + now apply Hne.
      + destruct (FA Ha H1) as [Hf Hh]. inversion Hf; subst. congruence.
    - intros X p outs h fps h' s Ha Hs Hr Hsh. destruct (NA Ha) as [N HN]. exists (S N). intros w Hb Hne H.
      inversion H as [|? ? ? ? ? ? H1|? ? ? ? ? ? s' H1 Hs' Hr'|? ? ? ? ? ? s' H1 Hs' Hr']; subst w.
      + simpl in Hb. lia.
      + eapply HN; [apply big_below; eassumption|eassumption].
      + destruct (FA Ha H1) as [Hf Hh]. inversion Hf; subst. congruence.
      + now apply Hne.
    - intros w0 single X p out outs h Hp IH Hs. destruct (IH Hs) as [N IHN]. exists N. intros w Hb Hne H.
      inversion_clear H as [? ? ? ? ? ? ? H1|? ? ? ? ? ? ? ? ? ? H1 H2].
      + eapply IHN; eauto.
      + destruct (NP H1) as [M HM]. eapply HM; [|exact Hp]. destruct w0; simpl; auto.
        exfalso; eapply Hs; eauto.
    - intros w0 single X p out outs h f b h' Hp Ha IH Hs. destruct (IH Hs) as [N IHN].
      destruct (NP Hp) as [M HM]. exists (N + M). intros w Hb Hne H.
      inversion_clear H as [? ? ? ? ? ? ? H1|? ? ? ? ? ? ? ? ? ? H1 H2].
      + eapply HM; [|exact H1]. bigm.
      + destruct (FP Hp H1) as [_ ->]. eapply IHN; [bigm|exact Hne|exact H2].
    - intros single X Xs p h Hnt Htok Hs. exists 0. intros w Hb Hne H.
      inversion H; subst; try contradiction; try congruence.
    - intros w0 single Xs p h Hp IH Hs. destruct (IH Hs) as [N IHN]. exists N. intros w Hb Hne H.
      inversion H; subst; try contradiction; try congruence. eapply IHN; eauto.
    - intros w0 single Xs p tok h Hnt He Htok Hp IH Hs. destruct (IH Hs) as [N IHN]. exists N. intros w Hb Hne H.
      inversion H; subst; try contradiction; try congruence. eapply IHN; eauto.
    - intros w0 single X Xs p tok h Hnt Htok Hbr IH Hs. destruct (IH Hs) as [N IHN]. exists N. intros w Hb Hne H.
      inversion H as [? ? ? ? ? Hnt2 Htok2|? ? ? ? ? Hp|? ? ? ? tok2 ? Hnt2 He2 Htok2 Hp|? ? ? ? ? tok2 ? Hnt2 Htok2 Hb2]; subst;
        try contradiction; try congruence.
      assert (tok2 = tok) by congruence. subst. eapply IHN; eauto.
    - intros w0 single X p outs Xs h Hd IH Hs. destruct (IH Hs) as [N IHN]. exists N. intros w Hb Hne H.
      inversion_clear H as [? ? ? ? ? ? ? H1|? ? ? ? ? ? ? ? ? ? H1 H2|? ? ? ? ? ? ? ? ? ? ? H1 H2|? ? ? ? ? ? ? ? ? ? ? ? ? ? H1 H2 H3];
        [eapply IHN; eauto|..]; destruct (ND H1) as [M HM]; (eapply HM; [|exact Hd]);
        destruct w0; simpl; auto; exfalso; eapply Hs; eauto.
    - intros w0 single X p outs Xs h fs q h' Hd Hp IH Hs. destruct (IH Hs) as [N IHN].
      destruct (ND Hd) as [M HM]. exists (N + M). intros w Hb Hne H.
      inversion_clear H as [? ? ? ? ? ? ? H1|? ? ? ? ? ? ? ? ? ? H1 H2|? ? ? ? ? ? ? ? ? ? ? H1 H2|? ? ? ? ? ? ? ? ? ? ? ? ? ? H1 H2 H3];
        [eapply HM; [bigm|eauto]|..]; destruct (FD Hd H1) as [Hx ->]; inversion Hx; subst.
      eapply IHN; [bigm|exact Hne|exact H2].
    - intros w0 single X p outs Xs h n q lft h' Hd Hp IH Hs. destruct (IH Hs) as [N IHN].
      destruct (ND Hd) as [M HM]. exists (N + M). intros w Hb Hne H.
      inversion_clear H as [? ? ? ? ? ? ? H1|? ? ? ? ? ? ? ? ? ? H1 H2|? ? ? ? ? ? ? ? ? ? ? H1 H2|? ? ? ? ? ? ? ? ? ? ? ? ? ? H1 H2 H3];
        [eapply HM; [bigm|eauto]|..]; destruct (FD Hd H1) as [Hx ->]; inversion Hx; subst.
      + eapply IHN; [bigm|exact Hne|exact H2].
      + destruct (NP H2) as [M2 HM2]. eapply HM2; [|exact Hp]. destruct w0; simpl; auto.
        exfalso; eapply Hs; eauto.
    - intros w0 single X p outs Xs h n q lft h' f b h'' Hd Hp Hr IH Hs. destruct (IH Hs) as [N IHN].
      destruct (ND Hd) as [M HM]. destruct (NP Hp) as [M2 HM2]. exists (N + M + M2). intros w Hb Hne H.
      inversion_clear H as [? ? ? ? ? ? ? H1|? ? ? ? ? ? ? ? ? ? H1 H2|? ? ? ? ? ? ? ? ? ? ? H1 H2|? ? ? ? ? ? ? ? ? ? ? ? ? ? H1 H2 H3];
        [eapply HM; [bigm|eauto]|..]; destruct (FD Hd H1) as [Hx ->]; inversion Hx; subst.
      + eapply HM2; [bigm|exact H2].
      + destruct (FP Hp H2) as [_ ->]. eapply IHN; [bigm|exact Hne|exact H3].
    - intros w0 single X p outs Xs h Hd IH Hs. destruct (IH Hs) as [N IHN]. exists N. intros w Hb Hne H.
      inversion_clear H as [? ? ? ? ? ? ? H1|? ? ? ? ? ? ? ? ? ? ? H1 H2|? ? ? ? ? ? ? ? ? ? ? ? ? ? H1 H2 H3];
        [eapply IHN; eauto|..]; destruct (ND H1) as [M HM]; (eapply HM; [|exact Hd]);
        destruct w0; simpl; auto; exfalso; eapply Hs; eauto.
    - intros w0 single X p outs Xs h n q lft h' Hd Hp IH Hs. destruct (IH Hs) as [N IHN].
      destruct (ND Hd) as [M HM]. exists (N + M). intros w Hb Hne H.
      inversion_clear H as [? ? ? ? ? ? ? H1|? ? ? ? ? ? ? ? ? ? ? H1 H2|? ? ? ? ? ? ? ? ? ? ? ? ? ? H1 H2 H3];
        [eapply HM; [bigm|eauto]|..]; destruct (FD Hd H1) as [Hx ->]; inversion Hx; subst.
      + eapply IHN; [bigm|exact Hne|exact H2].
      + destruct (NP H2) as [M2 HM2]. eapply HM2; [|exact Hp]. destruct w0; simpl; auto.
        exfalso; eapply Hs; eauto.
    - intros w0 single X p outs Xs h n q lft h' f b h'' Hd Hp Hr IH Hs. destruct (IH Hs) as [N IHN].
      destruct (ND Hd) as [M HM]. destruct (NP Hp) as [M2 HM2]. exists (N + M + M2). intros w Hb Hne H.
      inversion_clear H as [? ? ? ? ? ? ? H1|? ? ? ? ? ? ? ? ? ? ? H1 H2|? ? ? ? ? ? ? ? ? ? ? ? ? ? H1 H2 H3];
        [eapply HM; [bigm|eauto]|..]; destruct (FD Hd H1) as [Hx ->]; inversion Hx; subst.
      + eapply HM2; [bigm|exact H2].
      + destruct (FP Hp H2) as [_ ->]. eapply IHN; [bigm|exact Hne|exact H3].
  Qed.

  (** ** totality: it returns, or stops for a reason other than depth, or nests too deep *)
  Definition reason (n : nat) (w : why) : Prop := shallow w \/ w = TooDeep n.

  Definition total (n : nat) : Prop := forall single X p outs h,
    (exists r h', derive single X p outs h r h') \/
    (exists w, reason n w /\ derive_stops w single X p outs h).

  Lemma derive_left single X p outs h r h' : derive single X p outs h r h' ->
    forall n q lft, r = DTree n q lft -> length lft < length outs.
  Proof.
    assert (Hat : forall single outs fps h r h', attempt single X p outs fps h r h' ->
      forall n q lft, r = inl (DTree n q lft) -> length lft < length outs).
    { intros single0 outs0. induction outs0 as [|out outs0 IH]; intros fps h0 r0 h0' H n q lft Hr; subst r0;
        inversion H as [|? ? ? ? ? ? ? parts ? ? H1|? ? ? ? ? ? ? ? ? ? ? ? H1 H2].
      - match goal with Hb : built _ _ _ _ = _ |- _ => unfold built in Hb; destruct (trees parts); inversion Hb; subst lft end.
        simpl. lia.
      - eapply IH in H2; eauto. simpl. lia. }
    intros H n q lft ->. inversion H. eapply Hat; eauto.
  Qed.

  Lemma total_next n : total n -> total (S n).
  Proof.
    intros IHn.
    assert (Hparse : forall single Xs p h,
      (exists r h', parse single Xs p h r h') \/ (exists w, reason n w /\ parse_stops w single Xs p h)).
    { intros single Xs. induction Xs as [|X Xs IH]; intros p h.
      - left. do 2 eexists. constructor.
      - destruct (eqb eps X) eqn:He.
        { apply eqb_iff in He. subst X.
          destruct (IH p h) as [(r & h' & H)|(w & Hw & H)].
          - left. do 2 eexists. apply parse_epsilon; eauto.
          - right. exists w. split; auto. now apply parse_stops_epsilon. }
        apply eqb_ne_iff in He.
        destruct (nt_dec E ps X) as [Hnt|Hnt].
        + destruct (nth_error tokens p) as [tok|] eqn:Htok.
          2:{ right. exists PastTheEnd. split; [left; discriminate|]. now apply parse_stops_past. }
          assert (Hretry : forall k outs f b h, length outs < k ->
            (exists r h', retry single X p outs Xs f b h r h') \/
            (exists w, reason n w /\ retry_stops w single X p outs Xs h)).
          { induction k as [|k IHk]; intros outs f b h0 Hk; [lia|].
            destruct (IHn single X p outs h0) as [(d & h1 & Hd)|(w & Hw & Hd)].
            2:{ right. exists w. split; auto. now apply retry_stops_here. }
            destruct d as [nd q lft|fs q|fl].
            - pose proof (derive_left Hd eq_refl) as Hl.
              destruct (IH q h1) as [([parts q'|f' b'] & h2 & Hp)|(w & Hw & Hp)].
              + left. do 2 eexists. eapply retry_tree; eauto.
              + destruct (IHk lft f' b' h2) as [(r & h3 & Hr)|(w & Hw & Hr)]; [lia| |].
                * left. do 2 eexists. eapply retry_again; eauto.
                * right. exists w. split; auto. eapply retry_stops_again; eauto.
              + right. exists w. split; auto. eapply retry_stops_tree; eauto.
            - left. do 2 eexists. eapply retry_failed; eauto. discriminate.
            - left. do 2 eexists. eapply retry_failed; eauto. discriminate. }
          assert (Hbranch :
            (exists r h', branch single X p (cands X (tok_type tok)) Xs h r h') \/
            (exists w, reason n w /\ branch_stops w single X p (cands X (tok_type tok)) Xs h)).
          { set (outs := cands X (tok_type tok)).
            destruct (IHn single X p outs h) as [(d & h1 & Hd)|(w & Hw & Hd)].
            2:{ right. exists w. split; auto. now apply branch_stops_here. }
            destruct d as [nd q lft|fs q|fl].
            - destruct (IH q h1) as [([parts q'|f' b'] & h2 & Hp)|(w & Hw & Hp)].
              + left. do 2 eexists. eapply branch_tree; eauto.
              + destruct (Hretry (S (length lft)) lft f' b' h2) as [(r & h3 & Hr)|(w & Hw & Hr)]; [lia| |].
                * left. do 2 eexists. eapply branch_retry; eauto.
                * right. exists w. split; auto. eapply branch_stops_retry; eauto.
              + right. exists w. split; auto. eapply branch_stops_tree; eauto.
            - destruct (IH q h1) as [(r & h2 & Hp)|(w & Hw & Hp)].
              + left. do 2 eexists. eapply branch_fixed; eauto.
              + right. exists w. split; auto. eapply branch_stops_fixed; eauto.
            - left. do 2 eexists. eapply branch_failed; eauto. }
          destruct Hbranch as [(r & h' & H)|(w & Hw & H)].
          * left. do 2 eexists. eapply parse_non_terminal; eauto.
          * right. exists w. split; auto. eapply parse_stops_non_terminal; eauto.
        + destruct (nth_error tokens p) as [tok|] eqn:Htok.
          2:{ left. do 2 eexists. apply parse_mismatch; auto. congruence. }
          destruct (eqb (tok_type tok) X) eqn:Ht.
          * apply eqb_iff in Ht. subst X.
            destruct (IH (p + 1) h) as [(r & h' & H)|(w & Hw & H)].
            -- left. do 2 eexists. apply parse_token; eauto.
            -- right. exists w. split; auto. apply parse_stops_token; auto.
          * apply eqb_ne_iff in Ht. left. do 2 eexists. apply parse_mismatch; auto. congruence. }
    assert (Hattempt : forall single X p outs fps h,
      (exists r h', attempt single X p outs fps h r h') \/
      (exists w, reason n w /\ attempt_stops w single X p outs h)).
    { intros single X p outs. induction outs as [|out outs IH]; intros fps h.
      - left. do 2 eexists. constructor.
      - destruct (Hparse single out p h) as [([parts q|f b] & h' & H)|(w & Hw & H)].
        + left. do 2 eexists. eapply attempt_first; eauto.
        + destruct (IH (fps ++ [production_report out f b]) h') as [(r & h2 & Hr)|(w & Hw & Hr)].
          * left. do 2 eexists. eapply attempt_next; eauto.
          * right. exists w. split; auto. eapply attempt_stops_next; eauto.
        + right. exists w. split; auto. now apply attempt_stops_first. }
    intros single X p outs h.
    destruct (Hattempt (single && Nat.eqb (length outs) 1)%bool X p outs [] h) as [([d|fps] & h' & H)|(w & Hw & H)].
    - left. do 2 eexists. apply derive_done; eauto.
    - destruct single.
      2:{ left. do 2 eexists. eapply derive_failed; eauto. }
      assert (Hsv : (exists s, solver = Some s) \/ solver = None)
        by (clear; destruct solver; [left; eexists; reflexivity|now right]).
      destruct Hsv as [[s Hs]|Hs].
      2:{ left. do 2 eexists. eapply derive_failed; eauto. }
      simpl in H. destruct (s h' (fix_call tokens p fps)) as [[[q fp]|]| |] eqn:Hr.
      + left. do 2 eexists. eapply derive_fixed; eauto.
      + left. do 2 eexists. eapply derive_refused; eauto.
      + right. exists SolverPanics. split; [left; discriminate|]. eapply derive_stops_panic; eauto.
      + right. exists SolverHangs. split; [left; discriminate|]. eapply derive_stops_hang; eauto.
    - right. destruct Hw as [Hw| ->].
      + exists w. split; [now left|]. apply derive_stops_inside. now rewrite (below_shallow Hw).
      + exists (TooDeep (S n)). split; [now right|]. now apply derive_stops_inside.
  Qed.

  Lemma total_all n : total n.
  Proof.
    induction n as [|n IH].
    - intros single X p outs h. right. exists (TooDeep 0). split; [now right|]. constructor.
    - now apply total_next.
  Qed.
End StopFacts.
