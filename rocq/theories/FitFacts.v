(** * Grammars whose earlier alternatives never fit (proofs) *)

From Coq Require Import Relations.
From Verif Require Import ExpectFacts BaseFacts GrammarFacts DerivFacts FirstFacts FollowFacts FollowRepeat TransitionsFacts.
From Verif Require Import ProductiveSpec LeftRecFacts.
From Verif Require Export FitSpec.

Set Implicit Arguments.

(** of two members of a list one comes first *)
Lemma one_first {A : Type} (l : list A) (p q : A) : In p l -> In q l -> p <> q ->
  (exists before after, l = before ++ p :: after /\ In q after) \/
  (exists before after, l = before ++ q :: after /\ In p after).
Proof.
  intros Hp Hq Hne. apply in_split in Hp as (b & a & ->).
  apply in_app_or in Hq as [Hq|[Hq|Hq]]; [|congruence|left; eauto].
  right. apply in_split in Hq as (b1 & b2 & ->). exists b1, (b2 ++ p :: a).
  rewrite <- app_assoc. split; auto. apply in_or_app. right. now left.
Qed.

Section Fit.
  Context {T : Type} {E : EqDec T}.
  Variables eps init : T.
  Variable ps : list (production T).

  Notation derives := (derives eps ps).
  Notation word := (word eps ps).
  Notation nullable := (nullable eps ps).
  Notation lc := (lc eps ps).
  Notation reachable := (reachable_from eps ps init).
  Notation lc_star := (clos_refl_trans_1n _ lc).

  (** left sentential forms have words as prefixes *)
  Lemma fill_left x A y : all_productive eps ps init -> derives [init] (x ++ A :: y) ->
    exists x', derives x x' /\ word x' /\ derives [init] (x' ++ A :: y).
  Proof.
    intros Hp Hd. destruct (@fill T E eps init ps (x ++ A :: y) [] Hp Hd) as (w & Hw & Hr).
    apply derives_app_inv in Hw as (x' & w' & -> & Hx & _). apply Forall_app in Hr as [Hr _].
    exists x'. split; auto. split; auto. eapply derives_trans; [exact Hd|]. exact (derives_app Hx (derives_refl _ _ _)).
  Qed.

  Lemma fill_right x A y : all_productive eps ps init -> derives [init] (x ++ A :: y) ->
    exists v, derives y v /\ word v.
  Proof.
    intros Hp Hd. apply (@fill T E eps init ps y (x ++ [A]) Hp). now rewrite <- app_assoc.
  Qed.

  (** ** LL(k) grammars with short alternatives later *)
  Lemma ll_k_fits k : all_productive eps ps init -> ll_k eps ps init k -> short_later eps ps init k ->
    never_fits_early eps ps init.
  Proof.
    intros Hprod Hll Hshort before after A out1 out2 x y w v Hps H2 Hne Hctx Hw Hww Hv Hwv [rest Hb].
    destruct (fill_left x A y Hprod Hctx) as (x' & _ & Hx & Hctx').
    destruct (Nat.lt_ge_cases (length w) k) as [Hk|Hk].
    - apply (@Hshort before after A out1 out2 x' y w v); auto. exists rest. auto.
    - destruct (fill_right x A y Hprod Hctx) as (z & Hz & Hwz).
      apply Hne. apply (@Hll A out1 out2 x' y (w ++ z) v); auto.
      + rewrite Hps. apply in_or_app. right. now left.
      + rewrite Hps. apply in_or_app. right. now right.
      + exact (derives_app Hw Hz).
      + now apply Forall_app.
      + subst v. rewrite !firstn_app. replace (k - length w) with 0 by lia. reflexivity.
  Qed.

  (** ** no left recursion *)
  Hypothesis Hok : productions_ok eps ps.
  Hypothesis Hprod : all_productive eps ps init.
  Hypothesis Hfit : never_fits_early eps ps init.

  Lemma lc_star_derives Y X : lc_star Y X -> exists v, derives [Y] (X :: v).
  Proof.
    induction 1 as [|x y z H _ (v & IH)]; [exists []; apply derives_refl|].
    destruct H as (_ & p & u & v' & Hp & Hi & Ho & Hu). exists (v ++ v').
    eapply derives_trans; [subst x; now apply derives_production|]. rewrite Ho.
    change (z :: v ++ v') with ([] ++ (z :: v) ++ v'). apply derives_app; [exact Hu|].
    change (y :: v') with ([y] ++ v'). apply derives_app; [exact IH|apply derives_refl].
  Qed.

  Lemma fit_cycle_infinite A0 : reachable A0 ->
    (forall X, fin ps X -> lc_star A0 X -> lc_plus eps ps X A0 -> False) /\
    (forall w, fins ps w -> forall X, In X w -> lc_star A0 X -> lc_plus eps ps X A0 -> False).
  Proof.
    intros HR0. apply fin_fins_ind.
    - intros X HX _ Hc. apply HX. inversion Hc as [? H|? ? H]; subst;
        destruct H as (_ & p & _ & _ & Hp & Hi & _); exists p; auto.
    - intros q Hq Hfin IH Hto Hc. set (X := p_input q) in *.
      assert (HRX : reachable X).
      { clear - HR0 Hto. induction Hto as [|x y z H _ IH]; auto. apply IH. eapply reachable_lc; eauto. }
      assert (Hcyc : exists Y, lc X Y /\ lc_star Y A0).
      { inversion Hc as [? H|Y ? H H']; subst.
        - exists A0. split; auto. constructor.
        - exists Y. split; auto. apply clos_rt_rt1n_iff. apply clos_trans_t1n_iff in H'.
          clear - H'. induction H'; [now apply rt_step|eapply rt_trans; eauto]. }
      destruct Hcyc as (Y & HXY & HYA).
      assert (HYX : lc_star Y X).
      { apply clos_rt_rt1n_iff. eapply rt_trans; apply clos_rt_rt1n_iff; eauto. }
      pose proof HXY as (HYn & p & u & v & Hp & Hi & Ho & Hu).
      assert (Hpq : p <> q).
      { intros ->. apply (IH Y).
        - rewrite Ho. apply in_elt.
        - apply clos_rt_rt1n_iff. eapply rt_trans; [apply clos_rt_rt1n_iff; exact Hto|].
          apply rt_step. exact HXY.
        - apply clos_trans_t1n_iff.
          assert (Ht : clos_trans _ lc X A0) by now apply clos_trans_t1n_iff.
          clear - HYX Ht. induction HYX as [|x y z H _ IH']; auto. eapply t_trans; [apply t_step; exact H|auto]. }
      (* what the two productions make *)
      destruct (proj2 (@fin_yield T E eps ps) _ Hfin) as (w & Hqw & Hw).
      destruct (lc_star_derives HYX) as (v1 & HYv).
      assert (Hpv : derives (p_output p) (X :: v1 ++ v)).
      { rewrite Ho. change (X :: v1 ++ v) with ([] ++ (X :: v1) ++ v). apply derives_app; [exact Hu|].
        change (Y :: v) with ([Y] ++ v). apply derives_app; [exact HYv|apply derives_refl]. }
      destruct HRX as (x & y & Hctx).
      assert (Hctx2 : derives [init] (x ++ X :: (v1 ++ v) ++ y)).
      { eapply derives_trans; [exact Hctx|].
        replace (x ++ X :: (v1 ++ v) ++ y) with (x ++ (X :: v1 ++ v) ++ y) by (simpl; now rewrite <- app_assoc).
        apply (@derives_ctx _ eps ps x y [X]). eapply derives_trans; [|exact Hpv].
        rewrite <- Hi. now apply derives_production. }
      destruct (fill_right x X ((v1 ++ v) ++ y) Hprod Hctx2) as (r & Hr & Hwr).
      apply derives_app_inv in Hr as (r1 & r2 & -> & Hr1 & Hr2). apply Forall_app in Hwr as [Hwr1 Hwr2].
      assert (HXw : derives [X] w) by (eapply derives_trans; [now apply derives_production|exact Hqw]).
      assert (Hpw : derives (p_output p) (w ++ r1)).
      { eapply derives_trans; [exact Hpv|]. change (X :: v1 ++ v) with ([X] ++ (v1 ++ v)). apply derives_app; auto. }
      assert (Hne : p_output p <> p_output q).
      { intros Heq. apply Hpq. destruct p as [pi po], q as [qi qo]. simpl in *. unfold X in Hi. simpl in Hi. congruence. }
      assert (Hpe : p = Production X (p_output p)) by (destruct p; simpl in *; congruence).
      assert (Hqe : q = Production X (p_output q)) by (destruct q; reflexivity).
      destruct (one_first ps Hp Hq Hpq) as [(b & a & Hps & Hin)|(b & a & Hps & Hin)].
      + rewrite Hpe in Hps. rewrite Hqe in Hin.
        apply (@Hfit b a X (p_output p) (p_output q) x ((v1 ++ v) ++ y) (w ++ r1) (w ++ r1 ++ r2)); auto.
        * now apply Forall_app.
        * apply derives_app; [exact Hqw|]. apply derives_app; auto.
        * apply Forall_app. split; auto. now apply Forall_app.
        * exists r2. now rewrite <- app_assoc.
      + rewrite Hqe in Hps. rewrite Hpe in Hin.
        apply (@Hfit b a X (p_output q) (p_output p) x y w ((w ++ r1) ++ r2)); auto.
        * apply derives_app; auto.
        * apply Forall_app. split; auto. now apply Forall_app.
        * exists (r1 ++ r2). now rewrite <- app_assoc.
    - intros X [].
    - intros x w _ IHx _ IHw X [<-|HX]; eauto.
  Qed.

  Lemma fit_no_left_recursion : no_left_recursion_from eps ps init.
  Proof.
    intros A HA HR Hl. apply left_recursive_cycle in Hl; auto.
    apply (proj1 (fit_cycle_infinite HR) A (reach_fin Hok Hprod HR)); auto. constructor.
  Qed.
End Fit.
