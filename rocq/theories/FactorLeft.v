(** * Grammars that are LL(1) once factored are not left recursive (proofs) *)

From Coq Require Import Relations.
From Verif Require Import BaseFacts GrammarFacts DerivFacts FirstFacts FollowFacts FollowRepeat TransitionsFacts.
From Verif Require Import ProductiveSpec LeftRecFacts FactorFacts.
From Verif Require Export FactorSpec.

Set Implicit Arguments.

Section Left.
  Context {T : Type} {E : EqDec T}.
  Variables eps init : T.
  Variable ps : list (production T).
  Hypothesis Hok : productions_ok eps ps.
  Hypothesis Hprod : all_productive eps ps init.
  Hypothesis Hend : initial_ends_in_terminal eps ps init.
  Hypothesis Hll : ll1_once_factored eps ps init.

  Notation derives := (derives eps ps).
  Notation nullable := (nullable eps ps).
  Notation can_start := (can_start eps ps).
  Notation lc := (lc eps ps).
  Notation reachable := (reachable_from eps ps init).
  Notation lc_star := (clos_refl_trans_1n _ lc).
  Notation F := (can_follow eps ps init).

  Lemma F_first p u A mid Z v a :
    In p ps -> reachable (p_input p) -> p_output p = u ++ A :: mid ++ Z :: v -> non_terminal ps A ->
    nullable mid -> can_start [Z] a -> ~ Forall (eq A) (mid ++ [Z]) -> F A a.
  Proof.
    intros Hp (u' & v' & Hd) Ho HA Hm (He & Hn & w & Hw) _.
    split; auto. split; auto. exists (u' ++ u), (w ++ v ++ v').
    eapply derives_trans; [exact Hd|].
    change (p_input p :: v') with ([p_input p] ++ v').
    replace ((u' ++ u) ++ A :: a :: w ++ v ++ v')
      with (u' ++ (u ++ [A] ++ [] ++ (a :: w) ++ v) ++ v') by (simpl; rewrite <- !app_assoc; simpl; now rewrite <- !app_assoc).
    apply derives_ctx. eapply derives_trans; [now apply derives_production|]. rewrite Ho.
    apply derives_app; [apply derives_refl|].
    apply (@derives_app _ eps ps [A] [A]); [apply derives_refl|].
    apply derives_app; [exact Hm|].
    apply (@derives_app _ eps ps [Z] (a :: w)); [exact Hw|apply derives_refl].
  Qed.

  Lemma F_end p u A v a :
    In p ps -> reachable (p_input p) -> p_output p = u ++ A :: v -> non_terminal ps A ->
    nullable v -> F (p_input p) a -> F A a.
  Proof.
    intros Hp _ Ho HA Hv (He & Hn & u' & v' & Hd).
    split; auto. split; auto. exists (u' ++ u), v'.
    eapply derives_trans; [exact Hd|].
    change (p_input p :: a :: v') with ([p_input p] ++ a :: v').
    replace ((u' ++ u) ++ A :: a :: v')
      with (u' ++ (u ++ [A] ++ []) ++ a :: v') by (simpl; now rewrite <- !app_assoc).
    apply derives_ctx. eapply derives_trans; [now apply derives_production|]. rewrite Ho.
    apply derives_app; [apply derives_refl|].
    apply (@derives_app _ eps ps [A] [A]); [apply derives_refl|exact Hv].
  Qed.

  (** no symbol of a cycle has a finite derivation *)
  Lemma factored_cycle_infinite A0 : reachable A0 ->
    (forall X, fin ps X -> lc_star A0 X -> lc_plus eps ps X A0 -> False) /\
    (forall w, fins ps w -> forall X, In X w -> lc_star A0 X -> lc_plus eps ps X A0 -> False).
  Proof.
    intros HR0. apply fin_fins_ind.
    - intros X HX _ Hc. apply HX. inversion Hc as [? H|? ? H]; subst;
        destruct H as (_ & p & _ & _ & Hp & Hi & _); exists p; auto.
    - intros q Hq Hfin IH Hto Hc. set (X := p_input q) in *.
      assert (HRX : reachable X).
      { clear - HR0 Hto. induction Hto as [|x y z H _ IH]; auto. apply IH. eapply reachable_lc; eauto. }
      assert (HXn : non_terminal ps X) by (exists q; auto).
      assert (Hcyc : exists Y, lc X Y /\ lc_star Y A0).
      { inversion Hc as [? H|Y ? H H']; subst.
        - exists A0. split; auto. constructor.
        - exists Y. split; auto. apply clos_rt_rt1n_iff. apply clos_trans_t1n_iff in H'.
          clear - H'. induction H'; [now apply rt_step|eapply rt_trans; eauto]. }
      destruct Hcyc as (Y & HXY & HYA).
      assert (HYX : lc_star Y X).
      { apply clos_rt_rt1n_iff. eapply rt_trans; apply clos_rt_rt1n_iff; eauto. }
      assert (HRY : reachable Y) by (eapply reachable_lc; eauto).
      pose proof HXY as (HYn & p & u & v & Hp & Hi & Ho & Hu).
      assert (HRp : reachable (p_input p)) by now rewrite Hi.
      assert (Hout : ~ In Y (p_output q)).
      { intros Hin. apply (IH Y Hin).
        - apply clos_rt_rt1n_iff. eapply rt_trans; [apply clos_rt_rt1n_iff; exact Hto|].
          apply rt_step. exact HXY.
        - apply clos_trans_t1n_iff.
          assert (Ht : clos_trans _ lc X A0) by now apply clos_trans_t1n_iff.
          clear - HYX Ht. induction HYX as [|x y z H _ IH']; auto. eapply t_trans; [apply t_step; exact H|auto]. }
      destruct (common_beginning (p_output p) (p_output q)) as (c & r1 & r2 & H1 & H2 & Hw).
      assert (Hc2 : exists u2, u = c ++ u2 /\ r1 = u2 ++ Y :: v).
      { rewrite H1 in Ho. apply app_cons_split in Ho as [(m & Hm & Hr)|(m & Hm & Hr)].
        - exfalso. apply Hout. rewrite H2, Hm. apply in_or_app. left. apply in_elt.
        - exists m. auto. }
      destruct Hc2 as (u2 & Hcu & Hr1). rewrite Hcu in Hu. apply nullable_app in Hu as [Hcn Hu2].
      assert (Hstart : forall a, can_start [Y] a -> can_start r1 a).
      { intros a Ha. rewrite Hr1. apply can_start_app. right. split; auto. apply can_start_cons. auto. }
      assert (Hdq : derives [X] (p_output q)) by now apply derives_production.
      rewrite H2 in Hfin, Hdq. apply fins_app in Hfin as [_ Hfin].
      assert (Hmain : exists a, predicted eps ps init X r1 a /\ predicted eps ps init X r2 a).
      { destruct (fins_cases eps Hfin) as [Hn|[a Ha]].
        - assert (HXnull : nullable [X]).
          { eapply derives_trans; [exact Hdq|]. apply (derives_app Hcn Hn). }
          destruct (@lc_star_nullable T E eps init ps Hok F (@F_first) (@F_end) Hprod Y X HRY HYn HXnull HYX) as [[HYnull Hf]|(a & Ha & Hf)].
          + destruct (@after_nullable T E eps init ps Hok F (@F_first) Hprod p Y Hp HRp HYn HYnull v u Ho) as [Hv|(a & Ha & Hfa)].
            * destruct (@LeftRecFacts.followed T E eps init ps Hok F (@F_first) (@F_end) Hprod Hend X HRX HXn) as [He|[a Ha]].
              -- exfalso. apply (init_not_nullable Hok Hend); rewrite <- He; auto.
              -- exists a. split; right; (split; [|exact Ha]); auto.
                 rewrite Hr1. apply nullable_app. split; auto. apply nullable_cons. auto.
            * exists a. split; [left|right; split; auto].
              rewrite Hr1. apply can_start_app. right. split; auto. apply can_start_cons. auto.
          + exists a. split; [left; auto|right; split; auto].
        - exists a. split; left; auto. apply Hstart. eapply lc_star_start; [exact HYX|].
          eapply can_start_derives; [exact Hdq|]. apply can_start_app. auto. }
      destruct Hmain as (a & Ha1 & Ha2).
      assert (Heq : r1 = r2).
      { apply (@Hll X c r1 r2 a HRX); auto.
        - rewrite <- H1, <- Hi. now destruct p.
        - rewrite <- H2. now destruct q. }
      subst r2. rewrite Hr1 in Hw. destruct u2 as [|x u2]; simpl in Hw.
      + now apply (Hw Y v v).
      + now apply (Hw x (u2 ++ Y :: v) (u2 ++ Y :: v)).
    - intros X [].
    - intros x w _ IHx _ IHw X [<-|HX]; eauto.
  Qed.

  Lemma factored_no_left_recursion : no_left_recursion_from eps ps init.
  Proof.
    intros A HA HR Hl. apply left_recursive_cycle in Hl; auto.
    apply (proj1 (factored_cycle_infinite HR) A (reach_fin Hok Hprod HR)); auto. constructor.
  Qed.
End Left.
