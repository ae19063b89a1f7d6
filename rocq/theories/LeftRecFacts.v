(** * Tables without conflicts have no left recursion (proofs) *)

From Verif Require Import BaseFacts GrammarFacts DerivFacts FirstFacts FollowFacts TransitionsFacts.
From Verif Require Export ProductiveSpec ParserTerm.

Set Implicit Arguments.

Section LeftRec.
  Context {T : Type} {E : EqDec T}.
  Variables eps init : T.
  Variable ps : list (production T).
  Hypothesis Hok : productions_ok eps ps.

  Notation derives := (derives eps ps).
  Notation nullable := (nullable eps ps).
  Notation can_start := (can_start eps ps).
  Notation lc := (lc eps ps).
  Notation reachable := (reachable_from eps ps init).

  Lemma eps_not_nt : ~ non_terminal ps eps.
  Proof. intros (p & Hp & Hi). apply Hok in Hp as (H & _). congruence. Qed.

  (** ** left recursion is a cycle of left corners *)
  Lemma left_corner_of B w' : non_terminal ps B -> forall w v, w' = B :: v -> derives w w' ->
    exists u Y rest, w = u ++ Y :: rest /\ nullable u /\ (Y = B \/ lc_plus eps ps Y B).
  Proof.
    intros HB w v Hw' H. revert v Hw'. induction H as [w|w w1 w' H1 _ IH]; intros v Hw'.
    - exists [], B, v. split; auto. split; [apply nullable_nil|auto].
    - destruct (IH v Hw') as (u & Y & rest & Hw1 & Hu & HY).
      assert (HYn : non_terminal ps Y).
      { destruct HY as [->|HY]; auto. inversion HY as [? H|? ? H]; subst;
          destruct H as (_ & p & _ & _ & Hp & Hi & _); exists p; auto. }
      destruct H1 as [x y p Hp|x y].
      + apply app_cons_split in Hw1 as [(m & -> & ->)|(m & -> & Hm)].
        * (* [Y] before the production *)
          exists u, Y, (m ++ p_input p :: y). split; [|auto]. now rewrite <- app_assoc.
        * apply app_cons_split in Hm as [(m' & Ho & ->)|(m' & -> & ->)].
          -- (* in the output *)
             rewrite nullable_app in Hu. destruct Hu as [Hx Hmm].
             exists x, (p_input p), y. split; auto. split; auto. right.
             assert (Hl : lc (p_input p) Y).
             { split; auto. exists p, m, m'. auto. }
             destruct HY as [<-|HY]; [now apply Relation_Operators.t1n_step|].
             eapply Relation_Operators.t1n_trans; eauto.
          -- (* after it *)
             exists (x ++ p_input p :: m'), Y, rest. split; [now rewrite <- app_assoc|]. split; auto.
             rewrite !nullable_app in Hu. destruct Hu as (Hx & Hout & Hm2).
             change (p_input p :: m') with ([p_input p] ++ m'). rewrite !nullable_app. repeat split; auto.
             eapply derives_trans; [now apply derives_production|exact Hout].
      + apply app_cons_split in Hw1 as [(m & -> & ->)|(m & -> & ->)].
        * exists u, Y, (m ++ eps :: y). split; [|auto]. now rewrite <- app_assoc.
        * exists (x ++ eps :: m), Y, rest. split; [now rewrite <- app_assoc|]. split; auto.
          rewrite nullable_app in Hu. change (eps :: m) with ([eps] ++ m). rewrite !nullable_app.
          repeat split; try tauto. apply derives_eps.
  Qed.

  Lemma left_recursive_cycle A : non_terminal ps A -> left_recursive eps ps A -> lc_plus eps ps A A.
  Proof.
    intros HA (w & v & H1 & H2).
    assert (Hd : derives [A] (A :: v)) by (eapply derives_trans; [apply derives_step; exact H1|exact H2]).
    apply derive1_single in H1 as [(p & Hp & Hi & Ho)|[He _]].
    - destruct (left_corner_of HA eq_refl H2) as (u & Y & rest & Hw & Hu & HY).
      assert (HYn : non_terminal ps Y).
      { destruct HY as [->|HY]; auto. inversion HY as [? H|? ? H]; subst;
          destruct H as (_ & q & _ & _ & Hq & Hqi & _); exists q; auto. }
      assert (Hl : lc A Y).
      { split; auto. exists p, u, rest. subst. auto. }
      destruct HY as [->|HY]; [now apply Relation_Operators.t1n_step|].
      eapply Relation_Operators.t1n_trans; eauto.
    - subst A. now elim eps_not_nt.
  Qed.

  (** ** productive symbols *)
  Inductive fin : T -> Prop :=
  | fin_terminal x : ~ non_terminal ps x -> fin x
  | fin_production p : In p ps -> fins (p_output p) -> fin (p_input p)
  with fins : list T -> Prop :=
  | fins_nil : fins []
  | fins_cons x w : fin x -> fins w -> fins (x :: w).

  Scheme fin_ind' := Minimality for fin Sort Prop
    with fins_ind' := Minimality for fins Sort Prop.
  Combined Scheme fin_fins_ind from fin_ind', fins_ind'.

  Lemma fins_app u v : fins (u ++ v) <-> fins u /\ fins v.
  Proof.
    induction u as [|x u IH]; simpl.
    - split; [split; [constructor|auto]|tauto].
    - split.
      + intros H. inversion H; subst. apply IH in H3 as [? ?]. split; auto. now constructor.
      + intros [H H']. inversion H; subst. constructor; auto. apply IH; auto.
  Qed.

  Lemma fins_forall w : (forall x, In x w -> fin x) -> fins w.
  Proof. induction w as [|x w IH]; intros H; constructor; simpl in *; auto. Qed.

  Definition real (a : T) : Prop := a <> eps /\ ~ non_terminal ps a.

  Lemma productive_fin X : productive eps ps X -> fin X.
  Proof.
    intros (w & Hd & Hw).
    assert (H : fins [X]); [|now inversion H].
    assert (Hf : fins w) by (apply fins_forall; intros x Hx; apply fin_terminal; rewrite Forall_forall in Hw; now apply Hw).
    clear Hw. induction Hd as [w|w w1 w' H1 _ IH]; auto. specialize (IH Hf).
    destruct H1 as [x y p Hp|x y].
    - rewrite !fins_app in IH. rewrite fins_app. destruct IH as (? & ? & ?). split; auto.
      constructor; auto. now apply fin_production.
    - rewrite fins_app in *. destruct IH. split; auto. constructor; auto. apply fin_terminal, eps_not_nt.
  Qed.

  Lemma fin_yield :
    (forall X, fin X -> exists z, derives [X] z /\ Forall real z) /\
    (forall w, fins w -> exists z, derives w z /\ Forall real z).
  Proof.
    apply fin_fins_ind.
    - intros x Hx. destruct (eq_dec x eps) as [->|Hne].
      + exists []. split; [apply derives_eps|constructor].
      + exists [x]. split; [apply derives_refl|]. constructor; [split; auto|constructor].
    - intros p Hp _ (z & Hz & Hr). exists z. split; auto.
      eapply derives_trans; [now apply derives_production|exact Hz].
    - exists []. split; [apply derives_refl|constructor].
    - intros x w _ (z & Hz & Hr) _ (z' & Hz' & Hr'). exists (z ++ z'). split; [|now apply Forall_app].
      exact (derives_app Hz Hz').
  Qed.

  Lemma fins_cases w : fins w -> nullable w \/ exists a, can_start w a.
  Proof.
    intros H. destruct (proj2 fin_yield w H) as ([|a z] & Hz & Hr); auto.
    right. exists a. inversion Hr as [|? ? [H1 H2]]; subst. split; auto. split; auto. eauto.
  Qed.

  (** ** reachability step by step *)
  Lemma reach_ind (P : T -> Prop) : P init ->
    (forall Z X, P Z -> reachable Z -> part ps Z X -> P X) -> forall X, reachable X -> P X.
  Proof.
    intros H0 Hstep X (u & v & Hd).
    assert (Hall : forall w w', derives w w' -> Forall (fun X => P X /\ reachable X) w ->
                                Forall (fun X => P X /\ reachable X) w').
    { clear - Hstep. intros w w' Hd. induction Hd as [w|w w1 w' H1 _ IH]; auto. intros Hw. apply IH.
      destruct H1 as [x y p Hp|x y].
      - rewrite !Forall_app, Forall_cons_iff in *. destruct Hw as (? & [HP HR] & ?). repeat split; auto.
        apply Forall_forall. intros Y HY.
        assert (Hpart : part ps (p_input p) Y) by (exists p; auto).
        split; [eapply Hstep; eauto|eapply reachable_part; eauto].
      - rewrite Forall_app, Forall_cons_iff in *. tauto. }
    apply Hall in Hd.
    - rewrite Forall_app, Forall_cons_iff in Hd. tauto.
    - constructor; auto. split; auto. exists [], []. apply derives_refl.
  Qed.

  (** ** conflicts *)
  Section Conflict.
    (** [F A a]: [a] is taken to follow [A]; [sel p a]: [p] is a candidate for [a] *)
    Variable F : T -> T -> Prop.
    Variable sel : production T -> T -> Prop.
    Hypothesis F_first : forall p u A mid Z v a,
      In p ps -> reachable (p_input p) -> p_output p = u ++ A :: mid ++ Z :: v -> non_terminal ps A ->
      nullable mid -> can_start [Z] a -> ~ Forall (eq A) (mid ++ [Z]) -> F A a.
    Hypothesis F_end : forall p u A v a,
      In p ps -> reachable (p_input p) -> p_output p = u ++ A :: v -> non_terminal ps A ->
      nullable v -> F (p_input p) a -> F A a.
    Hypothesis sel_first : forall p a, In p ps -> reachable (p_input p) ->
      can_start (p_output p) a -> sel p a.
    Hypothesis sel_follow : forall p a, In p ps -> reachable (p_input p) ->
      nullable (p_output p) -> F (p_input p) a -> sel p a.
    Hypothesis one : forall p q a, In p ps -> In q ps -> p_input p = p_input q ->
      sel p a -> sel q a -> p = q.
    Hypothesis Hprod : all_productive eps ps init.
    Hypothesis Hend : initial_ends_in_terminal eps ps init.

    Lemma reach_fin X : reachable X -> fin X.
    Proof.
      intros HR. destruct (non_terminal_dec ps X) as [HX|HX]; [|now apply fin_terminal].
      apply productive_fin, Hprod; auto.
    Qed.

    Lemma output_fins p : In p ps -> reachable (p_input p) -> fins (p_output p).
    Proof.
      intros Hp HR. apply fins_forall. intros X HX. apply reach_fin.
      eapply reachable_part; [exact HR|]. exists p; auto.
    Qed.

    Lemma tail_fins p u X v : In p ps -> reachable (p_input p) -> p_output p = u ++ X :: v -> fins v.
    Proof.
      intros Hp HR Ho. pose proof (output_fins p Hp HR) as H. rewrite Ho in H.
      apply fins_app in H as [_ H]. now inversion H.
    Qed.

    Lemma init_end p v : In p ps -> p_input p = init -> (exists u, p_output p = u ++ v) -> v <> [] -> ~ nullable v.
    Proof.
      intros Hp Hi (u & Ho) Hv Hn. destruct (Hend p Hp Hi) as (u' & t & Ho' & Ht & Hnt).
      destruct (exists_last Hv) as (v' & t' & ->).
      rewrite Ho' , app_assoc in Ho. apply app_inj_tail in Ho as [_ <-].
      apply nullable_app in Hn as [_ Hn]. apply nullable_terminal in Hn; auto.
    Qed.

    Lemma init_not_nullable : non_terminal ps init -> ~ nullable [init].
    Proof.
      intros HI Hn. apply nullable_single in Hn as [He|(p & Hp & Hi & Hn)].
      - apply eps_not_nt. now rewrite <- He.
      - apply (@init_end p (p_output p)); auto; [exists []; auto|].
        apply Hok in Hp as (_ & H & _). exact H.
    Qed.

    (** something follows every symbol but the initial one *)
    Lemma followed X : reachable X -> non_terminal ps X -> X = init \/ exists a, F X a.
    Proof.
      intros HR. revert X HR. apply (reach_ind (fun X => non_terminal ps X -> X = init \/ exists a, F X a)); auto.
      intros Z X IH HRZ (p & Hp & Hi & Hin) HX. right.
      assert (HZ : non_terminal ps Z) by (exists p; auto). specialize (IH HZ).
      apply in_split in Hin as (u & v & Ho). revert u Ho. subst Z.
      induction v as [|Y v IHv]; intros u Ho.
      - destruct IH as [He|[a Ha]].
        + exfalso. destruct (Hend p Hp He) as (u' & t & Ho' & Ht & Hnt). rewrite Ho in Ho'.
          apply app_inj_tail in Ho' as [_ ->]. contradiction.
        + exists a. eapply F_end; eauto. apply nullable_nil.
      - destruct (eq_dec Y X) as [->|Hne].
        + apply (IHv (u ++ [X])). now rewrite <- app_assoc.
        + destruct (fins_cases (@tail_fins p u X (Y :: v) Hp HRZ Ho)) as [Hn|[a Ha]].
          * destruct IH as [He|[a Ha]].
            -- exfalso. apply (@init_end p (Y :: v)); auto; [|discriminate].
               exists (u ++ [X]). now rewrite <- app_assoc.
            -- exists a. eapply F_end; eauto.
          * exists a. apply can_start_split in Ha as (mid & Z & v' & Hs & Hm & Hz).
            eapply F_first with (mid := mid) (Z := Z); eauto; [now rewrite Ho, Hs|].
            intros Hall. destruct mid as [|Y' mid]; simpl in *; inversion Hs; subst; inversion Hall; congruence.
    Qed.

    (** what comes after a nullable symbol *)
    Lemma after_nullable p Y : In p ps -> reachable (p_input p) -> non_terminal ps Y -> nullable [Y] ->
      forall v u, p_output p = u ++ Y :: v -> nullable v \/ exists a, can_start v a /\ F Y a.
    Proof.
      intros Hp HR HY HYn. induction v as [|Z v IH]; intros u Ho; [left; apply nullable_nil|].
      destruct (eq_dec Z Y) as [->|Hne].
      - destruct (IH (u ++ [Y])) as [Hn|(a & Ha & Hf)]; [now rewrite <- app_assoc| |].
        + left. apply nullable_cons. auto.
        + right. exists a. split; auto. apply can_start_cons. auto.
      - destruct (fins_cases (@tail_fins p u Y (Z :: v) Hp HR Ho)) as [Hn|[a Ha]]; auto.
        right. exists a. split; auto. apply can_start_split in Ha as (mid & Z' & v' & Hs & Hm & Hz).
        eapply F_first with (mid := mid) (Z := Z'); eauto; [now rewrite Ho, Hs|].
        intros Hall. destruct mid as [|Y' mid]; simpl in *; inversion Hs; subst; inversion Hall; congruence.
    Qed.

    Notation lc_star := (clos_refl_trans_1n _ lc).

    Lemma lc_star_start Y X a : lc_star Y X -> can_start [X] a -> can_start [Y] a.
    Proof.
      induction 1 as [|x y z H _ IH]; auto. intros Ha. specialize (IH Ha).
      destruct H as (_ & p & u & v & Hp & Hi & Ho & Hu).
      apply can_start_derives with (w' := p_output p); [subst x; now apply derives_production|].
      rewrite Ho. apply can_start_app. right. split; auto. apply can_start_cons. auto.
    Qed.

    Lemma lc_star_nullable Y X : reachable Y -> non_terminal ps Y -> nullable [X] -> lc_star Y X ->
      (nullable [Y] /\ forall a, F Y a -> F X a) \/ exists a, can_start [Y] a /\ F X a.
    Proof.
      intros HR HY HX H. revert HR HY. induction H as [|x y z H _ IH]; intros HR HY; auto.
      specialize (IH HX (reachable_lc HR H) (proj1 H)).
      destruct H as (Hyn & p & u & v & Hp & Hi & Ho & Hu). subst x.
      assert (Hd : derives [p_input p] (p_output p)) by now apply derives_production.
      destruct IH as [[Hn Hf]|(a & Ha & Hf)].
      - destruct (@after_nullable p y Hp HR Hyn Hn v u Ho) as [Hv|(a & Ha & Hfa)].
        + left. split.
          * eapply derives_trans; [exact Hd|]. rewrite Ho. apply nullable_app. split; auto.
            apply nullable_cons. auto.
          * intros a Ha. apply Hf. eapply F_end; eauto.
        + right. exists a. split; auto. eapply can_start_derives; [exact Hd|]. rewrite Ho.
          apply can_start_app. right. split; auto. apply can_start_cons. auto.
      - right. exists a. split; auto. eapply can_start_derives; [exact Hd|]. rewrite Ho.
        apply can_start_app. right. split; auto. apply can_start_cons. auto.
    Qed.

    (** no symbol of a cycle has a finite derivation *)
    Lemma cycle_infinite A0 : reachable A0 ->
      (forall X, fin X -> lc_star A0 X -> lc_plus eps ps X A0 -> False) /\
      (forall w, fins w -> forall X, In X w -> lc_star A0 X -> lc_plus eps ps X A0 -> False).
    Proof.
      intros HR0. apply fin_fins_ind.
      - intros X HX _ Hc. apply HX. inversion Hc as [? H|? ? H]; subst;
          destruct H as (_ & p & _ & _ & Hp & Hi & _); exists p; auto.
      - intros q Hq Hfin IH Hto Hc. set (X := p_input q) in *.
        assert (HRX : reachable X).
        { clear - HR0 Hto. induction Hto as [|x y z H _ IH]; auto. apply IH. eapply reachable_lc; eauto. }
        assert (HXn : non_terminal ps X) by (exists q; auto).
        assert (Hcyc : exists Y, lc X Y /\ lc_star Y A0).
        { inversion Hc as [? H|Y ? H H']; subst.
          - exists A0. split; auto. constructor.
          - exists Y. split; auto. apply clos_rt_rt1n_iff. apply clos_trans_t1n_iff in H'.
            clear - H'. induction H'; [now apply rt_step|eapply rt_trans; eauto]. }
        destruct Hcyc as (Y & HXY & HYA).
        assert (HYX : lc_star Y X).
        { apply clos_rt_rt1n_iff. eapply rt_trans; apply clos_rt_rt1n_iff; eauto. }
        assert (HRY : reachable Y) by (eapply reachable_lc; eauto).
        pose proof HXY as (HYn & p & u & v & Hp & Hi & Ho & Hu).
        assert (HRp : reachable (p_input p)) by now rewrite Hi.
        assert (Hpq : p <> q).
        { intros ->. apply (IH Y).
          - rewrite Ho. apply in_elt.
          - apply clos_rt_rt1n_iff. eapply rt_trans; [apply clos_rt_rt1n_iff; exact Hto|].
            apply rt_step. exact HXY.
          - (* Y to A0 in at least one step: go round *)
            apply clos_trans_t1n_iff.
            assert (Ht : clos_trans _ lc X A0) by now apply clos_trans_t1n_iff.
            clear - HYX Ht. induction HYX as [|x y z H _ IH']; auto. eapply t_trans; [apply t_step; exact H|auto]. }
        assert (Hstart : forall a, can_start [Y] a -> can_start (p_output p) a).
        { intros a Ha. rewrite Ho. apply can_start_app. right. split; auto. apply can_start_cons. auto. }
        assert (Hmain : exists a, sel p a /\ sel q a).
        { destruct (fins_cases Hfin) as [Hn|[a Ha]].
          - assert (HXnull : nullable [X]).
            { eapply derives_trans; [now apply derives_production|exact Hn]. }
            destruct (lc_star_nullable HRY HYn HXnull HYX) as [[HYnull Hf]|(a & Ha & Hf)].
            + destruct (@after_nullable p Y Hp HRp HYn HYnull v u Ho) as [Hv|(a & Ha & Hfa)].
              * destruct (followed HRX HXn) as [He|[a Ha]].
                -- exfalso. apply init_not_nullable; rewrite <- He; auto.
                -- exists a. split; apply sel_follow; auto; [|now rewrite Hi].
                   rewrite Ho. apply nullable_app. split; auto. apply nullable_cons. auto.
              * exists a. split; [apply sel_first; auto|apply sel_follow; auto].
                rewrite Ho. apply can_start_app. right. split; auto. apply can_start_cons. auto.
            + exists a. split; [apply sel_first; auto|apply sel_follow; auto].
          - exists a. split; apply sel_first; auto. apply Hstart. eapply lc_star_start; [exact HYX|].
            eapply can_start_derives; [now apply derives_production|exact Ha]. }
        destruct Hmain as (a & H1 & H2). apply Hpq. apply (@one p q a Hp Hq); auto.
      - intros X [].
      - intros x w _ IHx _ IHw X [<-|HX]; eauto.
    Qed.

    Lemma no_conflict_no_left_recursion : no_left_recursion_from eps ps init.
    Proof.
      intros A HA HR Hl. apply left_recursive_cycle in Hl; auto.
      apply (proj1 (cycle_infinite HR) A (reach_fin HR)); auto. constructor.
    Qed.
  End Conflict.
End LeftRec.
