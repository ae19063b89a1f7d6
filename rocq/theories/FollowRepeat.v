(** * What FOLLOW loses at repeated neighbours (proofs) *)

From Verif Require Import BaseFacts GrammarFacts DerivFacts FirstFacts FollowFacts.
From Verif Require Export FollowSpec.

Set Implicit Arguments.

Lemma follow_by_rules_iff {T : Type} (eps : T) ps A a :
  follow_by_rules eps ps A a <-> follow_rules (eps := eps) (ps := ps) A a.
Proof.
  split.
  - induction 1 as [p u A mid Z v a Hp Ho HA Hm HZ Hr|]; [|eapply follow_by_end; eauto].
    eapply follow_by_first; eauto. intros H. apply Hr. revert H. apply Forall_impl; auto.
  - induction 1 as [p u A mid Z v a Hp Ho HA Hm HZ Hr|]; [|eapply by_end; eauto].
    eapply by_first; eauto. intros H. apply Hr. revert H. apply Forall_impl; auto.
Qed.

Section Repeat.
  Context {T : Type} {E : EqDec T}.
  Variable eps : T.
  Variable ps : list (production T).
  Notation derives := (derives eps ps).
  Notation can_start := (can_start eps ps).
  Notation nullable := (nullable eps ps).
  Notation follow_rules := (follow_rules (eps := eps) (ps := ps)).

  (** what follows [B] follows whatever ends [B] *)
  Lemma follow_rules_tail B w : non_terminal ps B -> derives [B] w ->
    forall a, follow_rules B a ->
    forall u C v, w = u ++ C :: v -> non_terminal ps C -> nullable v -> follow_rules C a.
  Proof.
    intros HB Hd a Ha. apply derives_n1 in Hd.
    induction Hd as [|w w' Hstep Hd IH]; intros u C v Hw HC Hv.
    - destruct u as [|y u]; simpl in Hw; inversion Hw; subst; auto. destruct u; discriminate.
    - destruct Hstep as [x y p Hp | x y].
      + apply app_cons_split in Hw as [(m & Hx & Hv')|(m & Hu & Hm)].
        * eapply IH; [|exact HC|].
          -- rewrite Hx, <- app_assoc. reflexivity.
          -- subst v. eapply derives_trans; [|exact Hv].
             apply derives_step. now constructor.
        * apply app_cons_split in Hm as [(o2 & Ho & Hv')|(m' & Ho & Hy)].
          -- subst v. apply nullable_app in Hv as [Hv1 Hv2].
             eapply follow_by_end with (p := p); eauto.
             eapply IH with (u := x); [reflexivity|exists p; auto|exact Hv2].
          -- eapply IH with (u := x ++ p_input p :: m'); [|exact HC|exact Hv].
             rewrite Hy, <- app_assoc. reflexivity.
      + apply app_cons_split in Hw as [(m & Hx & Hv')|(m & Hu & Hm)].
        * eapply IH; [|exact HC|].
          -- rewrite Hx, <- app_assoc. reflexivity.
          -- subst v. eapply derives_trans; [|exact Hv].
             apply derives_step. constructor.
        * eapply IH with (u := x ++ eps :: m); [|exact HC|exact Hv].
          rewrite Hm, <- app_assoc. reflexivity.
  Qed.

  Definition followed_tails (B a : T) : Prop := forall w C,
    derives [B] (w ++ [C]) -> non_terminal ps C -> nullable [C] -> follow_rules C a.

  Lemma followed_tails_of B a : non_terminal ps B -> follow_rules B a -> followed_tails B a.
  Proof.
    intros HB Ha w C Hd HC _. eapply follow_rules_tail with (B := B) (u := w) (v := []); eauto. apply derives_refl.
  Qed.

  Lemma complete_tails S w :
    repeats_harmless eps ps S -> non_terminal ps S -> derives [S] w ->
    forall u B v a, w = u ++ B :: v -> non_terminal ps B -> can_start v a -> followed_tails B a.
  Proof.
    intros Hrep HS Hd0. pose proof (derives_n1 Hd0) as Hd. clear Hd0.
    induction Hd as [|w w' Hstep Hd IH]; intros u B v a Hw HB Ha.
    - destruct u as [|y u]; simpl in Hw; inversion Hw; subst.
      + exfalso; eapply can_start_nil; eauto.
      + destruct u; discriminate.
    - destruct Hstep as [x y p Hp | x y].
      + apply app_cons_split in Hw as [(m & Hx & Hv)|(m & Hu & Hm)].
        * eapply IH; [|exact HB|].
          -- rewrite Hx, <- app_assoc. reflexivity.
          -- rewrite Hv in Ha. eapply can_start_derives; [|exact Ha].
             apply derives_step. now constructor.
        * apply app_cons_split in Hm as [(o2 & Ho & Hv)|(m' & Ho & Hy)].
          -- rewrite Hv in Ha. apply can_start_app in Ha as [Ha|[Hn Ha]].
             ++ apply can_start_split in Ha as (mid & Z & rest & Ho2 & Hmid & HZ).
                rewrite Ho2 in Ho.
                destruct (Forall_dec (eq B) (fun z => eq_dec B z) (mid ++ [Z])) as [Hall|Hall].
                ** assert (HZB : B = Z).
                   { rewrite Forall_app in Hall. destruct Hall as [_ Hall]. now inversion Hall. }
                   subst Z.
                   assert (Hreach : reachable_from eps ps S (p_input p)).
                   { exists x, y. apply clos_rt_rt1n. now apply clos_rtn1_rt. }
                   intros w0 C Hw0 HC HnC. apply follow_by_rules_iff.
                   destruct mid as [|z mid].
                   --- eapply Hrep; eauto.
                   --- assert (B = z) by (inversion Hall; auto). subst z.
                       eapply (Hrep p m B (mid ++ B :: rest)); eauto.
                ** apply followed_tails_of; auto. eapply follow_by_first; eauto.
             ++ assert (HI : non_terminal ps (p_input p)) by (exists p; auto).
                pose proof (IH x (p_input p) y a eq_refl HI Ha) as IH'.
                intros w0 C Hw0 HC HnC. apply (IH' (m ++ w0) C); auto.
                eapply derives_trans; [now apply derives_production|]. rewrite Ho, <- app_assoc.
                apply derives_app; [apply derives_refl|].
                change (B :: o2) with ([B] ++ o2). rewrite <- (app_nil_r (w0 ++ [C])).
                now apply derives_app.
          -- eapply IH with (u := x ++ p_input p :: m'); [|exact HB|exact Ha].
             rewrite Hy, <- app_assoc. reflexivity.
      + apply app_cons_split in Hw as [(m & Hx & Hv)|(m & Hu & Hm)].
        * eapply IH; [|exact HB|].
          -- rewrite Hx, <- app_assoc. reflexivity.
          -- rewrite Hv in Ha. eapply can_start_derives; [|exact Ha].
             apply derives_step. constructor.
        * eapply IH with (u := x ++ eps :: m); [|exact HB|exact Ha].
          rewrite Hm, <- app_assoc. reflexivity.
  Qed.

  (** FOLLOW misses nothing for nullable symbols *)
  Lemma follow_rules_complete_nullable S u A v a :
    repeats_harmless eps ps S -> non_terminal ps S -> derives [S] (u ++ A :: v) ->
    non_terminal ps A -> nullable [A] -> can_start v a -> follow_rules A a.
  Proof.
    intros Hrep HS Hd HA Hn Ha.
    pose proof (complete_tails Hrep HS Hd u eq_refl HA Ha) as H. apply (H [] A); auto. apply derives_refl.
  Qed.

  Lemma repeats_harmless_iff S : non_terminal ps S ->
    ((forall A a, non_terminal ps A -> nullable [A] -> can_follow eps ps S A a ->
        follow_by_rules eps ps A a) <-> repeats_harmless eps ps S).
  Proof.
    intros HS. split.
    - intros H p u B v w C a Hp (x & y & Hr) Ho HB Hd HC Hn (He & Hnt & z & Hz). apply H; auto.
      split; auto. split; auto. exists (x ++ u ++ w), (z ++ v ++ y).
      eapply derives_trans; [exact Hr|]. rewrite <- !app_assoc.
      apply derives_app; [apply derives_refl|].
      change (p_input p :: y) with ([p_input p] ++ y).
      eapply derives_trans; [apply derives_app; [now apply derives_production|apply derives_refl]|].
      rewrite Ho, <- !app_assoc. apply derives_app; [apply derives_refl|].
      change ((B :: B :: v) ++ y) with ([B] ++ [B] ++ (v ++ y)).
      replace (w ++ C :: a :: z ++ v ++ y) with ((w ++ [C]) ++ (a :: z) ++ (v ++ y))
        by (rewrite <- !app_assoc; reflexivity).
      apply derives_app; auto. apply derives_app; auto. apply derives_refl.
    - intros Hrep A a HA Hn (He & Hnt & u & v & Hd). apply follow_by_rules_iff.
      eapply follow_rules_complete_nullable; eauto.
      repeat split; auto. exists v. apply derives_refl.
  Qed.

  (** sufficient conditions *)
  Lemma no_repeated_neighbours_harmless S : no_repeated_neighbours ps -> repeats_harmless eps ps S.
  Proof. intros H p u B v w C a Hp _ Ho HB. exfalso. eapply H; eauto. Qed.

  Lemma repeated_ok_harmless S : repeated_ok (eps := eps) (ps := ps) -> repeats_harmless eps ps S.
  Proof.
    intros H p u B v w C a Hp _ Ho HB Hd HC _ Ha. apply follow_by_rules_iff.
    eapply follow_rules_tail with (B := B) (u := w) (v := []); eauto. apply derives_refl.
  Qed.

  Lemma no_nullable_tails_harmless S :
    (forall p u B v w C, In p ps -> p_output p = u ++ B :: B :: v -> non_terminal ps B ->
       derives [B] (w ++ [C]) -> non_terminal ps C -> ~ nullable [C]) ->
    repeats_harmless eps ps S.
  Proof. intros H p u B v w C a Hp _ Ho HB Hd HC Hn. exfalso. eapply H; eauto. Qed.
End Repeat.
