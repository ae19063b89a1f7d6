(** * Repeated candidates change nothing in ordered choice (proofs) *)

From Verif Require Import BaseFacts GrammarFacts DerivFacts FirstFacts FollowFacts TransitionsFacts.
From Verif Require Export RepeatSpec ChoiceSpec PastSpec RenameFacts.

Set Implicit Arguments.

Scheme choose_ind3 := Minimality for choose Sort Prop
  with sequence_ind3 := Minimality for sequence Sort Prop
  with branch_ind3 := Minimality for branch Sort Prop.
Combined Scheme choice_mutind from choose_ind3, sequence_ind3, branch_ind3.
Scheme choose_past_ind3 := Minimality for choose_past Sort Prop
  with sequence_past_ind3 := Minimality for sequence_past Sort Prop
  with branch_past_ind3 := Minimality for branch_past Sort Prop.
Combined Scheme past_choice_mutind from choose_past_ind3, sequence_past_ind3, branch_past_ind3.

(** ** determinism *)
Section Det.
  Context {L T : Type}.
  Variable eps : T.
  Variable ps : list (production T).
  Hypothesis Heps : ~ non_terminal ps eps.
  Variable tokens : list (token L T).
  Variable c : T -> T -> list (list T).
  Notation choose := (choose eps ps tokens c).
  Notation sequence := (sequence eps ps tokens c).
  Notation branch := (branch eps ps tokens c).

  Ltac det IH := match goal with H : _ |- _ => let N := fresh in pose proof (IH _ H) as N; clear H end.

  Lemma choice_det :
    (forall X p outs r, choose X p outs r -> forall r', choose X p outs r' -> r' = r) /\
    (forall Xs p r, sequence Xs p r -> forall r', sequence Xs p r' -> r' = r) /\
    (forall X p outs Xs r, branch X p outs Xs r -> forall r', branch X p outs Xs r' -> r' = r).
  Proof.
    apply choice_mutind.
    - intros X p r' H. inversion H; auto.
    - intros X p out outs ns q _ IH r' H. inversion H; subst; det IH; [congruence|discriminate].
    - intros X p out outs r _ IH _ IH2 r' H. inversion H; subst; det IH; [discriminate|auto].
    - intros p r' H. inversion H; auto.
    - intros Xs p r _ IH r' H. inversion H; subst; try congruence; try contradiction. det IH. congruence.
    - intros Xs p tok r Hn He Ht _ IH r' H. inversion H; subst; try congruence; try contradiction.
      + assert (tok0 = tok) by congruence. subst. det IH. congruence.
      + exfalso. match goal with H : forall _, _ |- _ => eapply H; eauto end.
    - intros X Xs p Hn He Ht r' H. inversion H; subst; try congruence; try contradiction.
      exfalso. eapply Ht; eauto.
    - intros X Xs p tok r Hn Ht _ IH r' H. inversion H; subst; try congruence; try contradiction.
      assert (tok0 = tok) by congruence. subst. auto.
    - intros X p outs Xs _ IH r' H. inversion H; subst; auto; det IH; discriminate.
    - intros X p outs Xs n q outs' ns q' _ IH _ IH2 r' H. inversion H; subst; det IH; try discriminate;
        match goal with H : Some _ = Some _ |- _ => inversion H; subst end; det IH2; congruence.
    - intros X p outs Xs n q outs' r _ IH _ IH2 _ IH3 r' H. inversion H; subst; det IH; try discriminate;
        match goal with H : Some _ = Some _ |- _ => inversion H; subst end; [det IH2; congruence|auto].
  Qed.

  Notation choose_past := (choose_past eps ps tokens c).
  Notation sequence_past := (sequence_past eps ps tokens c).
  Notation branch_past := (branch_past eps ps tokens c).

  (** a choice that reads past the end has no result *)
  Lemma past_no_result :
    (forall X p outs, choose_past X p outs -> forall r, ~ choose X p outs r) /\
    (forall Xs p, sequence_past Xs p -> forall r, ~ sequence Xs p r) /\
    (forall X p outs Xs, branch_past X p outs Xs -> forall r, ~ branch X p outs Xs r).
  Proof.
    destruct choice_det as (DC & DS & DB).
    apply past_choice_mutind.
    - intros X p out outs _ IH r H. inversion H; subst; eapply IH; eauto.
    - intros X p out outs Hs _ IH r H. inversion H; subst.
      + match goal with H : sequence out p (Some _) |- _ => pose proof (DS _ _ _ Hs _ H) end. discriminate.
      + eapply IH; eauto.
    - intros X Xs p Hn Ht r H. inversion H; subst; try congruence; try contradiction.
    - intros Xs p _ IH r H. inversion H; subst; try congruence; try contradiction. eapply IH; eauto.
    - intros Xs p tok Hn He Ht _ IH r H. inversion H; subst; try congruence; try contradiction.
      + eapply IH; eauto.
      + match goal with H : forall _, _ |- _ => eapply H; eauto end.
    - intros X Xs p tok Hn Ht _ IH r H. inversion H; subst; try congruence; try contradiction.
      assert (tok0 = tok) by congruence. subst. eapply IH; eauto.
    - intros X p outs Xs _ IH r H. inversion H; subst; eapply IH; eauto.
    - intros X p outs Xs n q outs' Hc _ IH r H. inversion H; subst;
        match goal with H : choose X p outs _ |- _ => pose proof (DC _ _ _ _ Hc _ H) as He end;
        inversion He; subst; eapply IH; eauto.
    - intros X p outs Xs n q outs' Hc Hs _ IH r H. inversion H; subst;
        match goal with H : choose X p outs _ |- _ => pose proof (DC _ _ _ _ Hc _ H) as He end;
        inversion He; subst.
      + match goal with H : sequence Xs q (Some _) |- _ => pose proof (DS _ _ _ Hs _ H) end. discriminate.
      + eapply IH; eauto.
  Qed.

  Definition spent (p : nat) (Xs out : list T) : Prop :=
    sequence out p None \/ exists ns q, sequence out p (Some (ns, q)) /\ sequence Xs q None.

  Lemma branch_cons X p out outs Xs r :
    branch X p (out :: outs) Xs r <->
    (exists ns q ns' q', sequence out p (Some (ns, q)) /\ sequence Xs q (Some (ns', q')) /\
       r = Some (Node ns (Token None X) :: ns', q')) \/
    (spent p Xs out /\ branch X p outs Xs r).
  Proof.
    split.
    - intros H. inversion H; subst.
      + inversion H0; subst. right. split; [left; auto|now constructor].
      + inversion H0; subst.
        * left. exists ns0, q, ns, q'. auto.
        * right. split; [left; auto|]. eapply branch_ok; eauto.
      + inversion H0; subst.
        * right. split; [right; eauto|auto].
        * right. split; [left; auto|]. eapply branch_retry; eauto.
    - intros [(ns & q & ns' & q' & H1 & H2 & ->)|[[H1|(ns & q & H1 & H2)] H3]].
      + eapply branch_ok; [apply choose_first; eauto|auto].
      + inversion H3; subst.
        * apply branch_fail. now apply choose_next.
        * eapply branch_ok; [apply choose_next; eauto|auto].
        * eapply branch_retry; [apply choose_next; eauto|auto|auto].
      + eapply branch_retry; [apply choose_first; eauto|auto|auto].
  Qed.

  Lemma spent_branch X p out outs Xs r : spent p Xs out ->
    (branch X p (out :: outs) Xs r <-> branch X p outs Xs r).
  Proof.
    intros Hs. rewrite branch_cons. split; [|auto].
    intros [(ns & q & ns' & q' & H1 & H2 & _)|[_ H]]; auto. exfalso.
    destruct Hs as [Hs|(ns0 & q0 & Hs & H3)].
    - pose proof (proj1 (proj2 choice_det) _ _ _ Hs _ H1). discriminate.
    - pose proof (proj1 (proj2 choice_det) _ _ _ Hs _ H1) as He. inversion He; subst.
      pose proof (proj1 (proj2 choice_det) _ _ _ H3 _ H2). discriminate.
  Qed.

  Lemma branch_repeats X p Xs r seen l l' : without_repeats seen l l' ->
    (forall out, In out seen -> spent p Xs out) ->
    (branch X p l Xs r <-> branch X p l' Xs r).
  Proof.
    induction 1 as [seen|seen out l l' Hn _ IH|seen out l l' Hin _ IH]; intros Hsp.
    - tauto.
    - rewrite !branch_cons. split; (intros [H|[Hs H]]; [auto|right; split; auto]);
        apply IH; auto; intros o [<-|Ho]; auto.
    - rewrite spent_branch; auto.
  Qed.

  Lemma branch_past_cons X p out outs Xs :
    branch_past X p (out :: outs) Xs <->
    sequence_past out p \/ (exists ns q, sequence out p (Some (ns, q)) /\ sequence_past Xs q) \/
    (spent p Xs out /\ branch_past X p outs Xs).
  Proof.
    split.
    - intros H. inversion H as [? ? ? ? Hc|? ? ? ? n q outs' Hc Hs|? ? ? ? n q outs' Hc Hs Hb]; subst.
      + inversion Hc; subst; auto. right; right. split; [left; auto|now constructor].
      + inversion Hc; subst; [right; left; eauto|].
        right; right. split; [left; auto|]. eapply branch_past_after; eauto.
      + inversion Hc; subst; right; right.
        * split; [right; eauto|auto].
        * split; [left; auto|]. eapply branch_past_retry; eauto.
    - intros [H|[(ns & q & H1 & H2)|[[H1|(ns & q & H1 & H2)] H3]]].
      + apply branch_past_here. now apply choose_past_first.
      + eapply branch_past_after; [apply choose_first; eauto|auto].
      + inversion H3; subst.
        * apply branch_past_here. now apply choose_past_next.
        * eapply branch_past_after; [apply choose_next; eauto|auto].
        * eapply branch_past_retry; [apply choose_next; eauto|auto|auto].
      + eapply branch_past_retry; [apply choose_first; eauto|auto|auto].
  Qed.

  Lemma spent_branch_past X p out outs Xs : spent p Xs out ->
    (branch_past X p (out :: outs) Xs <-> branch_past X p outs Xs).
  Proof.
    destruct past_no_result as (_ & NS & _).
    intros Hs. rewrite branch_past_cons. split; [|auto].
    intros [H|[(ns & q & H1 & H2)|[_ H]]]; auto; exfalso.
    - destruct Hs as [Hs|(ns & q & Hs & _)]; eapply NS; eauto.
    - destruct Hs as [Hs|(ns0 & q0 & Hs & H3)];
        pose proof (proj1 (proj2 choice_det) _ _ _ Hs _ H1) as He; inversion He; subst.
      eapply NS; eauto.
  Qed.

  Lemma branch_past_repeats X p Xs seen l l' : without_repeats seen l l' ->
    (forall out, In out seen -> spent p Xs out) ->
    (branch_past X p l Xs <-> branch_past X p l' Xs).
  Proof.
    induction 1 as [seen|seen out l l' Hn _ IH|seen out l l' Hin _ IH]; intros Hsp.
    - tauto.
    - rewrite !branch_past_cons. split; (intros [H|[H|[Hs H]]]; [auto|auto|right; right; split; auto]);
        apply IH; auto; intros o [<-|Ho]; auto.
    - rewrite spent_branch_past; auto.
  Qed.

  Lemma choose_branch_past X p outs : choose_past X p outs <-> branch_past X p outs [].
  Proof.
    split; [now constructor|]. intros H. inversion H; subst; auto;
      match goal with H : sequence_past [] _ |- _ => inversion H | H : sequence [] _ None |- _ => inversion H end.
  Qed.

  Lemma choose_branch X p outs n q :
    (exists outs', choose X p outs (Some (n, q, outs'))) <-> branch X p outs [] (Some ([n], q)).
  Proof.
    split.
    - intros [outs' H]. eapply branch_ok; eauto. constructor.
    - intros H. remember (Some ([n], q)) as r eqn:Hr. remember (@nil T) as Xs eqn:HX.
      revert Hr HX. induction H; intros; subst; try discriminate.
      + inversion H0; subst. inversion Hr; subst. eauto.
      + inversion H0.
  Qed.

  Lemma choose_branch_none X p outs :
    choose X p outs None <-> branch X p outs [] None.
  Proof.
    split; [now constructor|]. intros H. inversion H; subst; auto. inversion H1.
  Qed.
End Det.

(** ** two candidate functions that agree up to repeats *)
Section Two.
  Context {L T : Type}.
  Variable eps : T.
  Variables ps ps' : list (production T).
  Hypothesis Heps : ~ non_terminal ps' eps.
  Hypothesis Hnt : forall X, non_terminal ps' X <-> non_terminal ps X.
  Variable tokens : list (token L T).
  Variables c c' : T -> T -> list (list T).
  Hypothesis Hc : forall X a, exists l, without_repeats [] (c X a) l /\ without_repeats [] (c' X a) l.

  Lemma choice_transfer :
    (forall X p outs r, choose eps ps tokens c X p outs r -> choose eps ps' tokens c' X p outs r) /\
    (forall Xs p r, sequence eps ps tokens c Xs p r -> sequence eps ps' tokens c' Xs p r) /\
    (forall X p outs Xs r, branch eps ps tokens c X p outs Xs r -> branch eps ps' tokens c' X p outs Xs r).
  Proof.
    apply choice_mutind.
    - constructor.
    - intros. now constructor.
    - intros. now constructor.
    - constructor.
    - intros. now constructor.
    - intros. constructor; auto. now rewrite Hnt.
    - intros. constructor; auto. now rewrite Hnt.
    - intros X Xs p tok r HX Ht _ IH. eapply sequence_non_terminal; eauto; [now apply Hnt|].
      destruct (Hc X (tok_type tok)) as (l & H1 & H2).
      apply (@branch_repeats L T eps ps' Heps tokens c' X p Xs r [] _ _ H2); [intros o []|].
      apply (@branch_repeats L T eps ps' Heps tokens c' X p Xs r [] _ _ H1); [intros o []|]. exact IH.
    - intros. now constructor.
    - intros. eapply branch_ok; eauto.
    - intros. eapply branch_retry; eauto.
  Qed.

  Lemma choose_transfer X p a n q :
    (exists outs, choose eps ps tokens c X p (c X a) (Some (n, q, outs))) ->
    (exists outs, choose eps ps' tokens c' X p (c' X a) (Some (n, q, outs))).
  Proof.
    intros [outs H]. apply choose_branch. destruct (Hc X a) as (l & H1 & H2).
    apply (@branch_repeats L T eps ps' Heps tokens c' X p [] _ [] _ _ H2); [intros o []|].
    apply (@branch_repeats L T eps ps' Heps tokens c' X p [] _ [] _ _ H1); [intros o []|].
    apply choose_branch. exists outs. now apply choice_transfer.
  Qed.

  Lemma choose_transfer_none X p a :
    choose eps ps tokens c X p (c X a) None -> choose eps ps' tokens c' X p (c' X a) None.
  Proof.
    intros H. apply choose_branch_none. destruct (Hc X a) as (l & H1 & H2).
    apply (@branch_repeats L T eps ps' Heps tokens c' X p [] _ [] _ _ H2); [intros o []|].
    apply (@branch_repeats L T eps ps' Heps tokens c' X p [] _ [] _ _ H1); [intros o []|].
    apply choose_branch_none. now apply choice_transfer.
  Qed.

  Lemma past_transfer :
    (forall X p outs, choose_past eps ps tokens c X p outs -> choose_past eps ps' tokens c' X p outs) /\
    (forall Xs p, sequence_past eps ps tokens c Xs p -> sequence_past eps ps' tokens c' Xs p) /\
    (forall X p outs Xs, branch_past eps ps tokens c X p outs Xs -> branch_past eps ps' tokens c' X p outs Xs).
  Proof.
    destruct choice_transfer as (TC & TS & TB).
    apply past_choice_mutind.
    - intros. now apply choose_past_first.
    - intros. apply choose_past_next; auto.
    - intros. apply sequence_past_end; auto. now apply Hnt.
    - intros. now apply sequence_past_epsilon.
    - intros. apply sequence_past_token; auto. now rewrite Hnt.
    - intros X Xs p tok HX Ht _ IH. eapply sequence_past_non_terminal; eauto; [now apply Hnt|].
      destruct (Hc X (tok_type tok)) as (l & H1 & H2).
      apply (@branch_past_repeats L T eps ps' Heps tokens c' X p Xs [] _ _ H2); [intros o []|].
      apply (@branch_past_repeats L T eps ps' Heps tokens c' X p Xs [] _ _ H1); [intros o []|]. exact IH.
    - intros. now apply branch_past_here.
    - intros. eapply branch_past_after; eauto.
    - intros. eapply branch_past_retry; eauto.
  Qed.

  Lemma choose_transfer_past X p a :
    choose_past eps ps tokens c X p (c X a) -> choose_past eps ps' tokens c' X p (c' X a).
  Proof.
    intros H. apply choose_branch_past. destruct (Hc X a) as (l & H1 & H2).
    apply (@branch_past_repeats L T eps ps' Heps tokens c' X p [] [] _ _ H2); [intros o []|].
    apply (@branch_past_repeats L T eps ps' Heps tokens c' X p [] [] _ _ H1); [intros o []|].
    apply choose_branch_past. now apply past_transfer.
  Qed.
End Two.

(** ** lists without repeats *)
Section Lists.
  Context {A B : Type}.

  Lemma wr_In (seen l l' : list A) : without_repeats seen l l' ->
    forall x, In x l' -> In x l.
  Proof. induction 1; simpl; intuition. Qed.

  Lemma wr_In_inv (seen l l' : list A) : without_repeats seen l l' ->
    forall x, In x l -> In x l' \/ In x seen.
  Proof.
    induction 1 as [seen|seen x l l' Hn _ IH|seen x l l' Hin _ IH]; simpl; intros y Hy; auto.
    - destruct Hy as [<-|Hy]; auto. destruct (IH y Hy) as [|[<-|]]; auto.
    - destruct Hy as [<-|Hy]; auto.
  Qed.

  Lemma wr_filter (f : A -> bool) seen l l' : without_repeats seen l l' ->
    without_repeats (filter f seen) (filter f l) (filter f l').
  Proof.
    induction 1 as [seen|seen x l l' Hn _ IH|seen x l l' Hin _ IH]; simpl in *.
    - constructor.
    - destruct (f x) eqn:Hf; auto. constructor; auto. intros H. apply filter_In in H. tauto.
    - destruct (f x) eqn:Hf; auto. apply wr_drop; auto. apply filter_In; auto.
  Qed.

  Lemma wr_map (h : A -> B) seen l l' : without_repeats seen l l' ->
    (forall x y, In x (seen ++ l) -> In y (seen ++ l) -> h x = h y -> x = y) ->
    without_repeats (map h seen) (map h l) (map h l').
  Proof.
    induction 1 as [seen|seen x l l' Hn _ IH|seen x l l' Hin _ IH]; simpl in *; intros Hh.
    - constructor.
    - constructor.
      + intros H. apply in_map_iff in H as (y & Hy & Hin). apply Hn.
        replace x with y; auto. apply Hh; auto; rewrite in_app_iff; simpl; auto.
      + apply IH. intros y z Hy Hz. apply Hh; rewrite in_app_iff in *; simpl in *; tauto.
    - apply wr_drop; [now apply in_map|]. apply IH. intros y z Hy Hz.
      apply Hh; rewrite in_app_iff in *; simpl in *; tauto.
  Qed.
End Lists.

Section RepeatCells.
  Context {L T : Type} {E : EqDec T}.
  Variable eps init : T.
  Variables ps ps' : list (production T).
  Hypothesis Hsame : same_up_to_repeats ps ps'.

  Lemma same_In p : In p ps' <-> In p ps.
  Proof.
    destruct (Hsame (p_input p)) as (l & H1 & H2). split; intros H.
    - assert (Hd : In p (declared_for ps' (p_input p))) by (apply declared_In; auto).
      apply (wr_In_inv H2) in Hd as [Hd|[]]. apply (wr_In H1) in Hd. now apply declared_In in Hd.
    - assert (Hd : In p (declared_for ps (p_input p))) by (apply declared_In; auto).
      apply (wr_In_inv H1) in Hd as [Hd|[]]. apply (wr_In H2) in Hd. now apply declared_In in Hd.
  Qed.

  Variables (s s' : option (syntax_error_solver L T)) (self self' : parser L T).
  Hypothesis B : built_parser eps init ps s self.
  Hypothesis B' : built_parser eps init ps' s' self'.

  Lemma ren_id (p : production T) : ren_production (fun x => x) p = p.
  Proof. destruct p as [i o]. unfold ren_production. simpl. now rewrite map_id. Qed.

  Lemma repeat_candidates A a :
    exists l, without_repeats [] (candidates self A a) l /\ without_repeats [] (candidates self' A a) l.
  Proof.
    pose proof B as H. pose proof B' as H'.
    apply built_inv in H as (ho1 & ho2 & fuel & g1 & ffs & Hg & Hf & Hs).
    apply built_inv in H' as (ho1' & ho2' & fuel' & g2 & ffs' & Hg' & Hf' & Hs').
    apply cfg_new_grammar_of in Hg as G. apply cfg_new_grammar_of in Hg' as G'.
    destruct (ffs_from_exact G _ _ Hf) as [Hx1 Hx2].
    destruct (ffs_from_exact G' _ _ Hf') as [Hx1' Hx2'].
    destruct (rdp_from_inv _ _ _ _ Hs) as (_ & _ & Ht).
    destruct (rdp_from_inv _ _ _ _ Hs') as (_ & _ & Ht').
    unfold candidates.
    rewrite (transitions_cells G _ _ Ht), (transitions_cells G' _ _ Ht').
    assert (HIn : forall q, In q ps' <-> exists p, In p ps /\ q = ren_production (fun x => x) p).
    { intros q. rewrite same_In. split; [intros Hq; exists q; rewrite ren_id; auto|].
      intros (p & Hp & ->). now rewrite ren_id. }
    assert (Hinj : injective (fun x : T => x)) by (intros x y Hxy; exact Hxy).
    assert (H1 : is_non_terminal g2 A = is_non_terminal g1 A).
    { apply eq_true_iff_eq. rewrite (is_non_terminal_spec G), (is_non_terminal_spec G').
      apply (@ren_non_terminal T T (fun x => x) Hinj ps ps' HIn). }
    assert (H2 : is_terminal g2 a = is_terminal g1 a).
    { apply eq_true_iff_eq. rewrite (is_terminal_spec G), (is_terminal_spec G').
      apply (@ren_terminal T T (fun x => x) Hinj ps ps' HIn). }
    rewrite H1, H2.
    destruct (is_non_terminal g1 A && is_terminal g1 a); [|exists []; split; constructor].
    destruct (Hsame A) as (l & Hl & Hl').
    exists (map (@p_output T) (filter (fun p => selectsb (g := g1) ho2 ffs p a) l)).
    rewrite <- (declared_productions_of ps A), <- (declared_productions_of ps' A).
    assert (Hext : filter (fun p => selectsb (g := g2) ho2' ffs' p a) (declared_for ps' A) =
                   filter (fun p => selectsb (g := g1) ho2 ffs p a) (declared_for ps' A)).
    { apply filter_ext_in. intros p Hp. apply declared_In in Hp as [Hp _].
      assert (Hp1 : In p ps) by now apply same_In.
      apply eq_true_iff_eq.
      rewrite (@selectsb_spec _ _ _ _ _ _ G ho2 ffs Hx1 Hx2 p a Hp1).
      rewrite (@selectsb_spec _ _ _ _ _ _ G' ho2' ffs' Hx1' Hx2' p a Hp).
      pose proof (@ren_selects T T E E (fun x => x) Hinj eps ps ps' HIn p a) as Hr. rewrite ren_id in Hr. exact Hr. }
    rewrite Hext.
    assert (Hgo : forall d, (forall p, In p d -> p_input p = A) -> without_repeats [] d l ->
      without_repeats [] (map (@p_output T) (filter (fun p => selectsb (g := g1) ho2 ffs p a) d))
        (map (@p_output T) (filter (fun p => selectsb (g := g1) ho2 ffs p a) l))).
    { intros d Hd Hw. apply (@wr_map _ _ (@p_output T) []).
      - exact (wr_filter (fun p => selectsb (g := g1) ho2 ffs p a) Hw).
      - simpl. intros x y Hx Hy Ho. apply filter_In in Hx as [Hx _]. apply filter_In in Hy as [Hy _].
        apply Hd in Hx. apply Hd in Hy. destruct x, y; simpl in *; congruence. }
    split; apply Hgo; auto; intros p Hp; now apply declared_In in Hp.
  Qed.
End RepeatCells.
