(** * Grammars without epsilon productions (proofs) *)

From Verif Require Import BaseFacts GrammarFacts DerivFacts ParserSound ParserComplete.
From Verif Require Export EpsFreeSpec PastSpec.

Set Implicit Arguments.

Section EpsFree.
  Context {L T : Type} {E : EqDec T}.
  Variable eps : T.
  Variable ps : list (production T).
  Hypothesis Hok : productions_ok eps ps.
  Hypothesis Hfree : epsilon_free eps ps.

  Notation derives := (derives eps ps).
  Notation types := (map (@tok_type L T)).
  Notation real := (fun t => tok_type t <> eps /\ ~ non_terminal ps (tok_type t)).

  Lemma derive1_non_empty u v : derive1 eps ps u v -> u <> [] -> ~ In eps u -> v <> [] /\ ~ In eps v.
  Proof.
    intros H Hne He. destruct H as [x y p Hp|x y].
    - destruct (Hok p Hp) as (_ & Ho & _). split.
      + intros H. apply app_eq_nil in H as [_ H]. apply app_eq_nil in H as [H _]. contradiction.
      + rewrite !in_app_iff in *. simpl in He. pose proof (Hfree p Hp). tauto.
    - exfalso. apply He. apply in_or_app. right. now left.
  Qed.

  Lemma derives_non_empty u v : derives u v -> u <> [] -> ~ In eps u -> v <> [].
  Proof.
    induction 1 as [u|u u' v H1 _ IH]; intros Hne He; auto.
    destruct (derive1_non_empty H1 Hne He). auto.
  Qed.

  Lemma not_nullable X : X <> eps -> ~ nullable eps ps [X].
  Proof. intros HX H. apply (derives_non_empty H); auto; [discriminate|simpl; intros [<-|[]]; auto]. Qed.

  Lemma output_not_nullable p : In p ps -> ~ nullable eps ps (p_output p).
  Proof.
    intros Hp H. destruct (Hok p Hp) as (_ & Ho & _). apply (derives_non_empty H); auto.
  Qed.

  Lemma tree_symbol X n (w : list (token L T)) : tree_for eps ps X n w -> X <> eps -> w <> [].
  Proof.
    intros Ht HX ->. apply (not_nullable HX). exact (tree_derives Ht).
  Qed.

  (** ** the beginning of a derivation, cut at a non-terminal *)
  Inductive cut : list T -> list (token L T) -> Prop :=
  | cut_here X Xs : non_terminal ps X -> cut (X :: Xs) []
  | cut_in p Xs w : In p ps -> cut (p_output p) w -> cut (p_input p :: Xs) w
  | cut_after X Xs n w w' : tree_for eps ps X n w -> cut Xs w' -> cut (X :: Xs) (w ++ w').

  Lemma cut_app_inv Xs Ys w : cut (Xs ++ Ys) w ->
    cut Xs w \/ exists ns w1 w2, w = w1 ++ w2 /\ forest_for eps ps Xs ns w1 /\ cut Ys w2.
  Proof.
    revert w. induction Xs as [|X Xs IH]; intros w H; simpl in H.
    - right. exists [], [], w. split; auto. split; [constructor|auto].
    - inversion H as [X' Xs' HX|p Xs' w' Hp Hc|X' Xs' n w' w'' Ht Hc]; subst.
      + left. now constructor.
      + left. now constructor.
      + apply IH in Hc as [Hc|(ns & w1 & w2 & -> & Hf & Hc)].
        * left. econstructor; eauto.
        * right. exists (n :: ns), (w' ++ w1), w2. split; [now rewrite app_assoc|]. split; [now constructor|auto].
  Qed.

  Lemma cut_step Xs Ys : derive1 eps ps Xs Ys -> forall w, cut Ys w -> cut Xs w.
  Proof.
    intros H w. destruct H as [u v p Hp|u v]; revert w.
    - induction u as [|Y u IH]; intros w H; simpl in *.
      + apply cut_app_inv in H as [H|(ns & w1 & w2 & -> & Hf & Hc)].
        * now constructor.
        * eapply cut_after; [|exact Hc]. econstructor; eauto.
      + inversion H as [X' Xs' HX|q Xs' w' Hq Hc|X' Xs' n w' w'' Ht Hc]; subst.
        * now constructor.
        * now constructor.
        * econstructor; eauto.
    - induction u as [|Y u IH]; intros w H; simpl in *.
      + change w with ([] ++ w). eapply cut_after; [|exact H]. constructor.
      + inversion H as [X' Xs' HX|q Xs' w' Hq Hc|X' Xs' n w' w'' Ht Hc]; subst.
        * now constructor.
        * now constructor.
        * econstructor; eauto.
  Qed.

  Lemma derives_cut Xs Z : derives Xs Z -> forall w A v, Z = types w ++ A :: v -> Forall real w ->
    non_terminal ps A -> cut Xs w.
  Proof.
    induction 1 as [Z|Xs Ys Z H1 _ IH]; intros w A v -> Hw HA.
    - induction Hw as [|t w [H1 H2] Hw IH]; simpl; [now constructor|].
      change (t :: w) with ([t] ++ w). eapply cut_after; [|exact IH]. now constructor.
    - eapply cut_step; eauto.
  Qed.

  Lemma cut_derives Xs w : cut Xs w -> exists v, derives Xs (types w ++ v).
  Proof.
    induction 1 as [X Xs _|p Xs w Hp _ [v IH]|X Xs n w w' Ht _ [v IH]].
    - exists (X :: Xs). apply derives_refl.
    - exists (v ++ Xs). rewrite app_assoc. apply (@derives_app _ eps ps [p_input p] _ Xs Xs); [|apply derives_refl].
      eapply derives_trans; [exact (derives_production eps _ _ Hp)|exact IH].
    - exists v. rewrite map_app, <- app_assoc. apply (@derives_app _ eps ps [X] _ Xs _); auto. exact (tree_derives Ht).
  Qed.

  Lemma cut_real Xs w : cut Xs w -> Forall real w.
  Proof.
    induction 1; auto. apply Forall_app. split; auto. exact (proj1 (@tree_leaves_all L T eps ps) _ _ _ H).
  Qed.

  (** ** the parse *)
  Variable tokens : list (token L T).
  Variable cands : T -> T -> list (list T).
  Hypothesis Hcell : forall p a, In p ps -> can_start eps ps (p_output p) a -> cands (p_input p) a = [p_output p].

  Notation choose := (choose eps ps tokens cands).
  Notation sequence := (sequence eps ps tokens cands).
  Notation sequence_past := (sequence_past eps ps tokens cands).

  Lemma skipn_next p (t : token L T) w : skipn p tokens = t :: w ->
    nth_error tokens p = Some t /\ skipn (p + 1) tokens = w.
  Proof.
    revert p. induction tokens as [|x l IH]; intros p H; [destruct p; discriminate|].
    destruct p; simpl in *; [now inversion H|auto].
  Qed.

  Lemma skipn_after p (w v : list (token L T)) : skipn p tokens = w ++ v -> skipn (p + length w) tokens = v.
  Proof.
    revert p. induction w as [|t w IH]; intros p H; simpl in *; [now rewrite Nat.add_0_r|].
    apply skipn_next in H as [_ H]. apply IH in H. rewrite <- H. f_equal. lia.
  Qed.

  Lemma starts Xs (t : token L T) w v : derives Xs (types (t :: w) ++ v) -> real t -> can_start eps ps Xs (tok_type t).
  Proof. intros H [H1 H2]. split; auto. split; auto. exists (types w ++ v). exact H. Qed.

  Lemma trees_chosen :
    (forall X n w, tree_for eps ps X n w -> forall p v, skipn p tokens = w ++ v -> X <> eps ->
       (exists t, n = Node [] t /\ tok_type t = X /\ w = [t] /\ real t) \/
       (non_terminal ps X /\ exists t w', w = t :: w' /\
          choose X p (cands X (tok_type t)) (Some (n, p + length w, [])))) /\
    (forall Xs ns w, forest_for eps ps Xs ns w -> forall p v, skipn p tokens = w ++ v -> ~ In eps Xs ->
       sequence Xs p (Some (ns, p + length w))).
  Proof.
    apply tree_forest_ind.
    - intros tok He Hn p v _ _. left. exists tok. auto.
    - intros p v _ H. congruence.
    - intros pr children w Hp Hf IH p v Hs _. right. split; [exists pr; auto|].
      assert (Ht : tree_for eps ps (p_input pr) (Node children (Token None (p_input pr))) w) by now constructor.
      destruct (Hok pr Hp) as (Hne & _ & _).
      destruct w as [|t w']; [elim (tree_symbol Ht Hne); reflexivity|]. exists t, w'. split; auto.
      rewrite (Hcell pr (a := tok_type t)); auto.
      + apply choose_first. eapply IH; eauto.
      + apply starts with (w := w') (v := []).
        * rewrite app_nil_r. apply (proj2 (@tree_derives_all L T eps ps) _ _ _ Hf).
        * pose proof (proj2 (@tree_leaves_all L T eps ps) _ _ _ Hf) as Hl. now inversion Hl.
    - intros p v _ _. simpl. rewrite Nat.add_0_r. constructor.
    - intros X Xs n ns w ws Ht IHt Hf IHf p v Hs He. simpl in He. rewrite <- app_assoc in Hs.
      assert (HX : X <> eps) by (intros ->; tauto).
      pose proof (skipn_after _ _ _ Hs) as Hs'.
      assert (Hrest : sequence Xs (p + length w) (Some (ns, p + length w + length ws))) by (eapply IHf; eauto).
      rewrite app_length, Nat.add_assoc.
      destruct (IHt p _ Hs HX) as [(t & -> & <- & -> & H1 & H2)|(HN & t & w' & -> & Hc)].
      + apply skipn_next in Hs as [Hn _].
        exact (@sequence_token _ _ eps ps tokens cands Xs p t _ H2 H1 Hn Hrest).
      + destruct (skipn_next _ Hs) as [Hn _]. eapply sequence_non_terminal; eauto. eapply branch_ok; eauto.
  Qed.

  Lemma cut_past Xs w : cut Xs w -> forall p, skipn p tokens = w -> ~ In eps Xs -> sequence_past Xs p.
  Proof.
    induction 1 as [X Xs HX|pr Xs w Hp Hc IH|X Xs n w w' Ht Hc IH]; intros p Hs He.
    - apply sequence_past_end; auto. apply nth_error_None.
      assert (Hl : length (skipn p tokens) = 0) by now rewrite Hs. rewrite skipn_length in Hl. lia.
    - destruct w as [|t w].
      + apply sequence_past_end; [exists pr; auto|]. apply nth_error_None.
        assert (Hl : length (skipn p tokens) = 0) by now rewrite Hs. rewrite skipn_length in Hl. lia.
      + destruct (skipn_next _ Hs) as [Hn _].
        eapply sequence_past_non_terminal; [exists pr; auto|exact Hn|]. rewrite (Hcell pr); auto.
        * apply branch_past_here, choose_past_first. apply IH; auto.
        * destruct (cut_derives Hc) as [v Hv]. eapply starts; [exact Hv|].
          pose proof (cut_real Hc) as Hr. now inversion Hr.
    - simpl in He. assert (HX : X <> eps) by (intros ->; tauto). pose proof (skipn_after _ _ _ Hs) as Hs'.
      assert (Hrest : sequence_past Xs (p + length w)) by (apply IH; auto).
      destruct (proj1 trees_chosen _ _ _ Ht p _ Hs HX) as [(t & -> & <- & -> & H1 & H2)|(HN & t & w1 & -> & Hch)].
      + apply skipn_next in Hs as [Hn _]. now apply sequence_past_token.
      + destruct (skipn_next _ Hs) as [Hn _]. eapply sequence_past_non_terminal; eauto. eapply branch_past_after; eauto.
  Qed.
End EpsFree.
