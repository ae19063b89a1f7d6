(** * The tree found first (proofs) *)

From Verif Require Import BaseFacts GrammarFacts DerivFacts.
From Verif Require Export EarlySpec ParserGuided.

Set Implicit Arguments.

Section Order.
  Context {L T : Type}.
  Variable ps : list (production T).

  Lemma app_unique_split {A : Type} (x y : A) : forall l1 l2 m1 m2,
    l1 ++ x :: l2 = m1 ++ y :: m2 -> ~ In y l1 -> x <> y -> In x m1.
  Proof.
    induction l1 as [|a l1 IH]; intros l2 m1 m2 H Hn Hne; destruct m1 as [|b m1]; simpl in *; inversion H; subst.
    - congruence.
    - now left.
    - tauto.
    - right. eapply IH; eauto.
  Qed.

  Lemma declared_before_asym (A : T) out out' : declared_before ps A out out' -> ~ declared_before ps A out' out.
  Proof.
    intros (l1 & l2 & H & Hn & Hne) (m1 & m2 & H' & Hn' & Hne'). rewrite H in H'.
    apply app_unique_split in H'; auto. intros Heq. inversion Heq. congruence.
  Qed.

  Lemma common_split {A : Type} : forall (b1 : list A) c1 a1 b2 c2 a2,
    b1 ++ c1 :: a1 = b2 ++ c2 :: a2 ->
    (exists m, b2 = b1 ++ c1 :: m) \/ (b1 = b2 /\ c1 = c2 /\ a1 = a2) \/ (exists m, b1 = b2 ++ c2 :: m).
  Proof.
    induction b1 as [|x b1 IH]; intros c1 a1 b2 c2 a2 H; destruct b2 as [|y b2]; simpl in *; inversion H; subst.
    - auto.
    - left. eauto.
    - right. right. eauto.
    - destruct (IH _ _ _ _ _ H2) as [[m ->]|[(-> & -> & ->)|[m ->]]]; eauto.
  Qed.

  Lemma earlier_neq (n n' : node L T) : earlier ps n n' -> n <> n'.
  Proof.
    intros H. induction H as [ns ns' t (l1 & l2 & _ & _ & Hne)|before c c' after after' t _ IH _].
    - intros Heq. inversion Heq. subst. congruence.
    - intros Heq. inversion Heq as [Heq']. apply app_inv_head in Heq'. inversion Heq'. auto.
  Qed.

  Lemma earlier_asym (n n' : node L T) : earlier ps n n' -> ~ earlier ps n' n.
  Proof.
    intros H. induction H as [ns ns' t Hd|before c c' after after' t Hc IH Hs]; intros H'.
    - inversion H' as [m m' t' Hd' Hx Hy|before c c' after after' t' Hc Hs Hx Hy]; subst.
      + exact (declared_before_asym Hd Hd').
      + destruct Hd as (l1 & l2 & _ & _ & Hne). apply Hne. unfold symbols. rewrite !map_app.
        f_equal. exact Hs.
    - inversion H' as [m m' t' Hd' Hx Hy|b2 d d' a2 a2' t' Hc' Hs' Hx Hy]; subst.
      + destruct Hd' as (l1 & l2 & _ & _ & Hne). apply Hne. unfold symbols. rewrite !map_app.
        f_equal. exact Hs.
      + (* before ++ c' :: after' = b2 ++ d :: a2, before ++ c :: after = b2 ++ d' :: a2' *)
        pose proof (earlier_neq Hc) as Hne. pose proof (earlier_neq Hc') as Hne'.
        destruct (common_split _ _ _ _ _ _ Hx) as [[m ->]|[(-> & -> & ->)|[m ->]]].
        * rewrite <- app_assoc in Hy. apply app_inv_head in Hy. simpl in Hy. inversion Hy. congruence.
        * apply app_inv_head in Hy. inversion Hy; subst. contradiction.
        * rewrite <- app_assoc in Hy. apply app_inv_head in Hy. simpl in Hy. inversion Hy. congruence.
  Qed.

  Lemma declared_before_trans (A : T) o1 o2 o3 :
    declared_before ps A o1 o2 -> declared_before ps A o2 o3 -> declared_before ps A o1 o3.
  Proof.
    intros (l1 & l2 & H & Hn & Hne) (m1 & m2 & H' & Hn' & Hne'). exists l1, l2. split; auto.
    assert (Hx : In (Production A o1) m1).
    { rewrite H in H'. eapply app_unique_split; eauto. congruence. }
    split.
    - intros Hin. destruct (common_split l1 (Production A o1) l2 m1 (Production A o2) m2) as [[m ->]|[(-> & Heq & ->)|[m ->]]].
      + congruence.
      + apply Hn'. apply in_or_app. auto.
      + inversion Heq. congruence.
      + apply Hn. apply in_or_app. right. now left.
    - intros ->. rewrite H in H'. apply in_split in Hx as (x & y & ->).
      apply Hn'. apply in_or_app. right. now left.
  Qed.
End Order.

Section Early.
  Context {L T : Type} {E : EqDec T}.
  Variable eps : T.
  Variable ps : list (production T).
  Variable tokens : list (token L T).
  Variable cands : T -> T -> list (list T).
  Hypothesis Heps : ~ non_terminal ps eps.
  Hypothesis Hcands : forall A a out, In out (cands A a) ->
    exists p, In p ps /\ p_input p = A /\ p_output p = out.
  Hypothesis Hdet : determined_extents eps ps tokens cands.
  Hypothesis Hord : forall A a b out c out', cands A a = b ++ out :: c -> In out' (cands A a) ->
    ~ In out' b -> out' <> out -> declared_before ps A out out'.

  Notation choose := (choose eps ps tokens cands).
  Notation sequence := (sequence eps ps tokens cands).
  Notation branch := (branch eps ps tokens cands).
  Notation guided := (guided eps ps tokens cands).
  Notation gforest := (guided_forest eps ps tokens cands).

  Definition earlier_list (ns ns' : list (node L T)) : Prop :=
    exists before c c' after after', ns = before ++ c :: after /\ ns' = before ++ c' :: after' /\
      earlier ps c c' /\ symbols (c :: after) = symbols (c' :: after').

  Lemma earlier_list_node ns ns' t : earlier_list ns ns' -> earlier ps (Node ns t) (Node ns' t).
  Proof. intros (b & c & c' & a & a' & -> & -> & Hc & Hs). now constructor. Qed.

  Lemma earlier_list_cons n ns ns' : earlier_list ns ns' -> earlier_list (n :: ns) (n :: ns').
  Proof. intros (b & c & c' & a & a' & -> & -> & Hc & Hs). exists (n :: b), c, c', a, a'. auto. Qed.

  Lemma guided_symbol X p n q : guided X p n q -> tok_type (node_token n) = X.
  Proof. intros H. inversion H; reflexivity. Qed.

  Lemma gforest_symbols Xs : forall p ns q, gforest Xs p ns q -> symbols ns = Xs.
  Proof.
    induction Xs as [|X Xs IH]; intros p ns q H; inversion H; subst; auto. simpl. f_equal.
    - eapply guided_symbol; eauto.
    - eapply IH; eauto.
  Qed.

  Lemma gforest_cons_inv X Xs p ns q : gforest (X :: Xs) p ns q ->
    exists n q1 ns', ns = n :: ns' /\ guided X p n q1 /\ gforest Xs q1 ns' q.
  Proof. intros H. inversion H; subst. eauto 10. Qed.

  Lemma guided_end :
    (forall X p n q, guided X p n q -> forall q', guided X p n q' -> q = q') /\
    (forall Xs p ns q, gforest Xs p ns q -> forall q', gforest Xs p ns q' -> q = q').
  Proof.
    apply guided_mutind.
    - intros tok p Hne Hnt Hn q' H. inversion H; subst; auto; contradiction.
    - intros p q' H. inversion H; subst; auto; contradiction.
    - intros A p tok out ns q HA Hn Hin Hf IH q' H. inversion H as [| |A' p' tok' out' ns' q'' HA' Hn' Hin' Hf']; subst; try contradiction.
      apply IH. rewrite <- (gforest_symbols Hf) at 1. rewrite (gforest_symbols Hf'). exact Hf'.
    - intros p q' H. inversion H; auto.
    - intros X Xs p n q ns q' _ IH1 _ IH2 q2 H.
      apply gforest_cons_inv in H as (n' & q1 & ns' & Heq & Hg1 & Hg2). inversion Heq; subst n' ns'.
      rewrite <- (IH1 _ Hg1) in Hg2. auto.
  Qed.

  Lemma early_all :
    (forall X p outs r, choose X p outs r -> forall tok, nth_error tokens p = Some tok ->
       (forall out, In out outs -> In out (cands X (tok_type tok))) ->
       forall n q outs', r = Some (n, q, outs') -> exists before out ns,
           outs = before ++ out :: outs' /\ n = Node ns (Token None X) /\ gforest out p ns q /\
           (forall out' ns' q', In out' before -> ~ gforest out' p ns' q') /\
           forall ns' q', gforest out p ns' q' -> ns' = ns \/ earlier_list ns ns') /\
    (forall Xs p r, sequence Xs p r -> suffix_ok ps Xs -> forall ns q, r = Some (ns, q) ->
       forall ns' q', gforest Xs p ns' q' -> ns' = ns \/ earlier_list ns ns') /\
    (forall X p outs Xs r, branch X p outs Xs r -> forall tok, nth_error tokens p = Some tok ->
       non_terminal ps X -> suffix_ok ps (X :: Xs) -> forall pre, cands X (tok_type tok) = pre ++ outs ->
       (forall out ns1 q1 ns2 q2, In out pre -> gforest out p ns1 q1 -> ~ gforest Xs q1 ns2 q2) ->
       forall ns q, r = Some (ns, q) ->
       forall ns' q', gforest (X :: Xs) p ns' q' -> ns' = ns \/ earlier_list ns ns').
  Proof.
    pose proof (choice_guided Heps Hcands Hdet) as (Gc & Gs & Gb).
    apply choice_mutind.
    - intros; discriminate.
    - intros X p out outs ns q Hs IH tok Hn Ho n q0 outs' Heq. inversion Heq; subst.
      assert (Hsuf : suffix_ok ps out).
      { destruct (Hcands X (tok_type tok) out) as (pr & Hp & _ & Hout); [apply Ho; now left|]. exists pr, []. auto. }
      exists [], out, ns. repeat split; auto.
      + exact (Gs _ _ _ Hs Hsuf).
      + intros ns' q' Hg. eapply IH; eauto.
    - intros X p out outs r Hs _ _ IH2 tok Hn Ho n q outs' ->.
      assert (Hsuf : suffix_ok ps out).
      { destruct (Hcands X (tok_type tok) out) as (pr & Hp & _ & Hout); [apply Ho; now left|]. exists pr, []. auto. }
      destruct (IH2 tok Hn (fun o Hin => Ho o (or_intror Hin)) n q outs' eq_refl) as (before & o & ns & -> & Hnode & Hg & Hb & Hm).
      exists (out :: before), o, ns. repeat split; auto.
      intros o' ns' q' [<-|Hin]; [exact (Gs _ _ _ Hs Hsuf ns' q')|eauto].
    - intros p _ ns q Heq ns' q' Hg. inversion Heq; subst. inversion Hg; auto.
    - intros Xs p r _ IH Hs ns q Heq ns' q' Hg. destruct r as [[ns0 q0]|]; inversion Heq; subst.
      apply gforest_cons_inv in Hg as (n & q1 & ns2 & -> & Hg1 & Hg2).
      inversion Hg1; subst; try contradiction; try congruence.
      destruct (IH (suffix_tail Hs) ns0 q eq_refl _ _ Hg2) as [-> |He]; auto. right. now apply earlier_list_cons.
    - intros Xs p tok r Hnt Hne Hn _ IH Hs ns q Heq ns' q' Hg. destruct r as [[ns0 q0]|]; inversion Heq; subst.
      apply gforest_cons_inv in Hg as (n & q1 & ns2 & -> & Hg1 & Hg2).
      inversion Hg1; subst; try contradiction; try congruence.
      assert (tok0 = tok) by congruence. subst tok0.
      destruct (IH (suffix_tail Hs) ns0 q eq_refl _ _ Hg2) as [-> |He]; auto. right. now apply earlier_list_cons.
    - intros; discriminate.
    - intros X Xs p tok r Hnt Hn _ IH Hs ns q -> ns' q' Hg.
      apply (IH tok Hn Hnt Hs [] eq_refl) with (q := q) (q' := q'); auto.
    - intros; discriminate.
    - intros X p outs Xs n q outs' ns q' Hc IH1 Hseq IH2 tok Hn Hnt Hs pre Hpre Hno ns0 q0 Heq ns' q2 Hg.
      inversion Heq; subst ns0 q0.
      assert (Ho : forall out, In out outs -> In out (cands X (tok_type tok))).
      { intros o Hin. rewrite Hpre. apply in_or_app. auto. }
      destruct (IH1 tok Hn Ho n q outs' eq_refl) as (before & out & ns1 & Houts & -> & Hg1 & Hb & Hm).
      apply gforest_cons_inv in Hg as (n' & q1 & ns2 & -> & Hgn & Hg2).
      inversion Hgn as [? ? ? Hx|? Hx|A p' tok' out' ns1' q1' HA Hn' Hin' Hf']; subst; try contradiction.
      rewrite Hn in Hn'. inversion Hn'; subst tok'.
      destruct (list_eq_dec eq_dec out' out) as [-> |Hne].
      + destruct (Hm _ _ Hf') as [-> |He].
        * assert (q1 = q) by (eapply (proj2 guided_end); eauto). subst q1.
          destruct (IH2 (suffix_tail Hs) ns q' eq_refl _ _ Hg2) as [-> |He]; auto. right. now apply earlier_list_cons.
        * right. exists [], (Node ns1 (Token None X)), (Node ns1' (Token None X)), ns, ns2. split; auto. split; auto.
          split; [now apply earlier_list_node|]. simpl. f_equal.
          rewrite (gforest_symbols Hg2). apply (gforest_symbols (Gs _ _ _ Hseq (suffix_tail Hs))).
      + right. exists [], (Node ns1 (Token None X)), (Node ns1' (Token None X)), ns, ns2. split; auto. split; auto. split.
        * apply earlier_production. simpl. rewrite (gforest_symbols Hf'), (gforest_symbols Hg1).
          apply (@Hord X (tok_type tok) (pre ++ before) out outs' out'); auto.
          -- rewrite Hpre. now rewrite <- app_assoc.
          -- intros Hin. apply in_app_or in Hin as [Hin|Hin]; [eapply Hno; eauto|eapply Hb; eauto].
        * simpl. f_equal. rewrite (gforest_symbols Hg2). apply (gforest_symbols (Gs _ _ _ Hseq (suffix_tail Hs))).
    - intros X p outs Xs n q outs' r Hc IH1 Hseq IH2 _ IH3 tok Hn Hnt Hs pre Hpre Hno ns q0 -> ns' q' Hg.
      assert (Ho : forall out, In out outs -> In out (cands X (tok_type tok))).
      { intros o Hin. rewrite Hpre. apply in_or_app. auto. }
      destruct (IH1 tok Hn Ho n q outs' eq_refl) as (before & out & ns1 & Houts & -> & Hg1 & Hb & Hm).
      apply (IH3 tok Hn Hnt Hs (pre ++ before ++ [out])) with (q := q0) (q' := q'); auto.
      + rewrite Hpre, Houts. rewrite <- !app_assoc. reflexivity.
      + intros o ns2 q2 ns3 q3 Hin Hf Hr. apply in_app_or in Hin as [Hin|Hin]; [eapply Hno; eauto|].
        apply in_app_or in Hin as [Hin|[<-|[]]]; [eapply Hb; eauto|].
        assert (Hin0 : In out outs) by (rewrite Houts; apply in_or_app; right; now left).
        assert (Hrs : has_right_sibling ps X).
        { destruct Xs as [|Y Ys]; [inversion Hseq|].
          destruct Hs as (pr & u & Hp & Hout). exists pr, u, Y, Ys. auto. }
        rewrite (Hdet Hrs Hn (Ho _ Hin0) Hf Hg1) in Hr.
        exact (Gs _ _ _ Hseq (suffix_tail Hs) _ _ Hr).
  Qed.
End Early.
