(** * Where the parts of a tree were chosen, and why a sentence can be lost (proofs) *)

From Verif Require Import BaseFacts GrammarFacts DerivFacts FollowFacts TransitionsFacts MoreFacts.
From Verif Require Export StartSpec StartFacts EndingFacts.

Set Implicit Arguments.

Section Shape.
  Context {L T : Type}.
  Variable eps : T.
  Variable ps : list (production T).

  Lemma tree_root X (n : node L T) w : tree_for eps ps X n w -> tok_type (node_token n) = X.
  Proof. now destruct 1. Qed.

  (** the nodes of a forest tell the symbols *)
  Lemma forest_shape Xs (ns : list (node L T)) w : forest_for eps ps Xs ns w ->
    Xs = map (fun n => tok_type (node_token n)) ns.
  Proof.
    induction 1 as [|X Xs n ns w ws Ht _ IH]; simpl; auto. now rewrite IH, (tree_root Ht).
  Qed.
End Shape.

Section Context.
  Context {L T : Type} {E : EqDec T}.
  Variable eps : T.
  Variable ps : list (production T).
  Hypothesis Hok : productions_ok eps ps.
  Notation part_of := (part_of (L := L) eps).
  Notation tokens_of := (tokens_of (L := L) eps).

  Definition part_in (k : nat) (m : node L T) (ns : list (node L T)) : Prop :=
    exists before c after k', ns = before ++ c :: after /\ part_of c k' m /\
      k = list_sum (map tokens_of before) + k'.

  Lemma part_in_app k m ns1 ns2 : part_in k m (ns1 ++ ns2) <->
    part_in k m ns1 \/ exists k', part_in k' m ns2 /\ k = list_sum (map tokens_of ns1) + k'.
  Proof.
    split.
    - intros (before & c & after & k' & Heq & Hp & ->).
      revert ns1 Heq. induction before as [|y before IH]; intros [|x ns1] Heq; simpl in Heq.
      + right. exists k'. subst ns2. split; [|auto]. exists [], c, after, k'. auto.
      + injection Heq as <- <-. left. exists [], x, ns1, k'. auto.
      + right. eexists. split; [|reflexivity]. subst ns2. exists (y :: before), c, after, k'. auto.
      + injection Heq as <- Heq. destruct (IH ns1 Heq) as [(b' & c' & a' & k2 & -> & Hp' & Hk)|(k2 & H2 & Hk)].
        * left. exists (x :: b'), c', a', k2. split; auto. split; auto. simpl in *. unfold list_sum in *. lia.
        * right. exists k2. split; auto. simpl in *. unfold list_sum in *. lia.
    - intros [(b & c & a & k' & -> & Hp & ->)|(k' & (b & c & a & k2 & -> & Hp & ->) & ->)].
      + exists b, c, (a ++ ns2), k'. rewrite <- app_assoc. auto.
      + exists (ns1 ++ b), c, a, k2. rewrite <- app_assoc. split; auto. split; auto.
        rewrite map_app, list_sum_app. lia.
  Qed.

  Lemma part_in_node k m ns t : ns <> [] -> part_in k m ns -> part_in k m [Node ns t].
  Proof.
    intros Hne (b & c & a & k' & -> & Hp & ->).
    exists [], (Node (b ++ c :: a) t), [], (list_sum (map tokens_of b) + k').
    split; auto. split; [now constructor|reflexivity].
  Qed.

  Lemma forest_nonempty Xs (ns : list (node L T)) w : Xs <> [] -> forest_for eps ps Xs ns w -> ns <> [].
  Proof. intros Hne Hf Hnil. subst ns. inversion Hf; subst. auto. Qed.

  (** a forest for a derived form is part of a forest for the form it derives from *)
  Lemma forest_in_context Xs Ys : derives eps ps Xs Ys -> forall ns w, forest_for (L := L) eps ps Ys ns w ->
    exists ns', forest_for eps ps Xs ns' w /\ forall k m, part_in k m ns -> part_in k m ns'.
  Proof.
    induction 1 as [Xs|Xs Zs Ys Hstep _ IH]; intros ns w Hf; [exists ns; auto|].
    destruct (IH _ _ Hf) as (ns1 & Hf1 & Hp1). clear IH Hf.
    destruct Hstep as [u v p Hp|u v].
    - apply forest_split in Hf1 as (nu & n2 & wu & w2 & -> & -> & Hfu & Hf2).
      apply forest_split in Hf2 as (no & nv & wo & wv & -> & -> & Hfo & Hfv).
      exists (nu ++ Node no (Token None (p_input p)) :: nv). split.
      + apply forest_app; auto. constructor; auto. now constructor.
      + assert (Hne : no <> []) by (eapply forest_nonempty; [exact (proj1 (proj2 (Hok p Hp)))|exact Hfo]).
        intros k m Hk. apply Hp1 in Hk. apply part_in_app in Hk as [Hk|(k1 & Hk & ->)].
        * apply part_in_app. auto.
        * apply part_in_app. right. exists k1. split; auto.
          change (part_in k1 m ([Node no (Token None (p_input p))] ++ nv)).
          apply part_in_app in Hk as [Hk|(k2 & Hk & ->)]; apply part_in_app.
          -- left. now apply part_in_node.
          -- right. exists k2. split; auto. cbn [map]. rewrite (@tokens_of_node L T E eps no _ Hne).
             unfold list_sum at 2. simpl. fold (list_sum (map tokens_of no)). lia.
    - apply forest_split in Hf1 as (nu & nv & wu & wv & -> & -> & Hfu & Hfv).
      exists (nu ++ Node [] (Token None eps) :: nv). split.
      + apply forest_app; auto. change wv with ([] ++ wv). constructor; auto. constructor.
      + intros k m Hk. apply Hp1 in Hk. apply part_in_app in Hk as [Hk|(k1 & Hk & ->)]; apply part_in_app; auto.
        right. exists k1. split; auto.
        change (part_in k1 m ([Node [] (Token None eps)] ++ nv)). apply part_in_app. right. exists k1. split; auto.
        cbn. destruct (eq_dec eps eps); [reflexivity|congruence].
  Qed.

  (** a tree with a given part in a given place *)
  Lemma tree_in_context X Y u v m nu nv (wu wm wv : list (token L T)) :
    derives eps ps [X] (u ++ Y :: v) -> forest_for eps ps u nu wu -> tree_for eps ps Y m wm ->
    forest_for eps ps v nv wv ->
    exists root, tree_for eps ps X root (wu ++ wm ++ wv) /\ part_of root (list_sum (map tokens_of nu)) m.
  Proof.
    intros Hd Hu Hm Hv.
    destruct (forest_in_context Hd (forest_app Hu (@forest_cons L T eps ps Y v m nv wm wv Hm Hv))) as (ns & Hf & Hp).
    inversion Hf as [|? ? root ? w0 ? Ht Hf2 H1 H2 Hw]; subst. inversion Hf2; subst.
    rewrite app_nil_r in Hw. subst w0.
    exists root. split; [rewrite app_nil_r; exact Ht|].
    destruct (Hp (list_sum (map tokens_of nu)) m) as (b & c & a & k' & Heq & Hc & Hk).
    { apply part_in_app. right. exists 0. split; [|lia]. exists [], m, nv, 0. split; auto. split; [constructor|reflexivity]. }
    destruct b as [|? b]; [|destruct b; discriminate]. injection Heq as <- _. change (list_sum (map tokens_of nu) = k') in Hk. rewrite Hk. exact Hc.
  Qed.
End Context.

Section Chosen.
  Context {L T : Type} {E : EqDec T}.
  Variable eps : T.
  Variable ps : list (production T).
  Variable tokens : list (token L T).
  Variable cands : T -> T -> list (list T).
  Hypothesis Heps : ~ non_terminal ps eps.
  Hypothesis Hcands : forall A a out, In out (cands A a) ->
    exists p, In p ps /\ p_input p = A /\ p_output p = out.
  Hypothesis Hout : forall A a out, In out (cands A a) -> out <> [].

  Notation choose := (choose eps ps tokens cands).
  Notation sequence := (sequence eps ps tokens cands).
  Notation branch := (branch eps ps tokens cands).
  Notation tokens_of := (tokens_of (L := L) eps).

  Lemma branch_result X p outs Xs r : branch X p outs Xs r -> forall ns q, r = Some (ns, q) ->
    incl outs (cands X (match nth_error tokens p with Some tok => tok_type tok | None => X end)) ->
    exists n ns' outs' o, incl outs' outs /\ ns = n :: ns' /\
      choose X p outs' (Some (n, p + tokens_of n, o)) /\ sequence Xs (p + tokens_of n) (Some (ns', q)).
  Proof.
    induction 1 as [|X p outs Xs n q outs' ns q' Hc Hs|X p outs Xs n q outs' r Hc Hs _ IH]; intros ns0 q0 Heq Hi;
      [discriminate| |].
    - inversion Heq; subst.
      destruct (proj1 (@parts_all L T E eps ps tokens cands Heps Hout) _ _ _ _ Hc) with (n := n) (q := q) (o := outs')
        as (-> & _); auto.
      { apply Forall_forall. intros o Ho. eapply Hout, Hi, Ho. }
      exists n, ns, outs, outs'. split; [apply incl_refl|auto].
    - assert (Hsub : incl outs' outs).
      { destruct (proj1 (@choice_forests L T eps ps cands tokens Hcands) _ _ _ _ Hc _ _ _ eq_refl)
          as (_ & _ & _ & _ & _ & _ & _ & _ & _ & H). exact H. }
      destruct (IH ns0 q0 Heq) as (n1 & ns1 & o1 & o2 & H1 & -> & H2 & H3); [intros x Hx; auto|].
      exists n1, ns1, o1, o2. split; [intros x Hx; auto|auto].
  Qed.

  (** a node in the result was chosen where it starts, or is a leaf *)
  Definition chosen_at (p : nat) (m : node L T) : Prop :=
    non_terminal ps (tok_type (node_token m)) ->
    exists tok outs o, nth_error tokens p = Some tok /\
      incl outs (cands (tok_type (node_token m)) (tok_type tok)) /\
      choose (tok_type (node_token m)) p outs (Some (m, p + tokens_of m, o)).

  Lemma choose_root X p outs n q o : choose X p outs (Some (n, q, o)) -> tok_type (node_token n) = X.
  Proof.
    intros H. destruct (proj1 (@choice_forests L T eps ps cands tokens Hcands) _ _ _ _ H _ _ _ eq_refl)
      as (o' & ns & w & v & _ & -> & _). reflexivity.
  Qed.

  Lemma sequence_uncons X Xs p ns q : sequence (X :: Xs) p (Some (ns, q)) ->
    exists n ns', ns = n :: ns' /\ sequence Xs (p + tokens_of n) (Some (ns', q)) /\ chosen_at p n /\
      (chosen_at p n -> exists t, n = Node [] t \/ non_terminal ps (tok_type (node_token n))).
  Proof.
    intros H. inversion H as [|? ? r Hs H1 H2 Hr|? ? tok r Hn He Ht Hs H1 H2 Hr| |? ? ? tok r Hn Ht Hb]; subst.
    - destruct r as [[ns' q']|]; inversion Hr; subst. exists (Node [] (Token None eps)), ns'. split; auto.
      assert (Hz : tokens_of (Node [] (Token None eps)) = 0) by (simpl; destruct (eq_dec eps eps); congruence).
      rewrite Hz, Nat.add_0_r. split; auto. split; [intros Hn; contradiction|eauto].
    - destruct r as [[ns' q']|]; inversion Hr; subst. exists (Node [] tok), ns'. split; auto.
      assert (Hz : tokens_of (Node [] tok) = 1) by (simpl; destruct (eq_dec (tok_type tok) eps); congruence).
      rewrite Hz. split; auto. split; [intros Hn'; contradiction|eauto].
    - destruct (branch_result Hb eq_refl) as (n & ns' & outs' & o & Hi & -> & Hc & Hs).
      { rewrite Ht. apply incl_refl. }
      exists n, ns'. split; auto. split; auto. pose proof (choose_root Hc) as HX. split.
      + intros _. exists tok, outs', o. rewrite HX. auto.
      + intros _. exists (Token None X). right. now rewrite HX.
  Qed.

  Lemma sequence_at Xs : forall Ys p ns q, sequence (Xs ++ Ys) p (Some (ns, q)) ->
    exists ns1 ns2, ns = ns1 ++ ns2 /\ length ns1 = length Xs /\
      sequence Ys (p + list_sum (map tokens_of ns1)) (Some (ns2, q)).
  Proof.
    induction Xs as [|X Xs IH]; intros Ys p ns q H; simpl in H.
    - exists [], ns. simpl. rewrite Nat.add_0_r. auto.
    - apply sequence_uncons in H as (n & ns' & -> & H & _).
      destruct (IH _ _ _ _ H) as (ns1 & ns2 & -> & Hl & Hs).
      exists (n :: ns1), ns2. simpl. split; auto. split; auto. simpl in Hs. unfold list_sum in Hs.
      now rewrite Nat.add_assoc.
  Qed.

  Lemma sequence_node : forall before Xs p c after q,
    sequence Xs p (Some (before ++ c :: after, q)) ->
    chosen_at (p + list_sum (map tokens_of before)) c /\
    exists t, c = Node [] t \/ non_terminal ps (tok_type (node_token c)).
  Proof.
    induction before as [|b before IH]; intros Xs p c after q H; simpl in H;
      (destruct Xs as [|X Xs]; [inversion H|]);
      apply sequence_uncons in H as (n & ns' & Heq & H & Hc & Hd); inversion Heq; subst.
    - simpl. rewrite Nat.add_0_r. auto.
    - simpl. rewrite Nat.add_assoc. eapply IH. exact H.
  Qed.

  Lemma part_chosen n k m : part_of eps n k m -> forall p,
    (exists t, n = Node [] t \/ non_terminal ps (tok_type (node_token n))) ->
    chosen_at p n -> chosen_at (p + k) m.
  Proof.
    induction 1 as [n|before c after t k n Hp IH]; intros p Hd Hc; [now rewrite Nat.add_0_r|].
    destruct Hd as [t0 [Heq|Hn]]; [destruct before; discriminate|].
    destruct (Hc Hn) as (tok & outs & o & Ht & Hi & Hch).
    rewrite Nat.add_assoc.
    assert (Hs : exists out q, sequence out p (Some (before ++ c :: after, q))).
    { clear -Hch. remember (Some _) as r eqn:Hr in Hch. induction Hch; inversion Hr; subst; eauto. }
    destruct Hs as (out & q & Hs). apply sequence_node in Hs as (Hc' & Hd'). now apply IH.
  Qed.

  (** ** a candidate that vanishes early is chosen *)
  Lemma vanish_runs :
    (forall X p outs r, choose X p outs r -> forall tok, nth_error tokens p = Some tok ->
       (exists o, In o outs /\ vanishes eps ps cands (tok_type tok) o) ->
       (forall o, In o outs -> ~ can_start eps ps o (tok_type tok)) ->
       exists n o, r = Some (n, p, o)) /\
    (forall Xs p r, sequence Xs p r -> forall tok, nth_error tokens p = Some tok ->
       vanishes eps ps cands (tok_type tok) Xs -> ~ can_start eps ps Xs (tok_type tok) ->
       exists ns, r = Some (ns, p)) /\
    (forall X p outs Xs r, branch X p outs Xs r -> forall tok, nth_error tokens p = Some tok ->
       (exists o, In o outs /\ vanishes eps ps cands (tok_type tok) o) ->
       (forall o, In o outs -> ~ can_start eps ps o (tok_type tok)) ->
       vanishes eps ps cands (tok_type tok) Xs -> ~ can_start eps ps Xs (tok_type tok) ->
       exists ns, r = Some (ns, p)).
  Proof.
    apply choice_mutind.
    - intros X p tok _ (o & [] & _).
    - intros X p out outs ns q Hs _ tok Hn _ Hno.
      destruct (succ_start Hcands Hs Hn) as [Hst|[-> _]]; [now destruct (Hno out (or_introl eq_refl))|eauto].
    - intros X p out outs r _ IH1 _ IH2 tok Hn (o & [->|Ho] & Hv) Hno.
      + destruct (IH1 tok Hn Hv (Hno _ (or_introl eq_refl))) as [ns H]. discriminate.
      + eapply IH2; eauto. intros x Hx. apply Hno. now right.
    - intros p tok _ _ _. eauto.
    - intros Xs p r _ IH tok Hn Hv Hno. inversion Hv as [|? Hv'|X out ? HX _ _ _]; subst; [|contradiction].
      destruct (IH tok Hn Hv') as [ns ->]; [|simpl; eauto].
      intros Hs. apply Hno. apply can_start_cons. right. split; auto. apply derives_eps.
    - intros Xs p tok r Hnt Hne Hn _ _ tok' Hn' Hv _. inversion Hv; subst; contradiction.
    - intros X Xs p Hnt Hne Hm tok Hn Hv _. inversion Hv; subst; contradiction.
    - intros X Xs p tok r Hnt Hn _ IH tok' Hn' Hv Hno. rewrite Hn in Hn'. inversion Hn'; subst tok'.
      inversion Hv as [|? Hv'|X' out ? HX Hin Hv1 Hv2]; subst; [contradiction|].
      apply (IH tok Hn); auto.
      + eauto.
      + intros o Ho Hs. apply Hno. apply can_start_cons. left.
        destruct (Hcands _ _ _ Ho) as (p0 & Hp & <- & <-).
        eapply can_start_derives; [now apply derives_production|exact Hs].
      + intros Hs. apply Hno. apply can_start_cons. right. split; auto.
        destruct (Hcands _ _ _ Hin) as (p0 & Hp & <- & <-).
        eapply derives_trans; [now apply derives_production|]. exact (vanishes_nullable Hcands Hv1).
    - intros X p outs Xs _ IH tok Hn He Hno _ _. destruct (IH tok Hn He Hno) as (n & o & H). discriminate.
    - intros X p outs Xs n q outs' ns q' _ IH1 _ IH2 tok Hn He Hno Hv Hnx.
      destruct (IH1 tok Hn He Hno) as (n' & o & H). inversion H; subst.
      destruct (IH2 tok Hn Hv Hnx) as [ns' H']. inversion H'; subst. eauto.
    - intros X p outs Xs n q outs' r _ IH1 _ IH2 _ _ tok Hn He Hno Hv Hnx.
      destruct (IH1 tok Hn He Hno) as (n' & o & H). inversion H; subst.
      destruct (IH2 tok Hn Hv Hnx) as [ns' H']. discriminate.
  Qed.

  Lemma choose_early X p outs r tok : choose X p outs r -> nth_error tokens p = Some tok ->
    forall l1 out l2, outs = l1 ++ out :: l2 -> vanishes eps ps cands (tok_type tok) out ->
    (forall o, In o (l1 ++ [out]) -> ~ can_start eps ps o (tok_type tok)) ->
    exists o ns w outs', In o (l1 ++ [out]) /\ r = Some (Node ns (Token None X), p, outs') /\
      forest_for eps ps o ns w.
  Proof.
    induction 1 as [|X p o outs ns q Hs|X p o outs r Hs _ IH]; intros Hn l1 out l2 Heq Hv Hno.
    - destruct l1; discriminate.
    - destruct l1 as [|x l1]; inversion Heq; subst.
      + destruct (succ_start Hcands Hs Hn) as [Hst|[-> _]]; [now destruct (Hno out (or_introl eq_refl))|].
        destruct (succ_forest Hcands Hs) as (w & v & Hf & _). exists out, ns, w, l2. repeat split; auto. now left.
      + destruct (succ_start Hcands Hs Hn) as [Hst|[-> _]]; [now destruct (Hno x (or_introl eq_refl))|].
        destruct (succ_forest Hcands Hs) as (w & v & Hf & _).
        exists x, ns, w, (l1 ++ out :: l2). repeat split; auto. now left.
    - destruct l1 as [|x l1]; inversion Heq; subst.
      + destruct (proj1 (proj2 vanish_runs) _ _ _ Hs tok Hn Hv (Hno out (or_introl eq_refl))). discriminate.
      + destruct (IH Hn l1 out l2 eq_refl Hv) as (o & ns & w & outs' & Ho & H & Hf).
        { intros y Hy. apply Hno. now right. }
        exists o, ns, w, outs'. split; [now right|auto].
  Qed.

  (** ... and kept, if what follows vanishes as well *)
  Lemma early_stays X p outs Xs r tok l1 out l2 : branch X p outs Xs r -> nth_error tokens p = Some tok ->
    outs = l1 ++ out :: l2 -> vanishes eps ps cands (tok_type tok) out ->
    (forall o, In o (l1 ++ [out]) -> ~ can_start eps ps o (tok_type tok)) ->
    vanishes eps ps cands (tok_type tok) Xs -> ~ can_start eps ps Xs (tok_type tok) ->
    exists o ns w ns' q, In o (l1 ++ [out]) /\ r = Some (Node ns (Token None X) :: ns', q) /\
      forest_for eps ps o ns w.
  Proof.
    intros Hb Hn Heq Hv Hno Hvx Hnx.
    inversion Hb as [? ? ? ? Hc|? ? ? ? n q outs' ns q' Hc Hs|? ? ? ? n q outs' ? Hc Hs _]; subst;
      destruct (choose_early Hc Hn l1 l2 eq_refl Hv Hno) as (o & ns0 & w & outs1 & Ho & H & Hf); inversion H; subst.
    - exists o, ns0, w, ns, q'. auto.
    - destruct (proj1 (proj2 vanish_runs) _ _ _ Hs tok Hn Hvx Hnx). discriminate.
  Qed.
End Chosen.
