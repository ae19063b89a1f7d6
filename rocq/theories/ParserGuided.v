(** * Guided trees and ordered choice (proofs) *)

From Verif Require Import BaseFacts GrammarFacts DerivFacts FollowFacts TransitionsFacts.
From Verif Require Export GuidedSpec ChoiceSpec ParserChoice ParserComplete.

Set Implicit Arguments.

Scheme guided_mind := Minimality for guided Sort Prop
  with guided_forest_mind := Minimality for guided_forest Sort Prop.
Combined Scheme guided_mutind from guided_mind, guided_forest_mind.

Section Guided.
  Context {L T : Type}.
  Variable eps : T.
  Variable ps : list (production T).
  Variable tokens : list (token L T).
  Variable cands : T -> T -> list (list T).
  Hypothesis Heps : ~ non_terminal ps eps.
  Hypothesis Hcands : forall A a out, In out (cands A a) ->
    exists p, In p ps /\ p_input p = A /\ p_output p = out.
  Hypothesis Hdet : determined_extents eps ps tokens cands.

  Notation choose := (choose eps ps tokens cands).
  Notation sequence := (sequence eps ps tokens cands).
  Notation branch := (branch eps ps tokens cands).
  Notation guided := (guided eps ps tokens cands).
  Notation gforest := (guided_forest eps ps tokens cands).

  (** [Xs] ends some production *)
  Definition suffix_ok (Xs : list T) : Prop := exists p u, In p ps /\ p_output p = u ++ Xs.

  Lemma suffix_tail X Xs : suffix_ok (X :: Xs) -> suffix_ok Xs.
  Proof.
    intros (p & u & Hp & Ho). exists p, (u ++ [X]). split; auto. now rewrite <- app_assoc.
  Qed.

  Lemma choice_guided :
    (forall X p outs r, choose X p outs r -> forall tok, nth_error tokens p = Some tok ->
       (forall out, In out outs -> In out (cands X (tok_type tok))) ->
       match r with
       | None => forall out ns q, In out outs -> ~ gforest out p ns q
       | Some (n, q, outs') => exists before out ns,
           outs = before ++ out :: outs' /\ n = Node ns (Token None X) /\ gforest out p ns q /\
           forall out' ns' q', In out' before -> ~ gforest out' p ns' q'
       end) /\
    (forall Xs p r, sequence Xs p r -> suffix_ok Xs ->
       match r with
       | None => forall ns q, ~ gforest Xs p ns q
       | Some (ns, q) => gforest Xs p ns q
       end) /\
    (forall X p outs Xs r, branch X p outs Xs r -> forall tok, nth_error tokens p = Some tok ->
       non_terminal ps X -> suffix_ok (X :: Xs) ->
       (forall out, In out outs -> In out (cands X (tok_type tok))) ->
       match r with
       | None => forall out ns1 q1 ns2 q2, In out outs -> gforest out p ns1 q1 -> ~ gforest Xs q1 ns2 q2
       | Some (ns, q) => gforest (X :: Xs) p ns q
       end).
  Proof.
    apply choice_mutind.
    - intros X p tok _ _ out ns q [].
    - intros X p out outs ns q _ IH tok Hn Ho. exists [], out, ns. repeat split; auto.
      apply IH. destruct (Hcands X (tok_type tok) out) as (pr & Hp & _ & Hout); [apply Ho; now left|].
      exists pr, []. auto.
    - intros X p out outs r _ IH1 _ IH2 tok Hn Ho.
      assert (Hs : suffix_ok out).
      { destruct (Hcands X (tok_type tok) out) as (pr & Hp & _ & Hout); [apply Ho; now left|].
        exists pr, []. auto. }
      specialize (IH1 Hs).
      specialize (IH2 tok Hn (fun o Hin => Ho o (or_intror Hin))).
      destruct r as [[[n q] outs']|].
      + destruct IH2 as (before & o & ns & -> & Hnode & Hg & Hb).
        exists (out :: before), o, ns. repeat split; auto.
        intros o' ns' q' [<-|Hin]; eauto.
      + intros o ns q [<-|Hin]; eauto.
    - intros p _. constructor.
    - intros Xs p r _ IH Hs. apply suffix_tail in Hs. specialize (IH Hs).
      destruct r as [[ns q]|]; simpl.
      + econstructor; [constructor|exact IH].
      + intros ns q Hg. inversion Hg as [|? ? ? n q1 ns' q' Hg1 Hg2]; subst.
        inversion Hg1; subst; try contradiction; try congruence; eapply IH; eauto.
    - intros Xs p tok r Hnt Hne Hn _ IH Hs. apply suffix_tail in Hs. specialize (IH Hs).
      destruct r as [[ns q]|]; simpl.
      + econstructor; [constructor; auto|exact IH].
      + intros ns q Hg. inversion Hg as [|? ? ? n q1 ns' q' Hg1 Hg2]; subst.
        inversion Hg1; subst; try contradiction; try congruence; eapply IH; eauto.
    - intros X Xs p Hnt Hne Hm _ ns q Hg. inversion Hg as [|? ? ? n q1 ns' q' Hg1 Hg2]; subst.
      inversion Hg1; subst; try contradiction; try congruence; eapply Hm; eauto.
    - intros X Xs p tok r Hnt Hn _ IH Hs. specialize (IH tok Hn Hnt Hs (fun o H => H)).
      destruct r as [[ns q]|]; auto.
      intros ns q Hg. inversion Hg as [|? ? ? n q1 ns' q' Hg1 Hg2]; subst.
      inversion Hg1 as [| |? ? tok' out ns1 ? HA Hn' Hin Hf]; subst; try contradiction.
      rewrite Hn in Hn'. inversion Hn'; subst tok'. eapply IH; eauto.
    - intros X p outs Xs _ IH tok Hn Hnt Hs Ho out ns1 q1 ns2 q2 Hin Hf _.
      exact (IH tok Hn Ho _ _ _ Hin Hf).
    - intros X p outs Xs n q outs' ns q' _ IH1 _ IH2 tok Hn Hnt Hs Ho.
      destruct (IH1 tok Hn Ho) as (before & out & ns1 & Heq & -> & Hg & _).
      econstructor; [|apply IH2; eapply suffix_tail; eauto].
      econstructor; eauto. apply Ho. rewrite Heq. apply in_or_app. right. now left.
    - intros X p outs Xs n q outs' r _ IH1 Hseq IH2 _ IH3 tok Hn Hnt Hs Ho.
      destruct (IH1 tok Hn Ho) as (before & out & ns1 & Heq & _ & Hg & Hb).
      specialize (IH2 (suffix_tail Hs)).
      assert (Hin0 : In out outs) by (rewrite Heq; apply in_or_app; right; now left).
      assert (Ho' : forall o, In o outs' -> In o (cands X (tok_type tok))).
      { intros o Hin. apply Ho. rewrite Heq. apply in_or_app. right. now right. }
      specialize (IH3 tok Hn Hnt Hs Ho'). destruct r as [[ns q']|]; auto.
      intros o ns2 q2 ns3 q3 Hin Hf Hr.
      rewrite Heq in Hin. apply in_app_or in Hin as [Hin|[<-|Hin]].
      + exact (Hb _ _ _ Hin Hf).
      + assert (Hrs : has_right_sibling ps X).
        { destruct Xs as [|Y Ys]; [inversion Hseq|].
          destruct Hs as (pr & u & Hp & Hout). exists pr, u, Y, Ys. auto. }
        rewrite (Hdet Hrs Hn (Ho _ Hin0) Hf Hg) in Hr. eapply IH2; eauto.
      + eapply IH3; eauto.
  Qed.
End Guided.

(** guided trees are parse trees over the tokens they cover *)
Section GuidedTrees.
  Context {L T : Type}.
  Variable eps : T.
  Variable ps : list (production T).
  Variable tokens : list (token L T).
  Variable cands : T -> T -> list (list T).
  Hypothesis Hcands : forall A a out, In out (cands A a) ->
    exists p, In p ps /\ p_input p = A /\ p_output p = out.

  Lemma nth_skipn (A : Type) (l : list A) n x : nth_error l n = Some x -> skipn n l = x :: skipn (S n) l.
  Proof.
    revert n. induction l as [|y l IH]; intros [|n] H; simpl in *; try discriminate.
    - now inversion H.
    - now apply IH.
  Qed.

  Lemma skipn_app_len (A : Type) (l w v : list A) n :
    skipn n l = w ++ v -> skipn (n + length w) l = v.
  Proof.
    revert n l. induction w as [|x w IH]; intros n l H; simpl in *.
    - now rewrite Nat.add_0_r.
    - rewrite Nat.add_succ_r. specialize (IH (S n) l). simpl in IH. apply IH.
      clear IH. revert n H. induction l as [|y l IHl]; intros n H; simpl in *.
      + destruct n; discriminate.
      + destruct n; simpl in H; [now inversion H|]. apply IHl. exact H.
  Qed.

  Lemma guided_trees :
    (forall X p n q, guided eps ps tokens cands X p n q ->
       exists w v, tree_for eps ps X n w /\ q = p + length w /\ skipn p tokens = w ++ v) /\
    (forall Xs p ns q, guided_forest eps ps tokens cands Xs p ns q ->
       exists w v, forest_for eps ps Xs ns w /\ q = p + length w /\ skipn p tokens = w ++ v).
  Proof.
    apply guided_mutind.
    - intros tok p He Hn Hnth. exists [tok], (skipn (S p) tokens).
      split; [now constructor|]. split; auto. now apply nth_skipn.
    - intros p. exists [], (skipn p tokens). split; [constructor|]. split; auto.
    - intros A p tok out ns q HA Hn Hin _ (w & v & Hf & Hq & Hs).
      destruct (Hcands _ _ _ Hin) as (pr & Hp & <- & <-).
      exists w, v. split; auto. now constructor.
    - intros p. exists [], (skipn p tokens). split; [constructor|]. split; auto.
    - intros X Xs p n q ns q' _ (w & v & Ht & Hq & Hs) _ (w' & v' & Hf & Hq' & Hs').
      exists (w ++ w'), v'. split; [now constructor|]. rewrite app_length. split; [lia|].
      subst q. rewrite (skipn_app_len _ _ _ _ Hs) in Hs'. now rewrite Hs, Hs', app_assoc.
  Qed.

  (** prefix-free productions have determined extents, on every input *)
  Lemma prefix_free_determined : prefix_free_productions eps ps ->
    determined_extents eps ps tokens cands.
  Proof.
    intros Hpf A p tok out ns q ns' q' Hrs Hn Hin H1 H2.
    destruct (Hcands _ _ _ Hin) as (pr & Hp & <- & <-).
    apply guided_trees in H1 as (w & v & Hf & -> & Hs).
    apply guided_trees in H2 as (w' & v' & Hf' & -> & Hs').
    rewrite Hs in Hs'.
    pose proof (proj2 (tree_leaves_all eps ps) _ _ _ Hf) as Hl.
    pose proof (proj2 (tree_leaves_all eps ps) _ _ _ Hf') as Hl'.
    pose proof (proj1 (proj2 (tree_derives_all eps ps) _ _ _ Hf)) as Hd.
    pose proof (proj1 (proj2 (tree_derives_all eps ps) _ _ _ Hf')) as Hd'.
    assert (Htypes : forall x : list (token L T), Forall (fun t => tok_type t <> eps /\ ~ non_terminal ps (tok_type t)) x ->
      Forall (fun y => y <> eps /\ ~ non_terminal ps y) (map (@tok_type L T) x)).
    { intros x Hx. rewrite Forall_forall in *. intros y Hy. apply in_map_iff in Hy as (t & <- & Ht). auto. }
    destruct (app_eq_app _ _ _ _ Hs') as (m & [[Ha _]|[Ha _]]).
    - subst w. rewrite map_app in Hd. apply Htypes in Hl. rewrite map_app in Hl.
      pose proof (Hpf pr _ _ Hp Hrs Hl Hd' Hd) as Hm. apply map_eq_nil in Hm. subst m.
      now rewrite app_nil_r.
    - subst w'. rewrite map_app in Hd'. apply Htypes in Hl'. rewrite map_app in Hl'.
      pose proof (Hpf pr _ _ Hp Hrs Hl' Hd Hd') as Hm. apply map_eq_nil in Hm. subst m.
      now rewrite app_nil_r.
  Qed.
End GuidedTrees.

(** trees of the initial symbol over a prefix of the input are guided *)
Section TreesGuided.
  Context {L T : Type} {E : EqDec T}.
  Variable eps init : T.
  Variable ps : list (production T).
  Variable self : parser L T.
  Hypothesis P : parser_of eps init ps self.
  Hypothesis Hcov : covering eps init ps (candidates self).
  Variable tokens : list (token L T).

  Let G := po_grammar P.
  Notation derives := (derives eps ps).
  Notation types := (map (@tok_type L T)).
  Notation leaf := (@leaf L T eps ps).

  Lemma trees_guided :
    (forall Y n w, tree_for eps ps Y n w -> forall u rest1 pos,
       derives [init] (u ++ Y :: types rest1) -> Forall leaf rest1 -> rest1 <> [] ->
       at_pos tokens pos (w ++ rest1) ->
       guided eps ps tokens (candidates self) Y pos n (pos + length w)) /\
    (forall Xs ns w, forest_for eps ps Xs ns w -> forall u rest1 pos,
       derives [init] (u ++ Xs ++ types rest1) -> Forall leaf rest1 -> rest1 <> [] ->
       at_pos tokens pos (w ++ rest1) ->
       guided_forest eps ps tokens (candidates self) Xs pos ns (pos + length w)).
  Proof.
    apply tree_forest_ind.
    - intros tok He Hn u rest1 pos _ _ _ Hpos. simpl in Hpos. constructor; auto. eapply at_pos_nth; eauto.
    - intros u rest1 pos _ _ _ Hpos. simpl. rewrite Nat.add_0_r. constructor.
    - intros p children w Hp Hf IH u rest1 pos Hctx Hleaf Hne Hpos.
      destruct (w ++ rest1) as [|tok v] eqn:Hw.
      { apply app_eq_nil in Hw as [_ Hw]. congruence. }
      pose proof (tree_candidate Hcov p u Hp Hf Hctx Hleaf Hw) as Hsel.
      econstructor; [exists p; auto|eapply at_pos_nth; eauto|exact Hsel|].
      apply (IH u rest1 pos); auto; [|now rewrite Hw].
      eapply derives_trans; [exact Hctx|].
      apply (@derives_ctx _ eps ps u (types rest1) [p_input p] (p_output p)).
      now apply derives_production.
    - intros u rest1 pos _ _ _ _. simpl. rewrite Nat.add_0_r. constructor.
    - intros X Xs n ns w ws Ht IHt Hf IHf u rest1 pos Hctx Hleaf Hne Hpos.
      assert (Hlws : Forall leaf ws) by exact (proj2 (@tree_leaves_all L T eps ps) _ _ _ Hf).
      rewrite app_length, Nat.add_assoc.
      econstructor.
      + apply (IHt u (ws ++ rest1) pos).
        * eapply derives_trans; [exact Hctx|].
          rewrite map_app. simpl.
          change (X :: Xs ++ types rest1) with ([X] ++ Xs ++ types rest1).
          change (X :: types ws ++ types rest1) with ([X] ++ types ws ++ types rest1).
          rewrite (app_assoc u), (app_assoc u [X] (_ ++ _)).
          apply derives_ctx. apply (proj2 (@tree_derives_all L T eps ps) _ _ _ Hf).
        * now apply Forall_app.
        * intros H. apply app_eq_nil in H as [_ H]. auto.
        * now rewrite app_assoc.
      + apply (IHf (u ++ types w) rest1 (pos + length w)); auto.
        * eapply derives_trans; [exact Hctx|]. simpl.
          change (X :: Xs ++ types rest1) with ([X] ++ Xs ++ types rest1).
          rewrite <- (app_assoc u (types w)). apply derives_ctx. now apply tree_derives with (n := n).
        * rewrite <- app_assoc in Hpos. now apply at_pos_app in Hpos as [_ Hpos].
  Qed.

  Hypothesis Hend : initial_ends_in_terminal eps ps init.

  Lemma root_guided root w : non_terminal ps init ->
    tree_for eps ps init root w -> prefix w tokens ->
    guided eps ps tokens (candidates self) init 0 root (length w).
  Proof.
    intros Hinit Ht [post Htok].
    assert (Hroot : exists p children, In p ps /\ p_input p = init /\
              root = Node children (Token None init) /\ forest_for eps ps (p_output p) children w).
    { inversion Ht as [tok H1 H2 Hx|H1|p children w' Hp Hf Hx].
      - exfalso. apply H2. now rewrite Hx.
      - exfalso. apply (eps_not_nt G). now rewrite H1.
      - exists p, children. rewrite Hx. auto. }
    destruct Hroot as (p & children & Hp & Hpi & -> & Hf).
    destruct (Hend p Hp Hpi) as (u & t & Ho & Hte & Htn).
    pose proof Hf as Hforest. rewrite Ho in Hf.
    apply forest_split in Hf as (ns1 & ns2 & w1 & w2 & Hch & Hw & Hf1 & Hf2).
    inversion Hf2 as [|X' Xs' nt' ns' wt ws' Htt Hf3 HX Hns2 Hw2].
    inversion Hf3. subst ns' ws' ns2 w2 X' Xs'. rewrite app_nil_r in *.
    assert (Htok' : exists tok, wt = [tok] /\ nt' = Node [] tok /\ tok_type tok = t).
    { inversion Htt as [tok0 Ha Hb Hc|Ha|q ? ? Hq Hfq Hc].
      - eauto.
      - exfalso; congruence.
      - exfalso. apply Htn. exists q; auto. }
    destruct Htok' as (tok & -> & -> & Htt').
    assert (Hlf : leaf tok) by (unfold leaf; rewrite Htt'; auto).
    assert (Hg1 : guided_forest eps ps tokens (candidates self) u 0 ns1 (length w1)).
    { apply (proj2 trees_guided _ _ _ Hf1 [] [tok] 0).
      - simpl. rewrite Htt', <- Ho, <- Hpi. now apply derives_production.
      - constructor; auto.
      - discriminate.
      - exists [], post. split; auto. now rewrite Htok, Hw. }
    assert (Hnth : nth_error tokens (length w1) = Some tok).
    { rewrite Htok, Hw, <- app_assoc, nth_error_app2, Nat.sub_diag by lia. reflexivity. }
    assert (Hg : guided_forest eps ps tokens (candidates self) (p_output p) 0 children (length w)).
    { rewrite Ho, Hch, Hw, app_length. simpl.
      assert (Happ : forall Xs ns p0 q0 q1 Ys ms,
        guided_forest eps ps tokens (candidates self) Xs p0 ns q0 ->
        guided_forest eps ps tokens (candidates self) Ys q0 ms q1 ->
        guided_forest eps ps tokens (candidates self) (Xs ++ Ys) p0 (ns ++ ms) q1).
      { induction Xs as [|X Xs IH]; intros ns p0 q0 q1 Ys ms H1 H2; inversion H1; subst; simpl; auto.
        econstructor; eauto. }
      eapply Happ; [exact Hg1|]. econstructor; [|constructor].
      rewrite <- Htt'. constructor; auto; rewrite Htt'; auto. }
    assert (Hne : exists tok0 v, w = tok0 :: v) by (rewrite Hw; destruct w1; simpl; eauto).
    destruct Hne as (tok0 & v & Hw0).
    assert (Hsel : In (p_output p) (candidates self (p_input p) (tok_type tok0))).
    { apply (tree_candidate Hcov p [] (rest1 := []) (v := v) Hp Hforest).
      - simpl. rewrite Hpi. apply derives_refl.
      - constructor.
      - now rewrite app_nil_r. }
    rewrite <- Hpi. econstructor; [exists p; auto| |exact Hsel|exact Hg].
    rewrite Htok, Hw0. reflexivity.
  Qed.
End TreesGuided.
