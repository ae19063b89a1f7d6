(** * Inputs cut short before a non-terminal (proofs) *)

From Verif Require Import BaseFacts GrammarFacts DerivFacts ParserSound ParserComplete.
From Verif Require Export EpsFreeFacts StopSpec SuppliedSpec.

Set Implicit Arguments.

Lemma trees_parts {L T : Type} (ns : list (node L T)) : trees (map FPartOk ns) = Some ns.
Proof. induction ns as [|n ns IH]; simpl; [|rewrite IH]; reflexivity. Qed.

Section Cut.
  Context {L T : Type} {E : EqDec T}.
  Variable eps init : T.
  Variable ps : list (production T).
  Variable tokens : list (token L T).
  Variable cands : T -> T -> list (list T).
  Variable solver : option (syntax_error_solver L T).
  Hypothesis Hcov : covering eps init ps cands.
  Hypothesis Hone : forall A a out, In out (cands A a) -> cands A a = [out].

  Notation derives := (derives eps ps).
  Notation types := (map (@tok_type L T)).
  Notation real := (fun t => tok_type t <> eps /\ ~ non_terminal ps (tok_type t)).
  Notation derive := (derive eps ps tokens cands solver).
  Notation parse := (parse eps ps tokens cands solver).
  Notation derive_stops := (derive_stops eps ps tokens cands solver PastTheEnd).
  Notation parse_stops := (parse_stops eps ps tokens cands solver PastTheEnd).
  Notation cut := (@cut L T eps ps).

  Lemma the_candidate p u v (t : token L T) w x : In p ps -> derives [init] (u ++ p_input p :: v) ->
    derives (p_output p ++ v) (types (t :: w) ++ x) -> real t -> cands (p_input p) (tok_type t) = [p_output p].
  Proof.
    intros Hp Hc Hd Ht. apply Hone. eapply Hcov; eauto. eapply starts; eauto.
  Qed.

  Lemma inside p u v : In p ps -> derives [init] (u ++ p_input p :: v) -> derives [init] (u ++ p_output p ++ v).
  Proof.
    intros Hp H. eapply derives_trans; [exact H|]. apply (@derives_ctx _ eps ps u v [p_input p] (p_output p)).
    now apply derives_production.
  Qed.

  Lemma at_end p : skipn p tokens = [] -> nth_error tokens p = None.
  Proof.
    intros H. apply nth_error_None. assert (Hl : length (skipn p tokens) = 0) by now rewrite H.
    rewrite skipn_length in Hl. lia.
  Qed.

  Lemma trees_run :
    (forall Y n w, tree_for eps ps Y n w -> forall u rest x pos,
       derives [init] (u ++ Y :: types rest ++ x) -> Forall real rest -> skipn pos tokens = w ++ rest ->
       non_terminal ps Y -> ~ non_terminal ps eps ->
       (exists t, nth_error tokens pos = Some t /\
          ((forall single h, derive single Y pos (cands Y (tok_type t)) h (DTree n (pos + length w) []) h) \/
           (rest = [] /\ forall single h, derive_stops single Y pos (cands Y (tok_type t)) h))) \/
       (w = [] /\ rest = [])) /\
    (forall Xs ns w, forest_for eps ps Xs ns w -> forall u rest x pos,
       derives [init] (u ++ Xs ++ types rest ++ x) -> Forall real rest -> skipn pos tokens = w ++ rest ->
       ~ non_terminal ps eps ->
       (forall single h, parse single Xs pos h (PParts (map FPartOk ns) (pos + length w)) h) \/
       (rest = [] /\ forall single h, parse_stops single Xs pos h)).
  Proof.
    apply tree_forest_ind.
    - intros tok He Hn u rest x pos _ _ _ H. contradiction.
    - intros u rest x pos _ _ _ H H'. contradiction.
    - intros p children w Hp Hf IH u rest x pos Hctx Hr Hs _ He.
      destruct (w ++ rest) as [|t l] eqn:Hl; [right; now apply app_eq_nil|left].
      destruct (skipn_next _ _ Hs) as [Hn _]. exists t. split; auto.
      assert (Hlw : Forall real (w ++ rest)).
      { apply Forall_app. split; auto. exact (proj2 (@tree_leaves_all L T eps ps) _ _ _ Hf). }
      rewrite (@the_candidate p u (types rest ++ x) t l x); auto.
      + destruct (IH u rest x pos) as [H|[-> H]]; auto; [now apply inside|now rewrite Hl| |].
        * left. intros single h. apply derive_done.
          replace (DTree (Node children (Token None (p_input p))) (pos + length w) [])
            with (built (p_input p) (map FPartOk children) (pos + length w) []) by (unfold built; now rewrite trees_parts).
          apply attempt_first. apply H.
        * right. split; auto. intros single h. apply derive_stops_inside. apply attempt_stops_first. apply H.
      + rewrite <- Hl, map_app, <- app_assoc. apply derives_app; [|apply derives_refl].
        apply (proj2 (@tree_derives_all L T eps ps) _ _ _ Hf).
      + rewrite Hl in Hlw. now inversion Hlw.
    - intros u rest x pos _ _ _ _. left. intros single h. simpl. rewrite Nat.add_0_r. constructor.
    - intros X Xs n ns w ws Ht IHt Hf IHf u rest x pos Hctx Hr Hs He.
      rewrite <- app_assoc in Hs. pose proof (skipn_after tokens _ _ _ Hs) as Hs'.
      assert (Hlws : Forall real ws) by exact (proj2 (@tree_leaves_all L T eps ps) _ _ _ Hf).
      assert (HcX : derives [init] (u ++ X :: types (ws ++ rest) ++ x)).
      { eapply derives_trans; [exact Hctx|]. apply derives_app; [apply derives_refl|].
        change (X :: types (ws ++ rest) ++ x) with ([X] ++ types (ws ++ rest) ++ x).
        simpl. apply (@derives_app _ eps ps [X] [X]); [apply derives_refl|]. rewrite map_app, <- app_assoc.
        apply derives_app; [|apply derives_refl]. apply (proj2 (@tree_derives_all L T eps ps) _ _ _ Hf). }
      assert (HcXs : derives [init] ((u ++ types w) ++ Xs ++ types rest ++ x)).
      { eapply derives_trans; [exact Hctx|]. rewrite <- app_assoc. apply derives_app; [apply derives_refl|].
        apply (@derives_app _ eps ps [X] (types w)); [exact (tree_derives Ht)|apply derives_refl]. }
      rewrite app_length, Nat.add_assoc.
      destruct (IHf (u ++ types w) rest x (pos + length w) HcXs Hr Hs' He) as [HXs|[-> HXs]];
        (destruct (non_terminal_dec ps X) as [HN|HN];
         [destruct (IHt u (ws ++ _) x pos HcX (proj2 (Forall_app _ _ _) (conj Hlws Hr)) Hs HN He)
            as [(t & Hn & [Hd|[Hnil Hd]])|[Hw Hnil]]|]).
      + left. intros single h. simpl. eapply parse_non_terminal; eauto. eapply branch_tree; [apply Hd|apply HXs].
      + right. apply app_eq_nil in Hnil as [_ ->]. split; auto. intros single h.
        eapply parse_stops_non_terminal; eauto. apply branch_stops_here, Hd.
      + right. subst w. rewrite Hnil in Hs. apply app_eq_nil in Hnil as [_ ->]. split; auto. intros single h.
        apply parse_stops_past; auto. now apply at_end.
      + left. intros single h. inversion Ht as [tok H1 H2 Hx|H1|p children w' Hp Hf' Hx]; subst.
        * apply skipn_next in Hs as [Hn _]. simpl.
          exact (@parse_token _ _ eps ps tokens cands solver single Xs pos tok h _ h HN H1 Hn (HXs single h)).
        * specialize (HXs single h). simpl in HXs |- *. rewrite Nat.add_0_r in *. exact (parse_epsilon HXs).
        * elim HN. exists p. auto.
      + right. split; auto. intros single h. eapply parse_stops_non_terminal; eauto. eapply branch_stops_tree; [apply Hd|apply HXs].
      + right. split; auto. intros single h. eapply parse_stops_non_terminal; eauto. apply branch_stops_here, Hd.
      + right. split; auto. intros single h. apply parse_stops_past; auto. apply at_end. subst w. now rewrite Hs.
      + right. split; auto. intros single h. inversion Ht as [tok H1 H2 Hx|H1|p children w' Hp Hf' Hx]; subst.
        * apply skipn_next in Hs as [Hn _]. apply parse_stops_token; auto.
        * simpl in HXs. rewrite Nat.add_0_r in HXs. apply parse_stops_epsilon. apply HXs.
        * elim HN. exists p. auto.
  Qed.

  Lemma cut_stops Xs w : ~ non_terminal ps eps -> cut Xs w -> forall u v pos, derives [init] (u ++ Xs ++ v) ->
    skipn pos tokens = w -> forall single h, parse_stops single Xs pos h.
  Proof.
    intros He. induction 1 as [X Xs HX|pr Xs w Hp Hc IH|X Xs n w w' Ht Hc IH]; intros u v pos Hctx Hs single h.
    - apply parse_stops_past; auto. now apply at_end.
    - destruct w as [|t w].
      + apply parse_stops_past; [exists pr; auto|now apply at_end].
      + destruct (skipn_next _ _ Hs) as [Hn _].
        eapply parse_stops_non_terminal; [exists pr; auto|exact Hn|].
        destruct (cut_derives Hc) as [x Hx].
        rewrite (@the_candidate pr u (Xs ++ v) t w (x ++ Xs ++ v)); auto.
        * apply branch_stops_here, derive_stops_inside, attempt_stops_first.
          apply (IH u (Xs ++ v) pos); auto. now apply inside.
        * rewrite (app_assoc (types (t :: w))). apply derives_app; [exact Hx|apply derives_refl].
        * pose proof (cut_real Hc) as Hr. now inversion Hr.
    - destruct (cut_derives Hc) as [x Hx]. pose proof (skipn_after tokens _ _ _ Hs) as Hs'.
      assert (Hrest : forall single h, parse_stops single Xs (pos + length w) h).
      { apply (IH (u ++ types w) v); auto. eapply derives_trans; [exact Hctx|]. rewrite <- app_assoc.
        apply derives_app; [apply derives_refl|].
        apply (@derives_app _ eps ps [X] (types w)); [exact (tree_derives Ht)|apply derives_refl]. }
      destruct (non_terminal_dec ps X) as [HN|HN].
      + assert (HcX : derives [init] (u ++ X :: types w' ++ x ++ v)).
        { eapply derives_trans; [exact Hctx|]. apply derives_app; [apply derives_refl|]. simpl.
          apply (@derives_app _ eps ps [X] [X]); [apply derives_refl|]. rewrite app_assoc.
          apply derives_app; [exact Hx|apply derives_refl]. }
        destruct (proj1 trees_run _ _ _ Ht u w' (x ++ v) pos HcX (cut_real Hc) Hs HN He)
          as [(t & Hn & [Hd|[_ Hd]])|[-> ->]].
        * eapply parse_stops_non_terminal; eauto. eapply branch_stops_tree; [apply Hd|apply Hrest].
        * eapply parse_stops_non_terminal; eauto. apply branch_stops_here, Hd.
        * apply parse_stops_past; auto. now apply at_end.
      + inversion Ht as [tok H1 H2 Hxx|H1|p children w1 Hp Hf' Hxx]; subst.
        * simpl in Hs. apply skipn_next in Hs as [Hn _]. apply parse_stops_token; auto.
        * simpl in Hrest. rewrite Nat.add_0_r in Hrest. apply parse_stops_epsilon. apply Hrest.
        * elim HN. exists p. auto.
  Qed.
End Cut.
