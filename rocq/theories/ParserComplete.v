(** * Completeness for conflict-free tables (proofs) *)

From Verif Require Import BaseFacts GrammarFacts DerivFacts FollowFacts TransitionsFacts.
From Verif Require Export CoverFacts.

Set Implicit Arguments.

Section Complete.
  Context {L T : Type} {E : EqDec T}.
  Variable eps init : T.
  Variable ps : list (production T).
  Variable self : parser L T.
  Hypothesis P : parser_of eps init ps self.
  Hypothesis Hcf : conflict_free (pr_transitions self).
  Hypothesis Hcov : covering eps init ps (candidates self).
  Variable tokens : list (token L T).

  Let G := po_grammar P.
  Notation derives := (derives eps ps).
  Notation types := (map (@tok_type L T)).

  Definition leaf (t : token L T) : Prop := tok_type t <> eps /\ ~ non_terminal ps (tok_type t).

  Lemma types_can_start w t ws : leaf t -> derives w (tok_type t :: types ws) ->
    can_start eps ps w (tok_type t).
  Proof. intros [H1 H2] Hd. split; auto. split; auto. exists (types ws). exact Hd. Qed.

  Lemma one_candidate X a out : In out (candidates self X a) ->
    inner_get_token_productions self X a = [out].
  Proof.
    unfold candidates, inner_get_token_productions.
    destruct (transitions_get_productions (pr_transitions self) X a) as [l|] eqn:Hl; [|intros []].
    pose proof (Hcf _ _ Hl) as Hlen. intros Hin.
    destruct l as [|q [|? ?]]; simpl in Hlen; [destruct Hin| |lia].
    destruct Hin as [<-|[]]. reflexivity.
  Qed.

  (** the production of a tree is a candidate for the next token *)
  Lemma tree_candidate p children w u rest1 tok v :
    In p ps -> forest_for eps ps (p_output p) children w ->
    derives [init] (u ++ p_input p :: types rest1) -> Forall leaf rest1 ->
    w ++ rest1 = tok :: v -> In (p_output p) (candidates self (p_input p) (tok_type tok)).
  Proof.
    intros Hp Hf Hctx Hleaf Hw.
    assert (Hlw : Forall leaf w) by exact (proj2 (@tree_leaves_all L T eps ps) _ _ _ Hf).
    eapply Hcov; [exact Hp|exact Hctx|].
    assert (Htok : leaf tok).
    { assert (H : Forall leaf (w ++ rest1)) by now apply Forall_app. rewrite Hw in H. now inversion H. }
    eapply types_can_start with (ws := v); auto.
    change (tok_type tok :: types v) with (types (tok :: v)). rewrite <- Hw, map_app.
    apply derives_app; [|apply derives_refl].
    apply (proj2 (@tree_derives_all L T eps ps) _ _ _ Hf).
  Qed.

  Definition at_pos (pos : nat) (w : list (token L T)) : Prop := exists pre post,
    tokens = pre ++ w ++ post /\ length pre = pos.

  Lemma at_pos_nth pos t w : at_pos pos (t :: w) -> nth_error tokens pos = Some t.
  Proof.
    intros (pre & post & -> & <-). rewrite nth_error_app2, Nat.sub_diag by lia. reflexivity.
  Qed.

  Lemma at_pos_app pos w v : at_pos pos (w ++ v) -> at_pos pos w /\ at_pos (pos + length w) v.
  Proof.
    intros (pre & post & H & <-). rewrite <- app_assoc in H. split.
    - exists pre, (v ++ post). auto.
    - exists (pre ++ w), post. rewrite app_length. split; auto. now rewrite <- app_assoc.
  Qed.

  Lemma states_to_nodes_map sts :
    states_to_nodes (map (@StParsing L T) sts) = Done (map (@ps_node L T) sts).
  Proof. induction sts as [|st sts IH]; simpl; auto. now rewrite IH. Qed.

  Lemma existsb_parsing sts : existsb (@is_fixed L T) (map (@StParsing L T) sts) = false.
  Proof. induction sts; simpl; auto. Qed.

  Lemma complete_all :
    (forall Y n w, tree_for eps ps Y n w -> forall u rest1 pos,
       derives [init] (u ++ Y :: types rest1) -> Forall leaf rest1 -> rest1 <> [] ->
       at_pos pos (w ++ rest1) ->
       exists st, ps_node st = n /\ ps_final_token_position st = pos + length w /\
         forall child h, RStep self tokens Y pos child h (SymOk st) h) /\
    (forall Xs ns w, forest_for eps ps Xs ns w -> forall u rest1 pos,
       derives [init] (u ++ Xs ++ types rest1) -> Forall leaf rest1 -> rest1 <> [] ->
       at_pos pos (w ++ rest1) ->
       exists sts, map (@ps_node L T) sts = ns /\
         forall X out child states h pr pos' h' syms rest,
         out = syms ++ Xs ++ rest -> length states = length syms ->
         RProd self tokens X out child (rev (map (@StParsing L T) sts) ++ states) (pos + length w) h pr pos' h' ->
         RProd self tokens X out child states pos h pr pos' h').
  Proof.
    apply tree_forest_ind.
    - intros tok He Hn u rest1 pos _ _ _ Hpos. simpl in Hpos.
      eexists {| ps_initial_token_position := pos; ps_final_token_position := pos + 1;
                 ps_prod_iter_option := None; ps_node := Node [] tok |}.
      split; [reflexivity|]. split; [reflexivity|]. intros child h.
      assert (HN : is_non_terminal (pr_grammar self) (tok_type tok) = false)
        by now apply (is_non_terminal_false G).
      pose proof (RStep_t self tokens (tok_type tok) pos child h HN) as HR.
      unfold inner_parse_terminal_symbol, get_epsilon_symbol in HR. rewrite (go_eps G) in HR.
      assert (He' : eqb eps (tok_type tok) = false) by (apply eqb_ne_iff; congruence).
      rewrite He' in HR. unfold inner_parse_non_epsilon_terminal_symbol in HR.
      rewrite (at_pos_nth Hpos), eqb_self in HR. exact HR.
    - intros u rest1 pos _ _ _ Hpos.
      eexists {| ps_initial_token_position := pos; ps_final_token_position := pos;
                 ps_prod_iter_option := None; ps_node := Node [] (Token None eps) |}.
      split; [reflexivity|]. split; [simpl; lia|]. intros child h.
      assert (HN : is_non_terminal (pr_grammar self) eps = false)
        by (apply (is_non_terminal_false G); apply (eps_not_nt G)).
      pose proof (RStep_t self tokens eps pos child h HN) as HR.
      unfold inner_parse_terminal_symbol, get_epsilon_symbol in HR. rewrite (go_eps G), eqb_self in HR.
      exact HR.
    - intros p children w Hp Hf IH u rest1 pos Hctx Hleaf Hne Hpos.
      destruct (IH u rest1 pos) as (sts & Hsts & HR); auto.
      { eapply derives_trans; [exact Hctx|].
        apply (@derives_ctx _ eps ps u (types rest1) [p_input p] (p_output p)).
        now apply derives_production. }
      destruct (w ++ rest1) as [|tok v] eqn:Hw.
      { apply app_eq_nil in Hw as [_ Hw]. congruence. }
      pose proof (at_pos_nth Hpos) as Hnth.
      pose proof (@tree_candidate p children w u rest1 tok v Hp Hf Hctx Hleaf Hw) as Hsel.
      exists {| ps_initial_token_position := pos; ps_final_token_position := pos + length w;
                ps_prod_iter_option := Some [];
                ps_node := Node children (Token None (p_input p)) |}.
      split; [reflexivity|]. split; [reflexivity|]. intros child h.
      apply RStep_nt with (tok := tok); auto.
      + apply (is_non_terminal_spec G). exists p; auto.
      + rewrite (one_candidate _ _ _ Hsel). apply RSym_done. apply RTry_ok.
        apply (HR (p_input p) (p_output p) _ [] h _ _ _ [] []); auto.
        { now rewrite app_nil_r. }
        rewrite app_nil_r.
        assert (Hlen : length (p_output p) = length sts).
        { rewrite <- (map_length (@ps_node L T) sts), Hsts.
          pose proof (proj2 (proj2 (@tree_derives_all L T eps ps) _ _ _ Hf)) as Hm.
          rewrite <- Hm. now rewrite map_length. }
        apply RProd_done.
        * rewrite rev_length, map_length. lia.
        * rewrite rev_involutive. unfold inner_parse_from_tokens_production_build_node.
          rewrite existsb_parsing, states_to_nodes_map, Hsts. reflexivity.
    - intros u rest1 pos _ _ _ _. exists []. split; auto. intros X out child states h pr pos' h' syms rest _ _ HR.
      simpl in HR. now rewrite Nat.add_0_r in HR.
    - intros X Xs n ns w ws Ht IHt Hf IHf u rest1 pos Hctx Hleaf Hne Hpos.
      assert (Hlws : Forall leaf ws) by exact (proj2 (@tree_leaves_all L T eps ps) _ _ _ Hf).
      destruct (IHt u (ws ++ rest1) pos) as (st & Hn & Hfin & HS).
      { eapply derives_trans; [exact Hctx|].
        rewrite map_app. simpl.
        change (X :: Xs ++ types rest1) with ([X] ++ Xs ++ types rest1).
        change (X :: types ws ++ types rest1) with ([X] ++ types ws ++ types rest1).
        rewrite (app_assoc u), (app_assoc u [X] (_ ++ _)).
        apply derives_ctx. apply (proj2 (@tree_derives_all L T eps ps) _ _ _ Hf). }
      { now apply Forall_app. }
      { intros H. apply app_eq_nil in H as [_ H]. auto. }
      { now rewrite app_assoc. }
      destruct (IHf (u ++ types w) rest1 (pos + length w)) as (sts & Hsts & HR); auto.
      { eapply derives_trans; [exact Hctx|]. simpl.
        change (X :: Xs ++ types rest1) with ([X] ++ Xs ++ types rest1).
        rewrite <- (app_assoc u (types w)). apply derives_ctx. now apply tree_derives with (n := n). }
      { rewrite <- app_assoc in Hpos. now apply at_pos_app in Hpos as [_ Hpos]. }
      exists (st :: sts). split; [simpl; congruence|].
      intros X0 out child states h pr pos' h' syms rest Hout Hlen HP.
      apply RProd_ok with (Y := X) (ps := st) (h' := h).
      + rewrite Hout, Hlen, nth_error_app2, Nat.sub_diag by lia. reflexivity.
      + apply HS.
      + rewrite Hfin. apply (HR X0 out child (StParsing st :: states) h pr pos' h' (syms ++ [X]) rest).
        * rewrite Hout. rewrite <- app_assoc. reflexivity.
        * simpl. rewrite app_length. simpl. lia.
        * simpl in HP. rewrite <- app_assoc in HP. simpl in HP.
          rewrite app_length in HP. now rewrite Nat.add_assoc in HP.
  Qed.

  Hypothesis Hend : initial_ends_in_terminal eps ps init.

  Theorem complete root w : non_terminal ps init ->
    tree_for eps ps init root w -> prefix w tokens ->
    exists n, forall fuel, n <= fuel ->
      parse_from_tokens fuel self tokens = Done (ResultOk root, []).
  Proof.
    intros Hinit Ht [post Htok].
    assert (Hroot : exists p children, In p ps /\ p_input p = init /\
              root = Node children (Token None init) /\ forest_for eps ps (p_output p) children w).
    { inversion Ht as [tok H1 H2 Hx|H1|p children w' Hp Hf Hx].
      - exfalso. apply H2. now rewrite Hx.
      - exfalso. apply (eps_not_nt G). now rewrite H1.
      - exists p, children. rewrite Hx. auto. }
    destruct Hroot as (p & children & Hp & Hpi & -> & Hf).
    destruct (Hend p Hp Hpi) as (u & t & Ho & Hte & Htn).
    pose proof Hf as Hforest. rewrite Ho in Hf.
    apply forest_split in Hf as (ns1 & ns2 & w1 & w2 & Hch & Hw & Hf1 & Hf2).
    inversion Hf2 as [|X' Xs' nt' ns' wt ws' Htt Hf3 HX Hns2 Hw2].
    inversion Hf3. subst ns' ws' ns2 w2 X' Xs'. rewrite app_nil_r in *.
    assert (Htok' : exists tok, wt = [tok] /\ nt' = Node [] tok /\ tok_type tok = t).
    { inversion Htt as [tok0 Ha Hb Hc|Ha|q ? ? Hq Hfq Hc].
      - eauto.
      - exfalso; congruence.
      - exfalso. apply Htn. exists q; auto. }
    destruct Htok' as (tok & -> & -> & Htt').
    assert (Hlf : leaf tok) by (unfold leaf; rewrite Htt'; auto).
    destruct (proj2 complete_all _ _ _ Hf1 [] [tok] 0) as (sts & Hsts & HR).
    { simpl. rewrite Htt', <- Ho, <- Hpi. now apply derives_production. }
    { constructor; auto. }
    { discriminate. }
    { exists [], post. rewrite Htok, Hw. auto. }
    assert (Hpos : at_pos (length w1) [tok]).
    { exists w1, post. rewrite Htok, Hw, <- app_assoc. auto. }
    set (stt := {| ps_initial_token_position := length w1;
                   ps_final_token_position := length w1 + 1;
                   ps_prod_iter_option := None; ps_node := Node [] tok |}).
    assert (HSt : forall child h, RStep self tokens t (length w1) child h (SymOk stt) h).
    { intros child h.
      assert (HN : is_non_terminal (pr_grammar self) t = false) by now apply (is_non_terminal_false G).
      pose proof (RStep_t self tokens t (length w1) child h HN) as HRt.
      unfold inner_parse_terminal_symbol, get_epsilon_symbol in HRt. rewrite (go_eps G) in HRt.
      assert (He' : eqb eps t = false) by (apply eqb_ne_iff; congruence).
      rewrite He' in HRt. unfold inner_parse_non_epsilon_terminal_symbol in HRt.
      rewrite (at_pos_nth Hpos) in HRt. rewrite Htt', eqb_self in HRt. exact HRt. }
    assert (Hne : exists tok0 v, w = tok0 :: v).
    { rewrite Hw. destruct w1; simpl; eauto. }
    destruct Hne as (tok0 & v & Hw0).
    assert (Hsel : In (p_output p) (candidates self (p_input p) (tok_type tok0))).
    { apply (@tree_candidate p children w [] [] tok0 v Hp Hforest).
      - simpl. rewrite Hpi. apply derives_refl.
      - constructor.
      - now rewrite app_nil_r. }
    assert (Hrun : RSym self tokens (get_initial_symbol (pr_grammar self)) 0
        (inner_get_token_productions self (get_initial_symbol (pr_grammar self)) (tok_type tok0))
        true [] (SymOk {| ps_initial_token_position := 0;
                       ps_final_token_position := length w1 + 1;
                       ps_prod_iter_option := Some [];
                       ps_node := Node children (Token None init) |}) []).
    { unfold get_initial_symbol. rewrite (go_init G), <- Hpi, (one_candidate _ _ _ Hsel).
      apply RSym_done. apply RTry_ok. rewrite Hpi.
      apply (HR init (p_output p) _ [] [] _ _ _ [] [t]); auto. simpl.
      rewrite app_nil_r.
      assert (Hlen : length u = length sts).
      { rewrite <- (map_length (@ps_node L T) sts), Hsts.
        pose proof (proj2 (proj2 (@tree_derives_all L T eps ps) _ _ _ Hf1)) as Hm.
        rewrite <- Hm. now rewrite map_length. }
      apply RProd_ok with (Y := t) (ps := stt) (h' := []).
      - rewrite rev_length, map_length, <- Hlen, Ho, nth_error_app2, Nat.sub_diag by lia. reflexivity.
      - apply HSt.
      - apply RProd_done.
        + simpl. rewrite Ho, app_length, rev_length, map_length. simpl. lia.
        + simpl. rewrite rev_involutive.
          change ([StParsing stt]) with (map (@StParsing L T) [stt]). rewrite <- map_app.
          unfold inner_parse_from_tokens_production_build_node.
          rewrite existsb_parsing, states_to_nodes_map, map_app, Hsts, Hch. reflexivity. }
    assert (Htoks : tokens = tok0 :: (v ++ post)) by (rewrite Htok, Hw0; reflexivity).
    revert Hrun. clear - Htoks. rewrite Htoks. intros Hrun.
    apply run_parse in Hrun as [n Hn]. exists n. exact Hn.
  Qed.
End Complete.
