(** * Renaming: parser runs (proofs) *)

From Verif Require Import BaseFacts GrammarFacts.
From Verif Require Export ParserSim RenameFacts.

Set Implicit Arguments.

Section RenStates.
  Context {L1 L2 T1 T2 : Type}.
  Variable f : L1 -> L2.
  Variable g : T1 -> T2.

  Definition ren_pstate (s : parsing_state L1 T1) : parsing_state L2 T2 :=
    {| ps_initial_token_position := ps_initial_token_position s;
       ps_final_token_position := ps_final_token_position s;
       ps_prod_iter_option := option_map (map (map g)) (ps_prod_iter_option s);
       ps_node := ren_node f g (ps_node s) |}.

  Definition ren_fstate (s : fixed_state L1 T1) : fixed_state L2 T2 :=
    {| fst_final_token_position := fst_final_token_position s;
       fst_fixed_symbol := ren_fixed_symbol f g (fst_fixed_symbol s) |}.

  Definition ren_state (s : state L1 T1) : state L2 T2 :=
    match s with
    | StParsing s => StParsing (ren_pstate s)
    | StFixed s => StFixed (ren_fstate s)
    end.

  Definition ren_sym (r : parse_symbol_result L1 T1) : parse_symbol_result L2 T2 :=
    match r with
    | SymOk s => SymOk (ren_pstate s)
    | SymErr e => SymErr (ren_failed_symbol f g e)
    | SymFix s => SymFix (ren_fstate s)
    end.

  Definition ren_prod (r : parse_production_result L1 T1) : parse_production_result L2 T2 :=
    match r with
    | ProdOk n => ProdOk (ren_node f g n)
    | ProdErr e => ProdErr (ren_failed_production f g e)
    | ProdFix e => ProdFix (ren_fixed_production f g e)
    end.

  Lemma ren_node_type (n : node L1 T1) :
    tok_type (node_token (ren_node f g n)) = g (tok_type (node_token n)).
  Proof. destruct n; reflexivity. Qed.
End RenStates.

Section Ren.
  Context {L1 L2 T1 T2 : Type} {E1 : EqImpl T1} {E2 : EqImpl T2}.
  Variable f : L1 -> L2.
  Variable g : T1 -> T2.
  Hypothesis Heqb : forall x y, eqb (g x) (g y) = eqb x y.
  Variable self1 : parser L1 T1.
  Variable self2 : parser L2 T2.
  Variable tokens : list (token L1 T1).
  Let tokens2 := map (ren_token f g) tokens.

  Hypothesis Hnt : forall x, is_non_terminal (pr_grammar self2) (g x) = is_non_terminal (pr_grammar self1) x.
  Hypothesis Heps : get_epsilon_symbol (pr_grammar self2) = g (get_epsilon_symbol (pr_grammar self1)).
  Hypothesis Hinit : get_initial_symbol (pr_grammar self2) = g (get_initial_symbol (pr_grammar self1)).
  Hypothesis Hcell : forall A a, inner_get_token_productions self2 (g A) (g a) =
                                 map (map g) (inner_get_token_productions self1 A a).
  Hypothesis Hsol : ren_solver f g (pr_solver self1) (pr_solver self2).

  Definition HR (h1 : history L1 T1) (h2 : history L2 T2) : Prop := h2 = map (ren_call f g) h1.

  Definition rfix_rel (x : option (fix_result L1 T1) * history L1 T1)
                     (y : option (fix_result L2 T2) * history L2 T2) : Prop :=
    fst y = option_map (ren_fix f g) (fst x) /\ HR (snd x) (snd y).

  Lemma ren_fix_sim pos single child failed h1 h2 : HR h1 h2 ->
    orel rfix_rel
      (inner_parse_from_tokens_try_fix_productions self1 tokens pos single child failed h1)
      (inner_parse_from_tokens_try_fix_productions self2 tokens2 pos single child
         (map (ren_failed_production f g) failed) h2).
  Proof.
    intros ->. unfold inner_parse_from_tokens_try_fix_productions. unfold ren_solver in Hsol.
    destruct (pr_solver self1) as [s1|], (pr_solver self2) as [s2|]; try contradiction.
    2: { split; reflexivity. }
    destruct single; [|split; reflexivity]. destruct child.
    - destruct failed as [|fp failed]; simpl; auto.
      assert (H := Hsol h1 (FixFailedProduction tokens pos fp)). simpl in H. unfold tokens2. rewrite H.
      destruct (s1 h1 _) as [o| |]; simpl; auto. split; simpl; auto. unfold HR. now rewrite map_app.
    - simpl. assert (H := Hsol h1 (FixFailedProductions tokens pos failed)). simpl in H. unfold tokens2. rewrite H.
      destruct (s1 h1 _) as [o| |]; simpl; auto. split; simpl; auto. unfold HR. now rewrite map_app.
  Qed.

  Definition rsym_rel (x : parse_symbol_result L1 T1 * history L1 T1)
                     (y : parse_symbol_result L2 T2 * history L2 T2) : Prop :=
    fst y = ren_sym f g (fst x) /\ HR (snd x) (snd y).

  Section Step.
  Variable rec1 : T1 -> nat -> list (list T1) -> bool -> history L1 T1 ->
                  outcome (parse_symbol_result L1 T1 * history L1 T1).
  Variable rec2 : T2 -> nat -> list (list T2) -> bool -> history L2 T2 ->
                  outcome (parse_symbol_result L2 T2 * history L2 T2).
  Hypothesis Hrec : forall X pos prods single h1 h2, HR h1 h2 ->
    orel rsym_rel (rec1 X pos prods single h1) (rec2 (g X) pos (map (map g) prods) single h2).

  Lemma rnth_tokens2 pos : nth_error tokens2 pos = option_map (ren_token f g) (nth_error tokens pos).
  Proof. apply nth_error_map. Qed.

  Lemma rterminal_sim Y pos :
    inner_parse_terminal_symbol self2 (g Y) tokens2 pos =
    ren_sym f g (inner_parse_terminal_symbol self1 Y tokens pos).
  Proof.
    unfold inner_parse_terminal_symbol. rewrite Heps, Heqb.
    destruct (eqb _ _); [reflexivity|]. unfold inner_parse_non_epsilon_terminal_symbol.
    rewrite rnth_tokens2. destruct (nth_error tokens pos) as [tok|]; simpl; [|reflexivity].
    rewrite Heqb. destruct (eqb Y (tok_type tok)); reflexivity.
  Qed.

  Lemma rstep_sim Y pos child h1 h2 : HR h1 h2 ->
    orel rsym_rel (inner_parse_from_tokens_production_symbol self1 tokens rec1 Y pos child h1)
                 (inner_parse_from_tokens_production_symbol self2 tokens2 rec2 (g Y) pos child h2).
  Proof.
    intros H. unfold inner_parse_from_tokens_production_symbol,
      inner_parse_from_tokens_production_non_terminal.
    rewrite Hnt. destruct (is_non_terminal _ _).
    - rewrite rnth_tokens2. destruct (nth_error tokens pos) as [tok|]; simpl; [|reflexivity].
      rewrite Hcell. now apply Hrec.
    - simpl. split; simpl; auto. apply rterminal_sim.
  Qed.

  Definition rpop_rel (x : list (state L1 T1) * option (list (state L1 T1)) * history L1 T1)
                     (y : list (state L2 T2) * option (list (state L2 T2)) * history L2 T2) : Prop :=
    fst (fst y) = map (ren_state f g) (fst (fst x)) /\
    snd (fst y) = option_map (map (ren_state f g)) (snd (fst x)) /\ HR (snd x) (snd y).

  Lemma rpop_sim states : forall child failed h1 h2, HR h1 h2 ->
    orel rpop_rel (inner_parse_pop_states rec1 states child failed h1)
                 (inner_parse_pop_states rec2 (map (ren_state f g) states) child
                    (map (ren_state f g) failed) h2).
  Proof.
    induction states as [|[st|fs] states IH]; intros child failed h1 h2 H; simpl.
    - split; simpl; auto.
    - rewrite ren_node_type. destruct (ps_prod_iter_option st) as [it|] eqn:Hit; simpl.
      + eapply orel_bind; [now apply Hrec|]. intros [r1 h1'] [r2 h2'] _ _ [Hr Hh]. simpl in Hr, Hh.
        subst r2. destruct r1 as [st'|e|fs]; simpl; auto. split; simpl; auto.
      + now apply (IH child (StParsing st :: failed)).
    - now apply (IH child (StFixed fs :: failed)).
  Qed.

  Lemma rexistsb_state (states : list (state L1 T1)) :
    existsb (@is_fixed L2 T2) (map (ren_state f g) states) = existsb (@is_fixed L1 T1) states.
  Proof. induction states as [|[st|fs] states IH]; simpl; auto. Qed.

  Lemma rstates_to_nodes (states : list (state L1 T1)) :
    orel (fun a b => b = map (ren_node f g) a) (states_to_nodes states)
         (states_to_nodes (map (ren_state f g) states)).
  Proof.
    induction states as [|[st|fs] states IH]; simpl; auto.
    eapply orel_bind; [exact IH|]. intros a b _ _ ->. reflexivity.
  Qed.

  Lemma rbuild_node_sim (X : T1) (states : list (state L1 T1)) :
    orel (fun a b => b = ren_prod f g a) (inner_parse_from_tokens_production_build_node X states)
         (inner_parse_from_tokens_production_build_node (g X) (map (ren_state f g) states)).
  Proof.
    unfold inner_parse_from_tokens_production_build_node. rewrite rexistsb_state.
    destruct (existsb _ _).
    - cbn. do 2 f_equal. rewrite !map_map. apply map_ext. intros [s|s]; reflexivity.
    - eapply orel_bind; [apply rstates_to_nodes|]. intros a b _ _ ->. reflexivity.
  Qed.

  Definition rprod_rel (x : parse_production_result L1 T1 * nat * history L1 T1)
                      (y : parse_production_result L2 T2 * nat * history L2 T2) : Prop :=
    fst (fst y) = ren_prod f g (fst (fst x)) /\ snd (fst y) = snd (fst x) /\ HR (snd x) (snd y).

  Lemma rbuild_failed_sim fs (out : list T1) (states : list (state L1 T1)) :
    inner_parse_from_tokens_production_build_failed_symbol (ren_failed_symbol f g fs) (map g out)
      (map (ren_state f g) states) =
    ren_prod f g (inner_parse_from_tokens_production_build_failed_symbol fs out states).
  Proof.
    unfold inner_parse_from_tokens_production_build_failed_symbol. cbn.
    rewrite !map_length, !map_map, skipn_map. f_equal. f_equal. apply map_ext. intros [s|s]; reflexivity.
  Qed.

  Lemma rprod_sim fuel : forall X out child states pos h1 h2, HR h1 h2 ->
    orel rprod_rel
      (inner_parse_from_tokens_production self1 tokens rec1 fuel X out child states pos h1)
      (inner_parse_from_tokens_production self2 tokens2 rec2 fuel (g X) (map g out) child
         (map (ren_state f g) states) pos h2).
  Proof.
    induction fuel as [|fuel IH]; intros X out child states pos h1 h2 H; simpl; auto.
    rewrite !map_length, nth_error_map. destruct (length states <? length out).
    - destruct (nth_error out (length states)) as [Y|]; simpl; auto.
      eapply orel_bind; [now apply rstep_sim|]. intros [r1 h1'] [r2 h2'] _ _ [Hr Hh]. simpl in Hr, Hh.
      subst r2. destruct r1 as [st|e|fs]; simpl.
      + now apply (IH X out child (StParsing st :: states)).
      + eapply orel_bind; [now apply (rpop_sim states child [])|].
        intros [[s1 p1] h1''] [[s2 p2] h2''] _ _ (Ha & Hb & Hc). simpl in Ha, Hb, Hc. subst s2 p2.
        destruct p1 as [fstates|]; simpl.
        * split; [simpl; apply rbuild_failed_sim|]. split; auto.
        * destruct s1 as [|s s1]; simpl; auto.
          replace (state_final_token_position (ren_state f g s)) with (state_final_token_position s)
            by (destruct s; reflexivity).
          now apply (IH X out child (s :: s1)).
      + now apply (IH X out child (StFixed fs :: states)).
    - rewrite <- map_rev. eapply orel_bind; [apply rbuild_node_sim|].
      intros a b _ _ ->. simpl. split; auto.
  Qed.

  Definition rtry_rel (x : (parse_symbol_result L1 T1 + list (failed_production L1 T1)) * history L1 T1)
             (y : (parse_symbol_result L2 T2 + list (failed_production L2 T2)) * history L2 T2) : Prop :=
    match fst x, fst y with
    | inl r1, inl r2 => r2 = ren_sym f g r1
    | inr l1, inr l2 => l2 = map (ren_failed_production f g) l1
    | _, _ => False
    end /\ HR (snd x) (snd y).

  Lemma rtry_sim fuel prods : forall X pos child failed h1 h2, HR h1 h2 ->
    orel rtry_rel
      (try_parse_productions_loop self1 tokens rec1 fuel X pos child prods failed h1)
      (try_parse_productions_loop self2 tokens2 rec2 fuel (g X) pos child (map (map g) prods)
         (map (ren_failed_production f g) failed) h2).
  Proof.
    induction prods as [|out prods IH]; intros X pos child failed h1 h2 H; simpl.
    - split; simpl; auto.
    - eapply orel_bind; [now apply (rprod_sim fuel X out child [])|].
      intros [[r1 p1] h1'] [[r2 p2] h2'] _ _ (Ha & Hb & Hc). simpl in Ha, Hb, Hc. subst r2 p2.
      destruct r1 as [n|fp|fp]; simpl.
      + split; simpl; auto.
      + assert (HI := IH X pos child (failed ++ [fp]) h1' h2' Hc). rewrite map_app in HI. exact HI.
      + split; simpl; auto.
  Qed.

  Lemma rinner_step_sim fuel X pos prods single h1 h2 : HR h1 h2 ->
    orel rsym_rel (inner_parse_from_tokens_step self1 tokens rec1 fuel X pos prods single h1)
                 (inner_parse_from_tokens_step self2 tokens2 rec2 fuel (g X) pos (map (map g) prods) single h2).
  Proof.
    intros H. unfold inner_parse_from_tokens_step, inner_parse_from_tokens_try_parse_productions.
    assert (Hch : is_child_single_path single (map (map g) prods) = is_child_single_path single prods)
      by (unfold is_child_single_path; now rewrite map_length).
    rewrite Hch.
    eapply orel_bind; [now apply (rtry_sim fuel prods X pos _ [])|].
    intros [r1 h1'] [r2 h2'] Hd1 _ [Hr Hh]. simpl in Hr, Hh.
    destruct r1 as [r1|l1], r2 as [r2|l2]; try contradiction; subst.
    - split; simpl; auto.
    - eapply orel_bind.
      + apply ren_fix_sim. exact Hh.
      + intros [fo1 g1] [fo2 g2] _ _ [Hf Hg]. simpl in Hf, Hg. subst fo2.
        split; simpl; auto. destruct fo1; reflexivity.
  Qed.
  End Step.

  Lemma rinner_sim fuel : forall X pos prods single h1 h2, HR h1 h2 ->
    orel rsym_rel (inner_parse_from_tokens fuel self1 tokens X pos prods single h1)
                  (inner_parse_from_tokens fuel self2 tokens2 (g X) pos (map (map g) prods) single h2).
  Proof.
    induction fuel as [|fuel IH]; intros X pos prods single h1 h2 H; simpl; auto.
    apply rinner_step_sim; auto.
  Qed.

  Lemma parse_ren fuel :
    parse_from_tokens fuel self2 tokens2 = ren_outcome f g (parse_from_tokens fuel self1 tokens).
  Proof.
    assert (Hs := fun X pos prods => @rinner_sim fuel X pos prods true [] [] eq_refl).
    unfold parse_from_tokens. unfold tokens2 in *.
    destruct tokens as [|tok rest]; [reflexivity|]. cbn [map] in *.
    rewrite Hinit. cbn [tok_type ren_token]. rewrite Hcell.
    specialize (Hs (get_initial_symbol (pr_grammar self1)) 0
      (inner_get_token_productions self1 (get_initial_symbol (pr_grammar self1)) (tok_type tok))).
    destruct (inner_parse_from_tokens fuel self1 _ _ _ _ _ _) as [[r1 h1]|q|],
      (inner_parse_from_tokens fuel self2 _ _ _ _ _ _) as [[r2 h2]|q'|]; simpl in Hs; try contradiction.
    - destruct Hs as [Hr Hh]. simpl in *. subst r2. rewrite Hh. simpl. do 2 f_equal.
      destruct r1; reflexivity.
    - subst. reflexivity.
    - reflexivity.
  Qed.
End Ren.
