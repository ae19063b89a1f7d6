(** * Simulation between two parsers (proofs)

    One generic simulation, used for: lexeme independence (C28), declining
    solvers (C30) and hash-order independence (C09). *)

From Verif Require Import BaseFacts GrammarFacts.
From Verif Require Export ParserRel LexSpec.

Set Implicit Arguments.

Section MapLexStates.
  Context {L1 L2 T : Type}.
  Variable f : L1 -> L2.

  Definition map_pstate (s : parsing_state L1 T) : parsing_state L2 T :=
    {| ps_initial_token_position := ps_initial_token_position s;
       ps_final_token_position := ps_final_token_position s;
       ps_prod_iter_option := ps_prod_iter_option s;
       ps_node := map_node f (ps_node s) |}.

  Definition map_fstate (s : fixed_state L1 T) : fixed_state L2 T :=
    {| fst_final_token_position := fst_final_token_position s;
       fst_fixed_symbol := map_fixed_symbol f (fst_fixed_symbol s) |}.

  Definition map_state (s : state L1 T) : state L2 T :=
    match s with
    | StParsing s => StParsing (map_pstate s)
    | StFixed s => StFixed (map_fstate s)
    end.

  Definition map_sym (r : parse_symbol_result L1 T) : parse_symbol_result L2 T :=
    match r with
    | SymOk s => SymOk (map_pstate s)
    | SymErr e => SymErr (map_failed_symbol f e)
    | SymFix s => SymFix (map_fstate s)
    end.

  Definition map_prod (r : parse_production_result L1 T) : parse_production_result L2 T :=
    match r with
    | ProdOk n => ProdOk (map_node f n)
    | ProdErr e => ProdErr (map_failed_production f e)
    | ProdFix e => ProdFix (map_fixed_production f e)
    end.

  Definition map_fix (r : fix_result L1 T) : fix_result L2 T :=
    FixResult (fr_final_token_position r) (map_fixed_production f (fr_production r)).

  Lemma map_node_type (n : node L1 T) : tok_type (node_token (map_node f n)) = tok_type (node_token n).
  Proof. destruct n; reflexivity. Qed.
End MapLexStates.

(** ** Identity renaming *)
Section MapId.
  Context {L T : Type}.
  Notation f := (fun l : L => l).

  Lemma map_ext_id (A : Type) (g : A -> A) (l : list A) : (forall x, In x l -> g x = x) -> map g l = l.
  Proof. induction l as [|x l IH]; simpl; intros H; auto. rewrite H, IH; auto. Qed.

  Lemma map_token_id (t : token L T) : map_token f t = t.
  Proof. destruct t as [[l|] ty]; reflexivity. Qed.

  Fixpoint map_node_id (n : node L T) : map_node f n = n.
  Proof.
    destruct n as [cs t]. simpl. rewrite map_token_id. f_equal.
    induction cs as [|c cs IH]; simpl; [reflexivity|]. now rewrite map_node_id, IH.
  Qed.

  Fixpoint map_part_id (p : fixed_production_part L T) : map_part f p = p
  with map_fixed_production_id (p : fixed_production L T) : map_fixed_production f p = p
  with map_fixed_symbol_id (p : fixed_symbol L T) : map_fixed_symbol f p = p.
  Proof.
    - destruct p as [n|fs|ls ss]; cbn.
      + now rewrite map_node_id.
      + now rewrite map_fixed_symbol_id.
      + now rewrite map_id.
    - destruct p as [parts]. cbn. f_equal.
      induction parts as [|p parts IH]; simpl; [reflexivity|]. now rewrite map_part_id, IH.
    - destruct p as [fp x]. cbn. now rewrite map_fixed_production_id.
  Qed.

  Lemma map_parsed_id (p : production_parsed_symbol L T) : map_parsed f p = p.
  Proof. destruct p; simpl; now rewrite ?map_node_id, ?map_fixed_symbol_id. Qed.

  Fixpoint map_failed_symbol_id (p : failed_symbol L T) : map_failed_symbol f p = p
  with map_failed_production_id (p : failed_production L T) : map_failed_production f p = p.
  Proof.
    - destruct p as [fps x]. cbn. f_equal.
      induction fps as [|p fps IH]; simpl; [reflexivity|]. now rewrite map_failed_production_id, IH.
    - destruct p as [fs parsed pending]. cbn. rewrite map_failed_symbol_id. f_equal.
      apply map_ext_id. intros; apply map_parsed_id.
  Qed.

  Lemma map_fix_id (r : fix_result L T) : map_fix f r = r.
  Proof. destruct r. unfold map_fix. simpl. now rewrite map_fixed_production_id. Qed.

  Lemma map_result_id (r : parse_result L T) : map_result f r = r.
  Proof.
    destruct r; simpl; now rewrite ?map_node_id, ?map_failed_symbol_id, ?map_fixed_symbol_id.
  Qed.

  Lemma map_tokens_id (l : list (token L T)) : map (map_token f) l = l.
  Proof. apply map_ext_id. intros; apply map_token_id. Qed.
End MapId.

(** related outcomes *)
Definition orel {A B} (R : A -> B -> Prop) (o : outcome A) (o' : outcome B) : Prop :=
  match o, o' with
  | Done a, Done b => R a b
  | Panicked p, Panicked q => p = q
  | OutOfFuel, OutOfFuel => True
  | _, _ => False
  end.

Lemma orel_bind {A B C D} (R : A -> B -> Prop) (Q : C -> D -> Prop) o o' f f' :
  orel R o o' -> (forall a b, o = Done a -> o' = Done b -> R a b -> orel Q (f a) (f' b)) ->
  orel Q (bind o f) (bind o' f').
Proof.
  destruct o, o'; simpl; intros H Hf; try contradiction; auto.
Qed.

Section Sim.
  Context {L1 L2 T : Type} {E : EqDec T}.
  Variable f : L1 -> L2.
  Variable self1 : parser L1 T.
  Variable self2 : parser L2 T.
  Variable HR : history L1 T -> history L2 T -> Prop.
  Variable tokens : list (token L1 T).
  Let tokens2 := map (map_token f) tokens.

  Hypothesis Hnt : forall x, is_non_terminal (pr_grammar self1) x = is_non_terminal (pr_grammar self2) x.
  Hypothesis Heps : get_epsilon_symbol (pr_grammar self1) = get_epsilon_symbol (pr_grammar self2).
  Hypothesis Hinit : get_initial_symbol (pr_grammar self1) = get_initial_symbol (pr_grammar self2).
  Hypothesis Hcell : forall A a, inner_get_token_productions self1 A a
                               = inner_get_token_productions self2 A a.

  Definition fix_rel (x : option (fix_result L1 T) * history L1 T)
                     (y : option (fix_result L2 T) * history L2 T) : Prop :=
    fst y = option_map (map_fix f) (fst x) /\ HR (snd x) (snd y).

  Hypothesis Hfix : forall pos single child failed h1 h2,
    (child = true -> failed <> []) -> HR h1 h2 ->
    orel fix_rel
      (inner_parse_from_tokens_try_fix_productions self1 tokens pos single child failed h1)
      (inner_parse_from_tokens_try_fix_productions self2 tokens2 pos single child
         (map (map_failed_production f) failed) h2).

  Definition sym_rel (x : parse_symbol_result L1 T * history L1 T)
                     (y : parse_symbol_result L2 T * history L2 T) : Prop :=
    fst y = map_sym f (fst x) /\ HR (snd x) (snd y).

  Variable rec1 : T -> nat -> list (list T) -> bool -> history L1 T ->
                  outcome (parse_symbol_result L1 T * history L1 T).
  Variable rec2 : T -> nat -> list (list T) -> bool -> history L2 T ->
                  outcome (parse_symbol_result L2 T * history L2 T).
  Hypothesis Hrec : forall X pos prods single h1 h2, HR h1 h2 ->
    orel sym_rel (rec1 X pos prods single h1) (rec2 X pos prods single h2).

  Lemma nth_tokens2 pos : nth_error tokens2 pos = option_map (map_token f) (nth_error tokens pos).
  Proof. apply nth_error_map. Qed.

  Lemma terminal_sim Y pos :
    inner_parse_terminal_symbol self2 Y tokens2 pos = map_sym f (inner_parse_terminal_symbol self1 Y tokens pos).
  Proof.
    unfold inner_parse_terminal_symbol. rewrite Heps.
    destruct (eqb _ _); [reflexivity|]. unfold inner_parse_non_epsilon_terminal_symbol.
    rewrite nth_tokens2. destruct (nth_error tokens pos) as [tok|]; simpl; [|reflexivity].
    destruct (eqb Y (tok_type tok)); reflexivity.
  Qed.

  Lemma step_sim Y pos child h1 h2 : HR h1 h2 ->
    orel sym_rel (inner_parse_from_tokens_production_symbol self1 tokens rec1 Y pos child h1)
                 (inner_parse_from_tokens_production_symbol self2 tokens2 rec2 Y pos child h2).
  Proof.
    intros H. unfold inner_parse_from_tokens_production_symbol,
      inner_parse_from_tokens_production_non_terminal.
    rewrite Hnt. destruct (is_non_terminal _ _).
    - rewrite nth_tokens2. destruct (nth_error tokens pos) as [tok|]; simpl; [|reflexivity].
      rewrite Hcell. now apply Hrec.
    - simpl. split; simpl; auto. apply terminal_sim.
  Qed.

  Definition pop_rel (x : list (state L1 T) * option (list (state L1 T)) * history L1 T)
                     (y : list (state L2 T) * option (list (state L2 T)) * history L2 T) : Prop :=
    fst (fst y) = map (map_state f) (fst (fst x)) /\
    snd (fst y) = option_map (map (map_state f)) (snd (fst x)) /\ HR (snd x) (snd y).

  Lemma pop_sim states : forall child failed h1 h2, HR h1 h2 ->
    orel pop_rel (inner_parse_pop_states rec1 states child failed h1)
                 (inner_parse_pop_states rec2 (map (map_state f) states) child
                    (map (map_state f) failed) h2).
  Proof.
    induction states as [|[st|fs] states IH]; intros child failed h1 h2 H; simpl.
    - split; simpl; auto.
    - rewrite map_node_type. destruct (ps_prod_iter_option st) as [it|].
      + eapply orel_bind; [now apply Hrec|]. intros [r1 h1'] [r2 h2'] _ _ [Hr Hh]. simpl in Hr, Hh.
        subst r2. destruct r1 as [st'|e|fs]; simpl; auto. split; simpl; auto.
      + now apply (IH child (StParsing st :: failed)).
    - now apply (IH child (StFixed fs :: failed)).
  Qed.

  Lemma existsb_map_state (states : list (state L1 T)) :
    existsb (@is_fixed L2 T) (map (map_state f) states) = existsb (@is_fixed L1 T) states.
  Proof. induction states as [|[st|fs] states IH]; simpl; auto. Qed.

  Lemma states_to_nodes_map (states : list (state L1 T)) :
    orel (fun a b => b = map (map_node f) a) (states_to_nodes states)
         (states_to_nodes (map (map_state f) states)).
  Proof.
    induction states as [|[st|fs] states IH]; simpl; auto.
    eapply orel_bind; [exact IH|]. intros a b _ _ ->. reflexivity.
  Qed.

  Lemma build_node_sim (X : T) (states : list (state L1 T)) :
    orel (fun a b => b = map_prod f a) (inner_parse_from_tokens_production_build_node X states)
         (inner_parse_from_tokens_production_build_node X (map (map_state f) states)).
  Proof.
    unfold inner_parse_from_tokens_production_build_node. rewrite existsb_map_state.
    destruct (existsb _ _).
    - cbn. do 2 f_equal. rewrite !map_map. apply map_ext. intros [s|s]; reflexivity.
    - eapply orel_bind; [apply states_to_nodes_map|]. intros a b _ _ ->. reflexivity.
  Qed.

  Definition prod_rel (x : parse_production_result L1 T * nat * history L1 T)
                      (y : parse_production_result L2 T * nat * history L2 T) : Prop :=
    fst (fst y) = map_prod f (fst (fst x)) /\ snd (fst y) = snd (fst x) /\ HR (snd x) (snd y).

  Lemma build_failed_sim fs (out : list T) (states : list (state L1 T)) :
    inner_parse_from_tokens_production_build_failed_symbol (map_failed_symbol f fs) out
      (map (map_state f) states) =
    map_prod f (inner_parse_from_tokens_production_build_failed_symbol fs out states).
  Proof.
    unfold inner_parse_from_tokens_production_build_failed_symbol. cbn.
    rewrite !map_length, !map_map. f_equal. f_equal. apply map_ext. intros [s|s]; reflexivity.
  Qed.

  Lemma prod_sim fuel : forall X out child states pos h1 h2, HR h1 h2 ->
    orel prod_rel
      (inner_parse_from_tokens_production self1 tokens rec1 fuel X out child states pos h1)
      (inner_parse_from_tokens_production self2 tokens2 rec2 fuel X out child
         (map (map_state f) states) pos h2).
  Proof.
    induction fuel as [|fuel IH]; intros X out child states pos h1 h2 H; simpl; auto.
    rewrite map_length. destruct (length states <? length out).
    - destruct (nth_error out (length states)) as [Y|]; simpl; auto.
      eapply orel_bind; [now apply step_sim|]. intros [r1 h1'] [r2 h2'] _ _ [Hr Hh]. simpl in Hr, Hh.
      subst r2. destruct r1 as [st|e|fs]; simpl.
      + now apply (IH X out child (StParsing st :: states)).
      + eapply orel_bind; [now apply (pop_sim states child [])|].
        intros [[s1 p1] h1''] [[s2 p2] h2''] _ _ (Ha & Hb & Hc). simpl in Ha, Hb, Hc. subst s2 p2.
        destruct p1 as [fstates|]; simpl.
        * split; [simpl; apply build_failed_sim|]. split; auto.
        * destruct s1 as [|s s1]; simpl; auto.
          replace (state_final_token_position (map_state f s)) with (state_final_token_position s)
            by (destruct s; reflexivity).
          now apply (IH X out child (s :: s1)).
      + now apply (IH X out child (StFixed fs :: states)).
    - rewrite <- map_rev. eapply orel_bind; [apply build_node_sim|].
      intros a b _ _ ->. simpl. split; auto.
  Qed.

  Definition try_rel (x : (parse_symbol_result L1 T + list (failed_production L1 T)) * history L1 T)
             (y : (parse_symbol_result L2 T + list (failed_production L2 T)) * history L2 T) : Prop :=
    match fst x, fst y with
    | inl r1, inl r2 => r2 = map_sym f r1
    | inr l1, inr l2 => l2 = map (map_failed_production f) l1
    | _, _ => False
    end /\ HR (snd x) (snd y).

  Lemma try_sim fuel prods : forall X pos child failed h1 h2, HR h1 h2 ->
    orel try_rel
      (try_parse_productions_loop self1 tokens rec1 fuel X pos child prods failed h1)
      (try_parse_productions_loop self2 tokens2 rec2 fuel X pos child prods
         (map (map_failed_production f) failed) h2).
  Proof.
    induction prods as [|out prods IH]; intros X pos child failed h1 h2 H; simpl.
    - split; simpl; auto.
    - eapply orel_bind; [now apply (prod_sim fuel X out child [])|].
      intros [[r1 p1] h1'] [[r2 p2] h2'] _ _ (Ha & Hb & Hc). simpl in Ha, Hb, Hc. subst r2 p2.
      destruct r1 as [n|fp|fp]; simpl.
      + split; simpl; auto.
      + assert (HI := IH X pos child (failed ++ [fp]) h1' h2' Hc). rewrite map_app in HI. exact HI.
      + split; simpl; auto.
  Qed.

  Lemma try_failed_length fuel prods : forall X pos child failed h failed' h',
    try_parse_productions_loop self1 tokens rec1 fuel X pos child prods failed h = Done (inr failed', h') ->
    length failed' = length failed + length prods.
  Proof.
    induction prods as [|out prods IH]; intros X pos child failed h failed' h' H; simpl in H.
    - inversion H; subst. simpl; lia.
    - apply bind_done in H as ([[pr pos'] h1] & _ & H).
      destruct pr as [n|fp|fp]; try discriminate. apply IH in H. rewrite app_length in H. simpl in *. lia.
  Qed.

  Lemma inner_step_sim fuel X pos prods single h1 h2 : HR h1 h2 ->
    orel sym_rel (inner_parse_from_tokens_step self1 tokens rec1 fuel X pos prods single h1)
                 (inner_parse_from_tokens_step self2 tokens2 rec2 fuel X pos prods single h2).
  Proof.
    intros H. unfold inner_parse_from_tokens_step, inner_parse_from_tokens_try_parse_productions.
    eapply orel_bind; [now apply (try_sim fuel prods X pos _ [])|].
    intros [r1 h1'] [r2 h2'] Hd1 _ [Hr Hh]. simpl in Hr, Hh.
    destruct r1 as [r1|l1], r2 as [r2|l2]; try contradiction; subst.
    - split; simpl; auto.
    - eapply orel_bind.
      + apply Hfix; [|exact Hh]. intros Hch ->. apply try_failed_length in Hd1. simpl in Hd1.
        unfold is_child_single_path in Hch. apply andb_prop in Hch as [_ Hch].
        apply Nat.eqb_eq in Hch. lia.
      + intros [fo1 g1] [fo2 g2] _ _ [Hf Hg]. simpl in Hf, Hg. subst fo2.
        split; simpl; auto. destruct fo1; reflexivity.
  Qed.
End Sim.

Section SimTop.
  Context {L1 L2 T : Type} {E : EqDec T}.
  Variable f : L1 -> L2.
  Variable self1 : parser L1 T.
  Variable self2 : parser L2 T.
  Variable HR : history L1 T -> history L2 T -> Prop.
  Variable tokens : list (token L1 T).
  Let tokens2 := map (map_token f) tokens.

  Hypothesis Hnt : forall x, is_non_terminal (pr_grammar self1) x = is_non_terminal (pr_grammar self2) x.
  Hypothesis Heps : get_epsilon_symbol (pr_grammar self1) = get_epsilon_symbol (pr_grammar self2).
  Hypothesis Hinit : get_initial_symbol (pr_grammar self1) = get_initial_symbol (pr_grammar self2).
  Hypothesis Hcell : forall A a, inner_get_token_productions self1 A a
                               = inner_get_token_productions self2 A a.
  Hypothesis Hfix : forall pos single child failed h1 h2,
    (child = true -> failed <> []) -> HR h1 h2 ->
    orel (fix_rel f HR)
      (inner_parse_from_tokens_try_fix_productions self1 tokens pos single child failed h1)
      (inner_parse_from_tokens_try_fix_productions self2 tokens2 pos single child
         (map (map_failed_production f) failed) h2).

  Lemma inner_sim fuel : forall X pos prods single h1 h2, HR h1 h2 ->
    orel (sym_rel f HR) (inner_parse_from_tokens fuel self1 tokens X pos prods single h1)
                        (inner_parse_from_tokens fuel self2 tokens2 X pos prods single h2).
  Proof.
    induction fuel as [|fuel IH]; intros X pos prods single h1 h2 H; simpl; auto.
    apply inner_step_sim; auto.
  Qed.

  Lemma parse_sim fuel : HR [] [] ->
    orel (fun a b => fst b = map_result f (fst a) /\ HR (snd a) (snd b))
         (parse_from_tokens fuel self1 tokens) (parse_from_tokens fuel self2 tokens2).
  Proof.
    intros H0.
    assert (Hs := fun X pos prods => @inner_sim fuel X pos prods true [] [] H0).
    clear Hfix. unfold parse_from_tokens. unfold tokens2 in *.
    destruct tokens as [|tok rest]; [reflexivity|]. cbn [map] in *.
    rewrite <- Hinit. cbn [tok_type map_token]. rewrite <- Hcell.
    eapply orel_bind; [apply Hs|].
    intros [r1 h1] [r2 h2] _ _ [Hr Hh]. simpl in Hr, Hh. subst r2. simpl. split; auto.
    destruct r1; reflexivity.
  Qed.
End SimTop.

(** ** Instances *)
Section Instances.
  Context {L T : Type} {E : EqDec T}.

  (** no solver on both sides: lexemes are irrelevant *)
  Lemma parse_map_lex {L2} (f : L -> L2) (g : grammar T) t tokens fuel :
    parse_from_tokens fuel {| pr_grammar := g; pr_solver := None; pr_transitions := t |}
      (map (map_token f) tokens) =
    match parse_from_tokens fuel {| pr_grammar := g; pr_solver := None; pr_transitions := t |} tokens with
    | Done (r, _) => Done (map_result f r, [])
    | Panicked q => Panicked q
    | OutOfFuel => OutOfFuel
    end.
  Proof.
    assert (H := @parse_sim L L2 T E f
                   {| pr_grammar := g; pr_solver := None; pr_transitions := t |}
                   {| pr_grammar := g; pr_solver := None; pr_transitions := t |}
                   (fun h1 h2 => h2 = []) tokens
                   (fun _ => eq_refl) eq_refl eq_refl (fun _ _ => eq_refl)).
    match type of H with ?A -> _ => assert (HA : A) end.
    { intros pos single child failed h1 h2 _ ->. simpl. split; reflexivity. }
    specialize (H HA fuel eq_refl).
    destruct (parse_from_tokens fuel _ tokens) as [[r1 h1]|q|],
      (parse_from_tokens fuel _ (map (map_token f) tokens)) as [[r2 h2]|q'|]; simpl in H;
      try contradiction; auto.
    - destruct H as [-> ->]. reflexivity.
    - now subst.
  Qed.

  (** a solver that always declines *)
  Lemma parse_declining (g : grammar T) t (s : syntax_error_solver L T) tokens fuel :
    (forall h c, s h c = Reply None) ->
    match parse_from_tokens fuel {| pr_grammar := g; pr_solver := Some s; pr_transitions := t |} tokens with
    | Done (r, _) => Done r
    | Panicked q => Panicked q
    | OutOfFuel => OutOfFuel
    end =
    match parse_from_tokens fuel {| pr_grammar := g; pr_solver := None; pr_transitions := t |} tokens with
    | Done (r, _) => Done r
    | Panicked q => Panicked q
    | OutOfFuel => OutOfFuel
    end.
  Proof.
    intros Hs.
    assert (H := @parse_sim L L T E (fun l => l)
                   {| pr_grammar := g; pr_solver := Some s; pr_transitions := t |}
                   {| pr_grammar := g; pr_solver := None; pr_transitions := t |}
                   (fun h1 h2 => True) tokens
                   (fun _ => eq_refl) eq_refl eq_refl (fun _ _ => eq_refl)).
    match type of H with ?A -> _ => assert (HA : A) end.
    { intros pos single child failed h1 h2 Hch _.
      unfold inner_parse_from_tokens_try_fix_productions. simpl.
      destruct single; [|split; reflexivity].
      destruct child.
      - destruct failed as [|fp failed]; [exfalso; now apply Hch|]. simpl. rewrite Hs. split; auto.
      - simpl. rewrite Hs. split; auto. }
    specialize (H HA fuel I). rewrite map_tokens_id in H.
    destruct (parse_from_tokens fuel _ tokens) as [[r1 h1]|q|],
      (parse_from_tokens fuel {| pr_grammar := g; pr_solver := None; pr_transitions := t |} tokens)
      as [[r2 h2]|q'|]; simpl in H; try contradiction; auto.
    - destruct H as [-> _]. now rewrite map_result_id.
    - now subst.
  Qed.

  (** two parsers with the same queries, cells and solver *)
  Lemma parse_ext (self1 self2 : parser L T) tokens fuel :
    (forall x, is_non_terminal (pr_grammar self1) x = is_non_terminal (pr_grammar self2) x) ->
    get_epsilon_symbol (pr_grammar self1) = get_epsilon_symbol (pr_grammar self2) ->
    get_initial_symbol (pr_grammar self1) = get_initial_symbol (pr_grammar self2) ->
    (forall A a, inner_get_token_productions self1 A a = inner_get_token_productions self2 A a) ->
    pr_solver self1 = pr_solver self2 ->
    parse_from_tokens fuel self1 tokens = parse_from_tokens fuel self2 tokens.
  Proof.
    intros H1 H2 H3 H4 H5.
    assert (H := @parse_sim L L T E (fun l => l) self1 self2 eq tokens H1 H2 H3 H4).
    match type of H with ?A -> _ => assert (HA : A) end.
    { intros pos single child failed h1 h2 _ <-.
      unfold inner_parse_from_tokens_try_fix_productions. rewrite <- H5, map_tokens_id.
      rewrite (map_ext_id (map_failed_production _) failed) by (intros; apply map_failed_production_id).
      assert (Hm : forall o : option (fix_result L T), o = option_map (map_fix (fun l : L => l)) o).
      { intros [o|]; simpl; auto. now rewrite map_fix_id. }
      destruct (pr_solver self1) as [s|]; [|split; reflexivity].
      destruct single; [|split; reflexivity].
      destruct child; [destruct failed as [|fp failed]; simpl; auto|];
        match goal with |- context [s h1 ?c] => destruct (s h1 c); simpl; auto end; split; simpl; auto. }
    specialize (H HA fuel eq_refl). rewrite map_tokens_id in H.
    destruct (parse_from_tokens fuel self1 tokens) as [[r1 h1]|q|],
      (parse_from_tokens fuel self2 tokens) as [[r2 h2]|q'|]; simpl in H; try contradiction; auto.
    - destruct H as [-> ->]. now rewrite map_result_id.
    - now subst.
  Qed.
End Instances.
