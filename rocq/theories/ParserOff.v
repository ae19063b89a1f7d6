(** * Off the single path the solver is not consulted (proofs) *)

From Verif Require Import BaseFacts ParserRel ParserReport.

Set Implicit Arguments.

Section Off.
  Context {L T : Type} {E : EqDec T}.
  Variables self self0 : parser L T.
  Variable tokens : list (token L T).
  Hypothesis Hgr : pr_grammar self0 = pr_grammar self.
  Hypothesis Hcells : forall A a,
    inner_get_token_productions self0 A a = inner_get_token_productions self A a.
  Hypothesis Hns : pr_solver self0 = None.

  (** the same outcome with history [h] *)
  Definition rehist {A : Type} (h : history L T) (o : outcome (A * history L T))
    : outcome (A * history L T) := '(a, _) <- o ;; Done (a, h).

  Lemma rehist_bind {A B : Type} h (o o0 : outcome (A * history L T))
        (f f0 : A * history L T -> outcome (B * history L T)) :
    o = rehist h o0 -> (forall a h0, f (a, h) = rehist h (f0 (a, h0))) ->
    bind o f = rehist h (bind o0 f0).
  Proof. intros -> Hf. destruct o0 as [[a h0]|q|]; simpl; auto. Qed.

  Section Rec.
    Variables rec rec0 : T -> nat -> list (list T) -> bool -> history L T ->
                         outcome (parse_symbol_result L T * history L T).
    Hypothesis Hrec : forall X pos prods b h h0,
      rec X pos prods false h = rehist h (rec0 X pos prods b h0).

    Lemma step_off Y pos b h h0 :
      inner_parse_from_tokens_production_symbol self tokens rec Y pos false h =
      rehist h (inner_parse_from_tokens_production_symbol self0 tokens rec0 Y pos b h0).
    Proof.
      unfold inner_parse_from_tokens_production_symbol,
        inner_parse_from_tokens_production_non_terminal, inner_parse_terminal_symbol.
      rewrite Hgr. destruct (is_non_terminal _ _); [|reflexivity].
      destruct (nth_error tokens pos); [|reflexivity]. rewrite Hcells. apply Hrec.
    Qed.

    Lemma pop_off states : forall b failed h h0,
      inner_parse_pop_states rec states false failed h =
      rehist h (inner_parse_pop_states rec0 states b failed h0).
    Proof.
      induction states as [|[st|fs] states IH]; intros b failed h h0; simpl; auto.
      destruct (ps_prod_iter_option st); auto.
      apply rehist_bind; [apply Hrec|]. intros [st'|e|f] h1; auto.
    Qed.

    Lemma prod_off fuel : forall X out b states pos h h0,
      inner_parse_from_tokens_production self tokens rec fuel X out false states pos h =
      rehist h (inner_parse_from_tokens_production self0 tokens rec0 fuel X out b states pos h0).
    Proof.
      induction fuel as [|fuel IH]; intros X out b states pos h h0; simpl; auto.
      destruct (length states <? length out).
      2:{ destruct (inner_parse_from_tokens_production_build_node X (rev states)); reflexivity. }
      destruct (nth_error out (length states)) as [Y|]; simpl; auto.
      apply rehist_bind; [apply step_off|]. intros [st|e|f] h1; auto.
      apply rehist_bind; [apply pop_off|]. intros [states' [fst|]] h2; auto.
      destruct states'; auto.
    Qed.

    Lemma try_off fuel X pos prods : forall b failed h h0,
      try_parse_productions_loop self tokens rec fuel X pos false prods failed h =
      rehist h (try_parse_productions_loop self0 tokens rec0 fuel X pos b prods failed h0).
    Proof.
      induction prods as [|out prods IH]; intros b failed h h0; simpl; auto.
      apply rehist_bind; [apply prod_off|]. intros [[n|fp|fp] pos'] h1; auto.
    Qed.

    Lemma inner_step_off fuel X pos prods b h h0 :
      inner_parse_from_tokens_step self tokens rec fuel X pos prods false h =
      rehist h (inner_parse_from_tokens_step self0 tokens rec0 fuel X pos prods b h0).
    Proof.
      unfold inner_parse_from_tokens_step, inner_parse_from_tokens_try_parse_productions.
      change (is_child_single_path false prods) with false.
      apply rehist_bind; [apply try_off|]. intros [r|failed] h1; auto.
      unfold inner_parse_from_tokens_try_fix_productions. rewrite Hns.
      destruct (pr_solver self); reflexivity.
    Qed.
  End Rec.

  Lemma inner_off fuel : forall X pos prods b h h0,
    inner_parse_from_tokens fuel self tokens X pos prods false h =
    rehist h (inner_parse_from_tokens fuel self0 tokens X pos prods b h0).
  Proof.
    induction fuel as [|fuel IH]; intros X pos prods b h h0; simpl; auto.
    now apply inner_step_off.
  Qed.

  (** the initial symbol does not have exactly one candidate *)
  Lemma parse_off fuel s tok rest :
    pr_solver self = Some s -> tokens = tok :: rest ->
    length (inner_get_token_productions self (get_initial_symbol (pr_grammar self)) (tok_type tok)) <> 1 ->
    parse_from_tokens fuel self tokens =
    '(res, _) <- parse_from_tokens fuel self0 tokens ;;
    match res with
    | ResultErr (FailedSymbol fps X) =>
        let c := FixFailedProductions tokens 0 fps in
        answer <- await (s [] c) ;;
        Done (match answer with
              | Some fr => ResultFix (FixedSymbol (fr_production fr) X)
              | None => ResultErr (FailedSymbol fps X)
              end, [c])
    | _ => Done (res, [])
    end.
  Proof.
    intros Hs Htok Hl. unfold parse_from_tokens. rewrite Hgr. 
    destruct tokens as [|t ts] eqn:Hts; [discriminate|]. inversion Htok; subst t ts. clear Htok.
    rewrite Hcells, <- Hts in *.
    set (X := get_initial_symbol (pr_grammar self)) in *.
    set (prods := inner_get_token_productions self X (tok_type tok)) in *.
    destruct fuel as [|fuel]; [reflexivity|]. simpl.
    unfold inner_parse_from_tokens_step, inner_parse_from_tokens_try_parse_productions.
    assert (Hch : is_child_single_path true prods = false).
    { unfold is_child_single_path. simpl. now apply Nat.eqb_neq. }
    rewrite Hch. rewrite (@try_off _ _ (inner_off fuel) fuel X 0 prods false [] [] []).
    destruct (try_parse_productions_loop self0 tokens _ fuel X 0 false prods [] [])
      as [[[r|failed] h]|q|] eqn:Ht; simpl; auto.
    - destruct r; simpl; auto.
      apply (try_sound _ (@rel_sound _ _ _ self0 tokens fuel)) in Ht.
      exfalso. remember (inl (SymErr fs)) as r0. clear -Ht Heqr0.
      induction Ht; discriminate || auto.
    - unfold inner_parse_from_tokens_try_fix_productions. rewrite Hns, Hs. simpl.
      destruct (s [] (FixFailedProductions tokens 0 failed)) as [[fr|]| |]; reflexivity.
  Qed.
End Off.
