(** * How often the loop over the symbols of a production runs (proofs)

    A retry replaces a state by one with fewer candidates left and drops the
    states after it; so the vector of states, read as a number in base [C]
    whose missing digits are the largest ones, decreases. *)

From Verif Require Import BaseFacts GrammarFacts.
From Verif Require Import ParserDepth ParserHang.

Set Implicit Arguments.

Section Halt.
  Context {L T : Type} {E : EqDec T}.
  Variable self : parser L T.
  Variable tokens : list (token L T).
  Variables B M : nat.
  Hypothesis Hcell : forall X a, length (inner_get_token_productions self X a) <= B.
  Hypothesis Hout : forall X a out, In out (inner_get_token_productions self X a) -> length out <= M.
  Notation rec_t := (T -> nat -> list (list T) -> bool -> history L T ->
                     outcome (parse_symbol_result L T * history L T)).
  Notation C := (B + 2).

  Definition digit (s : state L T) : nat :=
    match s with
    | StParsing st => match ps_prod_iter_option st with Some it => S (length it) | None => 0 end
    | StFixed _ => 0
    end.

  Fixpoint value (s : list (state L T)) : nat :=
    match s with
    | [] => 0
    | x :: s' => value s' * C + digit x
    end.

  Definition measure (m : nat) (s : list (state L T)) : nat := (value s + 1) * C ^ (m - length s).

  Lemma measure_pos m s : 1 <= measure m s.
  Proof.
    unfold measure. assert (C ^ (m - length s) <> 0) by (apply Nat.pow_nonzero; lia). nia.
  Qed.

  Lemma measure_push m s x : length s < m -> digit x <= B -> measure m (x :: s) < measure m s.
  Proof.
    intros Hm Hx. unfold measure. cbn [length value].
    replace (m - length s) with (S (m - S (length s))) by lia. rewrite Nat.pow_succ_r'.
    assert (C ^ (m - S (length s)) <> 0) by (apply Nat.pow_nonzero; lia).
    generalize dependent (C ^ (m - S (length s))). intros k Hk. nia.
  Qed.

  Lemma measure_above m zs s : length (zs ++ s) <= m ->
    value s * C ^ (m - length s) < measure m (zs ++ s).
  Proof.
    induction zs as [|z zs IH]; intros Hm.
    - unfold measure. simpl. assert (C ^ (m - length s) <> 0) by (apply Nat.pow_nonzero; lia). nia.
    - cbn [app] in *. cbn [length] in Hm. specialize (IH ltac:(lia)).
      assert (Hle : forall l, length l <= m -> value l * C ^ (m - length l) < measure m l).
      { intros l _. unfold measure.
        assert (C ^ (m - length l) <> 0) by (apply Nat.pow_nonzero; lia). nia. }
      assert (Hv : value s * C ^ (m - length s) <= value (zs ++ s) * C ^ (m - length (zs ++ s))).
      { clear IH Hle. induction zs as [|y zs IHz]; [simpl; lia|]. cbn [app length value] in *.
        specialize (IHz ltac:(lia)). etransitivity; [exact IHz|].
        replace (m - length (zs ++ s)) with (S (m - S (length (zs ++ s)))) by lia. rewrite Nat.pow_succ_r'.
        assert (C ^ (m - S (length (zs ++ s))) <> 0) by (apply Nat.pow_nonzero; lia).
        generalize dependent (C ^ (m - S (length (zs ++ s)))). intros k Hk. nia. }
      apply Nat.le_lt_trans with (value (zs ++ s) * C ^ (m - length (zs ++ s))); [exact Hv|].
      unfold measure. cbn [length value].
      replace (m - length (zs ++ s)) with (S (m - S (length (zs ++ s)))) by lia. rewrite Nat.pow_succ_r'.
      assert (C ^ (m - S (length (zs ++ s))) <> 0) by (apply Nat.pow_nonzero; lia).
      generalize dependent (C ^ (m - S (length (zs ++ s)))). intros k Hk. nia.
  Qed.

  Lemma measure_retry m zs x x' s : length (zs ++ x :: s) <= m -> digit x' < digit x ->
    measure m (x' :: s) < measure m (zs ++ x :: s).
  Proof.
    intros Hm Hx. apply Nat.le_lt_trans with (value (x :: s) * C ^ (m - length (x :: s))).
    2:{ now apply measure_above. }
    unfold measure. cbn [value length].
    assert (C ^ (m - S (length s)) <> 0) by (apply Nat.pow_nonzero; lia).
    generalize dependent (C ^ (m - S (length s))). intros k Hk. nia.
  Qed.

  (** a symbol derived leaves fewer candidates than it was given *)
  Definition shortens (rec : rec_t) : Prop := forall X p prods single h st h',
    rec X p prods single h = Done (SymOk st, h') -> digit (StParsing st) <= length prods.

  Lemma try_shortens rec fuel prods : forall X pos child failed h st h',
    try_parse_productions_loop self tokens rec fuel X pos child prods failed h
      = Done (inl (SymOk st), h') -> digit (StParsing st) <= length prods.
  Proof.
    induction prods as [|out prods IH]; intros X pos child failed h st h' H; simpl in H; [discriminate|].
    apply bind_done in H as ([[pr pos'] h1] & Hp & H). destruct pr as [n|fp|fp]; [| |discriminate].
    - inversion H; subst. simpl. lia.
    - apply IH in H. cbn [length]. lia.
  Qed.

  Lemma step_shortens rec fuel : shortens (inner_parse_from_tokens_step self tokens rec fuel).
  Proof.
    intros X p prods single h st h' H.
    unfold inner_parse_from_tokens_step, inner_parse_from_tokens_try_parse_productions in H.
    apply bind_done in H as ([r h1] & Ht & H). destruct r as [r|failed].
    - inversion H; subst. eapply try_shortens; eauto.
    - apply bind_done in H as ([[fr|] h2] & _ & H); inversion H.
  Qed.

  Lemma depth_shortens loops d : shortens (inner_at_depth loops d self tokens).
  Proof.
    destruct d as [|d]; [intros X p prods single h st h' H; discriminate|].
    apply step_shortens.
  Qed.

  (** the candidates tried are those of a cell *)
  Definition listed (prods : list (list T)) : Prop :=
    exists X a pre, inner_get_token_productions self X a = pre ++ prods.

  Definition slisted (s : state L T) : Prop :=
    match s with
    | StParsing st => forall it, ps_prod_iter_option st = Some it -> listed it
    | StFixed _ => True
    end.

  Definition keeps (rec : rec_t) : Prop := forall X p prods single h st h',
    listed prods -> rec X p prods single h = Done (SymOk st, h') -> slisted (StParsing st).

  Lemma step_keeps rec fuel : keeps (inner_parse_from_tokens_step self tokens rec fuel).
  Proof.
    intros X p prods single h st h' (X0 & a & pre0 & Hl) H.
    unfold inner_parse_from_tokens_step, inner_parse_from_tokens_try_parse_productions in H.
    apply bind_done in H as ([r h1] & Ht & H). destruct r as [r|failed].
    - inversion H; subst. apply try_ok in Ht as (pre & it & -> & Hi & _).
      intros it' Hi'. rewrite Hi' in Hi. inversion Hi; subst.
      exists X0, a, (pre0 ++ pre). now rewrite <- app_assoc.
    - apply bind_done in H as ([[fr|] h2] & _ & H); inversion H.
  Qed.

  Lemma depth_keeps loops d : keeps (inner_at_depth loops d self tokens).
  Proof.
    destruct d as [|d]; [intros X p prods single h st h' _ H; discriminate|].
    apply step_keeps.
  Qed.

  Section Prod.
    Variables rec rec' : rec_t.
    Hypothesis Hshort : shortens rec.
    Hypothesis Hkeep : keeps rec.
    Hypothesis Hcall : forall X p prods single h, listed prods ->
      refines (rec X p prods single h) (rec' X p prods single h).

    Lemma halt_step Y p child h :
      refines (inner_parse_from_tokens_production_symbol self tokens rec Y p child h)
              (inner_parse_from_tokens_production_symbol self tokens rec' Y p child h).
    Proof.
      unfold inner_parse_from_tokens_production_symbol,
        inner_parse_from_tokens_production_non_terminal.
      destruct (is_non_terminal (pr_grammar self) Y) eqn:HY; [|apply refines_refl].
      destruct (nth_error tokens p) as [tok|] eqn:Ht; [|apply refines_refl].
      apply Hcall. exists Y, (tok_type tok), []. auto.
    Qed.

    Lemma halt_pushed Y p child h st h' :
      inner_parse_from_tokens_production_symbol self tokens rec Y p child h = Done (SymOk st, h') ->
      slisted (StParsing st) /\ digit (StParsing st) <= B.
    Proof.
      unfold inner_parse_from_tokens_production_symbol,
        inner_parse_from_tokens_production_non_terminal.
      destruct (is_non_terminal (pr_grammar self) Y) eqn:HY.
      - destruct (nth_error tokens p) as [tok|] eqn:Ht; [|discriminate]. intros H. split.
        + eapply Hkeep; [|exact H]. exists Y, (tok_type tok), []. auto.
        + etransitivity; [eapply Hshort; exact H|apply Hcell].
      - intros H. unfold inner_parse_terminal_symbol, inner_parse_non_epsilon_terminal_symbol,
          build_token_failed_symbol in H.
        destruct (eqb _ Y); [inversion H; subst; split; [intros it; discriminate|simpl; lia]|].
        destruct (nth_error tokens p); [|discriminate].
        destruct (eqb Y _); [inversion H; subst; split; [intros it; discriminate|simpl; lia]|discriminate].
    Qed.

    Lemma halt_pop states : Forall slisted states -> forall child failed h,
      refines (inner_parse_pop_states rec states child failed h)
              (inner_parse_pop_states rec' states child failed h).
    Proof.
      induction 1 as [|[st|fs] states Hs _ IH]; intros child failed h; simpl; auto using refines_refl.
      destruct (ps_prod_iter_option st) as [it|] eqn:Hit; auto.
      apply refines_bind; [apply Hcall; now apply Hs|].
      intros [[st'|e|f] h']; auto using refines_refl.
    Qed.

    Lemma halt_popped states : Forall slisted states -> forall child failed h states' h',
      inner_parse_pop_states rec states child failed h = Done (states', None, h') ->
      Forall slisted states' /\
      exists zs x x' s, states = zs ++ x :: s /\ states' = x' :: s /\ digit x' < digit x.
    Proof.
      induction 1 as [|[st|fs] states Hs Hss IH]; intros child failed h states' h' H; simpl in H;
        [discriminate| |].
      - destruct (ps_prod_iter_option st) as [it|] eqn:Hit.
        2:{ apply IH in H as (Hf & zs & x & x' & s & -> & H). split; auto.
            exists (StParsing st :: zs), x, x', s. auto. }
        apply bind_done in H as ([r h1] & Hr & H). destruct r as [st'|e|f].
        2,3: apply IH in H as (Hf & zs & x & x' & s & -> & H); split; auto;
            exists (StParsing st :: zs), x, x', s; auto.
        inversion H; subst. split.
        + constructor; auto. eapply Hkeep; [|exact Hr]. now apply Hs.
        + exists [], (StParsing st), (StParsing st'), states. split; [auto|]. split; [auto|].
          apply Hshort in Hr. cbn [digit]. rewrite Hit. cbn [digit] in Hr. lia.
      - apply IH in H as (Hf & zs & x & x' & s & -> & H). split; auto.
        exists (StFixed fs :: zs), x, x', s. auto.
    Qed.

    Lemma halt_prod fuel : forall fuel' X out child states pos h,
      measure (length out) states <= fuel' -> length states <= length out ->
      Forall slisted states ->
      refines (inner_parse_from_tokens_production self tokens rec fuel X out child states pos h)
              (inner_parse_from_tokens_production self tokens rec' fuel' X out child states pos h).
    Proof.
      induction fuel as [|fuel IH]; intros fuel' X out child states pos h Hle Hlen Hs; [left; reflexivity|].
      pose proof (measure_pos (length out) states) as H1.
      destruct fuel' as [|fuel']; [lia|]. simpl.
      destruct (length states <? length out) eqn:Hlt; [|apply refines_refl].
      apply Nat.ltb_lt in Hlt.
      apply refines_bind; [apply refines_refl|]. intros Y.
      apply refines_bind_done; [apply halt_step|]. intros [[st|e|f] h'] Hr.
      - apply halt_pushed in Hr as [Hl Hd]. apply IH; [|simpl; lia|now constructor].
        pose proof (@measure_push (length out) states (StParsing st) Hlt Hd). lia.
      - apply refines_bind_done; [now apply halt_pop|]. intros [[states' [fstates|]] h''] Hp.
        + apply refines_refl.
        + apply halt_popped in Hp as (Hf & zs & x & x' & s & -> & -> & Hd); auto.
          apply IH; auto.
          * pose proof (@measure_retry (length out) zs x x' s Hlen Hd). lia.
          * rewrite app_length in Hlen. simpl in *. lia.
      - apply IH; [|simpl; lia|constructor; simpl; auto].
        pose proof (@measure_push (length out) states (StFixed f) Hlt (Nat.le_0_l _)). lia.
    Qed.

    Lemma halt_inner fuel fuel' X pos prods single h : listed prods -> C ^ M <= fuel' ->
      refines (inner_parse_from_tokens_step self tokens rec fuel X pos prods single h)
              (inner_parse_from_tokens_step self tokens rec' fuel' X pos prods single h).
    Proof.
      intros Hl Hle. unfold inner_parse_from_tokens_step, inner_parse_from_tokens_try_parse_productions.
      apply refines_bind.
      - generalize (is_child_single_path single prods) as child, (@nil (failed_production L T)) as failed.
        revert h. induction prods as [|out prods IH]; intros h child failed; simpl; [apply refines_refl|].
        apply refines_bind.
        + apply halt_prod; [|simpl; lia|constructor]. unfold measure. simpl. rewrite Nat.sub_0_r.
          assert (length out <= M).
          { destruct Hl as (X0 & a & pre & Hl). apply (Hout X0 a). rewrite Hl. apply in_or_app. right. now left. }
          assert (C ^ length out <= C ^ M) by (apply Nat.pow_le_mono_r; lia). lia.
        + intros [[[nd|fp|fp] pos'] h']; auto using refines_refl.
          apply IH. destruct Hl as (X0 & a & pre & Hl). exists X0, a, (pre ++ [out]). now rewrite <- app_assoc.
      - intros [[r|failed] h']; apply refines_refl.
    Qed.
  End Prod.

  Lemma halt_depth loops loops' d : C ^ M <= loops' -> forall X p prods single h, listed prods ->
    refines (inner_at_depth loops d self tokens X p prods single h)
            (inner_at_depth loops' d self tokens X p prods single h).
  Proof.
    intros Hle. induction d as [|d IH]; intros X p prods single h Hl; [left; reflexivity|].
    simpl. apply halt_inner; auto using depth_shortens, depth_keeps.
  Qed.

  Lemma halt_parse loops loops' d : C ^ M <= loops' ->
    refines (parse_at_depth loops d self tokens) (parse_at_depth loops' d self tokens).
  Proof.
    intros Hle. unfold parse_at_depth.
    assert (H := fun X p prods single h => @halt_depth loops loops' d Hle X p prods single h).
    destruct tokens as [|tok rest]; [apply refines_refl|].
    apply refines_bind; [apply H; eexists _, _, []; reflexivity|]. intros [r h]. apply refines_refl.
  Qed.

  (** depth and loops together are fuel *)
  Lemma depth_fuel loops d : forall X p prods single h,
    refines (inner_at_depth loops d self tokens X p prods single h)
            (inner_parse_from_tokens (loops + d) self tokens X p prods single h).
  Proof.
    induction d as [|d IH]; intros X p prods single h; [left; reflexivity|].
    rewrite Nat.add_succ_r. simpl. apply inner_step_refines; auto. lia.
  Qed.

  Lemma depth_fuel_parse loops d :
    refines (parse_at_depth loops d self tokens) (parse_from_tokens (loops + d) self tokens).
  Proof.
    unfold parse_at_depth, parse_from_tokens.
    assert (H := depth_fuel loops d).
    destruct tokens as [|tok rest]; [apply refines_refl|].
    apply refines_bind; [apply H|]. intros [r h]. apply refines_refl.
  Qed.
End Halt.
