(** * Which panics a parse can raise (proofs) *)

From Verif Require Import BaseFacts GrammarFacts.
From Verif Require Export ParserBuild.

Set Implicit Arguments.

Section Panic.
  Context {L T : Type} {E : EqDec T}.
  Variable eps init : T.
  Variable ps : list (production T).
  Variable self : parser L T.
  Hypothesis P : parser_of eps init ps self.
  Variable tokens : list (token L T).
  Variable eof : T.
  (** positions below [bound] are at or before an end-of-input token *)
  Variable bound : nat.

  Notation psr := (parse_symbol_result L T).

  (** the assumptions that exclude running past the end of the input *)
  Definition in_range_solver : Prop :=
    forall s h c fr, pr_solver self = Some s -> s h c = Reply (Some fr) ->
      fr_final_token_position fr < bound.

  Definition strong : Prop :=
    eof_discipline eps ps init eof /\
    (exists i t, bound = S i /\ nth_error tokens i = Some t /\ tok_type t = eof) /\
    in_range_solver.

  Definition allowed (q : panic) : Prop :=
    (q = PanicTokenOutOfRange /\ ~ strong) \/
    (q = PanicSolver /\ exists s h c, pr_solver self = Some s /\ s h c = ReplyPanics).

  Definition clean (out : list T) : Prop := ~ In eof out /\ ~ In init out.

  Definition clean_prods (prods : list (list T)) : Prop :=
    strong -> forall out, In out prods -> clean out.

  Definition vstate (s : state L T) : Prop :=
    strong -> state_final_token_position s < bound.

  (** what pops need from a state *)
  Definition istate (s : state L T) : Prop :=
    match s with
    | StFixed _ => True
    | StParsing st =>
        match ps_prod_iter_option st with
        | None => True
        | Some it => clean_prods it /\ (strong -> ps_initial_token_position st < bound)
        end
    end.

  Definition sym_post (r : psr) : Prop :=
    match r with
    | SymOk st => vstate (StParsing st) /\ istate (StParsing st)
    | SymErr _ => True
    | SymFix fs => vstate (StFixed fs)
    end.

  Lemma bind_panicked {A B} (o : outcome A) (f : A -> outcome B) q :
    bind o f = Panicked q -> o = Panicked q \/ exists a, o = Done a /\ f a = Panicked q.
  Proof. destruct o; simpl; intros H; [right; eauto|left; congruence|discriminate]. Qed.

  Lemma strong_bound : strong -> bound <= length tokens.
  Proof.
    intros (_ & (i & t & -> & Ht & _) & _). assert (i < length tokens) by (apply nth_error_Some; congruence). lia.
  Qed.

  Lemma strong_last pos tok : strong -> pos < bound -> nth_error tokens pos = Some tok -> tok_type tok <> eof ->
    pos + 1 < bound.
  Proof.
    intros (_ & (i & t & -> & Ht & He) & _) Hp Hn Hne.
    destruct (Nat.eq_dec pos i) as [->|]; [|lia]. congruence.
  Qed.

  Lemma token_productions_clean Y a : (strong -> Y <> init) ->
    clean_prods (inner_get_token_productions self Y a).
  Proof.
    intros HY Hs out Hout. destruct (token_productions_good P Y a) as [Hg _].
    destruct (Hg out Hout) as (p & Hp & Hi & Ho). subst out Y.
    pose proof Hs as ((_ & _ & HS & _ & He) & _). split; auto.
  Qed.

  Section Rec.
    Variable rec : T -> nat -> list (list T) -> bool -> history L T ->
                   outcome (psr * history L T).
    Hypothesis Hpanic : forall X pos prods single h q,
      clean_prods prods -> (strong -> pos < bound) ->
      rec X pos prods single h = Panicked q -> allowed q.
    Hypothesis Hdone : forall X pos prods single h r h',
      clean_prods prods -> (strong -> pos < bound) ->
      rec X pos prods single h = Done (r, h') -> sym_post r.

    Lemma step_panic Y pos child h q :
      (strong -> Y <> init) -> (strong -> pos < bound) ->
      inner_parse_from_tokens_production_symbol self tokens rec Y pos child h = Panicked q ->
      allowed q.
    Proof.
      intros HY Hpos. unfold inner_parse_from_tokens_production_symbol,
        inner_parse_from_tokens_production_non_terminal.
      destruct (is_non_terminal _ _); [|discriminate].
      destruct (nth_error tokens pos) as [tok|] eqn:Ht.
      - apply Hpanic; auto. now apply token_productions_clean.
      - intros H; inversion H; subst. left; split; auto. intros Hs. apply nth_error_None in Ht.
        specialize (Hpos Hs). pose proof (strong_bound Hs). lia.
    Qed.

    Lemma terminal_post Y pos :
      (strong -> Y <> eof) -> (strong -> pos < bound) ->
      sym_post (inner_parse_terminal_symbol self Y tokens pos).
    Proof.
      intros HY Hpos. unfold inner_parse_terminal_symbol.
      destruct (eqb _ _).
      - simpl. split; auto.
      - unfold inner_parse_non_epsilon_terminal_symbol.
        destruct (nth_error tokens pos) as [tok|] eqn:Ht; simpl; auto.
        destruct (eqb Y (tok_type tok)) eqn:He; simpl; auto. apply eqb_iff in He.
        split; auto. intros Hs. simpl. eapply strong_last; eauto. rewrite <- He; auto.
    Qed.

    Lemma step_done Y pos child h r h' :
      (strong -> Y <> init) -> (strong -> Y <> eof) -> (strong -> pos < bound) ->
      inner_parse_from_tokens_production_symbol self tokens rec Y pos child h = Done (r, h') ->
      sym_post r.
    Proof.
      intros HY HYe Hpos. unfold inner_parse_from_tokens_production_symbol,
        inner_parse_from_tokens_production_non_terminal.
      destruct (is_non_terminal _ _).
      - destruct (nth_error tokens pos) as [tok|] eqn:Ht; [|discriminate].
        apply Hdone; auto. now apply token_productions_clean.
      - intros H; inversion H; subst. now apply terminal_post.
    Qed.

    (** a fixed [eof] symbol cannot be: [eof] is a terminal *)
    Lemma step_eof pos child h r h' : strong ->
      inner_parse_from_tokens_production_symbol self tokens rec eof pos child h = Done (r, h') ->
      match r with
      | SymOk st => istate (StParsing st)
      | SymErr _ => True
      | SymFix _ => False
      end.
    Proof.
      intros Hs. unfold inner_parse_from_tokens_production_symbol.
      assert (Hn : is_non_terminal (pr_grammar self) eof = false).
      { apply (is_non_terminal_false (po_grammar P)). apply Hs. }
      rewrite Hn. intros H; inversion H; subst. unfold inner_parse_terminal_symbol.
      destruct (eqb _ _); [exact I|]. unfold inner_parse_non_epsilon_terminal_symbol.
      destruct (nth_error tokens pos); [|exact I]. destruct (eqb _ _); exact I.
    Qed.

    Lemma pop_panic states : forall child failed h q,
      Forall istate states ->
      inner_parse_pop_states rec states child failed h = Panicked q -> allowed q.
    Proof.
      induction states as [|[st|fs] states IH]; intros child failed h q Hi H; simpl in H.
      - discriminate.
      - inversion Hi as [|? ? Hst Hrest]; subst. simpl in Hst.
        destruct (ps_prod_iter_option st) as [it|] eqn:Hit; [|eauto].
        destruct Hst as [Hc Hp]. apply bind_panicked in H as [H|([r h'] & H1 & H2)].
        + eapply Hpanic; eauto.
        + destruct r; [discriminate|eauto|eauto].
      - inversion Hi; subst. eauto.
    Qed.

    Lemma pop_done states : forall child failed h states' popped h',
      Forall istate states -> Forall vstate states ->
      inner_parse_pop_states rec states child failed h = Done (states', popped, h') ->
      popped = None -> states' <> [] /\ length states' <= length states /\
      Forall istate states' /\ Forall vstate states'.
    Proof.
      induction states as [|[st|fs] states IH]; intros child failed h states' popped h' Hi Hv H Hn;
        simpl in H.
      - inversion H; subst. discriminate.
      - inversion Hi as [|? ? Hst Hrest]; subst. simpl in Hst. inversion Hv as [|? ? Hv1 Hv2]; subst.
        destruct (ps_prod_iter_option st) as [it|] eqn:Hit.
        + destruct Hst as [Hc Hp]. apply bind_done in H as ([r h1] & H4 & H5).
          destruct r as [st'|e|f].
          * inversion H5; subst. apply Hdone in H4 as [Ha Hb]; auto.
            split; [discriminate|]. split; [simpl; lia|]. split; constructor; auto.
          * destruct (IH _ _ _ _ _ _ Hrest Hv2 H5 eq_refl) as (Ha & Hb & Hc' & Hd).
            split; auto. split; auto. simpl; lia.
          * destruct (IH _ _ _ _ _ _ Hrest Hv2 H5 eq_refl) as (Ha & Hb & Hc' & Hd).
            split; auto. split; auto. simpl; lia.
        + destruct (IH _ _ _ _ _ _ Hrest Hv2 H eq_refl) as (Ha & Hb & Hc' & Hd).
          split; auto. split; auto. simpl; lia.
      - inversion Hi as [|? ? Hi1 Hi2]; subst. inversion Hv as [|? ? Hv1 Hv2]; subst.
        destruct (IH _ _ _ _ _ _ Hi2 Hv2 H eq_refl) as (Ha & Hb & Hc' & Hd).
        split; auto. split; auto. simpl; lia.
    Qed.

    Lemma states_to_nodes_total (states : list (state L T)) :
      existsb (@is_fixed L T) states = false -> exists ns, states_to_nodes states = Done ns.
    Proof.
      induction states as [|[st|fs] states IH]; simpl; intros H; [eauto| |discriminate].
      destruct (IH H) as [ns ->]. simpl. eauto.
    Qed.

    Lemma strong_forall (Q : state L T -> Prop) states :
      (strong -> Forall (fun s => strong -> Q s) states) -> Forall (fun s => strong -> Q s) states.
    Proof.
      intros H. apply Forall_forall. intros x Hx Hs. specialize (H Hs).
      rewrite Forall_forall in H. auto.
    Qed.

    (** the loop over the symbols of [out = u ++ v], [v] empty or the final [eof] *)
    Lemma prod_loop fuel : forall X u v child states pos h,
      (strong -> clean u) -> (strong -> v = [] \/ (v = [eof] /\ eof <> init)) ->
      Forall istate states ->
      (strong -> length states <= length u -> Forall vstate states /\ pos < bound) ->
      match inner_parse_from_tokens_production self tokens rec fuel X (u ++ v) child states pos h with
      | Panicked q => allowed q
      | Done (ProdOk _, pos', _) => strong -> v = [] -> length states <= length u -> pos' < bound
      | Done (ProdFix _, pos', _) => strong -> v = [] -> length states <= length u -> pos' < bound
      | _ => True
      end.
    Proof.
      induction fuel as [|fuel IH]; intros X u v child states pos h Hu Hv Hi Hle; simpl; auto.
      destruct (length states <? length (u ++ v)) eqn:Hlt.
      - apply Nat.ltb_lt in Hlt. rewrite app_length in Hlt.
        destruct (nth_error (u ++ v) (length states)) as [Y|] eqn:HY; simpl.
        2:{ apply nth_error_None in HY. rewrite app_length in HY. lia. }
        assert (Hin : In Y u \/ In Y v) by (eapply in_app_or, nth_error_In; eauto).
        assert (HYinit : strong -> Y <> init).
        { intros Hs ->. destruct Hin as [Hin|Hin].
          - now apply (Hu Hs).
          - destruct (Hv Hs) as [-> | [-> Hne]]; [contradiction|].
            destruct Hin as [Hin|[]]. congruence. }
        assert (Hcase : strong -> length states <= length u).
        { intros Hs. destruct (Hv Hs) as [-> | [-> _]]; simpl in Hlt; lia. }
        assert (Hvs : Forall vstate states).
        { apply strong_forall. intros Hs. apply (Hle Hs (Hcase Hs)). }
        assert (Hpos : strong -> pos < bound).
        { intros Hs. apply (Hle Hs (Hcase Hs)). }
        assert (HYeof : strong -> length states < length u -> Y <> eof).
        { intros Hs Hl ->. rewrite nth_error_app1 in HY by lia.
          apply nth_error_In in HY. exact (proj1 (Hu Hs) HY). }
        destruct (inner_parse_from_tokens_production_symbol self tokens rec Y pos child h)
          as [[r h1]|q|] eqn:Hstep; simpl; auto.
        2:{ eapply step_panic; eauto. }
        (* what the step gives *)
        assert (Hpost : match r with
                        | SymOk st => istate (StParsing st) /\
                            (strong -> length states < length u -> vstate (StParsing st))
                        | SymErr _ => True
                        | SymFix fs => strong -> length states < length u -> vstate (StFixed fs)
                        end).
        { destruct r as [st|e|f]; auto.
          - split.
            + simpl. destruct (ps_prod_iter_option st) as [it|] eqn:Hit; auto.
              assert (Hs1 : strong -> istate (StParsing st)).
              { intros Hs. destruct (eq_dec Y eof) as [->|Hne].
                - apply (@step_eof pos child h _ _ Hs Hstep).
                - eapply (@step_done Y pos child h _ _ (fun Hs => HYinit Hs) (fun _ => Hne) Hpos Hstep). }
              simpl in Hs1. rewrite Hit in Hs1. split.
              * intros Hs. now apply (Hs1 Hs).
              * intros Hs. now apply (Hs1 Hs).
            + intros Hs Hl. eapply (@step_done Y pos child h _ _ HYinit (fun _ => HYeof Hs Hl) Hpos Hstep).
          - intros Hs Hl. exact (@step_done Y pos child h _ _ HYinit (fun _ => HYeof Hs Hl) Hpos Hstep). }
        destruct r as [st|e|f].
        + destruct Hpost as [Hist Hvst].
          assert (Hrec := IH X u v child (StParsing st :: states) (ps_final_token_position st) h1 Hu Hv
                             (Forall_cons _ Hist Hi)).
          match type of Hrec with ?A -> _ => assert (HA : A) end.
          { intros Hs Hl. simpl in Hl. split; [constructor; auto; apply Hvst; auto; lia|].
            apply Hvst; auto; lia. }
          specialize (Hrec HA).
          destruct (inner_parse_from_tokens_production self tokens rec fuel X (u ++ v) child
                      (StParsing st :: states) (ps_final_token_position st) h1)
            as [[[[n|fp|fp] pos'] h']|q|]; auto.
          * intros Hs -> Hl. apply Hrec; auto. simpl in *. lia.
          * intros Hs -> Hl. apply Hrec; auto. simpl in *. lia.
        + destruct (inner_parse_pop_states rec states child [] h1) as [[[states' popped] h2]|q|] eqn:Hpop;
            simpl; auto.
          2:{ eapply pop_panic; eauto. }
          destruct popped as [fstates|]; simpl; auto.
          destruct (@pop_done states child [] h1 _ _ _ Hi Hvs Hpop eq_refl) as (Hne & Hl' & Hi' & Hv').
          destruct states' as [|st states']; [congruence|].
          assert (Hrec := IH X u v child (st :: states') (state_final_token_position st) h2 Hu Hv Hi').
          match type of Hrec with ?A -> _ => assert (HA : A) end.
          { intros Hs Hl. split; auto. inversion Hv'; subst. auto. }
          specialize (Hrec HA).
          destruct (inner_parse_from_tokens_production self tokens rec fuel X (u ++ v) child
                      (st :: states') (state_final_token_position st) h2)
            as [[[[n|fp|fp] pos'] h']|q|]; auto.
          * intros Hs -> Hl. apply Hrec; auto. simpl in *. lia.
          * intros Hs -> Hl. apply Hrec; auto. simpl in *. lia.
        + assert (Hrec := IH X u v child (StFixed f :: states) (fst_final_token_position f) h1 Hu Hv
                             (Forall_cons (StFixed f) I Hi)).
          match type of Hrec with ?A -> _ => assert (HA : A) end.
          { intros Hs Hl. simpl in Hl. split; [constructor; auto; apply Hpost; auto; lia|].
            apply Hpost; auto; lia. }
          specialize (Hrec HA).
          destruct (inner_parse_from_tokens_production self tokens rec fuel X (u ++ v) child
                      (StFixed f :: states) (fst_final_token_position f) h1)
            as [[[[n|fp|fp] pos'] h']|q|]; auto.
          * intros Hs -> Hl. apply Hrec; auto. simpl in *. lia.
          * intros Hs -> Hl. apply Hrec; auto. simpl in *. lia.
      - apply Nat.ltb_ge in Hlt. unfold inner_parse_from_tokens_production_build_node.
        destruct (existsb (@is_fixed L T) (rev states)) eqn:Hf; simpl.
        + intros Hs -> Hl. apply (Hle Hs Hl).
        + destruct (states_to_nodes_total _ Hf) as [ns ->]. simpl.
          intros Hs -> Hl. apply (Hle Hs Hl).
    Qed.

    (** outputs tried for [X]: clean, or (for the initial symbol) clean then [eof] *)
    Definition top_prods (prods : list (list T)) : Prop :=
      strong -> forall out, In out prods ->
        exists u, out = u ++ [eof] /\ clean u /\ eof <> init.

    Lemma try_loop fuel prods : forall X pos child failed h,
      (clean_prods prods \/ top_prods prods) -> (strong -> pos < bound) ->
      match try_parse_productions_loop self tokens rec fuel X pos child prods failed h with
      | Panicked q => allowed q
      | Done (inl r, _) => clean_prods prods -> sym_post r
      | Done (inr failed', _) => length failed' = length failed + length prods
      | OutOfFuel => True
      end.
    Proof.
      induction prods as [|out prods IH]; intros X pos child failed h Hc Hpos; simpl; [lia|].
      assert (Hloop : match inner_parse_from_tokens_production self tokens rec fuel X out child [] pos h with
                      | Panicked q => allowed q
                      | Done (ProdOk _, pos', _) => clean_prods (out :: prods) -> strong -> pos' < bound
                      | Done (ProdFix _, pos', _) => clean_prods (out :: prods) -> strong -> pos' < bound
                      | _ => True
                      end).
      { destruct Hc as [Hc|Hc].
        - assert (H := @prod_loop fuel X out [] child [] pos h
                        (fun Hs => Hc Hs out (or_introl eq_refl)) (fun _ => or_introl eq_refl)
                        (Forall_nil _) (fun Hs _ => conj (Forall_nil _) (Hpos Hs))).
          rewrite app_nil_r in H.
          destruct (inner_parse_from_tokens_production self tokens rec fuel X out child [] pos h)
            as [[[[n|fp|fp] pos'] h']|q|]; auto.
          + intros _ Hs. apply H; auto. simpl; lia.
          + intros _ Hs. apply H; auto. simpl; lia.
        - (* not knowing [strong], split the output at its last symbol *)
          destruct (rev out) as [|e r] eqn:Hr.
          + assert (out = []) by (rewrite <- (rev_involutive out), Hr; reflexivity). subst out.
            assert (H := @prod_loop fuel X [] [] child [] pos h
                           (fun _ => conj (fun x => x) (fun x => x)) (fun _ => or_introl eq_refl)
                           (Forall_nil _) (fun Hs _ => conj (Forall_nil _) (Hpos Hs))).
            simpl in H.
            destruct (inner_parse_from_tokens_production self tokens rec fuel X [] child [] pos h)
              as [[[[n|fp|fp] pos'] h']|q|]; auto.
          + assert (Ho : out = rev r ++ [e]) by (rewrite <- (rev_involutive out), Hr; reflexivity).
            assert (H1 : strong -> clean (rev r)).
            { intros Hs. destruct (Hc Hs out (or_introl eq_refl)) as (u & Hu & Hcl & _).
              rewrite Ho in Hu. apply app_inj_tail in Hu as [-> _]. auto. }
            assert (H2 : strong -> [e] = [] \/ ([e] = [eof] /\ eof <> init)).
            { intros Hs. destruct (Hc Hs out (or_introl eq_refl)) as (u & Hu & _ & Hne).
              rewrite Ho in Hu. apply app_inj_tail in Hu as [_ ->]. auto. }
            assert (H := @prod_loop fuel X (rev r) [e] child [] pos h H1 H2 (Forall_nil _)
                           (fun Hs _ => conj (Forall_nil _) (Hpos Hs))).
            rewrite <- Ho in H.
            destruct (inner_parse_from_tokens_production self tokens rec fuel X out child [] pos h)
              as [[[[n|fp|fp] pos'] h']|q|]; auto.
            * intros Hcl Hs. destruct (H2 Hs) as [Hx|[Hx _]]; inversion Hx; subst e.
              exfalso. apply (proj1 (Hcl Hs out (or_introl eq_refl))). rewrite Ho.
              apply in_or_app; right; simpl; auto.
            * intros Hcl Hs. destruct (H2 Hs) as [Hx|[Hx _]]; inversion Hx; subst e.
              exfalso. apply (proj1 (Hcl Hs out (or_introl eq_refl))). rewrite Ho.
              apply in_or_app; right; simpl; auto. }
      destruct (inner_parse_from_tokens_production self tokens rec fuel X out child [] pos h)
        as [[[[n|fp|fp] pos'] h']|q|]; simpl; auto.
      - intros Hcl. split; [intros Hs; simpl; auto|]. simpl. split; auto.
        intros Hs o Ho. apply (Hcl Hs). simpl; auto.
      - assert (Hc' : clean_prods prods \/ top_prods prods).
        { destruct Hc as [Hc|Hc]; [left|right]; intros Hs o Ho; apply Hc; simpl; auto. }
        specialize (IH X pos child (failed ++ [fp]) h' Hc' Hpos).
        destruct (try_parse_productions_loop self tokens rec fuel X pos child prods (failed ++ [fp]) h')
          as [[[r|failed'] h2]|q|]; auto.
        + intros Hcl. apply IH. intros Hs o Ho. apply (Hcl Hs). simpl; auto.
        + rewrite app_length in IH. simpl in IH. lia.
    Qed.

    Lemma step_rec fuel X pos prods single h :
      (clean_prods prods \/ top_prods prods) -> (strong -> pos < bound) ->
      match inner_parse_from_tokens_step self tokens rec fuel X pos prods single h with
      | Panicked q => allowed q
      | Done (r, _) => clean_prods prods -> sym_post r
      | OutOfFuel => True
      end.
    Proof.
      intros Hc Hpos. unfold inner_parse_from_tokens_step,
        inner_parse_from_tokens_try_parse_productions.
      assert (H := @try_loop fuel prods X pos (is_child_single_path single prods) [] h Hc Hpos).
      destruct (try_parse_productions_loop self tokens rec fuel X pos
                  (is_child_single_path single prods) prods [] h) as [[[r|failed] h1]|q|]; simpl; auto.
      unfold inner_parse_from_tokens_try_fix_productions.
      destruct (pr_solver self) as [s|] eqn:Hs; simpl; auto.
      destruct single; simpl; auto.
      unfold is_child_single_path in *. simpl in *.
      assert (Hfix : forall c, match s h1 c with
                               | Reply (Some fr) => strong -> fr_final_token_position fr < bound
                               | Reply None => True
                               | ReplyPanics => allowed PanicSolver
                               | ReplyNever => True end).
      { intros c. destruct (s h1 c) as [[fr|]| |] eqn:Hc'; auto.
        - intros (_ & _ & Hr). eapply Hr; eauto.
        - right. split; auto. exists s, h1, c. auto. }
      destruct (length prods =? 1) eqn:Hl; simpl.
      - apply Nat.eqb_eq in Hl. destruct failed as [|fp failed]; [simpl in H; lia|].
        simpl. match goal with |- context [s h1 ?c] => specialize (Hfix c); destruct (s h1 c) as [[fr|]| |] end;
          simpl; auto.
      - match goal with |- context [s h1 ?c] => specialize (Hfix c); destruct (s h1 c) as [[fr|]| |] end;
          simpl; auto.
    Qed.
  End Rec.

  Lemma inner_panic fuel : forall X pos prods single h,
    (clean_prods prods \/ top_prods prods) -> (strong -> pos < bound) ->
    match inner_parse_from_tokens fuel self tokens X pos prods single h with
    | Panicked q => allowed q
    | Done (r, _) => clean_prods prods -> sym_post r
    | OutOfFuel => True
    end.
  Proof.
    induction fuel as [|fuel IH]; intros X pos prods single h Hc Hpos; simpl; auto.
    apply step_rec; auto.
    - intros X' pos' prods' single' h' q Hc' Hpos' H.
      specialize (IH X' pos' prods' single' h' (or_introl Hc') Hpos'). now rewrite H in IH.
    - intros X' pos' prods' single' h' r h'' Hc' Hpos' H.
      specialize (IH X' pos' prods' single' h' (or_introl Hc') Hpos'). rewrite H in IH. auto.
  Qed.

  Lemma parse_panic fuel q :
    tokens <> [] -> parse_from_tokens fuel self tokens = Panicked q -> allowed q.
  Proof.
    intros Hne H. unfold parse_from_tokens in H. destruct tokens as [|tok rest] eqn:Ht; [congruence|].
    rewrite <- Ht in *.
    apply bind_panicked in H as [H|([r h'] & _ & H)]; [|discriminate].
    match type of H with inner_parse_from_tokens _ _ _ ?X ?pos ?prods ?single ?h = _ =>
      assert (Hi := @inner_panic fuel X pos prods single h) end.
    rewrite H in Hi. apply Hi.
    - right. intros Hs out Hout. pose proof (token_productions_good P (get_initial_symbol (pr_grammar self)) (tok_type tok)) as [Hg _].
      apply Hg in Hout as (p & Hp & Hi' & Ho). unfold get_initial_symbol in Hi'.
      rewrite (go_init (po_grammar P)) in Hi'.
      destruct Hs as ((_ & He & HS & HSe & _) & _).
      destruct (HSe p Hp Hi') as (u & Hu & Hnu). exists u. subst out. split; auto.
      split; [split; auto|].
      + intros Hin. apply (HS p Hp). rewrite Hu. apply in_or_app; auto.
      + intros ->. apply He. exists p; auto.
    - intros (_ & (i & t & -> & _) & _). lia.
  Qed.
End Panic.
