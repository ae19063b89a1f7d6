(** * How deep a parse that returns has nested, whatever the grammar (proofs) *)

From Verif Require Import BaseFacts GrammarFacts.
From Verif Require Import ParserDepth ParserSim ParserOff SessionSpec.

Set Implicit Arguments.

Section Hang.
  Context {L T : Type} {E : EqDec T}.
  Variable self : parser L T.
  Variable tokens : list (token L T).
  Notation rec_t := (T -> nat -> list (list T) -> bool -> history L T ->
                     outcome (parse_symbol_result L T * history L T)).

  (** the calls a parse makes *)
  Definition legal (X : T) (p : nat) (prods : list (list T)) : Prop :=
    is_non_terminal (pr_grammar self) X = true /\
    exists tok pre, nth_error tokens p = Some tok /\
      inner_get_token_productions self X (tok_type tok) = pre ++ prods.

  Definition slegal (s : state L T) : Prop :=
    match s with
    | StParsing st => forall it, ps_prod_iter_option st = Some it ->
        legal (tok_type (node_token (ps_node st))) (ps_initial_token_position st) it
    | StFixed _ => True
    end.

  Lemma legal_tail X p pre prods : legal X p (pre ++ prods) -> legal X p prods.
  Proof.
    intros (HX & tok & pre0 & Ht & Hc). split; auto. exists tok, (pre0 ++ pre).
    split; auto. now rewrite <- app_assoc.
  Qed.

  (** *** what a call leaves on the stack *)
  Lemma build_node_ok (X : T) (states : list (state L T)) n :
    inner_parse_from_tokens_production_build_node X states = Done (ProdOk n) ->
    exists ns, n = Node ns (Token None X).
  Proof.
    unfold inner_parse_from_tokens_production_build_node.
    destruct (existsb _ states); [discriminate|]. intros H.
    apply bind_done in H as (ns & _ & H). inversion H. eauto.
  Qed.

  Lemma prod_ok rec fuel : forall X out child states pos h n pos' h',
    inner_parse_from_tokens_production self tokens rec fuel X out child states pos h
      = Done (ProdOk n, pos', h') -> exists ns, n = Node ns (Token None X).
  Proof.
    induction fuel as [|fuel IH]; intros X out child states pos h n pos' h' H; [discriminate|].
    simpl in H. destruct (length states <? length out).
    2:{ apply bind_done in H as (pr & Hb & H). inversion H; subst. eapply build_node_ok; eauto. }
    apply bind_done in H as (Y & _ & H). apply bind_done in H as ([r h1] & _ & H).
    destruct r as [st|e|f]; eauto.
    apply bind_done in H as ([[states' popped] h2] & _ & H).
    destruct popped; [discriminate|]. destruct states'; [discriminate|]. eauto.
  Qed.

  Lemma try_ok rec fuel prods : forall X pos child failed h st h',
    try_parse_productions_loop self tokens rec fuel X pos child prods failed h
      = Done (inl (SymOk st), h') ->
    exists pre it, prods = pre ++ it /\ ps_prod_iter_option st = Some it /\
      ps_initial_token_position st = pos /\ tok_type (node_token (ps_node st)) = X.
  Proof.
    induction prods as [|out prods IH]; intros X pos child failed h st h' H; simpl in H; [discriminate|].
    apply bind_done in H as ([[pr pos'] h1] & Hp & H). destruct pr as [n|fp|fp]; [|eauto|discriminate].
    - apply prod_ok in Hp as [ns ->]. inversion H; subst. exists [out], prods. simpl. auto.
    - apply IH in H as (pre & it & -> & H). exists (out :: pre), it. auto.
  Qed.

  Lemma inner_ok n X pos prods single h st h' : legal X pos prods ->
    inner_parse_from_tokens n self tokens X pos prods single h = Done (SymOk st, h') ->
    slegal (StParsing st).
  Proof.
    intros Hl H. destruct n as [|n]; [discriminate|]. simpl in H.
    unfold inner_parse_from_tokens_step, inner_parse_from_tokens_try_parse_productions in H.
    apply bind_done in H as ([r h1] & Ht & H). destruct r as [r|failed].
    - inversion H; subst. apply try_ok in Ht as (pre & it & -> & Hi & <- & <-).
      intros it' Hi'. rewrite Hi' in Hi. inversion Hi; subst. eapply legal_tail; eauto.
    - apply bind_done in H as ([[fr|] h2] & _ & H); inversion H.
  Qed.

  (** *** the bounded recursion answers if it answers the calls made *)
  Section Prod.
    Variable n : nat.
    Let rec : rec_t := inner_parse_from_tokens n self tokens.
    Variable rec' : rec_t.
    Hypothesis Hcall : forall X p prods single h, legal X p prods ->
      refines (rec X p prods single h) (rec' X p prods single h).

    Lemma hang_step Y p child h :
      refines (inner_parse_from_tokens_production_symbol self tokens rec Y p child h)
              (inner_parse_from_tokens_production_symbol self tokens rec' Y p child h).
    Proof.
      unfold inner_parse_from_tokens_production_symbol,
        inner_parse_from_tokens_production_non_terminal.
      destruct (is_non_terminal (pr_grammar self) Y) eqn:HY; [|apply refines_refl].
      destruct (nth_error tokens p) as [tok|] eqn:Ht; [|apply refines_refl].
      apply Hcall. split; auto. exists tok, []. auto.
    Qed.

    Lemma step_legal Y p child h st h' :
      inner_parse_from_tokens_production_symbol self tokens rec Y p child h = Done (SymOk st, h') ->
      slegal (StParsing st).
    Proof.
      unfold inner_parse_from_tokens_production_symbol,
        inner_parse_from_tokens_production_non_terminal.
      destruct (is_non_terminal (pr_grammar self) Y) eqn:HY.
      - destruct (nth_error tokens p) as [tok|] eqn:Ht; [|discriminate].
        apply inner_ok. split; auto. exists tok, []. auto.
      - intros H. unfold inner_parse_terminal_symbol, inner_parse_non_epsilon_terminal_symbol,
          build_token_failed_symbol in H.
        destruct (eqb _ Y); [inversion H; subst; intros it; discriminate|].
        destruct (nth_error tokens p); [|discriminate].
        destruct (eqb Y _); [inversion H; subst; intros it; discriminate|discriminate].
    Qed.

    Lemma hang_pop states : Forall slegal states -> forall child failed h,
      refines (inner_parse_pop_states rec states child failed h)
              (inner_parse_pop_states rec' states child failed h).
    Proof.
      induction 1 as [|[st|fs] states Hs _ IH]; intros child failed h; simpl; auto using refines_refl.
      destruct (ps_prod_iter_option st) as [it|] eqn:Hit; auto.
      apply refines_bind; [apply Hcall; now apply Hs|].
      intros [[st'|e|f] h']; auto using refines_refl.
    Qed.

    Lemma pop_legal states : Forall slegal states -> forall child failed h states' h',
      inner_parse_pop_states rec states child failed h = Done (states', None, h') ->
      Forall slegal states'.
    Proof.
      induction 1 as [|[st|fs] states Hs Hss IH]; intros child failed h states' h' H; simpl in H;
        [discriminate| |eauto].
      destruct (ps_prod_iter_option st) as [it|] eqn:Hit; [|eauto].
      apply bind_done in H as ([r h1] & Hr & H). destruct r as [st'|e|f]; eauto.
      inversion H; subst. constructor; auto. eapply inner_ok; [|exact Hr]. now apply Hs.
    Qed.

    Lemma hang_prod fuel : forall fuel' X out child states pos h, fuel <= fuel' ->
      Forall slegal states ->
      refines (inner_parse_from_tokens_production self tokens rec fuel X out child states pos h)
              (inner_parse_from_tokens_production self tokens rec' fuel' X out child states pos h).
    Proof.
      induction fuel as [|fuel IH]; intros fuel' X out child states pos h Hle Hs; [left; reflexivity|].
      destruct fuel' as [|fuel']; [lia|]. simpl.
      destruct (length states <? length out); [|apply refines_refl].
      apply refines_bind; [apply refines_refl|]. intros Y.
      apply refines_bind_done; [apply hang_step|]. intros [[st|e|f] h'] Hr.
      - apply IH; [lia|]. constructor; auto. eapply step_legal; eauto.
      - apply refines_bind_done; [now apply hang_pop|]. intros [[states' [fstates|]] h''] Hp.
        + apply refines_refl.
        + destruct states'; [apply refines_refl|]. apply IH; [lia|]. eapply pop_legal; eauto.
      - apply IH; [lia|]. constructor; simpl; auto.
    Qed.

    Lemma hang_inner fuel fuel' X pos prods single h : fuel <= fuel' ->
      refines (inner_parse_from_tokens_step self tokens rec fuel X pos prods single h)
              (inner_parse_from_tokens_step self tokens rec' fuel' X pos prods single h).
    Proof.
      intros Hle. unfold inner_parse_from_tokens_step, inner_parse_from_tokens_try_parse_productions.
      apply refines_bind.
      - generalize (is_child_single_path single prods) as child, (@nil (failed_production L T)) as failed.
        revert h. induction prods as [|out prods IH]; intros h child failed; simpl; [apply refines_refl|].
        apply refines_bind; [now apply hang_prod|].
        intros [[[nd|fp|fp] pos'] h']; auto using refines_refl.
      - intros [[r|failed] h']; apply refines_refl.
    Qed.
  End Prod.

  (** *** a call nested in one with the same key would not have ended *)
  Variable K : Type.
  Variable key : T -> nat -> list (list T) -> bool -> K.
  Variable keys : list K.
  Hypothesis Hkeys : forall X p prods single, legal X p prods -> In (key X p prods single) keys.
  Notation inner n := (inner_parse_from_tokens n self tokens).
  Hypothesis Hsame : forall n X p prods single h X' p' prods' single' h',
    key X p prods single = key X' p' prods' single' ->
    inner n X p prods single h = OutOfFuel -> inner n X' p' prods' single' h' = OutOfFuel.

  Lemma minimal_fuel n X p prods single h : inner n X p prods single h <> OutOfFuel ->
    exists m, S m <= n /\ inner m X p prods single h = OutOfFuel /\
      inner (S m) X p prods single h = inner n X p prods single h.
  Proof.
    induction n as [|n IH]; intros H; [elim H; reflexivity|].
    destruct (inner n X p prods single h) as [a|q|] eqn:Hn.
    1,2: destruct IH as (m & Hm & H1 & H2); [discriminate|]; exists m;
      split; [lia|]; split; auto; rewrite H2;
      destruct (@inner_refines L T E self tokens n (S n) X p prods single h) as [Hx|Hx]; [lia|congruence|];
      now rewrite Hx, Hn.
    exists n. auto.
  Qed.

  Lemma hang_depth loops n : n <= loops -> forall X p prods single h (path : list K) d,
    legal X p prods -> NoDup path -> incl path keys ->
    (forall X' p' prods' single' h', In (key X' p' prods' single') path ->
       inner n X' p' prods' single' h' = OutOfFuel) ->
    length keys <= d + length path ->
    refines (inner n X p prods single h) (inner_at_depth loops d self tokens X p prods single h).
  Proof.
    induction n as [n IH] using lt_wf_ind. intros Hn X p prods single h path d Hl Hnd Hin Hpath Hd.
    destruct (inner n X p prods single h) as [a|q|] eqn:Hi; [| |left; reflexivity].
    all: rewrite <- Hi.
    all: destruct (@minimal_fuel n X p prods single h) as (m & Hm & Hout & Hsm); [congruence|].
    all: assert (Hfresh : ~ In (key X p prods single) path)
           by (intros Hc; rewrite (Hpath _ _ _ _ h Hc) in Hi; discriminate).
    all: assert (Hlen : length (key X p prods single :: path) <= length keys)
           by (apply NoDup_incl_length; [now constructor|]; intros k [<-|Hk]; auto).
    all: simpl in Hlen; destruct d as [|d]; [exfalso; lia|].
    all: rewrite <- Hsm; simpl; apply hang_inner; [|lia].
    all: intros Y p1 prods1 single1 h1 Hl1.
    all: destruct (inner m Y p1 prods1 single1 h1) as [a'|q'|] eqn:Hi1; [| |left; reflexivity].
    all: rewrite <- Hi1; apply (IH m ltac:(lia) ltac:(lia) Y p1 prods1 single1 h1 (key X p prods single :: path));
           auto; [now constructor| | |simpl; lia].
    all: try (intros k [<-|Hk]; auto; fail).
    all: intros X' p' prods' single' h' [Hk|Hk]; [eapply Hsame; [exact Hk|exact Hout]|].
    all: destruct (@inner_refines L T E self tokens m n X' p' prods' single' h') as [Hx|Hx];
           [lia|exact Hx|rewrite <- Hx; auto].
  Qed.

  Lemma hang_parse loops n : n <= loops ->
    is_non_terminal (pr_grammar self) (get_initial_symbol (pr_grammar self)) = true ->
    refines (parse_from_tokens n self tokens) (parse_at_depth loops (length keys) self tokens).
  Proof.
    intros Hn Hi. unfold parse_from_tokens, parse_at_depth.
    assert (H : forall tok rest, tokens = tok :: rest ->
      let X := get_initial_symbol (pr_grammar self) in
      refines (inner n X 0 (inner_get_token_productions self X (tok_type tok)) true [])
        (inner_at_depth loops (length keys) self tokens X 0
           (inner_get_token_productions self X (tok_type tok)) true [])).
    { intros tok rest Ht X. apply hang_depth with (path := []); auto.
      - split; auto. exists tok, []. rewrite Ht. auto.
      - constructor.
      - intros k [].
      - intros ? ? ? ? ? [].
      - lia. }
    destruct tokens as [|tok rest]; [apply refines_refl|].
    apply refines_bind; [eapply H; reflexivity|]. intros [r h]. apply refines_refl.
  Qed.
End Hang.

Section Keys.
  Context {L T : Type} {E : EqDec T}.
  Variable self : parser L T.
  Variable tokens : list (token L T).
  Notation inner n := (inner_parse_from_tokens n self tokens).

  (** without solver neither the flag nor the history matters *)
  Lemma same_none n X p prods single h single' h' : pr_solver self = None ->
    inner n X p prods single h = OutOfFuel -> inner n X p prods single' h' = OutOfFuel.
  Proof.
    intros Hs H.
    assert (Hf := fun b h0 => @inner_off L T E self self tokens eq_refl (fun _ _ => eq_refl) Hs n X p prods b [] h0).
    pose proof (Hf single h) as H1. rewrite H in H1. simpl in H1.
    rewrite (Hf single' h') in H1. destruct (inner n X p prods single' h') as [[a b]|q|]; [discriminate|discriminate|auto].
  Qed.

  (** a stateless solver makes the history irrelevant *)
  Lemma same_stateless n X p prods single h h' : stateless (pr_solver self) ->
    inner n X p prods single h = OutOfFuel -> inner n X p prods single h' = OutOfFuel.
  Proof.
    intros Hst H.
    assert (S := @inner_sim L L T E (fun l => l) self self (fun _ _ => True) tokens
                   (fun _ => eq_refl) eq_refl (fun _ _ => eq_refl)).
    match type of S with ?A -> _ => assert (HA : A) end.
    { intros pos sg child failed h1 h2 _ _.
      unfold inner_parse_from_tokens_try_fix_productions. rewrite map_tokens_id.
      rewrite (map_ext_id (map_failed_production _) failed) by (intros; apply map_failed_production_id).
      assert (Hm : forall o : option (fix_result L T), o = option_map (map_fix (fun l : L => l)) o).
      { intros [o|]; simpl; auto. now rewrite map_fix_id. }
      destruct (pr_solver self) as [s|] eqn:Hs; simpl; [|split; auto].
      assert (Hsl : forall c, s h2 c = s h1 c) by (intros; apply Hst with (s := s); auto).
      destruct sg; [|split; auto].
      destruct child; [destruct failed as [|fp failed]; simpl; auto|]; rewrite Hsl;
        match goal with |- context [s h1 ?c] => destruct (s h1 c); simpl; auto end; split; simpl; auto. }
    specialize (S HA n X p prods single h h' I). rewrite map_tokens_id in S.
    rewrite H in S. simpl in S. destruct (inner n X p prods single h') as [[a b]|q|]; tauto.
  Qed.

  (** the calls *)
  Variable nts : list T.
  Definition suffixes (l : list (list T)) : list (list (list T)) :=
    map (fun i => skipn i l) (seq 0 (S (length l))).

  Definition all_keys : list (T * nat * list (list T)) :=
    flat_map (fun pt => flat_map (fun X => map (fun s => (X, fst pt, s))
      (suffixes (inner_get_token_productions self X (tok_type (snd pt))))) nts)
      (combine (seq 0 (length tokens)) tokens).

  Lemma suffix_in pre suf : In suf (suffixes (pre ++ suf)).
  Proof.
    apply in_map_iff. exists (length pre). split.
    - rewrite skipn_app, skipn_all, Nat.sub_diag. reflexivity.
    - apply in_seq. rewrite app_length. lia.
  Qed.

  Lemma combine_seq_in (l : list (token L T)) : forall k p tok, nth_error l p = Some tok ->
    In (k + p, tok) (combine (seq k (length l)) l).
  Proof.
    induction l as [|x l IH]; intros k [|p] tok H; simpl in *; try discriminate.
    - inversion H; subst. left. f_equal. lia.
    - right. replace (k + S p) with (S k + p) by lia. now apply IH.
  Qed.

  Lemma legal_key X p prods : (is_non_terminal (pr_grammar self) X = true -> In X nts) ->
    legal self tokens X p prods -> In (X, p, prods) all_keys.
  Proof.
    intros Hn (HX & tok & pre & Ht & Hc). apply in_flat_map. exists (p, tok). split.
    - exact (combine_seq_in _ 0 _ Ht).
    - apply in_flat_map. exists X. split; auto. apply in_map_iff. exists prods. split; auto.
      simpl. rewrite Hc. apply suffix_in.
  Qed.

  Lemma all_keys_length B :
    (forall a, list_sum (map (fun X => S (length (inner_get_token_productions self X a))) nts) <= B) ->
    length all_keys <= B * length tokens.
  Proof.
    intros HB. unfold all_keys.
    assert (H : forall (l : list (nat * token L T)), length (flat_map (fun pt => flat_map (fun X => map (fun s => (X, fst pt, s))
      (suffixes (inner_get_token_productions self X (tok_type (snd pt))))) nts) l) <= B * length l).
    { induction l as [|[q tok] l IH]; [simpl; lia|]. cbn [flat_map length fst snd]. rewrite app_length, Nat.mul_succ_r.
      enough (length (flat_map (fun X => map (fun s => (X, q, s))
        (suffixes (inner_get_token_productions self X (tok_type tok)))) nts) <= B) by lia.
      specialize (HB (tok_type tok)). etransitivity; [|exact HB]. clear.
      induction nts as [|X l IH]; [simpl; lia|]. cbn [flat_map]. rewrite app_length.
      unfold suffixes at 1. rewrite !map_length, seq_length. simpl. simpl in IH. lia. }
    etransitivity; [apply H|]. rewrite combine_length, seq_length. nia.
  Qed.
End Keys.

(** the candidates for one token *)
Lemma cells_count {T : Type} {E : EqDec T} (ps : list (production T)) (f : T -> list (list T)) nts :
  NoDup nts ->
  (forall X, In X nts -> length (f X) <= length (productions_of ps X)) ->
  list_sum (map (fun X => S (length (f X))) nts) <= length ps + length nts.
Proof.
  intros Hnd Hf.
  assert (H : list_sum (map (fun X => length (productions_of ps X)) nts) <= length ps).
  { clear Hf. induction ps as [|p l IH].
    - clear. induction nts; simpl; auto.
    - simpl. transitivity (list_sum (map (fun X => (if eqb (p_input p) X then 1 else 0) +
        length (productions_of l X)) nts)).
      { clear. induction nts as [|X m IHm]; simpl; [lia|]. unfold productions_of at 1. simpl.
        unfold productions_of in IHm |- *.
        destruct (eqb (p_input p) X) eqn:Hx; simpl; fold (productions_of l X); lia. }
      assert (H1 : list_sum (map (fun X => if eqb (p_input p) X then 1 else 0) nts) <= 1).
      { clear IH. induction nts as [|X m IHm]; simpl; [lia|]. inversion Hnd; subst.
        destruct (eqb (p_input p) X) eqn:Hx; [|simpl; apply IHm; auto].
        apply eqb_iff in Hx. subst X.
        enough (list_sum (map (fun X => if eqb (p_input p) X then 1 else 0) m) = 0) by lia.
        clear - H1. induction m as [|Y m IH]; auto. simpl.
        destruct (eqb (p_input p) Y) eqn:Hy; [apply eqb_iff in Hy; subst; elim H1; now left|].
        apply IH. intros H. apply H1. now right. }
      assert (H2 : forall m, list_sum (map (fun X => (if eqb (p_input p) X then 1 else 0) + length (productions_of l X)) m)
        = list_sum (map (fun X => if eqb (p_input p) X then 1 else 0) m) + list_sum (map (fun X => length (productions_of l X)) m)).
      { induction m as [|X m IHm]; simpl; [lia|]. rewrite IHm. lia. }
      rewrite H2. lia. }
  enough (list_sum (map (fun X => S (length (f X))) nts) <=
          list_sum (map (fun X => length (productions_of ps X)) nts) + length nts) by lia.
  clear H Hnd. induction nts as [|X m IH]; simpl; [lia|].
  pose proof (Hf X (or_introl eq_refl)). specialize (IH (fun Y HY => Hf Y (or_intror HY))). lia.
Qed.
