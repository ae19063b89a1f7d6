(** * Token iterators and repeated use of one parser: C66, C67 *)

From Verif Require Import BaseFacts GrammarFacts ParserSim ParserBuild Examples PropReports PropLimits.
From Verif Require Export SessionSpec PropParse.

Set Implicit Arguments.

Section Facts.
  Context {L T : Type} {E : EqDec T}.
  Implicit Types (it : token_iterator L T) (self : parser L T).

  Lemma iterator_from it tokens : yields it tokens ->
    forall fuel pre post, tokens = pre ++ post -> length post < fuel ->
    iterator_to_vec fuel it (length pre) pre = Done (tokens, S (length tokens)).
  Proof.
    intros [Hy He]. induction fuel as [|fuel IH]; intros pre post Ht Hf; [lia|]. simpl.
    destruct post as [|tok post].
    - rewrite app_nil_r in Ht. subst pre. now rewrite He.
    - rewrite (Hy (length pre) tok) by (rewrite Ht, nth_error_app2, Nat.sub_diag by lia; reflexivity).
      replace (S (length pre)) with (length (pre ++ [tok])) by (rewrite app_length; simpl; lia).
      apply (IH _ post); [now rewrite <- app_assoc|simpl in Hf; lia].
  Qed.

  Lemma iterator_breaks it n r : breaks it n r -> r = NextPanics \/ r = NextNever ->
    forall fuel calls vector, calls <= n ->
    iterator_to_vec fuel it calls vector = OutOfFuel \/
    (r = NextPanics /\ iterator_to_vec fuel it calls vector = Panicked PanicIterator).
  Proof.
    intros [Hb Hr] Hc. induction fuel as [|fuel IH]; intros calls vector Hle; simpl; auto.
    destruct (Nat.eq_dec calls n) as [->|Hne].
    - rewrite Hr. destruct Hc as [-> | ->]; auto.
    - destruct (Hb calls) as [tok ->]; [lia|]. apply IH. lia.
  Qed.

  Lemma iterator_panics it n : breaks it n NextPanics ->
    forall fuel calls vector, calls <= n -> n - calls < fuel ->
    iterator_to_vec fuel it calls vector = Panicked PanicIterator.
  Proof.
    intros [Hb Hr]. induction fuel as [|fuel IH]; intros calls vector Hle Hf; simpl; [lia|].
    destruct (Nat.eq_dec calls n) as [->|Hne]; [now rewrite Hr|].
    destruct (Hb calls) as [tok ->]; [lia|]. apply IH; lia.
  Qed.

  Lemma iterator_endless it : endless it ->
    forall fuel calls vector, iterator_to_vec fuel it calls vector = OutOfFuel.
  Proof.
    intros He. induction fuel as [|fuel IH]; intros calls vector; simpl; auto.
    destruct (He calls) as [tok ->]. apply IH.
  Qed.

  Lemma iterator_done it fuel : forall calls vector tokens n,
    length vector = calls ->
    (forall i tok, nth_error vector i = Some tok -> it i = NextToken tok) ->
    iterator_to_vec fuel it calls vector = Done (tokens, n) ->
    yields it tokens /\ n = S (length tokens).
  Proof.
    induction fuel as [|fuel IH]; intros calls vector tokens n Hl Hv H; simpl in H; [discriminate|].
    destruct (it calls) as [tok| | |] eqn:Hi; try discriminate.
    - eapply IH; [| |exact H].
      + rewrite app_length. simpl. lia.
      + intros i tok' Hn. destruct (Nat.lt_ge_cases i (length vector)) as [Hlt|Hge].
        * rewrite nth_error_app1 in Hn by auto. eauto.
        * rewrite nth_error_app2 in Hn by auto.
          destruct (i - length vector) as [|k] eqn:Hk; simpl in Hn; [|destruct k; discriminate].
          inversion Hn; subst tok'. replace i with calls by lia. exact Hi.
    - inversion H; subst tokens n. split; [|congruence]. split; auto. now rewrite Hl.
  Qed.

  (** starting with earlier calls is parsing with the resumed solver *)
  Lemma vector_resumed fuel self tokens earlier :
    parse_from_vector fuel self tokens earlier =
    match parse_from_tokens fuel (resumed_parser earlier self) tokens with
    | Done (r, h) => Done (r, earlier ++ h)
    | Panicked q => Panicked q
    | OutOfFuel => OutOfFuel
    end.
  Proof.
    assert (H := @inner_sim L L T E (fun l => l) (resumed_parser earlier self) self
                   (fun h1 h2 => h2 = earlier ++ h1) tokens
                   (fun _ => eq_refl) eq_refl (fun _ _ => eq_refl)).
    match type of H with ?A -> _ => assert (HA : A) end.
    { intros pos single child failed h1 h2 _ ->.
      unfold inner_parse_from_tokens_try_fix_productions. rewrite map_tokens_id.
      rewrite (map_ext_id (map_failed_production _) failed) by (intros; apply map_failed_production_id).
      assert (Hm : forall o : option (fix_result L T), o = option_map (map_fix (fun l : L => l)) o).
      { intros [o|]; simpl; auto. now rewrite map_fix_id. }
      simpl. destruct (pr_solver self) as [s|]; simpl; [|split; reflexivity].
      unfold resumed.
      destruct single; [|split; reflexivity].
      destruct child; [destruct failed as [|fp failed]; simpl; auto|];
        match goal with |- context [s (earlier ++ h1) ?c] => destruct (s (earlier ++ h1) c); simpl; auto end;
        split; simpl; auto; now rewrite app_assoc. }
    specialize (H HA fuel). rewrite map_tokens_id in H.
    unfold parse_from_vector, parse_from_tokens.
    destruct tokens as [|tok rest]; [reflexivity|].
    specialize (H (get_initial_symbol (pr_grammar self)) 0
      (inner_get_token_productions self (get_initial_symbol (pr_grammar self)) (tok_type tok)) true [] earlier).
    rewrite app_nil_r in H. specialize (H eq_refl).
    change (inner_get_token_productions (resumed_parser earlier self)) with (inner_get_token_productions self).
    change (pr_grammar (resumed_parser earlier self)) with (pr_grammar self).
    destruct (inner_parse_from_tokens fuel (resumed_parser earlier self) (tok :: rest) _ _ _ _ _) as [[r1 h1]|q|],
      (inner_parse_from_tokens fuel self (tok :: rest) _ _ _ _ earlier) as [[r2 h2]|q'|]; simpl in H;
      try contradiction; simpl; auto; [|now subst].
    destruct H as [Hr Hh]. simpl in Hr, Hh. subst. f_equal. f_equal.
    destruct r1 as [st|f|f]; simpl; auto.
    - f_equal. apply map_node_id.
    - f_equal. apply map_failed_symbol_id.
    - f_equal. apply map_fixed_symbol_id.
  Qed.

  Lemma resumed_nil self : resumed_parser [] self = self.
  Proof.
    destruct self as [g [s|] t]; reflexivity.
  Qed.

  Lemma vector_nil fuel self tokens : parse_from_vector fuel self tokens [] = parse_from_tokens fuel self tokens.
  Proof. reflexivity. Qed.
End Facts.

(** ** C66: the iterator is read to its end before anything else happens *)
Theorem C66_iterator_read_first :
  forall (L T : Type) (E : EqDec T) (self : parser L T) (it : token_iterator L T)
         (earlier : list (solver_call L T)),
    (* it ends: the tokens it yielded are parsed, whatever it would do when called again *)
    (forall tokens fuel, yields it tokens -> length tokens < fuel ->
       parse_from_iterator fuel self it [] =
       match parse_from_tokens fuel self tokens with
       | Done (r, h) => Done (r, h, length tokens + 1)
       | Panicked q => Panicked q
       | OutOfFuel => OutOfFuel
       end) /\
    (* it panics before its end: so does the parse, whatever the grammar, tokens and solver *)
    (forall n, breaks it n NextPanics ->
       terminates_with (fun fuel => parse_from_iterator fuel self it earlier) (Panicked PanicIterator)) /\
    (* it does not end: neither does the parse *)
    ((exists n, breaks it n NextNever) \/ endless it ->
       diverges (fun fuel => parse_from_iterator fuel self it earlier)) /\
    (* a parse that returns has read the iterator to its end and not beyond *)
    (forall fuel r h calls, parse_from_iterator fuel self it earlier = Done (r, h, calls) ->
       exists tokens, yields it tokens /\ tokens <> [] /\ calls = length tokens + 1).
Proof.
  intros L T E self it earlier. split; [|split; [|split]].
  - intros tokens fuel Hy Hf. unfold parse_from_iterator.
    change 0 with (length (@nil (token L T))).
    rewrite (iterator_from Hy [] tokens eq_refl Hf). simpl. rewrite vector_nil.
    destruct (parse_from_tokens fuel self tokens) as [[r h]|q|]; simpl; auto.
    now rewrite Nat.add_1_r.
  - intros n Hb. split; [discriminate|]. exists (S n). intros fuel Hf. unfold parse_from_iterator.
    rewrite (iterator_panics Hb); auto; lia.
  - intros [[n Hb]|He] fuel; unfold parse_from_iterator.
    + destruct (iterator_breaks Hb (or_intror eq_refl) fuel [] (Nat.le_0_l n)) as [->|[H _]]; [reflexivity|discriminate].
    + now rewrite (iterator_endless He).
  - intros fuel r h calls H. unfold parse_from_iterator in H.
    apply bind_done in H as ([tokens n] & H1 & H2).
    apply bind_done in H2 as ([r' h'] & H2 & H3). inversion H3; subst r' h' n.
    apply iterator_done in H1 as [Hy Hc]; auto; [|intros i tok Hn; destruct i; discriminate].
    exists tokens. split; auto. split; [|lia]. intros ->. discriminate.
Qed.
Print Assumptions C66_iterator_read_first.

(** an iterator over two tokens that would panic if it were called after its end *)
Definition two_tokens : token_iterator nat nat := fun i =>
  match i with 0 => NextToken (Token (Some 7) 4) | 1 => NextToken (Token None 9) | 2 => NextEnd | _ => NextPanics end.

Example C66_case :
  yields two_tokens [Token (Some 7) 4; Token None 9] /\
  breaks (fun i => if i <? 3 then NextToken (Token (Some i) 4) else NextPanics) 3 (NextPanics (L := nat) (T := nat)) /\
  endless (fun i => NextToken (Token (Some i) 4)).
Proof.
  split; [|split].
  - split; [|reflexivity]. intros [|[|[|i]]] tok H; simpl in H; try discriminate; inversion H; reflexivity.
  - split; [|reflexivity]. intros i Hi. apply Nat.ltb_lt in Hi. rewrite Hi. eauto.
  - intros i. eauto.
Qed.

(** ** C67: one parser, many parses *)

Lemma resumed_constructed {L T : Type} {E : EqDec T} (eps init : T) ps solver (self : parser L T) earlier :
  constructed_parser eps init ps solver self ->
  constructed_parser eps init ps (option_map (resumed earlier) solver) (resumed_parser earlier self).
Proof.
  intros B. pose proof (bf_solver (constructed_built B)) as Hs.
  destruct B as (ho1 & ho2 & g & Hg & H). exists ho1, ho2, g. split; auto.
  destruct solver as [s|]; simpl.
  - destruct H as [fuel H]. exists fuel. unfold from_grammar_and_solver in *.
    apply bind_done in H as (ffs & Hf & H). rewrite Hf. simpl.
    unfold rdp_from in *. apply bind_done in H as (t & Ht & H). rewrite Ht. simpl.
    inversion H; subst self. reflexivity.
  - destruct H as [ffs H]. exists ffs. rewrite H. f_equal.
    destruct self as [g' s' t']. simpl in Hs. subst s'. reflexivity.
Qed.

(** The parses of a session are those of the inputs one by one, each with the solver as the
    earlier ones left it; nothing else is carried over. *)
Theorem C67_sessions :
  forall (L T : Type) (E : EqDec T) (self : parser L T) (its : list (token_iterator L T))
         (inputs : list (list (token L T))) (earlier h : list (solver_call L T))
         (rs : list (parse_result L T)),
    Forall2 yields its inputs ->
    (terminates_with (fun fuel => parse_all fuel self its earlier) (Done (rs, h)) <->
     session self earlier inputs rs h).
Proof.
  intros L T E self its inputs earlier h rs Hy. revert earlier h rs.
  induction Hy as [|it tokens its inputs Hy _ IH]; intros earlier h rs.
  - split.
    + intros [_ [n Hn]]. specialize (Hn n (le_n _)). simpl in Hn. inversion Hn; subst. constructor.
    + intros H. inversion H; subst. split; [discriminate|]. exists 0. reflexivity.
  - assert (Hone : forall fuel, length tokens < fuel ->
      parse_from_iterator fuel self it earlier =
      match parse_from_tokens fuel (resumed_parser earlier self) tokens with
      | Done (r, h) => Done (r, earlier ++ h, S (length tokens))
      | Panicked q => Panicked q
      | OutOfFuel => OutOfFuel
      end).
    { intros fuel Hf. unfold parse_from_iterator. change 0 with (length (@nil (token L T))).
      rewrite (iterator_from Hy [] tokens eq_refl Hf). simpl. rewrite vector_resumed.
      destruct (parse_from_tokens fuel _ tokens) as [[r h']|q|]; reflexivity. }
    split.
    + intros [_ [n Hn]]. set (m := n + S (length tokens)).
      assert (Hm := Hn m ltac:(unfold m; lia)). simpl in Hm. rewrite Hone in Hm by (unfold m; lia).
      destruct (parse_from_tokens m (resumed_parser earlier self) tokens) as [[r h1]|q|] eqn:Hp; simpl in Hm; try discriminate.
      assert (Ht : terminates_with (fun fuel => parse_from_tokens fuel (resumed_parser earlier self) tokens) (Done (r, h1))).
      { split; [discriminate|]. exists m. intros fuel Hle. eapply parse_mono; eauto. discriminate. }
      apply bind_done in Hm as ([rs' h2] & Hm & Heq). inversion Heq; subst rs h2.
      econstructor; [exact Ht|]. apply IH. split; [discriminate|]. exists m. intros fuel Hle.
      assert (Hf := Hn fuel ltac:(unfold m in Hle; lia)). simpl in Hf.
      rewrite Hone in Hf by (unfold m in Hle; lia).
      rewrite (parse_mono _ _ Hp) in Hf by (auto; discriminate). simpl in Hf.
      apply bind_done in Hf as ([rs2 h2] & Hf & Heq2). rewrite Hf. now inversion Heq2.
    + intros H. inversion H as [|? ? ? r h1 rs' ? Ht Hs]; subst.
      apply IH in Hs as [_ [n Hn]]. destruct Ht as [_ [m Hm]]. split; [discriminate|].
      exists (n + m + S (length tokens)). intros fuel Hf. simpl. rewrite Hone by lia.
      rewrite Hm by lia. simpl. rewrite Hn by lia. reflexivity.
Qed.
Print Assumptions C67_sessions.

(** Without solver, or with one whose answers depend on the call only, every parse of a
    session gives what it gives alone: order, number and outcome of other parses are
    irrelevant. *)
Theorem C67_stateless_sessions :
  forall (L T : Type) (E : EqDec T) (self : parser L T) (inputs : list (list (token L T)))
         (earlier h : list (solver_call L T)) (rs : list (parse_result L T)),
    stateless (pr_solver self) -> session self earlier inputs rs h ->
    Forall2 (fun tokens r => exists h1,
      terminates_with (fun fuel => parse_from_tokens fuel self tokens) (Done (r, h1))) inputs rs.
Proof.
  intros L T E self inputs earlier h rs Hst H. induction H as [|earlier tokens inputs r h rs h' Ht _ IH]; constructor; auto.
  exists h. destruct Ht as [_ [n Hn]]. split; [discriminate|]. exists n. intros fuel Hf. rewrite <- (Hn fuel Hf).
  clear - Hst.
  assert (H := @parse_sim L L T E (fun l => l) self (resumed_parser earlier self) eq tokens
                 (fun _ => eq_refl) eq_refl eq_refl (fun _ _ => eq_refl)).
  match type of H with ?A -> _ => assert (HA : A) end.
  { intros pos single child failed h1 h2 _ <-.
    unfold inner_parse_from_tokens_try_fix_productions. rewrite map_tokens_id.
    rewrite (map_ext_id (map_failed_production _) failed) by (intros; apply map_failed_production_id).
    assert (Hm : forall o : option (fix_result L T), o = option_map (map_fix (fun l : L => l)) o).
    { intros [o|]; simpl; auto. now rewrite map_fix_id. }
    simpl. destruct (pr_solver self) as [s|] eqn:Hs; simpl; [|split; reflexivity].
    unfold resumed. assert (Hsl : forall h c, s (earlier ++ h) c = s h c) by (intros; apply Hst with (s := s); auto).
    destruct single; [|split; reflexivity].
    destruct child; [destruct failed as [|fp failed]; simpl; auto|]; rewrite Hsl;
      match goal with |- context [s h1 ?c] => destruct (s h1 c); simpl; auto end; split; simpl; auto. }
  specialize (H HA fuel eq_refl). rewrite map_tokens_id in H.
  destruct (parse_from_tokens fuel self tokens) as [[r1 h1]|q|],
    (parse_from_tokens fuel (resumed_parser earlier self) tokens) as [[r2 h2]|q'|]; simpl in H;
    try contradiction; auto.
  - destruct H as [-> ->]. now rewrite map_result_id.
  - now subst.
Qed.
Print Assumptions C67_stateless_sessions.

(** With any solver, every accepted input of a session has a valid tree, and sessions of
    parsers without left recursion and with an advancing solver end. *)
Theorem C67_sessions_sound :
  forall (L T : Type) (E : EqDec T) (eps init : T) (ps : list (production T))
         (solver : option (syntax_error_solver L T)) (self : parser L T),
    constructed_parser eps init ps solver self ->
    (forall earlier inputs rs h, session self earlier inputs rs h ->
       Forall2 (fun tokens r => forall root, r = ResultOk root ->
         exists w, tree_for eps ps init root w /\ prefix w tokens) inputs rs) /\
    (no_left_recursion_from eps ps init -> progressing solver ->
     forall its inputs earlier, Forall2 yields its inputs ->
       exists r, terminates_with (fun fuel => parse_all fuel self its earlier) r).
Proof.
  intros L T E eps init ps solver self B. split.
  - intros earlier inputs rs h H. induction H as [|earlier tokens inputs r h rs h' Ht _ IH]; constructor; auto.
    intros root ->. destruct Ht as [_ [n Hn]]. specialize (Hn n (le_n _)).
    destruct (C14_parse_trees_valid _ _ (resumed_constructed earlier B) Hn) as (_ & _ & Hw). exact Hw.
  - intros Hl Hpr its inputs earlier Hy. revert earlier.
    induction Hy as [|it tokens its inputs Hy _ IH]; intros earlier.
    + exists (Done ([], earlier)). split; [discriminate|]. exists 0. reflexivity.
    + assert (Hpr' : progressing (option_map (resumed earlier) solver)).
      { intros s h c Hs. destruct solver as [s0|]; [|discriminate]. inversion Hs; subst s.
        apply (Hpr s0 (earlier ++ h) c eq_refl). }
      destruct (C19_parsing_terminates tokens (resumed_constructed earlier B) Hl Hpr') as [r [Hr [n Hn]]].
      assert (Hone : forall fuel, n + S (length tokens) <= fuel ->
        parse_from_iterator fuel self it earlier =
        match r with
        | Done (r, h) => Done (r, earlier ++ h, S (length tokens))
        | Panicked q => Panicked q
        | OutOfFuel => OutOfFuel
        end).
      { intros fuel Hf. unfold parse_from_iterator. change 0 with (length (@nil (token L T))).
        rewrite (iterator_from Hy [] tokens eq_refl) by lia. simpl. rewrite vector_resumed, Hn by lia.
        destruct r as [[r h']|q|]; reflexivity. }
      destruct r as [[r h]|q|]; [|exists (Panicked q); split; [discriminate|];
        exists (n + S (length tokens)); intros fuel Hf; simpl; now rewrite Hone by lia|congruence].
      destruct (IH (earlier ++ h)) as [r2 [Hr2 [m Hm]]].
      exists (match r2 with Done (rs, h') => Done (r :: rs, h') | Panicked q => Panicked q | OutOfFuel => OutOfFuel end).
      split; [destruct r2 as [[? ?]| |]; congruence|].
      exists (n + m + S (length tokens)). intros fuel Hf. simpl. rewrite Hone by lia. simpl. rewrite Hm by lia.
      destruct r2 as [[? ?]| |]; reflexivity.
Qed.
Print Assumptions C67_sessions_sound.

(** 1 -> b c with a solver that repairs one parse only: the second parse of the same input fails *)
Definition once_ever : syntax_error_solver nat nat := fun h _ =>
  match h with [] => Reply (Some (FixResult 2 (FixedProduction []))) | _ => Reply None end.
Definition once_ever_parser : parser nat nat :=
  get_done (no_parser 0) (build 0 1 [Production 1 [3; 4]] (Some once_ever) 100).
Definition list_iterator (l : list (token nat nat)) : token_iterator nat nat := fun i =>
  match nth_error l i with Some tok => NextToken tok | None => NextEnd end.

Lemma list_iterator_yields l : yields (list_iterator l) l.
Proof.
  split; unfold list_iterator.
  - intros i tok ->. reflexivity.
  - assert (H : nth_error l (length l) = None) by (apply nth_error_None; lia). now rewrite H.
Qed.

Example C67_case :
  let its := [list_iterator [nt 3; nt 6]; list_iterator [nt 3; nt 6]; list_iterator [nt 3; nt 4]] in
  built_parser 0 1 [Production 1 [3; 4]] (Some once_ever) once_ever_parser /\
  Forall2 yields its [[nt 3; nt 6]; [nt 3; nt 6]; [nt 3; nt 4]] /\
  exists f e root h, parse_all 20 once_ever_parser its [] = Done ([ResultFix f; ResultErr e; ResultOk root], h) /\
    length h = 2.
Proof.
  intros its. split; [|split].
  - apply build_built with (fuel := 100). reflexivity.
  - repeat constructor; apply list_iterator_yields.
  - do 4 eexists. split; [vm_compute; reflexivity|reflexivity].
Qed.
