(** * Every call of the solver, in every run, is within its contract (proofs) *)

From Verif Require Import BaseFacts GrammarFacts DerivFacts ParserSound ParserReport ParserOff.
From Verif Require Export ContractSpec.

Set Implicit Arguments.

(** ** More answers justify more reports *)
Section Mono.
  Context {L T : Type}.
  Variable eps init : T.
  Variable ps : list (production T).
  Variable tokens : list (token L T).
  Variable cands : T -> T -> list (list T).
  Variables answer answer' : T -> nat -> fixed_production L T -> nat -> Prop.
  Hypothesis Hsub : forall X p fp q, answer X p fp q -> answer' X p fp q.

  Scheme fixed_for_m := Minimality for fixed_for Sort Prop
    with fixed_parts_m := Minimality for fixed_parts Sort Prop.
  Combined Scheme fixed_m from fixed_for_m, fixed_parts_m.

  Lemma fixed_mono :
    (forall X p f q, fixed_for eps ps tokens cands answer X p f q ->
       fixed_for eps ps tokens cands answer' X p f q) /\
    (forall Xs p parts q, fixed_parts eps ps tokens cands answer Xs p parts q ->
       fixed_parts eps ps tokens cands answer' Xs p parts q).
  Proof.
    apply fixed_m; intros.
    - apply fixed_by_solver; auto.
    - eapply fixed_inside; eauto.
    - constructor.
    - eapply fixed_parts_ok; eauto.
    - eapply fixed_parts_fixed; eauto.
  Qed.

  Lemma parsed_mono Xs p parsed q : parsed_prefix eps ps tokens cands answer Xs p parsed q ->
    parsed_prefix eps ps tokens cands answer' Xs p parsed q.
  Proof.
    induction 1.
    - constructor.
    - eapply parsed_terminal; eauto.
    - eapply parsed_non_terminal; eauto.
    - eapply parsed_fixed; eauto. now apply fixed_mono.
  Qed.

  Scheme failed_report_m := Minimality for failed_report Sort Prop
    with failed_list_m := Minimality for failed_list Sort Prop
    with failed_prod_m := Minimality for failed_production_report Sort Prop.
  Combined Scheme failed_m from failed_report_m, failed_list_m, failed_prod_m.

  Lemma failed_mono :
    (forall X p f, failed_report eps ps tokens cands answer X p f ->
       failed_report eps ps tokens cands answer' X p f) /\
    (forall outs p fps, failed_list eps ps tokens cands answer outs p fps ->
       failed_list eps ps tokens cands answer' outs p fps) /\
    (forall out p fp, failed_production_report eps ps tokens cands answer out p fp ->
       failed_production_report eps ps tokens cands answer' out p fp).
  Proof.
    apply failed_m; intros.
    - apply failed_terminal; auto.
    - eapply failed_non_terminal; eauto.
    - constructor.
    - constructor; auto.
    - eapply failed_at; eauto. now apply parsed_mono.
  Qed.

  Lemma single_path_mono X p outs : single_path eps init ps tokens cands answer X p outs ->
    single_path eps init ps tokens cands answer' X p outs.
  Proof.
    induction 1.
    - now apply single_path_initial.
    - eapply single_path_inside; eauto. now apply (proj2 fixed_mono) in H0; eauto.
  Qed.
End Mono.

Lemma answered_mono {L T : Type} cands (s : option (syntax_error_solver L T)) h h' X p fp q :
  prefix h h' -> answered cands s h X p fp q -> answered cands s h' X p fp q.
Proof.
  intros [r ->] (s0 & h1 & c & h2 & H1 & -> & Ha & H2 & H3).
  exists s0, h1, c, (h2 ++ r). repeat split; auto. now rewrite <- app_assoc.
Qed.

Lemma refused_mono {L T : Type} (s : syntax_error_solver L T) h h' fps :
  prefix h h' -> refused s h fps -> refused s h' fps.
Proof.
  intros [r ->] (h1 & c & h2 & -> & H2 & H3).
  exists h1, c, (h2 ++ r). repeat split; auto. now rewrite <- app_assoc.
Qed.

(** ** What failed on a single path was offered to the solver *)
Section Offered.
  Context {L T : Type} {E : EqDec T}.
  Context {eps init : T} {ps : list (production T)} {self : parser L T}.
  Hypothesis P : parser_of eps init ps self.
  Variable tokens : list (token L T).
  Variable s : syntax_error_solver L T.
  Hypothesis Hs : pr_solver self = Some s.

  Lemma sym_offered X pos prods h fps Y h' :
    RSym self tokens X pos prods true h (SymErr (FailedSymbol fps Y)) h' ->
    exists h0 c, h' = h0 ++ [c] /\ call_position c = pos /\ call_failures c = fps /\ s h0 c = Reply None.
  Proof.
    intros H. remember (SymErr (FailedSymbol fps Y)) as r. remember true as single.
    destruct H as [X pos prods single h r h' Hr|X pos prods single h failed h1 fo h'' Hr Hf]; subst.
    - exfalso. remember (inl (SymErr (FailedSymbol fps Y))) as r0. clear -Hr Heqr0.
      induction Hr; discriminate || auto.
    - destruct fo as [fr|]; [discriminate|]. simpl in Heqr. inversion Heqr; subst failed Y.
      unfold inner_parse_from_tokens_try_fix_productions in Hf. rewrite Hs in Hf.
      unfold is_child_single_path in *. simpl in *.
      destruct (length prods =? 1) eqn:Hl.
      + assert (Hlf : length fps = length prods).
        { clear -Hr. assert (H : forall X pos child prods failed h r h',
            RTry self tokens X pos child prods failed h r h' -> forall fps, r = inr fps ->
            length fps = length failed + length prods).
          { clear. induction 1; intros fps Hr; inversion Hr; subst; simpl.
            - lia.
            - rewrite (IHRTry _ eq_refl), app_length. simpl. lia. }
          specialize (H _ _ _ _ _ _ _ _ Hr _ eq_refl). exact H. }
        apply Nat.eqb_eq in Hl. rewrite Hl in Hlf.
        destruct fps as [|fp [|]]; try discriminate Hlf.
        apply await_done in Hf as [Hf ->]. exists h1. eexists. split; [reflexivity|]. auto.
      + apply await_done in Hf as [Hf ->]. exists h1. eexists. split; [reflexivity|]. auto.
  Qed.

  Lemma step_offered Y pos h fps Z h' :
    RStep self tokens Y pos true h (SymErr (FailedSymbol fps Z)) h' -> non_terminal ps Z ->
    refused s h' fps.
  Proof.
    intros H HZ. remember (SymErr (FailedSymbol fps Z)) as r. remember true as child.
    destruct H as [Y pos child h tok r h' Hnt Htok Hr|Y pos child h Hnt]; subst.
    - apply sym_offered in Hr as (h0 & c & -> & _ & H1 & H2). exists h0, c, []. auto.
    - exfalso. apply (is_non_terminal_false (po_grammar P)) in Hnt. apply Hnt.
      unfold inner_parse_terminal_symbol, inner_parse_non_epsilon_terminal_symbol,
        build_token_failed_symbol in Heqr.
      destruct (eqb _ _); [discriminate|]. destruct (nth_error tokens pos); [destruct (eqb _ _)|];
        inversion Heqr; subst; auto.
  Qed.

  Lemma prod_offered X out states pos h pr pos' h' :
    RProd self tokens X out true states pos h pr pos' h' ->
    forall fps Y parsed pending, pr = ProdErr (FailedProduction (FailedSymbol fps Y) parsed pending) ->
    non_terminal ps Y -> refused s h' fps.
  Proof.
    intros H. remember true as child.
    induction H as [X out child states pos h pr Hl Hb
      |X out child states pos h Y st h' pr pos' h'' HY Hr H IH
      |X out child states pos h Y st h' pr pos' h'' HY Hr H IH
      |X out child states pos h Y fs h' states' fstates h'' HY Hr Hp
      |X out child states pos h Y fs h' st states' h'' pr pos' h3 HY Hr Hp H IH];
      intros fps Z parsed pending Hpr HZ; eauto.
    - exfalso. unfold inner_parse_from_tokens_production_build_node in Hb.
      destruct (existsb _ _); [inversion Hb; subst; discriminate|].
      apply bind_done in Hb as (ns & _ & Hb). inversion Hb; subst; discriminate.
    - unfold inner_parse_from_tokens_production_build_failed_symbol in Hpr. inversion Hpr; subst.
      eapply refused_mono; [eapply (hist_ext tokens); eauto|]. eapply step_offered; eauto.
  Qed.

  Lemma try_offered X pos out h fps Y parsed pending h' :
    RTry self tokens X pos true [out] [] h
      (inr [FailedProduction (FailedSymbol fps Y) parsed pending]) h' ->
    non_terminal ps Y -> refused s h' fps.
  Proof.
    intros H HY. inversion H as [| |? ? ? ? ? ? ? fp pos' h1 r ? Hp Ht|]; subst.
    inversion Ht; subst. eapply prod_offered; eauto.
  Qed.
End Offered.

Section Contract.
  Context {L T : Type} {E : EqDec T}.
  Context {eps init : T} {ps : list (production T)} {self self' : parser L T}.
  Hypothesis P : parser_of eps init ps self.
  Variable tokens : list (token L T).
  Variables s s' : syntax_error_solver L T.
  Hypothesis Hs : pr_solver self = Some s.
  Hypothesis Hs' : pr_solver self' = Some s'.
  Hypothesis Hgr : pr_grammar self' = pr_grammar self.
  Notation cands := (inner_get_token_productions self).
  Hypothesis Hcells : forall A a, inner_get_token_productions self' A a = cands A a.
  Notation ok_call := (call_in_contract eps init ps tokens cands s).
  Notation script := (transcript eps init ps tokens cands s).
  Hypothesis Hagree : forall h c, script h -> ok_call h c -> s' h c = s h c.

  Notation ans h := (answered cands (pr_solver self) h).
  Notation spath h := (single_path eps init ps tokens cands (ans h)).
  Notation flist h := (failed_list eps ps tokens cands (ans h)).

  (** equal outcomes, and the calls made so far are a transcript *)
  Definition same {A : Type} (h : history L T) (o o' : outcome (A * history L T)) : Prop :=
    o = o' /\ (forall a h', o = Done (a, h') -> prefix h h' /\ script h').

  Lemma same_bind {A B : Type} h (o o' : outcome (A * history L T))
        (f f' : A * history L T -> outcome (B * history L T)) :
    same h o o' ->
    (forall a h', o = Done (a, h') -> prefix h h' -> script h' -> same h' (f (a, h')) (f' (a, h'))) ->
    same h (bind o f) (bind o' f').
  Proof.
    intros [<- Hd] Hf. destruct o as [[a h1]|q|]; simpl.
    - destruct (Hd a h1 eq_refl) as [Hp Ht]. destruct (Hf a h1 eq_refl Hp Ht) as [He Hd'].
      split; auto. intros b h2 Hb. destruct (Hd' b h2 Hb) as [Hp' Ht']. split; auto. eapply prefix_trans; eauto.
    - split; auto. intros; discriminate.
    - split; auto. intros; discriminate.
  Qed.

  Lemma same_done {A : Type} h (a : A) : script h -> same h (Done (a, h)) (Done (a, h)).
  Proof.
    intros Ht. split; auto. intros b h' H. inversion H; subst. split; auto. apply prefix_refl.
  Qed.

  Lemma same_panic {A : Type} h q : same (A := A) h (Panicked q) (Panicked q).
  Proof. split; auto. intros; discriminate. Qed.
  Lemma same_fuel {A : Type} h : same (A := A) h OutOfFuel OutOfFuel.
  Proof. split; auto. intros; discriminate. Qed.

  Lemma spath_later h h' X p outs : prefix h h' -> spath h X p outs -> spath h' X p outs.
  Proof. intros Hp. apply single_path_mono. intros; eapply answered_mono; eauto. Qed.
  Lemma flist_later h h' outs p fps : prefix h h' -> flist h outs p fps -> flist h' outs p fps.
  Proof. intros Hp. apply failed_mono. intros; eapply answered_mono; eauto. Qed.
  Lemma pstack_later h h' states p0 p syms : prefix h h' ->
    pstack (eps := eps) (ps := ps) (self := self) tokens h states p0 p syms ->
    pstack (eps := eps) (ps := ps) (self := self) tokens h' states p0 p syms.
  Proof.
    intros Hp. induction 1 as [p0|st states p0 p1 syms X Hst IH Hok|fs states p0 p1 syms X Hst IH HX Hf].
    - constructor.
    - econstructor; eauto.
    - econstructor; eauto.
      revert Hf. apply fixed_mono. intros; eapply answered_mono; eauto.
  Qed.

  Section Rec.
    Variables rec rec' : T -> nat -> list (list T) -> bool -> history L T ->
                         outcome (parse_symbol_result L T * history L T).
    Hypothesis Hsound : forall X pos prods single h r h',
      rec X pos prods single h = Done (r, h') -> RSym self tokens X pos prods single h r h'.
    Hypothesis Hrec : forall X pos prods single h,
      suffix_ok (self := self) tokens X pos prods -> (single = true -> spath h X pos prods) -> script h ->
      same h (rec X pos prods single h) (rec' X pos prods single h).

    Hypothesis Hoff : forall fuel X pos prods h failed h',
      suffix_ok (self := self) tokens X pos prods ->
      try_parse_productions_loop self tokens rec fuel X pos false prods [] h = Done (inr failed, h') ->
      failed_list eps ps tokens cands (fun _ _ _ _ => False) prods pos failed.

    Lemma step_same Y pos child h :
      (child = true -> non_terminal ps Y -> forall tok, nth_error tokens pos = Some tok ->
         spath h Y pos (cands Y (tok_type tok))) ->
      script h ->
      same h (inner_parse_from_tokens_production_symbol self tokens rec Y pos child h)
             (inner_parse_from_tokens_production_symbol self' tokens rec' Y pos child h).
    Proof.
      intros Hsp Ht. unfold inner_parse_from_tokens_production_symbol,
        inner_parse_from_tokens_production_non_terminal, inner_parse_terminal_symbol.
      rewrite Hgr. destruct (is_non_terminal _ _) eqn:Hnt.
      - destruct (nth_error tokens pos) as [tok|] eqn:Htok; [|apply same_panic].
        rewrite Hcells. apply Hrec; auto.
        + exists tok, []. auto.
        + intros Hc. apply Hsp; auto. now apply (is_non_terminal_spec (po_grammar P)).
      - now apply same_done.
    Qed.

    Lemma pop_same states : forall child failed h p0 p syms X rest0,
      pstack (eps := eps) (ps := ps) (self := self) tokens h states p0 p syms ->
      (child = true -> spath h X p0 [syms ++ rest0]) -> script h ->
      same h (inner_parse_pop_states rec states child failed h)
             (inner_parse_pop_states rec' states child failed h).
    Proof.
      induction states as [|[st|fs] states IH]; intros child failed h p0 p syms X rest0 Hst Hsp Ht; simpl.
      - now apply same_done.
      - apply pstack_parsing_inv in Hst as (p1 & syms0 & Y & -> & -> & Hst & Hok).
        assert (Hsp' : child = true -> spath h X p0 [syms0 ++ Y :: rest0]).
        { intros Hch. specialize (Hsp Hch). rewrite <- app_assoc in Hsp. exact Hsp. }
        destruct (ps_prod_iter_option st) as [it|] eqn:Hit; [|eapply IH; eauto].
        destruct Hok as (_ & Hi & Hm). rewrite Hit in Hm. destruct Hm as (HY & HY' & Hg).
        rewrite Hi, HY'. apply same_bind.
        + apply Hrec; auto. intros Hch. eapply again_path; eauto.
        + intros [st'|e|f] h' _ Hpre Ht'; [now apply same_done| |];
            eapply IH; eauto using pstack_later; intros Hch; eapply spath_later; eauto.
      - apply pstack_fixed_inv in Hst as (p1 & syms0 & Y & -> & -> & Hst & Hok).
        eapply IH with (X := X) (rest0 := Y :: rest0); eauto.
        intros Hch. specialize (Hsp Hch). rewrite <- app_assoc in Hsp. exact Hsp.
    Qed.

    Lemma prod_same fuel : forall X out child states pos h p0 syms rest,
      pstack (eps := eps) (ps := ps) (self := self) tokens h states p0 pos syms ->
      out = syms ++ rest -> (child = true -> spath h X p0 [out]) -> script h ->
      same h (inner_parse_from_tokens_production self tokens rec fuel X out child states pos h)
             (inner_parse_from_tokens_production self' tokens rec' fuel X out child states pos h).
    Proof.
      induction fuel as [|fuel IH]; intros X out child states pos h p0 syms rest Hst Ho Hsp Ht;
        simpl; [apply same_fuel|].
      destruct (length states <? length out) eqn:Hlt.
      2:{ destruct (inner_parse_from_tokens_production_build_node X (rev states)) as [pr|q|]; simpl.
          - now apply same_done.
          - apply same_panic.
          - apply same_fuel. }
      destruct (nth_error out (length states)) as [Y|] eqn:HY; simpl; [|apply same_panic].
      pose proof (pstack_length Hst) as Hl. subst out.
      rewrite Hl, nth_error_app2, Nat.sub_diag in HY by lia.
      destruct rest as [|y rest]; [discriminate|]. simpl in HY. inversion HY; subst y.
      assert (HY1 : child = true -> non_terminal ps Y -> forall tok, nth_error tokens pos = Some tok ->
         spath h Y pos (cands Y (tok_type tok))).
      { intros Hch HYn tok Htok. eapply step_path; eauto. }
      apply same_bind; [now apply step_same|].
      intros r h' Hr Hpre Ht'.
      apply (step_sound _ Hsound) in Hr.
      apply (proj1 (proj2 (proj2 (proj2 (run_shape P tokens h'))))) in Hr.
      destruct Hr as [Hr _]; [intros; eapply spath_later; eauto|apply prefix_refl|].
      assert (Hst' := pstack_later Hpre Hst).
      assert (Hsp' : child = true -> spath h' X p0 [syms ++ Y :: rest]).
      { intros Hch. eapply spath_later; eauto. }
      destruct r as [st|e|fs]; simpl in Hr.
      - eapply IH with (syms := syms ++ [Y]) (rest := rest); eauto.
        + eapply pstack_parsing; eauto.
        + now rewrite <- app_assoc.
      - apply same_bind; [eapply pop_same; eauto|].
        intros [states' popped] h'' Hpop Hpre' Ht''.
        apply (pop_sound _ Hsound) in Hpop.
        apply (proj2 (proj2 (proj2 (proj2 (run_shape P tokens h''))))) in Hpop.
        destruct popped as [fst|]; [now apply same_done|].
        destruct states' as [|st states']; [apply same_panic|].
        destruct (Hpop p0 pos syms X (Y :: rest)) as (_ & p' & syms' & rest' & Hsy & Hs2).
        { eapply pstack_later; eauto. }
        { intros Hch. eapply spath_later; eauto. }
        { apply prefix_refl. }
        pose proof (pstack_top Hs2) as Hp'. rewrite Hp' in Hs2.
        eapply IH with (syms := syms') (rest := rest' ++ Y :: rest); eauto.
        + subst. now rewrite <- app_assoc.
        + intros Hch. eapply spath_later; eauto.
      - eapply IH with (syms := syms ++ [Y]) (rest := rest); eauto.
        + destruct Hr as [HYn Hr]. eapply pstack_fixed; eauto.
        + now rewrite <- app_assoc.
    Qed.

    Lemma try_same fuel X pos child prods : forall failed h,
      suffix_ok (self := self) tokens X pos prods ->
      (child = true -> forall out, In out prods -> spath h X pos [out]) -> script h ->
      same h (try_parse_productions_loop self tokens rec fuel X pos child prods failed h)
             (try_parse_productions_loop self' tokens rec' fuel X pos child prods failed h).
    Proof.
      induction prods as [|out prods IH]; intros failed h Hsuf Hsp Ht; simpl; [now apply same_done|].
      apply same_bind.
      - eapply prod_same with (syms := []); eauto; [constructor|reflexivity|].
        intros Hch. apply Hsp; simpl; auto.
      - intros [[n|fp|fp] pos'] h' _ Hpre Ht'; try now apply same_done.
        apply IH; auto.
        + eapply suffix_tail; eauto.
        + intros Hch o Ho. eapply spath_later; eauto. apply Hsp; simpl; auto.
    Qed.

    Lemma fix_same X pos prods single failed h :
      suffix_ok (self := self) tokens X pos prods -> (single = true -> spath h X pos prods) -> script h ->
      flist h prods pos failed ->
      (single = true -> length prods = 1 -> forall fps Y parsed pending,
         failed = [FailedProduction (FailedSymbol fps Y) parsed pending] -> non_terminal ps Y ->
         refused s h fps) ->
      (length prods <> 1 -> failed_list eps ps tokens cands (fun _ _ _ _ => False) prods pos failed) ->
      same h (inner_parse_from_tokens_try_fix_productions self tokens pos single
                (is_child_single_path single prods) failed h)
             (inner_parse_from_tokens_try_fix_productions self' tokens pos single
                (is_child_single_path single prods) failed h).
    Proof.
      intros (tok & before & Htok & Hcand) Hsp Ht Hfl Hrefd Hno.
      unfold inner_parse_from_tokens_try_fix_productions. rewrite Hs, Hs'.
      destruct single; [|now apply same_done]. specialize (Hsp eq_refl).
      assert (Hcall : forall c, ok_call h c ->
        same h (answer <- await (s h c) ;; Done (answer, h ++ [c]))
               (answer <- await (s' h c) ;; Done (answer, h ++ [c]))).
      { intros c Hc. rewrite (Hagree Ht Hc). destruct (s h c) as [a| |] eqn:Ha; simpl.
        - split; auto. intros b h' H. inversion H; subst. split; [apply prefix_app|].
          econstructor; eauto.
        - apply same_panic.
        - apply same_fuel. }
      unfold is_child_single_path. simpl.
      destruct (length prods =? 1) eqn:Hlen.
      - apply Nat.eqb_eq in Hlen. destruct failed as [|fp failed]; [apply same_panic|].
        apply Hcall.
        assert (Hone : failed = []).
        { destruct prods as [|? [|? ?]]; simpl in Hlen; try lia.
          inversion Hfl as [|? ? ? ? ? ? Hfl2]; subst. now inversion Hfl2. }
        subst failed. exists X, tok, before, prods. simpl. rewrite Hs in *. repeat (split; auto).
        intros fps Y parsed pending -> HY. eapply Hrefd; eauto.
      - apply Nat.eqb_neq in Hlen. apply Hcall.
        exists X, tok, before, prods. simpl. rewrite Hs in *. repeat (split; auto).
    Qed.

    Lemma inner_step_same fuel X pos prods single h :
      suffix_ok (self := self) tokens X pos prods -> (single = true -> spath h X pos prods) -> script h ->
      same h (inner_parse_from_tokens_step self tokens rec fuel X pos prods single h)
             (inner_parse_from_tokens_step self' tokens rec' fuel X pos prods single h).
    Proof.
      intros Hsuf Hsp Ht. unfold inner_parse_from_tokens_step, inner_parse_from_tokens_try_parse_productions.
      apply same_bind; [apply try_same; auto; intros Hch; eapply child_path; eauto|].
      intros [r|failed] h' Hr Hpre Ht'; [now apply same_done|].
      pose proof (try_sound _ Hsound _ _ _ _ _ _ _ Hr) as Hrun.
      pose proof (proj1 (proj2 (run_shape P tokens h')) _ _ _ _ _ _ _ _ Hrun) as Hq.
      destruct Hq as (_ & fps & Hf & Hfl); auto.
      { intros Hch o Ho. eapply child_path; eauto. intros Hsi. eapply spath_later; eauto. }
      { apply prefix_refl. }
      simpl in Hf. subst fps.
      apply same_bind; [apply fix_same with (X := X); auto; try (intros; eapply spath_later; eauto; fail)|].
      { intros -> Hlen fps Y parsed pending -> HY.
        destruct prods as [|out [|]]; try discriminate Hlen. eapply try_offered; eauto. }
      { intros Hlen.
        assert (Hch : is_child_single_path single prods = false).
        { unfold is_child_single_path. apply andb_false_iff. right. now apply Nat.eqb_neq. }
        rewrite Hch in Hr. exact (Hoff _ _ Hsuf Hr). }
      intros fo h'' _ _ Ht''. now apply same_done.
    Qed.
  End Rec.

  (** with several candidates the reports are those of the solver-less parser *)
  Lemma try_inner_off n fuel X pos prods h failed h' :
    suffix_ok (self := self) tokens X pos prods ->
    try_parse_productions_loop self tokens (inner_parse_from_tokens n self tokens)
      fuel X pos false prods [] h = Done (inr failed, h') ->
    failed_list eps ps tokens cands (fun _ _ _ _ => False) prods pos failed.
  Proof.
    intros Hsuf.
    set (self0 := {| pr_grammar := pr_grammar self; pr_solver := None (A := syntax_error_solver L T); pr_transitions := pr_transitions self |}).
    assert (P0 : parser_of eps init ps self0) by (destruct P; constructor; auto).
    rewrite (@try_off L T E self self0 tokens eq_refl (fun _ _ => eq_refl) _ _
               (@inner_off L T E self self0 tokens eq_refl (fun _ _ => eq_refl) eq_refl n)
               fuel X pos prods false [] h []).
    intros H. apply bind_done in H as ([r h0] & H & Hd). inversion Hd; subst r h'.
    apply (try_sound _ (@rel_sound _ _ _ self0 tokens n)) in H.
    apply (proj1 (proj2 (run_shape P0 tokens h0))) in H.
    destruct H as (_ & fps & Hf & Hfl); auto; [intros; discriminate|apply prefix_refl|].
    simpl in Hf. subst fps. revert Hfl. apply failed_mono.
    intros X' p fp q (s0 & h1 & c & h2 & Hc & _). discriminate Hc.
  Qed.

  Lemma inner_same fuel : forall X pos prods single h,
    suffix_ok (self := self) tokens X pos prods -> (single = true -> spath h X pos prods) -> script h ->
    same h (inner_parse_from_tokens fuel self tokens X pos prods single h)
           (inner_parse_from_tokens fuel self' tokens X pos prods single h).
  Proof.
    induction fuel as [|fuel IH]; intros X pos prods single h Hsuf Hsp Ht; simpl; [apply same_fuel|].
    apply inner_step_same; auto; [apply rel_sound|apply try_inner_off].
  Qed.

  Lemma parse_same fuel :
    parse_from_tokens fuel self' tokens = parse_from_tokens fuel self tokens /\
    (forall res h, parse_from_tokens fuel self tokens = Done (res, h) -> script h).
  Proof.
    unfold parse_from_tokens. destruct tokens as [|tok rest] eqn:Htok; [split; [auto|intros; discriminate]|].
    unfold get_initial_symbol. rewrite Hgr, (go_init (po_grammar P)), Hcells, <- Htok in *.
    destruct (@inner_same fuel init 0 (cands init (tok_type tok)) true []) as [He Hd].
    - exists tok, []. rewrite Htok. auto.
    - intros _. apply single_path_initial. now rewrite Htok.
    - constructor.
    - rewrite <- He. split; auto. intros res h H.
      apply bind_done in H as ([r h'] & H1 & H2). inversion H2; subst. eapply Hd; eauto.
  Qed.
End Contract.
