(** * Productions that have nothing to do with a grammar (proofs) *)

From Verif Require Import BaseFacts GrammarFacts DerivFacts FollowFacts TransitionsFacts.
From Verif Require Import MoreFacts RenameFacts.
From Verif Require Export ParserDepth ApartSpec.

Set Implicit Arguments.

(** ** two parsers that agree on a grammar's symbols agree on every input *)
Section Agree.
  Context {L T : Type} {E : EqDec T}.
  Variable eps init : T.
  Variable ps : list (production T).
  Variable self self' : parser L T.
  Hypothesis P : parser_of eps init ps self.
  Hypothesis Hinit : get_initial_symbol (pr_grammar self') = get_initial_symbol (pr_grammar self).
  Hypothesis Heps : get_epsilon_symbol (pr_grammar self') = get_epsilon_symbol (pr_grammar self).
  Hypothesis Hsol : pr_solver self' = pr_solver self.
  Hypothesis Hnt : forall X, occurs_in_output ps X ->
    is_non_terminal (pr_grammar self') X = is_non_terminal (pr_grammar self) X.
  Hypothesis Hcells : forall X a, non_terminal ps X \/ X = init ->
    inner_get_token_productions self' X a = inner_get_token_productions self X a.
  Variable tokens : list (token L T).

  Notation stk := (@stack_ok L T eps ps self tokens).
  Notation good := (@good_prods T ps).

  Section Prod.
    Variable n : nat.
    Notation rec := (inner_parse_from_tokens n self tokens).
    Notation rec' := (inner_parse_from_tokens n self' tokens).
    Hypothesis Hrec : forall Y p1 prods single h, good Y prods -> p1 < length tokens ->
      rec' Y p1 prods single h = rec Y p1 prods single h.

    Lemma agree_step Y pos child h : occurs_in_output ps Y ->
      inner_parse_from_tokens_production_symbol self' tokens rec' Y pos child h =
      inner_parse_from_tokens_production_symbol self tokens rec Y pos child h.
    Proof.
      intros HY. unfold inner_parse_from_tokens_production_symbol,
        inner_parse_from_tokens_production_non_terminal. rewrite (Hnt HY).
      destruct (is_non_terminal (pr_grammar self) Y) eqn:HYn.
      - destruct (nth_error tokens pos) as [tok|] eqn:Ht; auto.
        apply (is_non_terminal_spec (po_grammar P)) in HYn. rewrite Hcells by auto.
        apply Hrec; [apply (token_productions_good P)|apply nth_error_Some; congruence].
      - unfold inner_parse_terminal_symbol. now rewrite Heps.
    Qed.

    Lemma agree_pop states : forall p0 p1 syms child failed h, stk states p0 p1 syms ->
      inner_parse_pop_states rec' states child failed h = inner_parse_pop_states rec states child failed h.
    Proof.
      induction states as [|[st|fs] states IH]; intros p0 p1 syms child failed h Hs; simpl; auto.
      - apply stack_parsing_inv in Hs as (p2 & syms0 & Y & _ & _ & Hs & _ & Hi & Hm).
        destruct (ps_prod_iter_option st) as [it|]; [|eapply IH; eauto].
        destruct Hm as (HY & Hg & Hpos & _). rewrite Hrec by (rewrite ?HY, ?Hi; auto).
        destruct (rec _ _ it child h) as [[[st'|e|f] h']|q|]; simpl; auto; eapply IH; eauto.
      - apply stack_fixed_inv in Hs as (p2 & syms0 & Y & _ & _ & Hs). eapply IH; eauto.
    Qed.

    Lemma agree_prod X out p0 : (exists p, In p ps /\ p_input p = X /\ p_output p = out) ->
      forall fuel states pos syms rest child h, stk states p0 pos syms -> out = syms ++ rest ->
      inner_parse_from_tokens_production self' tokens rec' fuel X out child states pos h =
      inner_parse_from_tokens_production self tokens rec fuel X out child states pos h.
    Proof.
      intros Hout. induction fuel as [|fuel IH]; intros states pos syms rest child h Hs Ho; auto.
      cbn [inner_parse_from_tokens_production].
      destruct (length states <? length out) eqn:Hlt; auto.
      apply Nat.ltb_lt in Hlt. pose proof (stack_ok_length Hs) as Hl.
      destruct rest as [|Y rest]; [rewrite Ho, app_nil_r in Hlt; lia|].
      assert (HY : nth_error out (length states) = Some Y).
      { rewrite Ho, Hl, nth_error_app2, Nat.sub_diag by lia. reflexivity. }
      rewrite HY. cbn [unwrap bind].
      rewrite agree_step.
      2:{ destruct Hout as (p & Hp & _ & Hpo). exists p. split; auto. rewrite Hpo, Ho. apply in_elt. }
      destruct (inner_parse_from_tokens_production_symbol self tokens rec Y pos child h) as [[r h1]|q|] eqn:Hr;
        cbn [bind]; auto.
      assert (HRS : RStep self tokens Y pos child h r h1).
      { eapply step_sound; [|exact Hr]. intros *; apply rel_sound. }
      apply (proj1 (proj2 (proj2 (proj2 (run_sound P tokens))))) in HRS. unfold SStep in HRS.
      destruct r as [st|e|fs].
      - destruct HRS as [Hok _]. apply (IH _ _ (syms ++ [Y]) rest).
        + eapply stack_parsing; eauto.
        + now rewrite <- app_assoc.
      - rewrite (agree_pop child [] h1 Hs).
        destruct (inner_parse_pop_states rec states child [] h1) as [[[states' popped] h2]|q|] eqn:Hpop;
          cbn [bind]; auto.
        destruct popped as [fstates|]; auto.
        assert (HRP : RPop self tokens states child [] h1 states' None h2).
        { eapply pop_sound; [|exact Hpop]. intros *; apply rel_sound. }
        apply (proj2 (proj2 (proj2 (proj2 (run_sound P tokens))))) in HRP.
        destruct (HRP p0 pos syms Hs eq_refl) as (p' & syms' & rest' & Hsy & Hs').
        destruct states' as [|s' below]; auto.
        pose proof (stack_ok_top Hs') as Hp'. rewrite Hp' in Hs'.
        apply (IH _ _ syms' (rest' ++ Y :: rest)); [exact Hs'|].
        rewrite Ho, Hsy. now rewrite <- app_assoc.
      - apply (IH _ _ (syms ++ [Y]) rest).
        + eapply stack_fixed; eauto.
        + now rewrite <- app_assoc.
    Qed.

    Lemma agree_try fuel X pos prods : forall child failed h, good X prods ->
      try_parse_productions_loop self' tokens rec' fuel X pos child prods failed h =
      try_parse_productions_loop self tokens rec fuel X pos child prods failed h.
    Proof.
      induction prods as [|out prods IH]; intros child failed h Hg; auto.
      cbn [try_parse_productions_loop].
      rewrite (@agree_prod X out pos (proj1 Hg out (or_introl eq_refl)) fuel [] pos [] out child h
                 (@stack_nil L T eps ps self tokens pos) eq_refl).
      destruct (inner_parse_from_tokens_production self tokens rec fuel X out child [] pos h) as [[[r pos'] h']|q|];
        cbn [bind]; auto. destruct r as [nd|fp|fp]; auto. apply IH. eapply good_prods_tail; eauto.
    Qed.
  End Prod.

  Lemma agree_inner n : forall X pos prods single h, good X prods -> pos < length tokens ->
    inner_parse_from_tokens n self' tokens X pos prods single h =
    inner_parse_from_tokens n self tokens X pos prods single h.
  Proof.
    induction n as [|n IH]; intros X pos prods single h Hg Hp; auto.
    cbn [inner_parse_from_tokens]. unfold inner_parse_from_tokens_step,
      inner_parse_from_tokens_try_parse_productions.
    rewrite (@agree_try n IH n X pos prods (is_child_single_path single prods) [] h Hg).
    unfold inner_parse_from_tokens_try_fix_productions. now rewrite Hsol.
  Qed.

  Lemma agree_parse fuel : parse_from_tokens fuel self' tokens = parse_from_tokens fuel self tokens.
  Proof.
    unfold parse_from_tokens. destruct tokens as [|tok rest] eqn:Ht; auto. rewrite <- Ht in *. rewrite Hinit.
    assert (Hi : get_initial_symbol (pr_grammar self) = init) by apply (go_init (po_grammar P)).
    rewrite Hi, Hcells by auto.
    rewrite agree_inner; [reflexivity|apply (token_productions_good P)|]. rewrite Ht. simpl. lia.
  Qed.
End Agree.

(** ** FIRST, FOLLOW and cells do not see productions added apart *)

(** what is needed: added productions mention non-terminals of [ps] only where
    nothing can follow *)
Record adds_quietly {T : Type} {E : EqDec T} (eps : T) (ps ps' : list (production T)) : Prop := {
  quiet_same : forall A, non_terminal ps A -> declared_for ps' A = declared_for ps A;
  quiet_terminals : forall x, terminal ps x -> ~ non_terminal ps' x;
  quiet_unused : forall p u A v, In p ps' -> p_output p = u ++ A :: v -> non_terminal ps A ->
    In p ps \/ (v = [] /\ forall a, ~ follow_rules (eps := eps) (ps := ps') (p_input p) a)
}.

Section Apart.
  Context {T : Type} {E : EqDec T}.
  Variables eps : T.
  Variables ps ps' : list (production T).
  Hypothesis H : adds_quietly eps ps ps'.

  Lemma apart_In p : In p ps -> In p ps'.
  Proof.
    intros Hp. assert (Hn : non_terminal ps (p_input p)) by (exists p; auto).
    assert (Hd : In p (declared_for ps (p_input p))) by (apply declared_In; auto).
    rewrite <- (quiet_same H Hn) in Hd. now apply declared_In in Hd.
  Qed.

  Lemma apart_back p : In p ps' -> non_terminal ps (p_input p) -> In p ps.
  Proof.
    intros Hp Hn. assert (Hd : In p (declared_for ps' (p_input p))) by (apply declared_In; auto).
    rewrite (quiet_same H Hn) in Hd. now apply declared_In in Hd.
  Qed.

  Lemma apart_nt A : non_terminal ps A -> non_terminal ps' A.
  Proof. intros (p & Hp & Hi). exists p. split; auto. now apply apart_In. Qed.

  (** symbols on which the two grammars agree *)
  Definition known (x : T) : Prop := non_terminal ps x \/ ~ non_terminal ps' x.

  Lemma known_output p x : In p ps -> In x (p_output p) -> known x.
  Proof.
    intros Hp Hx. destruct (non_terminal_dec ps x) as [Hn|Hn]; [left; auto|right].
    apply (quiet_terminals H). split; auto. exists p; auto.
  Qed.

  Lemma apart_derives_to u v : derives eps ps u v -> derives eps ps' u v.
  Proof.
    induction 1 as [|x y z Hs _ IH]; [constructor|]. econstructor; [|exact IH].
    destruct Hs as [u v p Hp|u v]; [|constructor]. constructor. now apply apart_In.
  Qed.

  Lemma apart_derives_from u v : derives eps ps' u v -> Forall known u -> derives eps ps u v.
  Proof.
    induction 1 as [|x y z Hs _ IH]; intros Hk; [constructor|].
    destruct Hs as [u v p Hp|u v].
    - apply Forall_app in Hk as [Hk1 Hk2]. inversion Hk2; subst.
      assert (Hi : In p ps).
      { apply apart_back; auto. destruct H2 as [Hn|Hn]; auto. elim Hn. exists p; auto. }
      econstructor; [constructor; exact Hi|]. apply IH. apply Forall_app. split; auto. apply Forall_app. split; auto.
      apply Forall_forall. intros y Hy. eapply known_output; eauto.
    - apply Forall_app in Hk as [Hk1 Hk2]. inversion Hk2; subst.
      econstructor; [apply derive1_epsilon|]. apply IH. apply Forall_app. auto.
  Qed.

  Lemma apart_nullable u : Forall known u -> (nullable eps ps' u <-> nullable eps ps u).
  Proof.
    intros Hk. split; [intros Hn; now apply apart_derives_from|apply apart_derives_to].
  Qed.

  Lemma apart_can_start X a : symbol_of ps X -> (can_start eps ps' [X] a <-> can_start eps ps [X] a).
  Proof.
    intros HX. assert (Hk : known X).
    { destruct HX as [HX|HX]; [left; auto|right; now apply (quiet_terminals H)]. }
    split.
    - intros (He & Hn & v & Hd). split; auto. split; [intros Hn'; apply Hn; now apply apart_nt|].
      exists v. apply apart_derives_from; auto.
    - intros Hc. pose proof (can_start_terminal_of HX Hc) as Ht. destruct Hc as (He & Hn & v & Hd).
      split; auto. split; [now apply (quiet_terminals H)|]. exists v. now apply apart_derives_to.
  Qed.

  Lemma apart_follow A a : non_terminal ps A ->
    (follow_rules (eps := eps) (ps := ps') A a <-> follow_rules (eps := eps) (ps := ps) A a).
  Proof.
    intros HA0.
    assert (Huse : forall p u A v, In p ps' -> p_output p = u ++ A :: v -> non_terminal ps A ->
      In p ps \/ (v = [] /\ forall a, ~ follow_rules (eps := eps) (ps := ps') (p_input p) a)) by apply (quiet_unused H).
    split.
    - intros Hf. revert HA0. induction Hf as [p u A mid Z v a Hp Ho HA Hm HZ Hr|p u A v a Hp Ho HA Hv Hf IH]; intros HA0.
      + destruct (Huse _ _ _ _ Hp Ho HA0) as [Hp'|[Hp' _]]; [|now destruct mid].
        assert (Hkn : Forall known (A :: mid ++ Z :: v)).
        { apply Forall_forall. intros x Hx. apply (known_output _ _ Hp'). rewrite Ho. apply in_or_app. auto. }
        eapply follow_by_first; eauto.
        * apply apart_nullable; auto. inversion Hkn as [|? ? _ Hk2]; subst. apply Forall_app in Hk2 as [Hk2 _]. exact Hk2.
        * apply apart_can_start; auto. eapply output_symbol_of; [exact Hp'|].
          rewrite Ho, in_app_iff; simpl. rewrite in_app_iff; simpl. auto.
      + destruct (Huse _ _ _ _ Hp Ho HA0) as [Hp'|[_ Hp']]; [|exfalso; eapply Hp'; eauto].
        eapply follow_by_end; eauto.
        * apply apart_nullable; auto. apply Forall_forall. intros x Hx. apply (known_output _ _ Hp').
          rewrite Ho. apply in_or_app. simpl. auto.
        * apply IH. exists p; auto.
    - clear HA0. induction 1 as [p u A mid Z v a Hp Ho HA Hm HZ Hr|p u A v a Hp Ho HA Hv Hf IH].
      + eapply follow_by_first; eauto.
        * now apply apart_In.
        * now apply apart_nt.
        * now apply apart_derives_to.
        * apply apart_can_start; auto. eapply output_symbol_of; [exact Hp|].
          rewrite Ho, in_app_iff; simpl. rewrite in_app_iff; simpl. auto.
      + eapply follow_by_end; [apply apart_In; eauto|eauto|now apply apart_nt|now apply apart_derives_to|auto].
  Qed.
End Apart.

Lemma apart_quietly {T : Type} {E : EqDec T} (eps : T) ps ps' : adds_apart ps ps' -> adds_quietly eps ps ps'.
Proof.
  intros H. pose proof (apart_same H) as H1. split.
  - exact H1.
  - exact (apart_terminals H).
  - intros p u A v Hp Ho HA. left.
    destruct (non_terminal_dec ps (p_input p)) as [Hn|Hn].
    + assert (Hd : In p (declared_for ps' (p_input p))) by (apply declared_In; auto).
      rewrite (H1 _ Hn) in Hd. now apply declared_In in Hd.
    + exfalso. apply (@apart_unused _ _ _ _ H p A Hp Hn); auto. rewrite Ho. apply in_elt.
Qed.

Section Built.
  Context {L T : Type} {E : EqDec T}.
  Variables eps init init' : T.
  Variables ps ps' : list (production T).
  Hypothesis H : adds_quietly eps ps ps'.
  Variables solver solver' : option (syntax_error_solver L T).
  Variables self self' : parser L T.
  Hypothesis B : built_parser eps init ps solver self.
  Hypothesis B' : built_parser eps init' ps' solver' self'.

  Lemma apart_selects p a : In p ps -> productions_ok eps ps ->
    (selects_sem (eps := eps) (ps := ps') p a <-> selects_sem (eps := eps) (ps := ps) p a).
  Proof.
    intros Hp Hok.
    assert (Hh : forall X rest, p_output p = X :: rest ->
      symbol_of ps X /\ known ps ps' X /\ non_terminal ps (p_input p) /\ (X <> eps -> nullable eps ps [X] -> non_terminal ps X)).
    { intros X rest Ho. assert (Hin : In X (p_output p)) by (rewrite Ho; simpl; auto).
      split; [eapply output_symbol_of; eauto|]. split; [eapply known_output; eauto|]. split; [exists p; auto|].
      intros He Hn. destruct (non_terminal_dec ps X) as [|Hnt]; auto. exfalso.
      apply He. eapply nullable_terminal; eauto. }
    split; intros (X & rest & Ho & Hx); exists X, rest; split; auto;
      destruct (Hh X rest Ho) as (Hs & Hk & Hi & Hn);
      (destruct Hx as [Hx|[Hx1 Hx2]]; [left; apply (apart_can_start H); auto|right]).
    - assert (Hx1' : nullable eps ps [X]) by (apply (apart_nullable H); auto). split; auto.
      apply (apart_follow H); auto. destruct (eqb eps X) eqn:He; auto. apply eqb_ne_iff in He. auto.
    - split; [apply (apart_nullable H); auto|]. apply (apart_follow H); auto.
      destruct (eqb eps X) eqn:He; auto. apply eqb_ne_iff in He. auto.
  Qed.

  Lemma apart_cells A a : non_terminal ps A ->
    inner_get_token_productions self' A a = inner_get_token_productions self A a.
  Proof.
    intros HA. pose proof (built_ok B) as Hok.
    apply built_inv in B as (ho1 & ho2 & fuel & g & ffs & Hg & Hf & Hs).
    apply built_inv in B' as (ho1' & ho2' & fuel' & g' & ffs' & Hg' & Hf' & Hs').
    apply cfg_new_grammar_of in Hg as G. apply cfg_new_grammar_of in Hg' as G'.
    destruct (ffs_from_exact G _ _ Hf) as [Hx1 Hx2].
    destruct (ffs_from_exact G' _ _ Hf') as [Hx1' Hx2'].
    destruct (rdp_from_inv _ _ _ _ Hs) as (_ & _ & Ht).
    destruct (rdp_from_inv _ _ _ _ Hs') as (_ & _ & Ht').
    unfold inner_get_token_productions.
    rewrite (transitions_cells G _ _ Ht), (transitions_cells G' _ _ Ht').
    rewrite (proj2 (is_non_terminal_spec G A) HA), (proj2 (is_non_terminal_spec G' A) (apart_nt H HA)). simpl.
    assert (Hdecl : productions_of ps' A = productions_of ps A) by (rewrite <- !declared_productions_of; exact (quiet_same H HA)).
    rewrite Hdecl.
    assert (Hfil : filter (fun p => selectsb (g := g') ho2' ffs' p a) (productions_of ps A) =
                   filter (fun p => selectsb (g := g) ho2 ffs p a) (productions_of ps A)).
    { apply filter_ext_in. intros p Hp. apply productions_of_In in Hp as [Hp _]. apply eq_true_iff_eq.
      rewrite (@selectsb_spec _ _ _ _ _ _ G ho2 ffs Hx1 Hx2 p a Hp).
      rewrite (@selectsb_spec _ _ _ _ _ _ G' ho2' ffs' Hx1' Hx2' p a (apart_In H p Hp)).
      apply (apart_selects p a Hp Hok). }
    assert (Hnone : is_terminal g a = false ->
                    filter (fun p => selectsb (g := g) ho2 ffs p a) (productions_of ps A) = []).
    { clear Hfil. intros Hta. destruct (filter _ _) as [|p l] eqn:Hfl; auto. exfalso.
      assert (Hin : In p (filter (fun p => selectsb (g := g) ho2 ffs p a) (productions_of ps A)))
        by (rewrite Hfl; simpl; auto).
      apply filter_In in Hin as [Hp Hsel]. apply productions_of_In in Hp as [Hp _].
      apply (@selectsb_spec _ _ _ _ _ _ G ho2 ffs Hx1 Hx2 p a Hp) in Hsel.
      apply (selects_sem_terminal Hp) in Hsel as [Hsel _].
      apply (is_terminal_spec G) in Hsel. congruence. }
    rewrite Hfil. destruct (is_terminal g' a) eqn:Hta', (is_terminal g a) eqn:Hta; auto.
    - now rewrite (Hnone eq_refl).
    - exfalso. apply (is_terminal_spec G) in Hta as [(q & Hq & Hqo) Hn].
      assert (Ht2 : terminal ps' a).
      { split; [exists q; split; auto; now apply (apart_In H)|]. apply (quiet_terminals H). split; auto. exists q; auto. }
      apply (is_terminal_spec G') in Ht2. congruence.
  Qed.
End Built.
