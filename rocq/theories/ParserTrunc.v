(** * Reading past the end means that the input is truncated (proofs) *)

From Verif Require Import BaseFacts GrammarFacts DerivFacts.
From Verif Require Export ParserPanic PrefixSpec.

Set Implicit Arguments.

Section Trunc.
  Context {L T : Type} {E : EqDec T}.
  Variable eps init : T.
  Variable ps : list (production T).
  Variable self : parser L T.
  Hypothesis P : parser_of eps init ps self.
  Variable tokens : list (token L T).
  (** no call of the solver is answered *)
  Hypothesis Hno : forall s h c fr, pr_solver self = Some s -> s h c <> Reply (Some fr).

  Notation psr := (parse_symbol_result L T).
  Notation types := (map (@tok_type L T)).
  Notation real := (fun t : token L T => real_terminal eps ps (tok_type t)).

  Definition unfixed (states : list (state L T)) : Prop := existsb (@is_fixed L T) states = false.

  Definition no_fix (r : psr) : Prop := match r with SymFix _ => False | _ => True end.

  Lemma no_fix_run :
    (forall X pos prods single h r h', RSym self tokens X pos prods single h r h' -> no_fix r) /\
    (forall X pos child prods failed h r h', RTry self tokens X pos child prods failed h r h' ->
       match r with inl r => no_fix r | inr _ => True end) /\
    (forall X out child states pos h pr pos' h',
       RProd self tokens X out child states pos h pr pos' h' ->
       unfixed states -> match pr with ProdFix _ => False | _ => True end) /\
    (forall Y pos child h r h', RStep self tokens Y pos child h r h' -> no_fix r) /\
    (forall states child failed h states' popped h',
       RPop self tokens states child failed h states' popped h' ->
       unfixed states -> unfixed states').
  Proof.
    unfold unfixed. apply run_mutind; simpl; auto.
    - intros X pos prods single h failed h' fo h'' _ _ Hfix.
      destruct fo as [fr|]; simpl; auto.
      unfold inner_parse_from_tokens_try_fix_productions in Hfix.
      destruct (pr_solver self) as [solver|] eqn:Hsol; [|discriminate].
      destruct single; [|discriminate].
      destruct (is_child_single_path true prods).
      + destruct failed as [|fp failed]; [discriminate|]. apply await_done in Hfix as [Hfix _].
        exact (Hno _ _ eq_refl Hfix).
      + apply await_done in Hfix as [Hfix _]. exact (Hno _ _ eq_refl Hfix).
    - intros X out child states pos h pr Hlen Hb Hu.
      unfold inner_parse_from_tokens_production_build_node in Hb.
      destruct (existsb (@is_fixed L T) (rev states)) eqn:Hrev.
      + apply existsb_exists in Hrev as (x & Hx & Hxf). apply in_rev in Hx.
        assert (existsb (@is_fixed L T) states = true) by (apply existsb_exists; eauto). congruence.
      + apply bind_done in Hb as (ns & Hn & Hb). inversion Hb; subst. exact I.
    - intros; contradiction.
    - intros X out child states pos h Y fs h' st states' h'' pr pos' h3 _ _ _ _ IH1 _ IH2 Hu.
      exact (IH2 (IH1 Hu)).
    - intros Y pos child h Hnt. unfold inner_parse_terminal_symbol,
        inner_parse_non_epsilon_terminal_symbol.
      destruct (eqb _ _); [exact I|]. destruct (nth_error tokens pos); [|exact I].
      destruct (eqb _ _); exact I.
    - discriminate.
  Qed.

  (** [X] derives the rest of the input followed by a form that starts with a non-terminal *)
  Definition trunc (X : T) (pos : nat) : Prop :=
    exists A v, non_terminal ps A /\
      derives eps ps [X] (types (skipn pos tokens) ++ A :: v) /\
      Forall real (skipn pos tokens).

  Lemma unfixed_nodes (states : list (state L T)) :
    unfixed states -> exists ns, states_to_nodes (rev states) = Done ns.
  Proof.
    intros H. apply states_to_nodes_total. unfold unfixed in H. apply not_true_iff_false.
    intros Hx. apply existsb_exists in Hx as (x & Hx & Hxf). apply in_rev in Hx.
    assert (existsb (@is_fixed L T) states = true) by (apply existsb_exists; eauto). congruence.
  Qed.

  Lemma stack_derives states p0 p syms :
    stack_ok (eps := eps) (ps := ps) (self := self) tokens states p0 p syms -> unfixed states ->
    exists w, derives eps ps syms (types w) /\ span tokens p0 w p /\ Forall real w.
  Proof.
    intros Hs Hu. destruct (unfixed_nodes Hu) as [ns Hn].
    destruct (stack_forest Hs Hu Hn) as (w & Hw & Hsp). exists w.
    split; [|split; auto].
    - now apply (proj2 (tree_derives_all eps ps)) in Hw.
    - exact (proj2 (tree_leaves_all eps ps) _ _ _ Hw).
  Qed.

  (** a production with a parsed prefix and a truncated symbol is truncated *)
  Lemma trunc_prod X states p0 p syms Y rest :
    stack_ok (eps := eps) (ps := ps) (self := self) tokens states p0 p syms -> unfixed states ->
    (exists q, In q ps /\ p_input q = X /\ p_output q = syms ++ Y :: rest) ->
    trunc Y p -> trunc X p0.
  Proof.
    intros Hs Hu (q & Hq & Hqi & Hqo) (A & v & HA & Hd & Hr).
    destruct (stack_derives Hs Hu) as (w & Hw & [Hp [tl Htl]] & Hrw).
    assert (Hsk : skipn p0 tokens = w ++ skipn p tokens).
    { subst p. rewrite skipn_add, Htl, skipn_app, Nat.sub_diag, skipn_all. reflexivity. }
    exists A, (v ++ rest). split; auto. rewrite Hsk. split; [|apply Forall_app; auto].
    eapply derives_trans; [subst X; now apply derives_production|]. rewrite Hqo, map_app.
    rewrite <- app_assoc.
    replace (types (skipn p tokens) ++ A :: v ++ rest)
      with ((types (skipn p tokens) ++ A :: v) ++ rest) by now rewrite <- app_assoc.
    apply (derives_app Hw). exact (derives_app Hd (derives_refl _ _ rest)).
  Qed.

  Lemma trunc_here Y p : length tokens <= p -> non_terminal ps Y -> trunc Y p.
  Proof.
    intros Hp HY. exists Y, []. rewrite skipn_all2 by lia. simpl. repeat split; auto.
    apply derives_refl.
  Qed.

  Notation OOR := PanicTokenOutOfRange.

  Section Rec.
    Variable rec : T -> nat -> list (list T) -> bool -> history L T ->
                   outcome (psr * history L T).
    Hypothesis Hrel : forall X pos prods single h r h',
      rec X pos prods single h = Done (r, h') -> RSym self tokens X pos prods single h r h'.
    Hypothesis Htr : forall X pos prods single h,
      good_prods (ps := ps) X prods -> pos < length tokens ->
      rec X pos prods single h = Panicked OOR -> trunc X pos.

    Lemma step_trunc Y pos child h :
      inner_parse_from_tokens_production_symbol self tokens rec Y pos child h = Panicked OOR ->
      trunc Y pos.
    Proof.
      unfold inner_parse_from_tokens_production_symbol,
        inner_parse_from_tokens_production_non_terminal.
      destruct (is_non_terminal _ _) eqn:Hnt; [|discriminate].
      destruct (nth_error tokens pos) as [tok|] eqn:Ht.
      - apply Htr; [apply (token_productions_good P)|apply nth_error_Some; congruence].
      - intros _. apply nth_error_None in Ht. apply trunc_here; auto.
        now apply (is_non_terminal_spec (po_grammar P)).
    Qed.

    Lemma pop_trunc states : forall child failed h p0 p syms,
      stack_ok (eps := eps) (ps := ps) (self := self) tokens states p0 p syms -> unfixed states ->
      inner_parse_pop_states rec states child failed h = Panicked OOR ->
      exists states' p' syms' Y rest,
        syms = syms' ++ Y :: rest /\ unfixed states' /\ trunc Y p' /\
        stack_ok (eps := eps) (ps := ps) (self := self) tokens states' p0 p' syms'.
    Proof.
      induction states as [|[st|fs] states IH]; intros child failed h p0 p syms Hs Hu H; simpl in H.
      - discriminate.
      - apply stack_parsing_inv in Hs as (p1 & syms0 & X & -> & _ & Hs & Hok).
        assert (Hu' : unfixed states) by exact Hu.
        assert (Hlater : forall f h0, inner_parse_pop_states rec states child f h0 = Panicked OOR ->
          exists states' p' syms' Y rest,
            syms0 ++ [X] = syms' ++ Y :: rest /\ unfixed states' /\ trunc Y p' /\
            stack_ok (eps := eps) (ps := ps) (self := self) tokens states' p0 p' syms').
        { intros f h0 H0. destruct (IH _ _ _ _ _ _ Hs Hu' H0) as (st' & p' & sy & Y & r & -> & Ha & Hb & Hc).
          exists st', p', sy, Y, (r ++ [X]). rewrite <- app_assoc. auto. }
        destruct (ps_prod_iter_option st) as [it|] eqn:Hit; [|eauto].
        apply bind_panicked in H as [H|([r h'] & H1 & H2)].
        + destruct Hok as (_ & Hi & Hm). rewrite Hit in Hm. destruct Hm as (HX & Hg & Hpos & HXn).
          rewrite HX, Hi in H. apply Htr in H; auto.
          exists states, p1, syms0, X, []. auto.
        + destruct r; [discriminate|eauto|eauto].
      - discriminate.
    Qed.

    Lemma prod_trunc fuel : forall X out child states pos h p0 syms rest,
      (exists q, In q ps /\ p_input q = X /\ p_output q = out) ->
      stack_ok (eps := eps) (ps := ps) (self := self) tokens states p0 pos syms -> unfixed states ->
      out = syms ++ rest ->
      inner_parse_from_tokens_production self tokens rec fuel X out child states pos h = Panicked OOR ->
      trunc X p0.
    Proof.
      induction fuel as [|fuel IH]; intros X out child states pos h p0 syms rest Hq Hs Hu Ho H;
        simpl in H; [discriminate|].
      pose proof (stack_ok_length Hs) as Hl.
      destruct (length states <? length out) eqn:Hlt.
      - apply Nat.ltb_lt in Hlt.
        destruct rest as [|Y rest]; [subst out; rewrite app_nil_r in Hlt; lia|].
        assert (HY : nth_error out (length states) = Some Y).
        { subst out. rewrite Hl, nth_error_app2, Nat.sub_diag by lia. reflexivity. }
        rewrite HY in H. simpl in H. rewrite Ho in Hq.
        apply bind_panicked in H as [H|([r h1] & H1 & H)].
        { apply step_trunc in H. eapply trunc_prod; eauto. }
        apply (step_sound _ Hrel) in H1.
        pose proof (proj1 (proj2 (proj2 (proj2 (run_sound P tokens)))) _ _ _ _ _ _ H1) as Hst.
        pose proof (proj1 (proj2 (proj2 (proj2 no_fix_run))) _ _ _ _ _ _ H1) as Hnf.
        destruct r as [st|e|f]; [| |contradiction].
        + destruct Hst as [Hst _].
          apply (IH X out child (StParsing st :: states) (ps_final_token_position st) h1 p0
                    (syms ++ [Y]) rest); auto.
          * now rewrite Ho.
          * eapply stack_parsing; eauto.
          * now rewrite <- app_assoc.
        + apply bind_panicked in H as [H|([[states' popped] h2] & Hpop & H)].
          * destruct (pop_trunc _ _ _ Hs Hu H) as (st' & p' & sy & Z & r & -> & Ha & Hb & Hc).
            rewrite <- app_assoc in Hq. eapply trunc_prod; eauto.
          * destruct popped as [fstates|]; [discriminate|].
            destruct states' as [|st states']; [discriminate|].
            apply (pop_sound _ Hrel) in Hpop.
            pose proof (proj2 (proj2 (proj2 (proj2 no_fix_run))) _ _ _ _ _ _ _ Hpop Hu) as Hu'.
            destruct (proj2 (proj2 (proj2 (proj2 (run_sound P tokens)))) _ _ _ _ _ _ _ Hpop
                        p0 pos syms Hs eq_refl) as (p' & syms' & rest' & Hsy & Hs').
            pose proof (stack_ok_top Hs') as Hp'. rewrite Hp' in Hs'.
            apply (IH X out child (st :: states') (state_final_token_position st) h2 p0 syms'
                      (rest' ++ Y :: rest)); auto.
            -- now rewrite Ho.
            -- subst. now rewrite <- app_assoc.
      - exfalso. unfold inner_parse_from_tokens_production_build_node in H.
        destruct (existsb _ _); [discriminate|].
        destruct (unfixed_nodes Hu) as [ns Hn]. rewrite Hn in H. discriminate.
    Qed.

    Lemma try_trunc fuel prods : forall X pos child failed h,
      good_prods (ps := ps) X prods -> pos < length tokens ->
      try_parse_productions_loop self tokens rec fuel X pos child prods failed h = Panicked OOR ->
      trunc X pos.
    Proof.
      induction prods as [|out prods IH]; intros X pos child failed h Hg Hpos H; simpl in H;
        [discriminate|].
      apply bind_panicked in H as [H|([[pr pos'] h1] & H1 & H)].
      - refine (@prod_trunc fuel X out child [] pos h pos [] out _ _ _ _ H); auto.
        + apply Hg; simpl; auto.
        + constructor.
        + reflexivity.
      - destruct pr; try discriminate. eapply IH; eauto. eapply good_prods_tail; eauto.
    Qed.

    Lemma inner_step_trunc fuel X pos prods single h :
      good_prods (ps := ps) X prods -> pos < length tokens ->
      inner_parse_from_tokens_step self tokens rec fuel X pos prods single h = Panicked OOR ->
      trunc X pos.
    Proof.
      intros Hg Hpos H. unfold inner_parse_from_tokens_step,
        inner_parse_from_tokens_try_parse_productions in H.
      apply bind_panicked in H as [H|([[r|failed] h1] & _ & H)].
      - eapply try_trunc; eauto.
      - discriminate.
      - exfalso. unfold inner_parse_from_tokens_try_fix_productions in H.
        destruct (pr_solver self) as [s|]; [|discriminate].
        destruct single; [|discriminate].
        destruct (is_child_single_path true prods).
        + destruct failed; [discriminate|].
          match type of H with context [s h1 ?c] => destruct (s h1 c) as [a| |] end; discriminate.
        + match type of H with context [s h1 ?c] => destruct (s h1 c) as [a| |] end; discriminate.
    Qed.
  End Rec.

  Lemma inner_trunc fuel : forall X pos prods single h,
    good_prods (ps := ps) X prods -> pos < length tokens ->
    inner_parse_from_tokens fuel self tokens X pos prods single h = Panicked OOR -> trunc X pos.
  Proof.
    induction fuel as [|fuel IH]; intros X pos prods single h Hg Hpos H; simpl in H; [discriminate|].
    eapply inner_step_trunc in H; eauto. intros. eapply rel_sound; eauto.
  Qed.

  Lemma parse_trunc fuel : parse_from_tokens fuel self tokens = Panicked OOR ->
    trunc init 0.
  Proof.
    intros H. unfold parse_from_tokens in H. destruct tokens as [|tok rest] eqn:Ht; [discriminate|].
    rewrite <- Ht in *.
    apply bind_panicked in H as [H|([r h'] & _ & H)]; [|discriminate].
    apply inner_trunc in H.
    - unfold get_initial_symbol in H. now rewrite (go_init (po_grammar P)) in H.
    - apply (token_productions_good P).
    - rewrite Ht. simpl; lia.
  Qed.
End Trunc.

(** ** with productive non-terminals a truncated form is a prefix of a sentence *)
Section Viable.
  Context {T : Type} {E : EqDec T}.
  Variable eps : T.
  Variable ps : list (production T).

  Lemma productive_form (w : list T) : productive eps ps ->
    exists v, Forall (real_terminal eps ps) v /\ derives eps ps w v.
  Proof.
    intros Hp. induction w as [|x w (v & Hv & Hd)].
    - exists []. split; auto. apply derives_refl.
    - destruct (non_terminal_dec ps x) as [Hx|Hx].
      + destruct (Hp x Hx) as (u & Hu & Hdu). exists (u ++ v). split; [apply Forall_app; auto|].
        exact (derives_app Hdu Hd).
      + destruct (eq_dec x eps) as [->|Hne].
        * exists v. split; auto. exact (derives_app (derives_eps eps ps) Hd).
        * exists (x :: v). split; [constructor; auto; split; auto|].
          exact (derives_app (derives_refl eps ps [x]) Hd).
  Qed.
End Viable.
