(** * Big-step relation of the parser runs that read past the last token (proof device) *)

From Verif Require Import BaseFacts.
From Verif Require Export ParserRel.

Set Implicit Arguments.

Lemma bind_panics {A B} (o : outcome A) (f : A -> outcome B) q :
  bind o f = Panicked q -> o = Panicked q \/ exists a, o = Done a /\ f a = Panicked q.
Proof. destruct o; simpl; intros H; [right; eauto|left; congruence|discriminate]. Qed.

Section Past.
  Context {L T : Type} {E : EqDec T}.
  Variable self : parser L T.
  Variable tokens : list (token L T).
  Notation psr := (parse_symbol_result L T).
  Notation fprod := (failed_production L T).
  Notation RSym := (RSym self tokens).
  Notation RProd := (RProd self tokens).
  Notation RStep := (RStep self tokens).
  Notation RPop := (RPop self tokens).
  Notation OOR := PanicTokenOutOfRange.

  Inductive PSym : T -> nat -> list (list T) -> bool -> history L T -> Prop :=
  | PSym_try X pos prods single h :
      PTry X pos (is_child_single_path single prods) prods [] h -> PSym X pos prods single h
  with PTry : T -> nat -> bool -> list (list T) -> list fprod -> history L T -> Prop :=
  | PTry_here X pos child out rest failed h :
      PProd X out child [] pos h -> PTry X pos child (out :: rest) failed h
  | PTry_next X pos child out rest failed h fp pos' h' :
      RProd X out child [] pos h (ProdErr fp) pos' h' ->
      PTry X pos child rest (failed ++ [fp]) h' ->
      PTry X pos child (out :: rest) failed h
  with PProd : T -> list T -> bool -> list (state L T) -> nat -> history L T -> Prop :=
  | PProd_step X out child states pos h Y :
      nth_error out (length states) = Some Y -> PStep Y pos child h ->
      PProd X out child states pos h
  | PProd_ok X out child states pos h Y st h' :
      nth_error out (length states) = Some Y ->
      RStep Y pos child h (SymOk st) h' ->
      PProd X out child (StParsing st :: states) (ps_final_token_position st) h' ->
      PProd X out child states pos h
  | PProd_fix X out child states pos h Y fs h' :
      nth_error out (length states) = Some Y ->
      RStep Y pos child h (SymFix fs) h' ->
      PProd X out child (StFixed fs :: states) (fst_final_token_position fs) h' ->
      PProd X out child states pos h
  | PProd_pop X out child states pos h Y fs h' :
      nth_error out (length states) = Some Y ->
      RStep Y pos child h (SymErr fs) h' ->
      PPop states child [] h' -> PProd X out child states pos h
  | PProd_retry X out child states pos h Y fs h' st states' h'' :
      nth_error out (length states) = Some Y ->
      RStep Y pos child h (SymErr fs) h' ->
      RPop states child [] h' (st :: states') None h'' ->
      PProd X out child (st :: states') (state_final_token_position st) h'' ->
      PProd X out child states pos h
  with PStep : T -> nat -> bool -> history L T -> Prop :=
  | PStep_end Y pos child h :
      is_non_terminal (pr_grammar self) Y = true -> nth_error tokens pos = None ->
      PStep Y pos child h
  | PStep_nt Y pos child h tok :
      is_non_terminal (pr_grammar self) Y = true -> nth_error tokens pos = Some tok ->
      PSym Y pos (inner_get_token_productions self Y (tok_type tok)) child h ->
      PStep Y pos child h
  with PPop : list (state L T) -> bool -> list (state L T) -> history L T -> Prop :=
  | PPop_fixed fs states child failed h :
      PPop states child (StFixed fs :: failed) h -> PPop (StFixed fs :: states) child failed h
  | PPop_leaf st states child failed h :
      ps_prod_iter_option st = None ->
      PPop states child (StParsing st :: failed) h -> PPop (StParsing st :: states) child failed h
  | PPop_here st it states child failed h :
      ps_prod_iter_option st = Some it ->
      PSym (tok_type (node_token (ps_node st))) (ps_initial_token_position st) it child h ->
      PPop (StParsing st :: states) child failed h
  | PPop_skip st it states child failed h r h' :
      ps_prod_iter_option st = Some it ->
      RSym (tok_type (node_token (ps_node st))) (ps_initial_token_position st) it child h r h' ->
      (forall st', r <> SymOk st') ->
      PPop states child failed h' ->
      PPop (StParsing st :: states) child failed h.

  Scheme PSym_mut := Minimality for PSym Sort Prop
  with PTry_mut := Minimality for PTry Sort Prop
  with PProd_mut := Minimality for PProd Sort Prop
  with PStep_mut := Minimality for PStep Sort Prop
  with PPop_mut := Minimality for PPop Sort Prop.
  Combined Scheme past_mutind from PSym_mut, PTry_mut, PProd_mut, PStep_mut, PPop_mut.

  (** ** fuelled functions imply the relation *)
  Section Sound.
    Variable rec : T -> nat -> list (list T) -> bool -> history L T ->
                   outcome (psr * history L T).
    Hypothesis Hrec : forall X pos prods single h r h',
      rec X pos prods single h = Done (r, h') -> RSym X pos prods single h r h'.
    Hypothesis Hpan : forall X pos prods single h,
      rec X pos prods single h = Panicked OOR -> PSym X pos prods single h.

    Lemma step_past Y pos child h :
      inner_parse_from_tokens_production_symbol self tokens rec Y pos child h = Panicked OOR ->
      PStep Y pos child h.
    Proof.
      unfold inner_parse_from_tokens_production_symbol,
        inner_parse_from_tokens_production_non_terminal.
      destruct (is_non_terminal (pr_grammar self) Y) eqn:Hnt; intros H; [|discriminate].
      destruct (nth_error tokens pos) as [tok|] eqn:Htok; [|now apply PStep_end].
      eapply PStep_nt; eauto.
    Qed.

    Lemma pop_past states : forall child failed h,
      inner_parse_pop_states rec states child failed h = Panicked OOR -> PPop states child failed h.
    Proof.
      induction states as [|[st|fs] states IH]; intros child failed h H; simpl in H.
      - discriminate.
      - destruct (ps_prod_iter_option st) as [it|] eqn:Hit.
        + apply bind_panics in H as [H|([r h1] & H1 & H2)]; [eapply PPop_here; eauto|].
          apply Hrec in H1. destruct r as [st'|e|f]; [discriminate| |];
            (eapply PPop_skip; eauto; discriminate).
        + apply PPop_leaf; auto.
      - apply PPop_fixed; auto.
    Qed.

    Lemma build_not_past X states :
      inner_parse_from_tokens_production_build_node (L := L) (T := T) X states <> Panicked OOR.
    Proof.
      unfold inner_parse_from_tokens_production_build_node. destruct (existsb _ _); [discriminate|].
      intros H. apply bind_panics in H as [H|(ns & _ & H)]; [|discriminate].
      induction states as [|[st|fs] states IH]; simpl in H; try discriminate.
      apply bind_panics in H as [H|(ns & _ & H)]; [auto|discriminate].
    Qed.

    Lemma prod_past fuel : forall X out child states pos h,
      inner_parse_from_tokens_production self tokens rec fuel X out child states pos h
        = Panicked OOR ->
      PProd X out child states pos h.
    Proof.
      induction fuel as [|fuel IH]; intros X out child states pos h H; simpl in H; [discriminate|].
      destruct (length states <? length out) eqn:Hlt.
      - destruct (nth_error out (length states)) as [Y|] eqn:HY; simpl in H; [|discriminate].
        apply bind_panics in H as [H|([r h1] & H1 & H2)].
        { apply step_past in H. eapply PProd_step; eauto. }
        apply (step_sound _ Hrec) in H1.
        destruct r as [st|e|f].
        + eapply PProd_ok; eauto.
        + apply bind_panics in H2 as [H2|([[states' popped] h2] & H2 & H3)].
          { apply pop_past in H2. eapply PProd_pop; eauto. }
          apply (pop_sound _ Hrec) in H2.
          destruct popped as [fstates|]; [discriminate|].
          destruct states' as [|st states']; [discriminate|]. eapply PProd_retry; eauto.
        + eapply PProd_fix; eauto.
      - apply bind_panics in H as [H|(pr & _ & H)]; [|discriminate].
        now apply build_not_past in H.
    Qed.

    Lemma try_past fuel prods : forall X pos child failed h,
      try_parse_productions_loop self tokens rec fuel X pos child prods failed h = Panicked OOR ->
      PTry X pos child prods failed h.
    Proof.
      induction prods as [|out prods IH]; intros X pos child failed h H; simpl in H; [discriminate|].
      apply bind_panics in H as [H|([[pr pos'] h1] & H1 & H2)].
      { apply PTry_here. eapply prod_past; eauto. }
      apply (prod_sound _ Hrec) in H1. destruct pr as [n|fp|fp]; [discriminate| |discriminate].
      eapply PTry_next; eauto.
    Qed.
  End Sound.

  Lemma fix_not_past pos single child failed h :
    inner_parse_from_tokens_try_fix_productions self tokens pos single child failed h <> Panicked OOR.
  Proof.
    unfold inner_parse_from_tokens_try_fix_productions.
    destruct (pr_solver self) as [solver|]; [|discriminate].
    destruct single; [|discriminate]. destruct child.
    - destruct failed; [discriminate|]. destruct (solver _ _); simpl; discriminate.
    - destruct (solver _ _); simpl; discriminate.
  Qed.

  Lemma past_sound fuel : forall X pos prods single h,
    inner_parse_from_tokens fuel self tokens X pos prods single h = Panicked OOR ->
    PSym X pos prods single h.
  Proof.
    induction fuel as [|fuel IH]; intros X pos prods single h H; simpl in H; [discriminate|].
    unfold inner_parse_from_tokens_step, inner_parse_from_tokens_try_parse_productions in H.
    apply bind_panics in H as [H|([res h1] & _ & H2)].
    - apply PSym_try. eapply try_past; eauto. apply rel_sound.
    - destruct res as [r|failed]; [discriminate|].
      apply bind_panics in H2 as [H2|([fo h2] & _ & H2)]; [|discriminate].
      now apply fix_not_past in H2.
  Qed.

  (** ** the relation implies the fuelled functions *)
  Let recn (n : nat) := inner_parse_from_tokens n self tokens.

  Definition CPSym X pos prods single h : Prop :=
    exists n, forall fuel, n <= fuel ->
      inner_parse_from_tokens fuel self tokens X pos prods single h = Panicked OOR.
  Definition CPTry X pos child prods failed h : Prop :=
    exists n, forall fuel fuel', n <= fuel -> n <= fuel' ->
      try_parse_productions_loop self tokens (recn fuel) fuel' X pos child prods failed h
        = Panicked OOR.
  Definition CPProd X out child states pos h : Prop :=
    exists n, forall fuel fuel', n <= fuel -> n <= fuel' ->
      inner_parse_from_tokens_production self tokens (recn fuel) fuel' X out child states pos h
        = Panicked OOR.
  Definition CPStep Y pos child h : Prop :=
    exists n, forall fuel, n <= fuel ->
      inner_parse_from_tokens_production_symbol self tokens (recn fuel) Y pos child h
        = Panicked OOR.
  Definition CPPop states child failed h : Prop :=
    exists n, forall fuel, n <= fuel ->
      inner_parse_pop_states (recn fuel) states child failed h = Panicked OOR.

  Lemma past_complete_all :
    (forall X pos prods single h, PSym X pos prods single h -> CPSym X pos prods single h) /\
    (forall X pos child prods failed h, PTry X pos child prods failed h ->
       CPTry X pos child prods failed h) /\
    (forall X out child states pos h, PProd X out child states pos h ->
       CPProd X out child states pos h) /\
    (forall Y pos child h, PStep Y pos child h -> CPStep Y pos child h) /\
    (forall states child failed h, PPop states child failed h -> CPPop states child failed h).
  Proof.
    destruct (rel_complete_all self tokens) as (KSym & KTry & KProd & KStep & KPop).
    apply past_mutind; unfold CPSym, CPTry, CPProd, CPStep, CPPop.
    - intros X pos prods single h _ [n IH]. exists (S n). intros [|fuel] Hf; [lia|]. simpl.
      unfold inner_parse_from_tokens_step, inner_parse_from_tokens_try_parse_productions.
      fold (recn fuel). rewrite IH by lia. reflexivity.
    - intros X pos child out rest failed h _ [k IH].
      exists k. intros fuel fuel' H1 H2. simpl. rewrite IH by lia. reflexivity.
    - intros X pos child out rest failed h fp pos' h' HP _ [k2 IH2].
      apply KProd in HP as [k1 IH1].
      exists (k1 + k2). intros fuel fuel' H1 H2. simpl. unfold recn at 1. rewrite IH1 by lia. simpl.
      apply IH2; lia.
    - intros X out child states pos h Y HY _ [k IH].
      exists (S k). intros fuel [|fuel'] H1 H2; [lia|]. simpl.
      assert (Hlt : length states < length out) by (apply nth_error_Some; congruence).
      apply Nat.ltb_lt in Hlt. rewrite Hlt, HY. simpl. rewrite IH by lia. reflexivity.
    - intros X out child states pos h Y st h' HY HS _ [k2 IH2]. apply KStep in HS as [k1 IH1].
      exists (S (k1 + k2)). intros fuel [|fuel'] H1 H2; [lia|]. simpl.
      assert (Hlt : length states < length out) by (apply nth_error_Some; congruence).
      apply Nat.ltb_lt in Hlt. rewrite Hlt, HY. simpl. unfold recn at 1. rewrite IH1 by lia. simpl. apply IH2; lia.
    - intros X out child states pos h Y fs h' HY HS _ [k2 IH2]. apply KStep in HS as [k1 IH1].
      exists (S (k1 + k2)). intros fuel [|fuel'] H1 H2; [lia|]. simpl.
      assert (Hlt : length states < length out) by (apply nth_error_Some; congruence).
      apply Nat.ltb_lt in Hlt. rewrite Hlt, HY. simpl. unfold recn at 1. rewrite IH1 by lia. simpl. apply IH2; lia.
    - intros X out child states pos h Y fs h' HY HS _ [k2 IH2]. apply KStep in HS as [k1 IH1].
      exists (S (k1 + k2)). intros fuel [|fuel'] H1 H2; [lia|]. simpl.
      assert (Hlt : length states < length out) by (apply nth_error_Some; congruence).
      apply Nat.ltb_lt in Hlt. rewrite Hlt, HY. simpl. unfold recn at 1. rewrite IH1 by lia. simpl.
      rewrite IH2 by lia. reflexivity.
    - intros X out child states pos h Y fs h' st states' h'' HY HS HP _ [k3 IH3].
      apply KStep in HS as [k1 IH1]. apply KPop in HP as [k2 IH2].
      exists (S (k1 + k2 + k3)). intros fuel [|fuel'] H1 H2; [lia|]. simpl.
      assert (Hlt : length states < length out) by (apply nth_error_Some; congruence).
      apply Nat.ltb_lt in Hlt. rewrite Hlt, HY. simpl. unfold recn at 1. rewrite IH1 by lia. simpl.
      unfold recn at 1. rewrite IH2 by lia. simpl. apply IH3; lia.
    - intros Y pos child h Hnt Htok. exists 0. intros fuel _.
      unfold inner_parse_from_tokens_production_symbol,
        inner_parse_from_tokens_production_non_terminal.
      now rewrite Hnt, Htok.
    - intros Y pos child h tok Hnt Htok _ [k IH]. exists k. intros fuel H1.
      unfold inner_parse_from_tokens_production_symbol,
        inner_parse_from_tokens_production_non_terminal.
      rewrite Hnt, Htok. apply IH; lia.
    - intros fs states child failed h _ [k IH]. exists k. intros fuel H1. simpl. apply IH; lia.
    - intros st states child failed h Hit _ [k IH]. exists k.
      intros fuel H1. simpl. rewrite Hit. apply IH; lia.
    - intros st it states child failed h Hit _ [k IH]. exists k.
      intros fuel H1. simpl. rewrite Hit. unfold recn at 1. rewrite IH by lia. reflexivity.
    - intros st it states child failed h r h' Hit HS Hr _ [k2 IH2]. apply KSym in HS as [k1 IH1].
      exists (k1 + k2). intros fuel H1. simpl. rewrite Hit. unfold recn at 1. rewrite IH1 by lia.
      simpl. destruct r as [st'|e|f]; [exfalso; eapply Hr; eauto| |]; apply IH2; lia.
  Qed.

  Lemma past_complete X pos prods single h :
    PSym X pos prods single h ->
    exists n, forall fuel, n <= fuel ->
      inner_parse_from_tokens fuel self tokens X pos prods single h = Panicked OOR.
  Proof. apply (proj1 past_complete_all). Qed.
End Past.
