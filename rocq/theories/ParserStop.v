(** * Big-step relation of the parser runs that panic: past the last token or in the solver
    (proof device) *)

From Verif Require Import BaseFacts.
From Verif Require Export ParserRel ParserPast.

Set Implicit Arguments.

Section Stop.
  Context {L T : Type} {E : EqDec T}.
  Variable self : parser L T.
  Variable tokens : list (token L T).
  Notation psr := (parse_symbol_result L T).
  Notation fprod := (failed_production L T).
  Notation RSym := (RSym self tokens).
  Notation RProd := (RProd self tokens).
  Notation RStep := (RStep self tokens).
  Notation RPop := (RPop self tokens).
  Notation RTry := (RTry self tokens).
  (** the panic considered *)
  Variable q : panic.
  Hypothesis Hq : q = PanicTokenOutOfRange \/ q = PanicSolver.

  Inductive QSym : T -> nat -> list (list T) -> bool -> history L T -> Prop :=
  | QSym_try X pos prods single h :
      QTry X pos (is_child_single_path single prods) prods [] h -> QSym X pos prods single h
  | QSym_fix X pos prods single h failed h' :
      RTry X pos (is_child_single_path single prods) prods [] h (inr failed) h' ->
      inner_parse_from_tokens_try_fix_productions self tokens pos single
        (is_child_single_path single prods) failed h' = Panicked q ->
      QSym X pos prods single h
  with QTry : T -> nat -> bool -> list (list T) -> list fprod -> history L T -> Prop :=
  | QTry_here X pos child out rest failed h :
      QProd X out child [] pos h -> QTry X pos child (out :: rest) failed h
  | QTry_next X pos child out rest failed h fp pos' h' :
      RProd X out child [] pos h (ProdErr fp) pos' h' ->
      QTry X pos child rest (failed ++ [fp]) h' ->
      QTry X pos child (out :: rest) failed h
  with QProd : T -> list T -> bool -> list (state L T) -> nat -> history L T -> Prop :=
  | QProd_step X out child states pos h Y :
      nth_error out (length states) = Some Y -> QStep Y pos child h ->
      QProd X out child states pos h
  | QProd_ok X out child states pos h Y st h' :
      nth_error out (length states) = Some Y ->
      RStep Y pos child h (SymOk st) h' ->
      QProd X out child (StParsing st :: states) (ps_final_token_position st) h' ->
      QProd X out child states pos h
  | QProd_fix X out child states pos h Y fs h' :
      nth_error out (length states) = Some Y ->
      RStep Y pos child h (SymFix fs) h' ->
      QProd X out child (StFixed fs :: states) (fst_final_token_position fs) h' ->
      QProd X out child states pos h
  | QProd_pop X out child states pos h Y fs h' :
      nth_error out (length states) = Some Y ->
      RStep Y pos child h (SymErr fs) h' ->
      QPop states child [] h' -> QProd X out child states pos h
  | QProd_retry X out child states pos h Y fs h' st states' h'' :
      nth_error out (length states) = Some Y ->
      RStep Y pos child h (SymErr fs) h' ->
      RPop states child [] h' (st :: states') None h'' ->
      QProd X out child (st :: states') (state_final_token_position st) h'' ->
      QProd X out child states pos h
  with QStep : T -> nat -> bool -> history L T -> Prop :=
  | QStep_end Y pos child h :
      q = PanicTokenOutOfRange ->
      is_non_terminal (pr_grammar self) Y = true -> nth_error tokens pos = None ->
      QStep Y pos child h
  | QStep_nt Y pos child h tok :
      is_non_terminal (pr_grammar self) Y = true -> nth_error tokens pos = Some tok ->
      QSym Y pos (inner_get_token_productions self Y (tok_type tok)) child h ->
      QStep Y pos child h
  with QPop : list (state L T) -> bool -> list (state L T) -> history L T -> Prop :=
  | QPop_fixed fs states child failed h :
      QPop states child (StFixed fs :: failed) h -> QPop (StFixed fs :: states) child failed h
  | QPop_leaf st states child failed h :
      ps_prod_iter_option st = None ->
      QPop states child (StParsing st :: failed) h -> QPop (StParsing st :: states) child failed h
  | QPop_here st it states child failed h :
      ps_prod_iter_option st = Some it ->
      QSym (tok_type (node_token (ps_node st))) (ps_initial_token_position st) it child h ->
      QPop (StParsing st :: states) child failed h
  | QPop_skip st it states child failed h r h' :
      ps_prod_iter_option st = Some it ->
      RSym (tok_type (node_token (ps_node st))) (ps_initial_token_position st) it child h r h' ->
      (forall st', r <> SymOk st') ->
      QPop states child failed h' ->
      QPop (StParsing st :: states) child failed h.

  Scheme QSym_mut := Minimality for QSym Sort Prop
  with QTry_mut := Minimality for QTry Sort Prop
  with QProd_mut := Minimality for QProd Sort Prop
  with QStep_mut := Minimality for QStep Sort Prop
  with QPop_mut := Minimality for QPop Sort Prop.
  Combined Scheme stop_mutind from QSym_mut, QTry_mut, QProd_mut, QStep_mut, QPop_mut.

  (** ** fuelled functions imply the relation *)
  Section Sound.
    Variable rec : T -> nat -> list (list T) -> bool -> history L T ->
                   outcome (psr * history L T).
    Hypothesis Hrec : forall X pos prods single h r h',
      rec X pos prods single h = Done (r, h') -> RSym X pos prods single h r h'.
    Hypothesis Hpan : forall X pos prods single h,
      rec X pos prods single h = Panicked q -> QSym X pos prods single h.

    Lemma step_stop Y pos child h :
      inner_parse_from_tokens_production_symbol self tokens rec Y pos child h = Panicked q ->
      QStep Y pos child h.
    Proof.
      unfold inner_parse_from_tokens_production_symbol,
        inner_parse_from_tokens_production_non_terminal.
      destruct (is_non_terminal (pr_grammar self) Y) eqn:Hnt; intros H; [|discriminate].
      destruct (nth_error tokens pos) as [tok|] eqn:Htok; [|apply QStep_end; congruence].
      eapply QStep_nt; eauto.
    Qed.

    Lemma pop_stop states : forall child failed h,
      inner_parse_pop_states rec states child failed h = Panicked q -> QPop states child failed h.
    Proof.
      induction states as [|[st|fs] states IH]; intros child failed h H; simpl in H.
      - discriminate.
      - destruct (ps_prod_iter_option st) as [it|] eqn:Hit.
        + apply bind_panics in H as [H|([r h1] & H1 & H2)]; [eapply QPop_here; eauto|].
          apply Hrec in H1. destruct r as [st'|e|f]; [discriminate| |];
            (eapply QPop_skip; eauto; discriminate).
        + apply QPop_leaf; auto.
      - apply QPop_fixed; auto.
    Qed.

    Lemma build_not_stop X states :
      inner_parse_from_tokens_production_build_node (L := L) (T := T) X states <> Panicked q.
    Proof.
      unfold inner_parse_from_tokens_production_build_node. destruct (existsb _ _); [discriminate|].
      intros H. apply bind_panics in H as [H|(ns & _ & H)]; [|discriminate].
      induction states as [|[st|fs] states IH]; simpl in H; [discriminate| |].
      - apply bind_panics in H as [H|(ns & _ & H)]; [auto|discriminate].
      - destruct Hq as [eq0|eq0]; rewrite eq0 in H; discriminate.
    Qed.

    Lemma prod_stop fuel : forall X out child states pos h,
      inner_parse_from_tokens_production self tokens rec fuel X out child states pos h
        = Panicked q ->
      QProd X out child states pos h.
    Proof.
      induction fuel as [|fuel IH]; intros X out child states pos h H; simpl in H; [discriminate|].
      destruct (length states <? length out) eqn:Hlt.
      - destruct (nth_error out (length states)) as [Y|] eqn:HY; simpl in H;
          [|exfalso; destruct Hq as [eq0|eq0]; rewrite eq0 in H; discriminate].
        apply bind_panics in H as [H|([r h1] & H1 & H2)].
        { apply step_stop in H. eapply QProd_step; eauto. }
        apply (step_sound _ Hrec) in H1.
        destruct r as [st|e|f].
        + eapply QProd_ok; eauto.
        + apply bind_panics in H2 as [H2|([[states' popped] h2] & H2 & H3)].
          { apply pop_stop in H2. eapply QProd_pop; eauto. }
          apply (pop_sound _ Hrec) in H2.
          destruct popped as [fstates|]; [discriminate|].
          destruct states' as [|st states'];
            [exfalso; destruct Hq as [eq0|eq0]; rewrite eq0 in H3; discriminate|]. eapply QProd_retry; eauto.
        + eapply QProd_fix; eauto.
      - apply bind_panics in H as [H|(pr & _ & H)]; [|discriminate].
        now apply build_not_stop in H.
    Qed.

    Lemma try_stop fuel prods : forall X pos child failed h,
      try_parse_productions_loop self tokens rec fuel X pos child prods failed h = Panicked q ->
      QTry X pos child prods failed h.
    Proof.
      induction prods as [|out prods IH]; intros X pos child failed h H; simpl in H; [discriminate|].
      apply bind_panics in H as [H|([[pr pos'] h1] & H1 & H2)].
      { apply QTry_here. eapply prod_stop; eauto. }
      apply (prod_sound _ Hrec) in H1. destruct pr as [n|fp|fp]; [discriminate| |discriminate].
      eapply QTry_next; eauto.
    Qed.
  End Sound.

  Lemma stop_sound fuel : forall X pos prods single h,
    inner_parse_from_tokens fuel self tokens X pos prods single h = Panicked q ->
    QSym X pos prods single h.
  Proof.
    induction fuel as [|fuel IH]; intros X pos prods single h H; simpl in H; [discriminate|].
    unfold inner_parse_from_tokens_step, inner_parse_from_tokens_try_parse_productions in H.
    apply bind_panics in H as [H|([res h1] & H1 & H2)].
    - apply QSym_try. eapply try_stop; eauto. apply rel_sound.
    - destruct res as [r|failed]; [discriminate|].
      apply bind_panics in H2 as [H2|([fo h2] & _ & H2)]; [|discriminate].
      apply (try_sound _ (@rel_sound _ _ _ self tokens fuel)) in H1. eapply QSym_fix; eauto.
  Qed.

  (** ** the relation implies the fuelled functions *)
  Let recn (n : nat) := inner_parse_from_tokens n self tokens.

  Definition CQSym X pos prods single h : Prop :=
    exists n, forall fuel, n <= fuel ->
      inner_parse_from_tokens fuel self tokens X pos prods single h = Panicked q.
  Definition CQTry X pos child prods failed h : Prop :=
    exists n, forall fuel fuel', n <= fuel -> n <= fuel' ->
      try_parse_productions_loop self tokens (recn fuel) fuel' X pos child prods failed h
        = Panicked q.
  Definition CQProd X out child states pos h : Prop :=
    exists n, forall fuel fuel', n <= fuel -> n <= fuel' ->
      inner_parse_from_tokens_production self tokens (recn fuel) fuel' X out child states pos h
        = Panicked q.
  Definition CQStep Y pos child h : Prop :=
    exists n, forall fuel, n <= fuel ->
      inner_parse_from_tokens_production_symbol self tokens (recn fuel) Y pos child h
        = Panicked q.
  Definition CQPop states child failed h : Prop :=
    exists n, forall fuel, n <= fuel ->
      inner_parse_pop_states (recn fuel) states child failed h = Panicked q.

  Lemma stop_complete_all :
    (forall X pos prods single h, QSym X pos prods single h -> CQSym X pos prods single h) /\
    (forall X pos child prods failed h, QTry X pos child prods failed h ->
       CQTry X pos child prods failed h) /\
    (forall X out child states pos h, QProd X out child states pos h ->
       CQProd X out child states pos h) /\
    (forall Y pos child h, QStep Y pos child h -> CQStep Y pos child h) /\
    (forall states child failed h, QPop states child failed h -> CQPop states child failed h).
  Proof.
    destruct (rel_complete_all self tokens) as (KSym & KTry & KProd & KStep & KPop).
    apply stop_mutind; unfold CQSym, CQTry, CQProd, CQStep, CQPop.
    - intros X pos prods single h _ [n IH]. exists (S n). intros [|fuel] Hf; [lia|]. simpl.
      unfold inner_parse_from_tokens_step, inner_parse_from_tokens_try_parse_productions.
      fold (recn fuel). rewrite IH by lia. reflexivity.
    - intros X pos prods single h failed h' HT Hfix. apply KTry in HT as [n IH].
      exists (S n). intros [|fuel] Hf; [lia|]. simpl.
      unfold inner_parse_from_tokens_step, inner_parse_from_tokens_try_parse_productions.
      rewrite IH by lia. simpl. rewrite Hfix. reflexivity.
    - intros X pos child out rest failed h _ [k IH].
      exists k. intros fuel fuel' H1 H2. simpl. rewrite IH by lia. reflexivity.
    - intros X pos child out rest failed h fp pos' h' HP _ [k2 IH2].
      apply KProd in HP as [k1 IH1].
      exists (k1 + k2). intros fuel fuel' H1 H2. simpl. unfold recn at 1. rewrite IH1 by lia. simpl.
      apply IH2; lia.
    - intros X out child states pos h Y HY _ [k IH].
      exists (S k). intros fuel [|fuel'] H1 H2; [lia|]. simpl.
      assert (Hlt : length states < length out) by (apply nth_error_Some; congruence).
      apply Nat.ltb_lt in Hlt. rewrite Hlt, HY. simpl. rewrite IH by lia. reflexivity.
    - intros X out child states pos h Y st h' HY HS _ [k2 IH2]. apply KStep in HS as [k1 IH1].
      exists (S (k1 + k2)). intros fuel [|fuel'] H1 H2; [lia|]. simpl.
      assert (Hlt : length states < length out) by (apply nth_error_Some; congruence).
      apply Nat.ltb_lt in Hlt. rewrite Hlt, HY. simpl. unfold recn at 1. rewrite IH1 by lia. simpl. apply IH2; lia.
    - intros X out child states pos h Y fs h' HY HS _ [k2 IH2]. apply KStep in HS as [k1 IH1].
      exists (S (k1 + k2)). intros fuel [|fuel'] H1 H2; [lia|]. simpl.
      assert (Hlt : length states < length out) by (apply nth_error_Some; congruence).
      apply Nat.ltb_lt in Hlt. rewrite Hlt, HY. simpl. unfold recn at 1. rewrite IH1 by lia. simpl. apply IH2; lia.
    - intros X out child states pos h Y fs h' HY HS _ [k2 IH2]. apply KStep in HS as [k1 IH1].
      exists (S (k1 + k2)). intros fuel [|fuel'] H1 H2; [lia|]. simpl.
      assert (Hlt : length states < length out) by (apply nth_error_Some; congruence).
      apply Nat.ltb_lt in Hlt. rewrite Hlt, HY. simpl. unfold recn at 1. rewrite IH1 by lia. simpl.
      rewrite IH2 by lia. reflexivity.
    - intros X out child states pos h Y fs h' st states' h'' HY HS HP _ [k3 IH3].
      apply KStep in HS as [k1 IH1]. apply KPop in HP as [k2 IH2].
      exists (S (k1 + k2 + k3)). intros fuel [|fuel'] H1 H2; [lia|]. simpl.
      assert (Hlt : length states < length out) by (apply nth_error_Some; congruence).
      apply Nat.ltb_lt in Hlt. rewrite Hlt, HY. simpl. unfold recn at 1. rewrite IH1 by lia. simpl.
      unfold recn at 1. rewrite IH2 by lia. simpl. apply IH3; lia.
    - intros Y pos child h Hqq Hnt Htok. exists 0. intros fuel _.
      unfold inner_parse_from_tokens_production_symbol,
        inner_parse_from_tokens_production_non_terminal.
      rewrite Hnt, Htok. now rewrite Hqq.
    - intros Y pos child h tok Hnt Htok _ [k IH]. exists k. intros fuel H1.
      unfold inner_parse_from_tokens_production_symbol,
        inner_parse_from_tokens_production_non_terminal.
      rewrite Hnt, Htok. apply IH; lia.
    - intros fs states child failed h _ [k IH]. exists k. intros fuel H1. simpl. apply IH; lia.
    - intros st states child failed h Hit _ [k IH]. exists k.
      intros fuel H1. simpl. rewrite Hit. apply IH; lia.
    - intros st it states child failed h Hit _ [k IH]. exists k.
      intros fuel H1. simpl. rewrite Hit. unfold recn at 1. rewrite IH by lia. reflexivity.
    - intros st it states child failed h r h' Hit HS Hr _ [k2 IH2]. apply KSym in HS as [k1 IH1].
      exists (k1 + k2). intros fuel H1. simpl. rewrite Hit. unfold recn at 1. rewrite IH1 by lia.
      simpl. destruct r as [st'|e|f]; [exfalso; eapply Hr; eauto| |]; apply IH2; lia.
  Qed.

  Lemma stop_complete X pos prods single h :
    QSym X pos prods single h ->
    exists n, forall fuel, n <= fuel ->
      inner_parse_from_tokens fuel self tokens X pos prods single h = Panicked q.
  Proof. apply (proj1 stop_complete_all). Qed.
End Stop.
