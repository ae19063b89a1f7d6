(** * Big-step relation of the parser runs that return (proof device)

    Equivalent to the fuelled functions of Parser.v ([rel_sound], [rel_complete]).
    Used only in proofs; property statements are about [parse_from_tokens]. *)

From Verif Require Import BaseFacts.
From Verif Require Export Spec.

Set Implicit Arguments.

Lemma await_done {L T : Type} (r : solver_reply L T) (c : solver_call L T) (h : history L T) fo h' :
  (answer <- await r ;; Done (answer, h ++ [c])) = Done (fo, h') -> r = Reply fo /\ h' = h ++ [c].
Proof. destruct r; simpl; intros H; inversion H; auto. Qed.

Section Rel.
  Context {L T : Type} {E : EqDec T}.
  Variable self : parser L T.
  Variable tokens : list (token L T).

  Notation psr := (parse_symbol_result L T).
  Notation fprod := (failed_production L T).

  Inductive RSym : T -> nat -> list (list T) -> bool -> history L T ->
                   psr -> history L T -> Prop :=
  | RSym_done X pos prods single h r h' :
      RTry X pos (is_child_single_path single prods) prods [] h (inl r) h' ->
      RSym X pos prods single h r h'
  | RSym_failed X pos prods single h failed h' fo h'' :
      RTry X pos (is_child_single_path single prods) prods [] h (inr failed) h' ->
      inner_parse_from_tokens_try_fix_productions self tokens pos single
        (is_child_single_path single prods) failed h' = Done (fo, h'') ->
      RSym X pos prods single h
        (inner_parse_from_tokens_fix_option_to_parse_symbol_result failed fo X) h''
  with RTry : T -> nat -> bool -> list (list T) -> list fprod -> history L T ->
              psr + list fprod -> history L T -> Prop :=
  | RTry_nil X pos child failed h : RTry X pos child [] failed h (inr failed) h
  | RTry_ok X pos child out rest failed h n pos' h' :
      RProd X out child [] pos h (ProdOk n) pos' h' ->
      RTry X pos child (out :: rest) failed h
        (inl (SymOk {| ps_initial_token_position := pos;
                       ps_final_token_position := pos';
                       ps_prod_iter_option := Some rest;
                       ps_node := n |})) h'
  | RTry_err X pos child out rest failed h fp pos' h' r h'' :
      RProd X out child [] pos h (ProdErr fp) pos' h' ->
      RTry X pos child rest (failed ++ [fp]) h' r h'' ->
      RTry X pos child (out :: rest) failed h r h''
  | RTry_fix X pos child out rest failed h fp pos' h' :
      RProd X out child [] pos h (ProdFix fp) pos' h' ->
      RTry X pos child (out :: rest) failed h
        (inl (SymFix {| fst_final_token_position := pos';
                        fst_fixed_symbol := FixedSymbol fp X |})) h'
  with RProd : T -> list T -> bool -> list (state L T) -> nat -> history L T ->
               parse_production_result L T -> nat -> history L T -> Prop :=
  | RProd_done X out child states pos h pr :
      length out <= length states ->
      inner_parse_from_tokens_production_build_node X (rev states) = Done pr ->
      RProd X out child states pos h pr pos h
  | RProd_ok X out child states pos h Y ps h' pr pos' h'' :
      nth_error out (length states) = Some Y ->
      RStep Y pos child h (SymOk ps) h' ->
      RProd X out child (StParsing ps :: states) (ps_final_token_position ps) h' pr pos' h'' ->
      RProd X out child states pos h pr pos' h''
  | RProd_fix X out child states pos h Y fs h' pr pos' h'' :
      nth_error out (length states) = Some Y ->
      RStep Y pos child h (SymFix fs) h' ->
      RProd X out child (StFixed fs :: states) (fst_final_token_position fs) h' pr pos' h'' ->
      RProd X out child states pos h pr pos' h''
  | RProd_failed X out child states pos h Y fs h' states' fstates h'' :
      nth_error out (length states) = Some Y ->
      RStep Y pos child h (SymErr fs) h' ->
      RPop states child [] h' states' (Some fstates) h'' ->
      RProd X out child states pos h
        (inner_parse_from_tokens_production_build_failed_symbol fs out fstates) pos h''
  | RProd_retry X out child states pos h Y fs h' st states' h'' pr pos' h3 :
      nth_error out (length states) = Some Y ->
      RStep Y pos child h (SymErr fs) h' ->
      RPop states child [] h' (st :: states') None h'' ->
      RProd X out child (st :: states') (state_final_token_position st) h'' pr pos' h3 ->
      RProd X out child states pos h pr pos' h3
  with RStep : T -> nat -> bool -> history L T -> psr -> history L T -> Prop :=
  | RStep_nt Y pos child h tok r h' :
      is_non_terminal (pr_grammar self) Y = true ->
      nth_error tokens pos = Some tok ->
      RSym Y pos (inner_get_token_productions self Y (tok_type tok)) child h r h' ->
      RStep Y pos child h r h'
  | RStep_t Y pos child h :
      is_non_terminal (pr_grammar self) Y = false ->
      RStep Y pos child h (inner_parse_terminal_symbol self Y tokens pos) h
  with RPop : list (state L T) -> bool -> list (state L T) -> history L T ->
              list (state L T) -> option (list (state L T)) -> history L T -> Prop :=
  | RPop_nil child failed h : RPop [] child failed h [] (Some failed) h
  | RPop_fixed fs states child failed h states' popped h' :
      RPop states child (StFixed fs :: failed) h states' popped h' ->
      RPop (StFixed fs :: states) child failed h states' popped h'
  | RPop_leaf ps states child failed h states' popped h' :
      ps_prod_iter_option ps = None ->
      RPop states child (StParsing ps :: failed) h states' popped h' ->
      RPop (StParsing ps :: states) child failed h states' popped h'
  | RPop_ok ps it states child failed h ps' h' :
      ps_prod_iter_option ps = Some it ->
      RSym (tok_type (node_token (ps_node ps))) (ps_initial_token_position ps) it child h
           (SymOk ps') h' ->
      RPop (StParsing ps :: states) child failed h (StParsing ps' :: states) None h'
  | RPop_skip ps it states child failed h r h' states' popped h'' :
      ps_prod_iter_option ps = Some it ->
      RSym (tok_type (node_token (ps_node ps))) (ps_initial_token_position ps) it child h r h' ->
      (forall ps', r <> SymOk ps') ->
      RPop states child failed h' states' popped h'' ->
      RPop (StParsing ps :: states) child failed h states' popped h''.

  Scheme RSym_mut := Minimality for RSym Sort Prop
  with RTry_mut := Minimality for RTry Sort Prop
  with RProd_mut := Minimality for RProd Sort Prop
  with RStep_mut := Minimality for RStep Sort Prop
  with RPop_mut := Minimality for RPop Sort Prop.
  Combined Scheme run_mutind from RSym_mut, RTry_mut, RProd_mut, RStep_mut, RPop_mut.

  (** ** fuelled functions imply the relation *)
  Section Sound.
    Variable rec : T -> nat -> list (list T) -> bool -> history L T ->
                   outcome (psr * history L T).
    Hypothesis Hrec : forall X pos prods single h r h',
      rec X pos prods single h = Done (r, h') -> RSym X pos prods single h r h'.

    Lemma step_sound Y pos child h r h' :
      inner_parse_from_tokens_production_symbol self tokens rec Y pos child h = Done (r, h') ->
      RStep Y pos child h r h'.
    Proof.
      unfold inner_parse_from_tokens_production_symbol,
        inner_parse_from_tokens_production_non_terminal.
      destruct (is_non_terminal (pr_grammar self) Y) eqn:Hnt; intros H.
      - destruct (nth_error tokens pos) as [tok|] eqn:Htok; [|discriminate].
        eapply RStep_nt; eauto.
      - inversion H; subst. now apply RStep_t.
    Qed.

    Lemma pop_sound states : forall child failed h states' popped h',
      inner_parse_pop_states rec states child failed h = Done (states', popped, h') ->
      RPop states child failed h states' popped h'.
    Proof.
      induction states as [|[ps|fs] states IH]; intros child failed h states' popped h' H; simpl in H.
      - inversion H; subst. constructor.
      - destruct (ps_prod_iter_option ps) as [it|] eqn:Hit.
        + apply bind_done in H as ([r h1] & H1 & H2). apply Hrec in H1.
          destruct r as [ps'|e|f].
          * inversion H2; subst. eapply RPop_ok; eauto.
          * eapply RPop_skip; eauto. discriminate.
          * eapply RPop_skip; eauto. discriminate.
        + apply RPop_leaf; auto.
      - apply RPop_fixed; auto.
    Qed.

    Lemma prod_sound fuel : forall X out child states pos h pr pos' h',
      inner_parse_from_tokens_production self tokens rec fuel X out child states pos h
        = Done (pr, pos', h') ->
      RProd X out child states pos h pr pos' h'.
    Proof.
      induction fuel as [|fuel IH]; intros X out child states pos h pr pos' h' H; simpl in H;
        [discriminate|].
      destruct (length states <? length out) eqn:Hlt.
      - destruct (nth_error out (length states)) as [Y|] eqn:HY; simpl in H; [|discriminate].
        apply bind_done in H as ([r h1] & H1 & H2). apply step_sound in H1.
        destruct r as [ps|e|f].
        + eapply RProd_ok; eauto.
        + apply bind_done in H2 as ([[states' popped] h2] & H2 & H3). apply pop_sound in H2.
          destruct popped as [fstates|].
          * inversion H3; subst. eapply RProd_failed; eauto.
          * destruct states' as [|st states']; [discriminate|].
            eapply RProd_retry; eauto.
        + eapply RProd_fix; eauto.
      - apply Nat.ltb_ge in Hlt. apply bind_done in H as (pr' & H1 & H2).
        inversion H2; subst. now apply RProd_done.
    Qed.

    Lemma try_sound fuel prods : forall X pos child failed h r h',
      try_parse_productions_loop self tokens rec fuel X pos child prods failed h = Done (r, h') ->
      RTry X pos child prods failed h r h'.
    Proof.
      induction prods as [|out prods IH]; intros X pos child failed h r h' H; simpl in H.
      - inversion H; subst; constructor.
      - apply bind_done in H as ([[pr pos'] h1] & H1 & H2). apply prod_sound in H1.
        destruct pr as [n|fp|fp].
        + inversion H2; subst. eapply RTry_ok; eauto.
        + eapply RTry_err; eauto.
        + inversion H2; subst. eapply RTry_fix; eauto.
    Qed.
  End Sound.

  Lemma rel_sound fuel : forall X pos prods single h r h',
    inner_parse_from_tokens fuel self tokens X pos prods single h = Done (r, h') ->
    RSym X pos prods single h r h'.
  Proof.
    induction fuel as [|fuel IH]; intros X pos prods single h r h' H; simpl in H; [discriminate|].
    unfold inner_parse_from_tokens_step in H.
    apply bind_done in H as ([res h1] & H1 & H2).
    unfold inner_parse_from_tokens_try_parse_productions in H1.
    apply (try_sound _ IH) in H1.
    destruct res as [r1|failed].
    - inversion H2; subst. now apply RSym_done.
    - apply bind_done in H2 as ([fo h2] & H2 & H3). inversion H3; subst.
      eapply RSym_failed; eauto.
  Qed.

  (** ** the relation implies the fuelled functions *)
  Let recn (n : nat) := inner_parse_from_tokens n self tokens.

  Definition CSym X pos prods single h r h' : Prop :=
    exists n, forall fuel, n <= fuel ->
      inner_parse_from_tokens fuel self tokens X pos prods single h = Done (r, h').
  Definition CTry X pos child prods failed h r h' : Prop :=
    exists n, forall fuel fuel', n <= fuel -> n <= fuel' ->
      try_parse_productions_loop self tokens (recn fuel) fuel' X pos child prods failed h
        = Done (r, h').
  Definition CProd X out child states pos h pr pos' h' : Prop :=
    exists n, forall fuel fuel', n <= fuel -> n <= fuel' ->
      inner_parse_from_tokens_production self tokens (recn fuel) fuel' X out child states pos h
        = Done (pr, pos', h').
  Definition CStep Y pos child h r h' : Prop :=
    exists n, forall fuel, n <= fuel ->
      inner_parse_from_tokens_production_symbol self tokens (recn fuel) Y pos child h
        = Done (r, h').
  Definition CPop states child failed h states' popped h' : Prop :=
    exists n, forall fuel, n <= fuel ->
      inner_parse_pop_states (recn fuel) states child failed h = Done (states', popped, h').

  Lemma rel_complete_all :
    (forall X pos prods single h r h', RSym X pos prods single h r h' ->
       CSym X pos prods single h r h') /\
    (forall X pos child prods failed h r h', RTry X pos child prods failed h r h' ->
       CTry X pos child prods failed h r h') /\
    (forall X out child states pos h pr pos' h', RProd X out child states pos h pr pos' h' ->
       CProd X out child states pos h pr pos' h') /\
    (forall Y pos child h r h', RStep Y pos child h r h' -> CStep Y pos child h r h') /\
    (forall states child failed h states' popped h',
       RPop states child failed h states' popped h' ->
       CPop states child failed h states' popped h').
  Proof.
    apply run_mutind; unfold CSym, CTry, CProd, CStep, CPop.
    - intros X pos prods single h r h' _ [n IH].
      exists (S n). intros [|fuel] Hf; [lia|]. simpl.
      unfold inner_parse_from_tokens_step, inner_parse_from_tokens_try_parse_productions.
      fold (recn fuel). rewrite IH by lia. reflexivity.
    - intros X pos prods single h failed h' fo h'' _ [n IH] Hfix.
      exists (S n). intros [|fuel] Hf; [lia|]. simpl.
      unfold inner_parse_from_tokens_step, inner_parse_from_tokens_try_parse_productions.
      fold (recn fuel). rewrite IH by lia. simpl. rewrite Hfix. reflexivity.
    - intros. exists 0. reflexivity.
    - intros X pos child out rest failed h n pos' h' _ [k IH].
      exists k. intros fuel fuel' H1 H2. simpl. rewrite IH by lia. reflexivity.
    - intros X pos child out rest failed h fp pos' h' r h'' _ [k1 IH1] _ [k2 IH2].
      exists (k1 + k2). intros fuel fuel' H1 H2. simpl. rewrite IH1 by lia. simpl.
      apply IH2; lia.
    - intros X pos child out rest failed h fp pos' h' _ [k IH].
      exists k. intros fuel fuel' H1 H2. simpl. rewrite IH by lia. reflexivity.
    - intros X out child states pos h pr Hlen Hb. exists 1. intros fuel [|fuel'] H1 H2; [lia|].
      simpl. apply Nat.ltb_ge in Hlen. rewrite Hlen, Hb. reflexivity.
    - intros X out child states pos h Y ps h' pr pos' h'' HY _ [k1 IH1] _ [k2 IH2].
      exists (S (k1 + k2)). intros fuel [|fuel'] H1 H2; [lia|]. simpl.
      assert (Hlt : length states < length out) by (apply nth_error_Some; congruence).
      apply Nat.ltb_lt in Hlt. rewrite Hlt, HY. simpl. rewrite IH1 by lia. simpl. apply IH2; lia.
    - intros X out child states pos h Y fs h' pr pos' h'' HY _ [k1 IH1] _ [k2 IH2].
      exists (S (k1 + k2)). intros fuel [|fuel'] H1 H2; [lia|]. simpl.
      assert (Hlt : length states < length out) by (apply nth_error_Some; congruence).
      apply Nat.ltb_lt in Hlt. rewrite Hlt, HY. simpl. rewrite IH1 by lia. simpl. apply IH2; lia.
    - intros X out child states pos h Y fs h' states' fstates h'' HY _ [k1 IH1] _ [k2 IH2].
      exists (S (k1 + k2)). intros fuel [|fuel'] H1 H2; [lia|]. simpl.
      assert (Hlt : length states < length out) by (apply nth_error_Some; congruence).
      apply Nat.ltb_lt in Hlt. rewrite Hlt, HY. simpl. rewrite IH1 by lia. simpl.
      rewrite IH2 by lia. reflexivity.
    - intros X out child states pos h Y fs h' st states' h'' pr pos' h3 HY _ [k1 IH1] _ [k2 IH2] _ [k3 IH3].
      exists (S (k1 + k2 + k3)). intros fuel [|fuel'] H1 H2; [lia|]. simpl.
      assert (Hlt : length states < length out) by (apply nth_error_Some; congruence).
      apply Nat.ltb_lt in Hlt. rewrite Hlt, HY. simpl. rewrite IH1 by lia. simpl.
      rewrite IH2 by lia. simpl. apply IH3; lia.
    - intros Y pos child h tok r h' Hnt Htok _ [k IH]. exists k. intros fuel H1.
      unfold inner_parse_from_tokens_production_symbol,
        inner_parse_from_tokens_production_non_terminal.
      rewrite Hnt, Htok. apply IH; lia.
    - intros Y pos child h Hnt. exists 0. intros fuel _.
      unfold inner_parse_from_tokens_production_symbol. now rewrite Hnt.
    - intros. exists 0. reflexivity.
    - intros fs states child failed h states' popped h' _ [k IH]. exists k.
      intros fuel H1. simpl. apply IH; lia.
    - intros ps states child failed h states' popped h' Hit _ [k IH]. exists k.
      intros fuel H1. simpl. rewrite Hit. apply IH; lia.
    - intros ps it states child failed h ps' h' Hit _ [k IH]. exists k.
      intros fuel H1. simpl. rewrite Hit. unfold recn. rewrite IH by lia. reflexivity.
    - intros ps it states child failed h r h' states' popped h'' Hit _ [k1 IH1] Hr _ [k2 IH2].
      exists (k1 + k2). intros fuel H1. simpl. rewrite Hit. unfold recn at 1. rewrite IH1 by lia.
      simpl. destruct r as [ps'|e|f]; [exfalso; eapply Hr; eauto| |]; apply IH2; lia.
  Qed.

  Lemma rel_complete X pos prods single h r h' :
    RSym X pos prods single h r h' ->
    exists n, forall fuel, n <= fuel ->
      inner_parse_from_tokens fuel self tokens X pos prods single h = Done (r, h').
  Proof. apply (proj1 rel_complete_all). Qed.
End Rel.

(** ** more fuel never changes an outcome *)
Section Mono.
  Context {L T : Type} {E : EqDec T}.
  Variable self : parser L T.
  Variable tokens : list (token L T).
  Notation psr := (parse_symbol_result L T).

  Definition refines {A} (o o' : outcome A) : Prop := o = OutOfFuel \/ o' = o.

  Lemma refines_bind {A B} (o o' : outcome A) (f f' : A -> outcome B) :
    refines o o' -> (forall a, refines (f a) (f' a)) -> refines (bind o f) (bind o' f').
  Proof.
    intros [-> | ->] Hf; [left; reflexivity|].
    destruct o; simpl; [apply Hf|right; reflexivity|left; reflexivity].
  Qed.

  Lemma refines_refl {A} (o : outcome A) : refines o o.
  Proof. right; reflexivity. Qed.

  Variables rec rec' : T -> nat -> list (list T) -> bool -> history L T ->
                       outcome (psr * history L T).
  Hypothesis Hrec : forall X pos prods single h,
    refines (rec X pos prods single h) (rec' X pos prods single h).

  Lemma step_refines Y pos child h :
    refines (inner_parse_from_tokens_production_symbol self tokens rec Y pos child h)
            (inner_parse_from_tokens_production_symbol self tokens rec' Y pos child h).
  Proof.
    unfold inner_parse_from_tokens_production_symbol,
      inner_parse_from_tokens_production_non_terminal.
    destruct (is_non_terminal _ _); [|apply refines_refl].
    destruct (nth_error tokens pos); [apply Hrec|apply refines_refl].
  Qed.

  Lemma pop_refines states : forall child failed h,
    refines (inner_parse_pop_states rec states child failed h)
            (inner_parse_pop_states rec' states child failed h).
  Proof.
    induction states as [|[ps|fs] states IH]; intros child failed h; simpl.
    - apply refines_refl.
    - destruct (ps_prod_iter_option ps); auto.
      apply refines_bind; [apply Hrec|]. intros [[ps'|e|f] h']; auto using refines_refl.
    - auto.
  Qed.

  Lemma prod_refines fuel : forall fuel' X out child states pos h, fuel <= fuel' ->
    refines (inner_parse_from_tokens_production self tokens rec fuel X out child states pos h)
            (inner_parse_from_tokens_production self tokens rec' fuel' X out child states pos h).
  Proof.
    induction fuel as [|fuel IH]; intros fuel' X out child states pos h Hle; [left; reflexivity|].
    destruct fuel' as [|fuel']; [lia|]. simpl.
    destruct (length states <? length out); [|apply refines_refl].
    apply refines_bind; [apply refines_refl|]. intros Y.
    apply refines_bind; [apply step_refines|]. intros [[ps|e|f] h'].
    - apply IH; lia.
    - apply refines_bind; [apply pop_refines|]. intros [[states' [fstates|]] h''].
      + apply refines_refl.
      + destruct states'; [apply refines_refl|]. apply IH; lia.
    - apply IH; lia.
  Qed.

  Lemma try_refines fuel fuel' prods : fuel <= fuel' -> forall X pos child failed h,
    refines (try_parse_productions_loop self tokens rec fuel X pos child prods failed h)
            (try_parse_productions_loop self tokens rec' fuel' X pos child prods failed h).
  Proof.
    intros Hle. induction prods as [|out prods IH]; intros X pos child failed h; simpl.
    - apply refines_refl.
    - apply refines_bind; [now apply prod_refines|]. intros [[[n|fp|fp] pos'] h'];
        auto using refines_refl.
  Qed.

  Lemma inner_step_refines fuel fuel' X pos prods single h : fuel <= fuel' ->
    refines (inner_parse_from_tokens_step self tokens rec fuel X pos prods single h)
            (inner_parse_from_tokens_step self tokens rec' fuel' X pos prods single h).
  Proof.
    intros Hle. unfold inner_parse_from_tokens_step, inner_parse_from_tokens_try_parse_productions.
    apply refines_bind; [now apply try_refines|]. intros [[r|failed] h']; apply refines_refl.
  Qed.
End Mono.

Section MonoTop.
  Context {L T : Type} {E : EqDec T}.

  Lemma inner_refines (self : parser L T) tokens fuel : forall fuel' X pos prods single h,
    fuel <= fuel' ->
    refines (inner_parse_from_tokens fuel self tokens X pos prods single h)
            (inner_parse_from_tokens fuel' self tokens X pos prods single h).
  Proof.
    induction fuel as [|fuel IH]; intros fuel' X pos prods single h Hle; [left; reflexivity|].
    destruct fuel' as [|fuel']; [lia|]. simpl.
    apply inner_step_refines; [|lia]. intros. apply IH. lia.
  Qed.

  Lemma parse_refines (self : parser L T) tokens fuel fuel' :
    fuel <= fuel' ->
    refines (parse_from_tokens fuel self tokens) (parse_from_tokens fuel' self tokens).
  Proof.
    intros Hle. unfold parse_from_tokens. destruct tokens as [|tok tokens]; [apply refines_refl|].
    apply refines_bind; [now apply inner_refines|]. intros [r h]. apply refines_refl.
  Qed.

  Lemma parse_mono (self : parser L T) tokens fuel fuel' r :
    parse_from_tokens fuel self tokens = r -> r <> OutOfFuel -> fuel <= fuel' ->
    parse_from_tokens fuel' self tokens = r.
  Proof.
    intros H Hr Hle. destruct (@parse_refines self tokens fuel fuel' Hle); congruence.
  Qed.

  Lemma parse_agree (self : parser L T) tokens fuel fuel' r r' :
    parse_from_tokens fuel self tokens = r -> r <> OutOfFuel ->
    parse_from_tokens fuel' self tokens = r' -> r' <> OutOfFuel -> r = r'.
  Proof.
    intros H Hr H' Hr'.
    rewrite <- (@parse_mono self tokens fuel (fuel + fuel') r H Hr) by lia.
    apply (@parse_mono self tokens fuel' (fuel + fuel') r' H' Hr'). lia.
  Qed.

  (** ** from a parse to a run *)
  Lemma parse_run (self : parser L T) tokens fuel res h :
    parse_from_tokens fuel self tokens = Done (res, h) ->
    exists tok rest r, tokens = tok :: rest /\
      res = parse_symbol_result_to_parse_result r /\
      RSym self tokens (get_initial_symbol (pr_grammar self)) 0
        (inner_get_token_productions self (get_initial_symbol (pr_grammar self)) (tok_type tok))
        true [] r h.
  Proof.
    unfold parse_from_tokens. destruct tokens as [|tok rest]; [discriminate|]. intros H.
    apply bind_done in H as ([r h'] & H1 & H2). inversion H2; subst.
    exists tok, rest, r. repeat split. eapply rel_sound; eauto.
  Qed.

  Lemma run_parse (self : parser L T) tok rest r h :
    RSym self (tok :: rest) (get_initial_symbol (pr_grammar self)) 0
        (inner_get_token_productions self (get_initial_symbol (pr_grammar self)) (tok_type tok))
        true [] r h ->
    exists n, forall fuel, n <= fuel ->
      parse_from_tokens fuel self (tok :: rest) = Done (parse_symbol_result_to_parse_result r, h).
  Proof.
    intros H. apply rel_complete in H as [n Hn]. exists n. intros fuel Hf.
    unfold parse_from_tokens. rewrite Hn by lia. reflexivity.
  Qed.
End MonoTop.
