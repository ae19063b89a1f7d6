(** * Conflict-free tables: Ok results do not depend on solver or trailing tokens (proofs) *)

From Verif Require Import BaseFacts.
From Verif Require Export ParserRel.

Set Implicit Arguments.

Section Frozen.
  Context {L T : Type}.

  Definition frozen_ps (st : parsing_state L T) : Prop :=
    ps_prod_iter_option st = None \/ ps_prod_iter_option st = Some [].
  Definition frozen (st : state L T) : Prop :=
    match st with StParsing ps => frozen_ps ps | StFixed _ => True end.

  Lemma fixed_build X states n : existsb (@is_fixed L T) states = true ->
    inner_parse_from_tokens_production_build_node X (rev states) <> Done (ProdOk n).
  Proof.
    intros H. unfold inner_parse_from_tokens_production_build_node.
    assert (H' : existsb (@is_fixed L T) (rev states) = true).
    { apply existsb_exists in H as (s & Hs & Hf). apply existsb_exists. exists s.
      split; auto. now apply in_rev in Hs. }
    rewrite H'. discriminate.
  Qed.

End Frozen.

Section Grow.
  Context {L T : Type} {E : EqDec T}.
  Variables self self' : parser L T.
  (** [self'] agrees with [self] on the symbols [self] can meet and on its non-empty cells *)
  Variable known : T -> Prop.
  Hypothesis Hknown : forall A a out, In out (inner_get_token_productions self A a) -> Forall known out.
  Hypothesis Hnt : forall X, known X ->
    is_non_terminal (pr_grammar self') X = is_non_terminal (pr_grammar self) X.
  Hypothesis Heps : get_epsilon_symbol (pr_grammar self') = get_epsilon_symbol (pr_grammar self).
  Hypothesis Hini : get_initial_symbol (pr_grammar self') = get_initial_symbol (pr_grammar self).
  Hypothesis Hcells : forall A a, inner_get_token_productions self A a <> [] ->
    inner_get_token_productions self' A a = inner_get_token_productions self A a.
  Hypothesis Hsize : forall A a, length (inner_get_token_productions self A a) <= 1.
  Variables tokens tokens' : list (token L T).
  Hypothesis Htok : forall pos tok, nth_error tokens pos = Some tok ->
                                    nth_error tokens' pos = Some tok.

  Let all_known (prods : list (list T)) : Prop := forall out, In out prods -> Forall known out.

  Lemma grow_all :
    (forall X pos prods single h r h', RSym self tokens X pos prods single h r h' ->
       length prods <= 1 -> all_known prods -> forall st, r = SymOk st ->
       prods <> [] /\ ps_prod_iter_option st = Some [] /\ h' = h /\
       forall single' h1, RSym self' tokens' X pos prods single' h1 (SymOk st) h1) /\
    (forall X pos child prods failed h r h', RTry self tokens X pos child prods failed h r h' ->
       length prods <= 1 -> all_known prods -> forall st, r = inl (SymOk st) ->
       prods <> [] /\ ps_prod_iter_option st = Some [] /\ h' = h /\
       forall child' failed' h1, RTry self' tokens' X pos child' prods failed' h1 (inl (SymOk st)) h1) /\
    (forall X out child states pos h pr pos' h',
       RProd self tokens X out child states pos h pr pos' h' ->
       Forall frozen states -> Forall known out -> forall n, pr = ProdOk n ->
       existsb (@is_fixed L T) states = false /\ h' = h /\
       forall child' h1, RProd self' tokens' X out child' states pos h1 (ProdOk n) pos' h1) /\
    (forall Y pos child h r h', RStep self tokens Y pos child h r h' ->
       known Y -> forall st, r = SymOk st ->
       frozen_ps st /\ h' = h /\
       forall child' h1, RStep self' tokens' Y pos child' h1 (SymOk st) h1) /\
    (forall states child failed h states' popped h',
       RPop self tokens states child failed h states' popped h' ->
       Forall frozen states -> popped <> None).
  Proof.
    apply run_mutind.
    - intros X pos prods single h r h' _ IH Hl Hk st ->.
      destruct (IH Hl Hk st eq_refl) as (H1 & H2 & H3 & H4). repeat (split; auto).
      intros. apply RSym_done. apply H4.
    - intros X pos prods single h failed h' fo h'' _ _ _ Hl Hk st Heq. destruct fo; discriminate.
    - intros. discriminate.
    - intros X pos child out rest failed h n pos' h' _ IH Hl Hk st Heq.
      inversion Heq; subst st. simpl in Hl. destruct rest; [|simpl in Hl; lia].
      destruct (IH (Forall_nil _) (Hk _ (or_introl eq_refl)) n eq_refl) as (_ & -> & H3).
      split; [discriminate|]. split; [reflexivity|]. split; [reflexivity|].
      intros. apply RTry_ok. apply H3.
    - intros X pos child out rest failed h fp pos' h' r h'' _ _ _ IH Hl Hk st ->.
      simpl in Hl. destruct rest; [|simpl in Hl; lia].
      destruct (IH ltac:(simpl; lia) (fun o Ho => Hk o (or_intror Ho)) st eq_refl) as (H & _). congruence.
    - intros. discriminate.
    - intros X out child states pos h pr Hlen Hb Hfr Hk n ->.
      destruct (existsb (@is_fixed L T) states) eqn:Hx.
      { exfalso. eapply fixed_build; eauto. }
      split; auto. split; auto. intros. now apply RProd_done.
    - intros X out child states pos h Y st h' pr pos' h'' HY _ IH1 _ IH2 Hfr Hk n ->.
      assert (HkY : known Y) by (eapply Forall_forall; [exact Hk|]; eapply nth_error_In; eauto).
      destruct (IH1 HkY _ eq_refl) as (Hf & -> & HS).
      destruct (IH2 (Forall_cons (StParsing st) Hf Hfr) Hk n eq_refl) as (Hx & -> & HP).
      simpl in Hx. split; auto. split; auto. intros.
      eapply RProd_ok; eauto.
    - intros X out child states pos h Y fs h' pr pos' h'' HY _ IH1 _ IH2 Hfr Hk n ->.
      destruct (IH2 (Forall_cons (StFixed fs) I Hfr) Hk n eq_refl) as (Hx & _). discriminate.
    - intros. discriminate.
    - intros X out child states pos h Y fs h' st states' h'' pr pos' h3 HY _ _ _ IH _ _ Hfr.
      exfalso. now apply (IH Hfr).
    - intros Y pos child h tok r h' HYn Hnth _ IH Hk st ->.
      destruct (IH (Hsize _ _) (Hknown _ _) st eq_refl) as (Hne & Hit & -> & HS).
      split; [now right|]. split; auto. intros. apply RStep_nt with (tok := tok).
      + now rewrite (Hnt Hk).
      + now apply Htok.
      + rewrite Hcells by exact Hne. apply HS.
    - intros Y pos child h HYn Hk st Heq.
      unfold inner_parse_terminal_symbol in Heq.
      assert (HN : is_non_terminal (pr_grammar self') Y = false) by now rewrite Hnt.
      assert (Hsame : inner_parse_terminal_symbol self' Y tokens' pos = SymOk st /\ frozen_ps st).
      { unfold inner_parse_terminal_symbol. rewrite Heps.
        destruct (eqb (get_epsilon_symbol (pr_grammar self)) Y).
        - inversion Heq. split; auto. now left.
        - unfold inner_parse_non_epsilon_terminal_symbol in *.
          destruct (nth_error tokens pos) as [tok|] eqn:Hn; [|discriminate].
          rewrite (Htok _ Hn). destruct (eqb Y (tok_type tok)); [|discriminate].
          inversion Heq. split; auto. now left. }
      destruct Hsame as [Hs Hf]. split; auto. split; auto. intros. rewrite <- Hs. now apply RStep_t.
    - intros; discriminate.
    - intros fs states child failed h states' popped h' _ IH Hfr. inversion Hfr; auto.
    - intros st states child failed h states' popped h' _ _ IH Hfr. inversion Hfr; auto.
    - intros st it states child failed h st' h' Hit _ IH Hfr. exfalso. apply Forall_inv in Hfr as Hf. simpl in Hf. destruct Hf as [Hf|Hf]; rewrite Hf in Hit; inversion Hit; subst it.
      destruct (IH ltac:(simpl; lia) ltac:(intros o []) st' eq_refl) as (H & _). congruence.
    - intros st it states child failed h r h' states' popped h'' _ _ _ _ _ IH Hfr. inversion Hfr; auto.
  Qed.

  Lemma grow_parse fuel root h :
    parse_from_tokens fuel self tokens = Done (ResultOk root, h) ->
    exists n, forall fuel', n <= fuel' -> parse_from_tokens fuel' self' tokens' = Done (ResultOk root, []).
  Proof.
    intros H. apply parse_run in H as (tok & rest & r & Ht & Hr & HR).
    destruct r as [st|?|?]; simpl in Hr; inversion Hr; subst root.
    destruct (proj1 grow_all _ _ _ _ _ _ _ HR (Hsize _ _) (Hknown _ _) st eq_refl) as (Hne & _ & _ & HS).
    specialize (HS true []). assert (Hn : nth_error tokens 0 = Some tok) by (rewrite Ht; reflexivity).
    apply Htok in Hn. clear Htok. destruct tokens' as [|tok' rest']; [discriminate|].
    simpl in Hn. inversion Hn; subst tok'.
    assert (HS' : RSym self' (tok :: rest') (get_initial_symbol (pr_grammar self')) 0
       (inner_get_token_productions self' (get_initial_symbol (pr_grammar self')) (tok_type tok))
       true [] (SymOk st) []) by (rewrite Hini, Hcells by exact Hne; exact HS).
    apply run_parse in HS' as [n Hn']. exists n. exact Hn'.
  Qed.
End Grow.

Section CF.
  Context {L T : Type} {E : EqDec T}.
  Variables self self' : parser L T.
  Hypothesis Hgr : pr_grammar self' = pr_grammar self.
  Hypothesis Hcells : forall A a, inner_get_token_productions self' A a =
                                  inner_get_token_productions self A a.
  Hypothesis Hsize : forall A a, length (inner_get_token_productions self A a) <= 1.
  Variables tokens tokens' : list (token L T).
  Hypothesis Htok : forall pos tok, nth_error tokens pos = Some tok ->
                                    nth_error tokens' pos = Some tok.

  Lemma cf_all :
    (forall X pos prods single h r h', RSym self tokens X pos prods single h r h' ->
       length prods <= 1 -> forall st, r = SymOk st ->
       prods <> [] /\ ps_prod_iter_option st = Some [] /\ h' = h /\
       forall single' h1, RSym self' tokens' X pos prods single' h1 (SymOk st) h1) /\
    (forall X pos child prods failed h r h', RTry self tokens X pos child prods failed h r h' ->
       length prods <= 1 -> forall st, r = inl (SymOk st) ->
       prods <> [] /\ ps_prod_iter_option st = Some [] /\ h' = h /\
       forall child' failed' h1, RTry self' tokens' X pos child' prods failed' h1 (inl (SymOk st)) h1) /\
    (forall X out child states pos h pr pos' h',
       RProd self tokens X out child states pos h pr pos' h' ->
       Forall frozen states -> forall n, pr = ProdOk n ->
       existsb (@is_fixed L T) states = false /\ h' = h /\
       forall child' h1, RProd self' tokens' X out child' states pos h1 (ProdOk n) pos' h1) /\
    (forall Y pos child h r h', RStep self tokens Y pos child h r h' ->
       forall st, r = SymOk st ->
       frozen_ps st /\ h' = h /\
       forall child' h1, RStep self' tokens' Y pos child' h1 (SymOk st) h1) /\
    (forall states child failed h states' popped h',
       RPop self tokens states child failed h states' popped h' ->
       Forall frozen states -> popped <> None).
  Proof.
    destruct (@grow_all L T E self self' (fun _ => True)) with (tokens := tokens) (tokens' := tokens')
      as (H1 & H2 & H3 & H4 & H5); auto;
      try (rewrite Hgr; reflexivity).
    { intros. apply Forall_forall. auto. }
    split; [|split; [|split; [|split]]].
    - intros. eapply H1; eauto. intros out _. apply Forall_forall. auto.
    - intros. eapply H2; eauto. intros out _. apply Forall_forall. auto.
    - intros. eapply H3; eauto. apply Forall_forall. auto.
    - intros. eapply H4; eauto.
    - exact H5.
  Qed.

  Lemma cf_parse fuel root h :
    parse_from_tokens fuel self tokens = Done (ResultOk root, h) ->
    exists n, forall fuel', n <= fuel' -> parse_from_tokens fuel' self' tokens' = Done (ResultOk root, []).
  Proof.
    intros H. apply (@grow_parse L T E self self' (fun _ => True)) with (tokens := tokens) (fuel := fuel) (h := h);
      auto; try (rewrite Hgr; reflexivity).
    intros. apply Forall_forall. auto.
  Qed.
End CF.
