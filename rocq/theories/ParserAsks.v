(** * A declining solver is asked at most once per recursive call (proofs) *)

From Verif Require Import BaseFacts ParserRel ResumeFacts.
From Verif Require Export WorkSpec.

Set Implicit Arguments.

(** [o] gives what [o'] gives, and its log grows by at most as much as that of [o'] *)
Definition lighter {L T A : Type} (h h' : history L T) (o o' : outcome (A * history L T)) : Prop :=
  match o' with
  | OutOfFuel => True
  | Done (a, h1') => exists h1, o = Done (a, h1) /\ length h1 + length h' <= length h1' + length h
  | Panicked p => o = Panicked p
  end.

Lemma lighter_bind {L T A B : Type} (h h' : history L T) (o o' : outcome (A * history L T))
      (f f' : A * history L T -> outcome (B * history L T)) :
  lighter h h' o o' -> (forall a h1 h1', lighter h1 h1' (f (a, h1)) (f' (a, h1'))) ->
  lighter h h' (bind o f) (bind o' f').
Proof.
  destruct o' as [[a h1']|p|]; simpl; auto.
  - intros (h1 & -> & Hl) Hf. simpl. specialize (Hf a h1 h1'). unfold lighter in *.
    destruct (f' (a, h1')) as [[b h2']|p|]; auto. destruct Hf as (h2 & -> & Hl2).
    exists h2. split; auto. lia.
  - intros -> _. reflexivity.
Qed.

Lemma lighter_done {L T A : Type} (h h' : history L T) (a : A) : lighter h h' (Done (a, h)) (Done (a, h')).
Proof. simpl. exists h. split; auto. lia. Qed.

Section Asks.
  Context {L T : Type} {E : EqDec T}.
  Variables self self' : parser L T.
  Hypothesis Hgr : pr_grammar self' = pr_grammar self.
  Hypothesis Htr : pr_transitions self' = pr_transitions self.
  Hypothesis Hns : pr_solver self' = None.
  Variable s : syntax_error_solver L T.
  Hypothesis Hsol : pr_solver self = Some s.
  Hypothesis Hdec : forall h c, s h c = Reply None.
  Variable tokens : list (token L T).
  Notation psr := (parse_symbol_result L T).

  Section Rec.
    Variables rec rec' : T -> nat -> list (list T) -> bool -> history L T -> outcome (psr * history L T).
    Hypothesis Hrec : forall X pos prods single h h',
      lighter h h' (rec X pos prods single h) (rec' X pos prods single h').

    Lemma step_lighter Y pos child h h' :
      lighter h h' (inner_parse_from_tokens_production_symbol self tokens rec Y pos child h)
                   (inner_parse_from_tokens_production_symbol self' tokens rec' Y pos child h').
    Proof.
      unfold inner_parse_from_tokens_production_symbol, inner_parse_from_tokens_production_non_terminal,
        inner_get_token_productions, inner_parse_terminal_symbol. rewrite Hgr, Htr.
      destruct (is_non_terminal _ _); [|apply lighter_done].
      destruct (nth_error tokens pos); [apply Hrec|reflexivity].
    Qed.

    Lemma pop_lighter states : forall child failed h h',
      lighter h h' (inner_parse_pop_states rec states child failed h)
                   (inner_parse_pop_states rec' states child failed h').
    Proof.
      induction states as [|[ps|fs] states IH]; intros child failed h h'; simpl; auto.
      - exists h. split; auto. lia.
      - destruct (ps_prod_iter_option ps); auto.
        apply lighter_bind; [apply Hrec|]. intros [ps'|e|f] h1 h1'; auto. apply lighter_done.
    Qed.

    Lemma prod_lighter fuel : forall X out child states pos h h',
      lighter h h' (inner_parse_from_tokens_production self tokens rec fuel X out child states pos h)
                   (inner_parse_from_tokens_production self' tokens rec' fuel X out child states pos h').
    Proof.
      induction fuel as [|fuel IH]; intros X out child states pos h h'; [exact I|]. simpl.
      destruct (length states <? length out).
      - destruct (nth_error out (length states)) as [Y|]; [|reflexivity]. cbn [unwrap bind].
        apply lighter_bind; [apply step_lighter|]. intros [ps|e|f] h1 h1'.
        + apply IH.
        + apply lighter_bind; [apply pop_lighter|]. intros [states' [fstates|]] h2 h2'.
          * apply lighter_done.
          * destruct states'; [reflexivity|]. apply IH.
        + apply IH.
      - destruct (inner_parse_from_tokens_production_build_node _ _); simpl; auto.
        exists h. split; auto. lia.
    Qed.

    Lemma try_lighter fuel prods : forall X pos child failed h h',
      lighter h h' (try_parse_productions_loop self tokens rec fuel X pos child prods failed h)
                   (try_parse_productions_loop self' tokens rec' fuel X pos child prods failed h').
    Proof.
      induction prods as [|out prods IH]; intros X pos child failed h h'; [apply lighter_done|].
      cbn [try_parse_productions_loop].
      apply lighter_bind; [apply prod_lighter|]. intros [[n|fp|fp] pos'] h1 h1'; auto; apply lighter_done.
    Qed.

    Lemma try_length (sf : parser L T) r fuel prods : forall X pos child failed h all h1,
      try_parse_productions_loop sf tokens r fuel X pos child prods failed h = Done (inr all, h1) ->
      length all = length failed + length prods.
    Proof.
      induction prods as [|out prods IH]; intros X pos child failed h all h1 H; cbn [try_parse_productions_loop] in H.
      - inversion H; subst. simpl. lia.
      - apply bind_done in H as ([[[n|fp|fp] pos'] h2] & _ & H); try discriminate.
        apply IH in H. rewrite H, app_length. simpl. lia.
    Qed.

    (** one more call than the log says *)
    Lemma inner_step_lighter fuel X pos prods single h h' x :
      lighter h h' (inner_parse_from_tokens_step self tokens rec fuel X pos prods single h)
                   (inner_parse_from_tokens_step self' tokens rec' fuel X pos prods single (h' ++ [x])).
    Proof.
      unfold inner_parse_from_tokens_step, inner_parse_from_tokens_try_parse_productions.
      pose proof (try_lighter fuel prods X pos (is_child_single_path single prods) [] h (h' ++ [x])) as Ht.
      unfold lighter at 1 in Ht.
      destruct (try_parse_productions_loop self' tokens rec' fuel X pos (is_child_single_path single prods) prods [] (h' ++ [x]))
        as [[[r|failed] h1']|p|] eqn:Htry; cbn [bind].
      - destruct Ht as (h1 & -> & Hl). cbn [bind]. rewrite app_length in Hl. simpl in *.
        exists h1. split; auto. lia.
      - apply try_length in Htry. destruct Ht as (h1 & -> & Hl). cbn [bind].
        rewrite app_length in Hl. simpl in Hl.
        unfold inner_parse_from_tokens_try_fix_productions. rewrite Hns, Hsol. cbn [bind].
        destruct single; [|simpl; exists h1; split; auto; lia].
        destruct (is_child_single_path true prods) eqn:Hc.
        + destruct failed as [|f failed].
          * unfold is_child_single_path in Hc. apply Nat.eqb_eq in Hc. simpl in Htry. lia.
          * rewrite Hdec. simpl. eexists. split; [reflexivity|]. rewrite app_length. simpl. lia.
        + rewrite Hdec. simpl. eexists. split; [reflexivity|]. rewrite app_length. simpl. lia.
      - rewrite Ht. reflexivity.
      - exact I.
    Qed.
  End Rec.

  Lemma inner_lighter B n : forall X pos prods single h h',
    lighter h h' (inner_parse_from_tokens n self tokens X pos prods single h)
                 (inner_within B n self' tokens X pos prods single h').
  Proof.
    induction n as [|n IH]; intros X pos prods single h h'; [exact I|]. simpl.
    destruct (length h' <? B); [|exact I]. now apply inner_step_lighter.
  Qed.
End Asks.

(** a solver whose replies during a run were all [None] might as well decline always *)
Lemma run_declined {L T A : Type} (p p' : syntax_error_solver L T) (m : comp L T A) : forall h a h',
  (forall h c, p' h c = Reply None) -> run p m h = Done (a, h') ->
  (forall h1 c h2, h' = h ++ h1 ++ c :: h2 -> p (h ++ h1) c = Reply None) ->
  run p' m h = Done (a, h').
Proof.
  induction m as [o|c k IH]; intros h a h' Hp' H Hd; cbn in *; [exact H|].
  rewrite Hp'. assert (Hc : p h c = Reply None).
  { destruct (p h c) as [b| |] eqn:Hb; try discriminate.
    destruct (run_extends _ _ _ H) as [more ->]. rewrite <- Hb.
    specialize (Hd [] c more). rewrite app_nil_r in Hd. apply Hd. now rewrite <- app_assoc. }
  rewrite Hc in H. apply IH; auto. intros h1 c' h2 ->.
  specialize (Hd (c :: h1) c' h2). rewrite <- !app_assoc in *. apply Hd. reflexivity.
Qed.
