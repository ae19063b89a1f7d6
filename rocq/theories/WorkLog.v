(** * Counting calls does not change a parse without solver (proofs) *)

From Verif Require Import BaseFacts ParserRel.
From Verif Require Export WorkSpec.

Set Implicit Arguments.

(** [o'] gives what [o] gives, up to the log, when [o] gives something *)
Definition erefines {A H : Type} (o o' : outcome (A * H)) : Prop :=
  match o with
  | OutOfFuel => True
  | Done (a, _) => exists h, o' = Done (a, h)
  | Panicked p => o' = Panicked p
  end.

Lemma erefines_bind {A B H : Type} (o o' : outcome (A * H)) (f f' : A * H -> outcome (B * H)) :
  erefines o o' -> (forall a h h', erefines (f (a, h)) (f' (a, h'))) -> erefines (bind o f) (bind o' f').
Proof.
  destruct o as [[a h]|p|]; simpl; auto.
  - intros [h' ->] Hf. simpl. apply Hf.
  - intros -> _. reflexivity.
Qed.

(** [o] only adds to the log, ends within [B] and is [o'] when the log ends within [K] *)
Definition grows {L T A : Type} (B K : nat) (h : history L T) (o o' : outcome (A * history L T)) : Prop :=
  match o with
  | Done (_, h1) => length h <= length h1 /\ (length h <= B -> length h1 <= B) /\
                    (length h1 <= K -> o' = o)
  | _ => True
  end.

Lemma grows_bind {L T A C : Type} B K (h : history L T) (o o' : outcome (A * history L T))
      (f f' : A * history L T -> outcome (C * history L T)) :
  grows B K h o o' -> (forall a h1, grows B K h1 (f (a, h1)) (f' (a, h1))) ->
  grows B K h (bind o f) (bind o' f').
Proof.
  destruct o as [[a h1]|p|]; simpl; auto. intros (H1 & H2 & H3) Hf. specialize (Hf a h1).
  unfold grows in *. destruct (f (a, h1)) as [[c h2]|p|] eqn:Hfe; auto.
  destruct Hf as (H4 & H5 & H6). split; [lia|]. split; [auto|]. intros Hk.
  rewrite H3 by lia. simpl. auto.
Qed.

Lemma grows_done {L T A : Type} B K (h : history L T) (a : A) : grows B K h (Done (a, h)) (Done (a, h)).
Proof. simpl. auto. Qed.

Section Log.
  Context {L T : Type} {E : EqDec T}.
  Variable self : parser L T.
  Hypothesis Hns : pr_solver self = None.
  Variable tokens : list (token L T).
  Notation psr := (parse_symbol_result L T).

  Section Erase.
    Variables rec rec' : T -> nat -> list (list T) -> bool -> history L T -> outcome (psr * history L T).
    Hypothesis Hrec : forall X pos prods single h h',
      erefines (rec X pos prods single h) (rec' X pos prods single h').

    Lemma step_erase Y pos child h h' :
      erefines (inner_parse_from_tokens_production_symbol self tokens rec Y pos child h)
               (inner_parse_from_tokens_production_symbol self tokens rec' Y pos child h').
    Proof.
      unfold inner_parse_from_tokens_production_symbol, inner_parse_from_tokens_production_non_terminal.
      destruct (is_non_terminal _ _); [|simpl; eauto].
      destruct (nth_error tokens pos); [apply Hrec|reflexivity].
    Qed.

    Lemma pop_erase states : forall child failed h h',
      erefines (inner_parse_pop_states rec states child failed h)
               (inner_parse_pop_states rec' states child failed h').
    Proof.
      induction states as [|[ps|fs] states IH]; intros child failed h h'; simpl; eauto.
      destruct (ps_prod_iter_option ps); auto.
      apply erefines_bind; [apply Hrec|]. intros [ps'|e|f] h1 h1'; auto. simpl. eauto.
    Qed.

    Lemma prod_erase fuel : forall X out child states pos h h',
      erefines (inner_parse_from_tokens_production self tokens rec fuel X out child states pos h)
               (inner_parse_from_tokens_production self tokens rec' fuel X out child states pos h').
    Proof.
      induction fuel as [|fuel IH]; intros X out child states pos h h'; [exact I|]. simpl.
      destruct (length states <? length out).
      - destruct (nth_error out (length states)) as [Y|]; [|reflexivity]. simpl.
        apply erefines_bind; [apply step_erase|]. intros [ps|e|f] h1 h1'.
        + apply IH.
        + apply erefines_bind; [apply pop_erase|]. intros [states' [fstates|]] h2 h2'.
          * simpl. eauto.
          * destruct states'; [reflexivity|]. apply IH.
        + apply IH.
      - destruct (inner_parse_from_tokens_production_build_node _ _); simpl; eauto.
    Qed.

    Lemma try_erase fuel prods : forall X pos child failed h h',
      erefines (try_parse_productions_loop self tokens rec fuel X pos child prods failed h)
               (try_parse_productions_loop self tokens rec' fuel X pos child prods failed h').
    Proof.
      induction prods as [|out prods IH]; intros X pos child failed h h'; simpl; eauto.
      apply erefines_bind; [apply prod_erase|]. intros [[n|fp|fp] pos'] h1 h1'; auto; simpl; eauto.
    Qed.

    Lemma inner_step_erase fuel X pos prods single h h' :
      erefines (inner_parse_from_tokens_step self tokens rec fuel X pos prods single h)
               (inner_parse_from_tokens_step self tokens rec' fuel X pos prods single h').
    Proof.
      unfold inner_parse_from_tokens_step, inner_parse_from_tokens_try_parse_productions.
      apply erefines_bind; [apply try_erase|]. intros [r|failed] h1 h1'; [simpl; eauto|].
      unfold inner_parse_from_tokens_try_fix_productions. rewrite Hns. simpl. eauto.
    Qed.
  End Erase.

  Lemma within_erase B n : forall X pos prods single h h',
    erefines (inner_within B n self tokens X pos prods single h)
             (inner_parse_from_tokens n self tokens X pos prods single h').
  Proof.
    induction n as [|n IH]; intros X pos prods single h h'; [exact I|]. simpl.
    destruct (length h <? B); [|exact I]. now apply inner_step_erase.
  Qed.

  Section Grow.
    Variables B K : nat.
    Variables rec rec' : T -> nat -> list (list T) -> bool -> history L T -> outcome (psr * history L T).
    Hypothesis Hrec : forall X pos prods single h,
      grows B K h (rec X pos prods single h) (rec' X pos prods single h).

    Lemma step_grows Y pos child h :
      grows B K h (inner_parse_from_tokens_production_symbol self tokens rec Y pos child h)
               (inner_parse_from_tokens_production_symbol self tokens rec' Y pos child h).
    Proof.
      unfold inner_parse_from_tokens_production_symbol, inner_parse_from_tokens_production_non_terminal.
      destruct (is_non_terminal _ _); [|apply grows_done].
      destruct (nth_error tokens pos); [apply Hrec|exact I].
    Qed.

    Lemma pop_grows states : forall child failed h,
      grows B K h (inner_parse_pop_states rec states child failed h)
               (inner_parse_pop_states rec' states child failed h).
    Proof.
      induction states as [|[ps|fs] states IH]; intros child failed h; simpl; auto.
      destruct (ps_prod_iter_option ps); auto.
      apply grows_bind; [apply Hrec|]. intros [ps'|e|f] h1; auto. apply grows_done.
    Qed.

    Lemma prod_grows fuel : forall X out child states pos h,
      grows B K h (inner_parse_from_tokens_production self tokens rec fuel X out child states pos h)
               (inner_parse_from_tokens_production self tokens rec' fuel X out child states pos h).
    Proof.
      induction fuel as [|fuel IH]; intros X out child states pos h; [exact I|]. simpl.
      destruct (length states <? length out).
      - destruct (nth_error out (length states)) as [Y|]; [|exact I]. cbn [unwrap bind].
        apply grows_bind; [apply step_grows|]. intros [ps|e|f] h1.
        + apply IH.
        + apply grows_bind; [apply pop_grows|]. intros [states' [fstates|]] h2.
          * apply grows_done.
          * destruct states'; [exact I|]. apply IH.
        + apply IH.
      - destruct (inner_parse_from_tokens_production_build_node _ _); simpl; auto.
    Qed.

    Lemma try_grows fuel prods : forall X pos child failed h,
      grows B K h (try_parse_productions_loop self tokens rec fuel X pos child prods failed h)
               (try_parse_productions_loop self tokens rec' fuel X pos child prods failed h).
    Proof.
      induction prods as [|out prods IH]; intros X pos child failed h; simpl; auto.
      apply grows_bind; [apply prod_grows|]. intros [[n|fp|fp] pos'] h1; auto; apply grows_done.
    Qed.

    Lemma inner_step_grows fuel X pos prods single h :
      grows B K h (inner_parse_from_tokens_step self tokens rec fuel X pos prods single h)
               (inner_parse_from_tokens_step self tokens rec' fuel X pos prods single h).
    Proof.
      unfold inner_parse_from_tokens_step, inner_parse_from_tokens_try_parse_productions.
      apply grows_bind; [apply try_grows|]. intros [r|failed] h1; [apply grows_done|].
      unfold inner_parse_from_tokens_try_fix_productions. rewrite Hns. apply grows_done.
    Qed.
  End Grow.

  Lemma within_grows B K n : forall X pos prods single h,
    grows B K h (inner_within B n self tokens X pos prods single h)
             (inner_within K n self tokens X pos prods single h).
  Proof.
    induction n as [|n IH]; intros X pos prods single h; [exact I|]. simpl.
    destruct (Nat.ltb_spec (length h) B) as [Hb|Hb]; [|exact I].
    pose proof (@inner_step_grows B K _ _ IH n X pos prods single (h ++ [tick pos])) as Hg.
    unfold grows in *.
    destruct (inner_parse_from_tokens_step self tokens (inner_within B n self tokens) n X pos prods single
                (h ++ [tick pos])) as [[r h1]|p|]; auto.
    destruct Hg as (H1 & H2 & H3). rewrite app_length in *. simpl in *. split; [lia|]. split; [lia|].
    intros Hk. destruct (Nat.ltb_spec (length h) K) as [Hb'|Hb']; [auto|lia].
  Qed.

  Lemma within_refines B n : forall n' X pos prods single h, n <= n' ->
    refines (inner_within B n self tokens X pos prods single h)
            (inner_within B n' self tokens X pos prods single h).
  Proof.
    induction n as [|n IH]; intros n' X pos prods single h Hn; [left; reflexivity|].
    destruct n' as [|n']; [lia|]. simpl. destruct (length h <? B); [|left; reflexivity].
    apply inner_step_refines; [|lia]. intros. apply IH. lia.
  Qed.

  Lemma parse_within_refines B n n' : n <= n' ->
    refines (parse_within B n self tokens) (parse_within B n' self tokens).
  Proof.
    intros Hn. unfold parse_within. destruct tokens as [|tok rest] eqn:Ht; [apply refines_refl|].
    rewrite <- Ht. apply refines_bind; [now apply within_refines|]. intros [x h]. apply refines_refl.
  Qed.

  Lemma parse_within_terminates B n r : parse_within B n self tokens = r -> r <> OutOfFuel ->
    terminates_with (fun fuel => parse_within B fuel self tokens) r.
  Proof.
    intros H Hr. split; auto. exists n. intros fuel Hf.
    destruct (parse_within_refines B Hf) as [H'|H']; congruence.
  Qed.
End Log.
