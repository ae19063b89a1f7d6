(** * Termination with solvers that stall finitely often (proofs) *)

From Verif Require Import BaseFacts GrammarFacts DerivFacts.
From Verif Require Export ParserTerm StallSpec.

Set Implicit Arguments.

Section Stall.
  Context {L T : Type}.
  Variable s : syntax_error_solver L T.

  Definition stalledb (h : list (solver_call L T)) (c : solver_call L T) : bool :=
    match s h c with
    | Reply (Some fr) => fr_final_token_position fr <=? call_position c
    | _ => false
    end.

  Lemma stalledb_spec h c : stalledb h c = true <-> stalled s h c.
  Proof.
    unfold stalledb, stalled. split.
    - destruct (s h c) as [[fr|]| |]; try discriminate. intros H. exists fr. split; auto. now apply Nat.leb_le.
    - intros (fr & -> & H). now apply Nat.leb_le.
  Qed.

  (** stalled answers among [rest], asked after [before] *)
  Fixpoint stalls_from (before rest : list (solver_call L T)) : nat :=
    match rest with
    | [] => 0
    | c :: rest => (if stalledb before c then 1 else 0) + stalls_from (before ++ [c]) rest
    end.

  Lemma stalls_from_app rest1 : forall before rest2,
    stalls_from before (rest1 ++ rest2) = stalls_from before rest1 + stalls_from (before ++ rest1) rest2.
  Proof.
    induction rest1 as [|c rest1 IH]; intros before rest2; simpl; [now rewrite app_nil_r|].
    rewrite IH, <- app_assoc. simpl. lia.
  Qed.

  Lemma stalls_from_pos rest : forall before, 0 < stalls_from before rest ->
    exists k c k', rest = k ++ c :: k' /\ stalled s (before ++ k) c.
  Proof.
    induction rest as [|c rest IH]; intros before H; simpl in H; [lia|].
    destruct (stalledb before c) eqn:Hc.
    - exists [], c, rest. split; auto. rewrite app_nil_r. now apply stalledb_spec.
    - destruct (IH (before ++ [c]) H) as (k & c' & k' & -> & Hs).
      exists (c :: k), c', k'. split; auto. now rewrite <- app_assoc in Hs.
  Qed.

  Variable tokens : list (token L T).
  Hypothesis Hwf : well_founded (stalls_again tokens s).

  Lemma stall_count_wf :
    well_founded (fun h' h => ext tokens h h' /\ stalls_from [] h < stalls_from [] h').
  Proof.
    intros h. induction (Hwf h) as [h _ IH]. constructor. intros h' [(k & -> & Hk) Hlt].
    rewrite stalls_from_app in Hlt. simpl in Hlt.
    destruct (@stalls_from_pos k h ltac:(lia)) as (k1 & c & k2 & -> & Hs).
    assert (Hkc : Forall (own_call tokens) (k1 ++ [c])).
    { apply Forall_app. apply Forall_app in Hk as [H1 H2]. split; auto. inversion H2; auto. }
    assert (Hacc : Acc (fun h' h => ext tokens h h' /\ stalls_from [] h < stalls_from [] h') (h ++ k1 ++ [c])).
    { apply IH. exists k1, c. auto. }
    constructor. intros h2 [(k3 & -> & Hk3) Hlt2]. destruct Hacc as [Hacc]. apply Hacc.
    replace (h ++ k1 ++ c :: k2) with ((h ++ k1 ++ [c]) ++ k2) in * by (now rewrite <- !app_assoc).
    split.
    - exists (k2 ++ k3). split; [now rewrite !app_assoc|]. apply Forall_app. split; auto.
      apply Forall_app in Hk as [_ H2]. inversion H2; auto.
    - rewrite (stalls_from_app (h ++ k1 ++ [c]) [] k2) in Hlt2. lia.
  Qed.
End Stall.

Lemma parse_term_stall {L T : Type} {E : EqDec T} (eps init : T) ps (self : parser L T) tokens :
  parser_of eps init ps self -> finitely_stalling tokens (pr_solver self) -> no_left_recursion_from eps ps init ->
  exists n, parse_from_tokens n self tokens <> OutOfFuel.
Proof.
  intros P Hf Hno. destruct (pr_solver self) as [s|] eqn:Hs.
  - destruct (Hf s eq_refl) as [Hr Hwf].
    apply (@parse_term L T E eps init ps self P tokens (stalls_from s [])).
    + intros s' h c Hs'. rewrite Hs in Hs'. inversion Hs'; subst. apply Hr.
    + intros h c. rewrite stalls_from_app. lia.
    + intros s' h c fr Hs' Hr' Hle. rewrite Hs in Hs'. inversion Hs'; subst s'.
      rewrite stalls_from_app. simpl. unfold stalledb. rewrite Hr'.
      replace (fr_final_token_position fr <=? call_position c) with true by (symmetry; now apply Nat.leb_le).
      lia.
    + now apply stall_count_wf.
    + exact Hno.
  - apply (@parse_term_progress L T E eps init ps self tokens P); auto.
    intros s h c H. rewrite Hs in H. discriminate.
Qed.

(** solvers that always advance never stall *)
Lemma progressing_finitely_stalling {L T : Type} (tokens : list (token L T)) solver :
  progressing solver -> finitely_stalling tokens solver.
Proof.
  intros H s Hs. split; [intros h c; exact (proj1 (H s h c Hs))|].
  intros h. constructor. intros h' (k & c & _ & _ & fr & Hr & Hle).
  pose proof (proj2 (H s (h ++ k) c Hs) fr Hr). lia.
Qed.

(** so do solvers that stall at most [N] times *)
Lemma bounded_finitely_stalling {L T : Type} (tokens : list (token L T)) s N :
  (forall h c, s h c <> ReplyNever) -> (forall h, stalls_from s [] h <= N) ->
  finitely_stalling tokens (Some s).
Proof.
  intros Hr HN s' Hs. inversion Hs; subst s'. split; auto.
  apply well_founded_lt_compat with (f := fun h => N - stalls_from s [] h).
  intros h' h (k & c & -> & _ & Hst). apply stalledb_spec in Hst.
  pose proof (HN (h ++ k ++ [c])) as Hb. rewrite app_assoc in *. rewrite stalls_from_app in *.
  rewrite (stalls_from_app s h) in *. simpl in *. rewrite Hst in *. lia.
Qed.
