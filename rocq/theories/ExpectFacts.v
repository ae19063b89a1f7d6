(** * Reports name expected symbols (proofs) *)

From Verif Require Import BaseFacts GrammarFacts DerivFacts.
From Verif Require Export ExpectSpec MoreFacts ParserContract.

Set Implicit Arguments.

Section Expect.
  Context {L T : Type} {E : EqDec T}.
  Variable eps init : T.
  Variable ps : list (production T).
  Variable tokens : list (token L T).
  Variable cands : T -> T -> list (list T).
  Hypothesis Hcands : forall A a out, In out (cands A a) ->
    exists p, In p ps /\ p_input p = A /\ p_output p = out.

  Notation none := (fun _ _ _ _ => False).
  Notation fixed := (fixed_for eps ps tokens cands none).
  Notation parts_for := (fixed_parts eps ps tokens cands none).
  Notation pprefix := (parsed_prefix eps ps tokens cands none).
  Notation freport := (failed_report eps ps tokens cands none).
  Notation flist := (failed_list eps ps tokens cands none).
  Notation fprod := (failed_production_report eps ps tokens cands none).
  Notation spath := (single_path eps init ps tokens cands none).
  Notation expected := (expected eps init ps tokens).
  Notation justified := (justified eps init ps tokens).
  Notation types := (map (@tok_type L T)).
  Notation real := (fun t => real_terminal eps ps (tok_type t)).

  Lemma nothing_fixed X p fs q : ~ fixed X p fs q.
  Proof. intros H. apply fixed_needs_answer in H as (? & ? & ? & ? & []). Qed.

  Lemma between_app p w q w' r : between tokens p w q -> between tokens q w' r -> between tokens p (w ++ w') r.
  Proof.
    intros [-> [v Hv]] [-> [v' Hv']]. split; [rewrite app_length; lia|]. exists v'.
    assert (Hs : skipn (p + length w) tokens = v).
    { rewrite skipn_add, Hv, skipn_app, skipn_all, Nat.sub_diag. reflexivity. }
    rewrite <- app_assoc, <- Hv', Hs. exact Hv.
  Qed.

  Lemma parts_forest Xs p parts q : parts_for Xs p parts q ->
    exists ns w, forest_for eps ps Xs ns w /\ between tokens p w q.
  Proof.
    revert p parts. induction Xs as [|X Xs IH]; intros p parts H; inversion H; subst.
    - exists [], []. split; [constructor|]. split; [simpl; lia|]. exists (skipn q tokens). reflexivity.
    - match goal with H' : fixed_parts _ _ _ _ _ Xs _ _ _ |- _ => destruct (IH _ _ H') as (ns & w' & Hf & Hb) end. exists (n :: ns), (w ++ w'). split; [now constructor|].
      eapply between_app; eauto.
    - match goal with H' : fixed_for _ _ _ _ _ _ _ _ _ |- _ => elim (nothing_fixed H') end.
  Qed.

  Lemma prefix_forest Xs p parsed q : pprefix Xs p parsed q ->
    exists ns w, forest_for eps ps Xs ns w /\ between tokens p w q.
  Proof.
    induction 1 as [p|X Xs n w p q parsed r HX Ht Hb _ (ns & w' & Hf & Hb')
                   |X Xs n w p q parsed r HX Ht Hb _ (ns & w' & Hf & Hb')|X Xs fs p q parsed r HX Hf].
    - exists [], []. split; [constructor|]. split; [simpl; lia|]. exists (skipn p tokens). reflexivity.
    - exists (n :: ns), (w ++ w'). split; [now constructor|]. eapply between_app; eauto.
    - exists (n :: ns), (w ++ w'). split; [now constructor|]. eapply between_app; eauto.
    - elim (nothing_fixed Hf).
  Qed.

  Lemma between_firstn p w q : p <= length tokens -> between tokens p w q ->
    q <= length tokens /\ firstn q tokens = firstn p tokens ++ w.
  Proof.
    intros Hp [-> [v Hv]].
    assert (Ht : tokens = firstn p tokens ++ w ++ v) by (rewrite <- Hv; symmetry; apply firstn_skipn).
    assert (Hl : length (firstn p tokens) = p) by (rewrite firstn_length; lia).
    split.
    - rewrite Ht, !app_length. lia.
    - rewrite Ht at 1. rewrite app_assoc.
      replace (p + length w) with (length (firstn p tokens ++ w)) by (rewrite app_length; lia).
      now rewrite firstn_app, firstn_all, Nat.sub_diag, firstn_O, app_nil_r.
  Qed.

  (** what comes inside a production of an expected symbol *)
  Lemma expected_inside X p u Y v ns w q : expected p X -> In (Production X (u ++ Y :: v)) ps ->
    forest_for eps ps u ns w -> between tokens p w q -> p <= q /\ expected q Y.
  Proof.
    intros (Hp & Hr & x & Hd) Hpr Hf Hb. destruct (between_firstn Hp Hb) as [Hq He]. destruct Hb as [-> _].
    split; [lia|]. split; auto. rewrite He. split.
    - apply Forall_app. split; auto. exact (proj2 (@tree_leaves_all L T eps ps) _ _ _ Hf).
    - exists (v ++ x). rewrite map_app, <- app_assoc. eapply derives_trans; [exact Hd|].
      apply derives_app; [apply derives_refl|]. change (X :: x) with ([X] ++ x).
      replace (types w ++ Y :: v ++ x) with ((types w ++ Y :: v) ++ x) by (rewrite <- app_assoc; reflexivity).
      apply derives_app; [|apply derives_refl].
      eapply derives_trans; [exact (derives_production eps _ _ Hpr)|]. simpl p_output.
      apply derives_app; [|apply derives_refl]. apply (proj2 (@tree_derives_all L T eps ps) _ _ _ Hf).
  Qed.

  (** ** what is expected can come *)
  Lemma fill v : forall u, all_productive eps ps init -> derives eps ps [init] (u ++ v) ->
    exists w, derives eps ps v w /\ Forall (real_terminal eps ps) w.
  Proof.
    induction v as [|Y v IH]; intros u Hall Hd; [exists []; split; [apply derives_refl|constructor]|].
    destruct (IH (u ++ [Y]) Hall) as (w & Hw & Hrw); [rewrite <- app_assoc; exact Hd|].
    assert (HY : exists w1, derives eps ps [Y] w1 /\ Forall (real_terminal eps ps) w1).
    { destruct (non_terminal_dec ps Y) as [HY|HY].
      - apply (Hall Y HY). exists u, v. exact Hd.
      - destruct (eq_dec Y eps) as [->|Hne].
        + exists []. split; [|constructor].
          eapply Relation_Operators.rt1n_trans; [apply (@derive1_epsilon _ eps ps [] [])|constructor].
        + exists [Y]. split; [apply derives_refl|]. constructor; [split; auto|constructor]. }
    destruct HY as (w1 & H1 & Hr1). exists (w1 ++ w). split.
    - apply (@derives_app _ eps ps [Y] w1 v w); auto.
    - apply Forall_app. auto.
  Qed.

  Lemma expected_right q Y : expected q Y -> all_productive eps ps init ->
    forall k, wrong_by eps init ps tokens k -> q < k.
  Proof.
    intros (Hq & Hr & v & Hd) Hall k Hk. destruct (Nat.lt_ge_cases q k) as [|Hge]; auto. exfalso. apply Hk.
    destruct (fill _ _ Hall Hd) as (w & Hw & Hrw).
    assert (Hs : firstn q tokens = firstn k tokens ++ skipn k (firstn q tokens)).
    { rewrite <- (firstn_skipn k (firstn q tokens)) at 1. f_equal. rewrite firstn_firstn. f_equal. lia. }
    exists (types (skipn k (firstn q tokens)) ++ w). rewrite app_assoc, <- map_app, <- Hs. split.
    - apply Forall_app. split; auto. apply Forall_map. exact Hr.
    - eapply derives_trans; [exact Hd|]. apply derives_app; [apply derives_refl|exact Hw].
  Qed.

  (** ** reports *)
  Lemma reports_justified :
    (forall Y q f, freport Y q f -> expected q Y -> failed_symbol_type f = Y /\
       forall g, mentions f g -> justified q g) /\
    (forall outs p fps, flist outs p fps -> forall X, (forall out, In out outs -> In (Production X out) ps) ->
       expected p X -> forall f parsed pending g, In (FailedProduction f parsed pending) fps -> mentions f g ->
       justified p g) /\
    (forall out p fp, fprod out p fp -> forall X, In (Production X out) ps -> expected p X ->
       forall f parsed pending g, fp = FailedProduction f parsed pending -> mentions f g -> justified p g).
  Proof.
    apply failed_m.
    - intros X p HX Hne Hm He. split; auto. intros g Hg. inversion Hg as [f|fps x f parsed pending g' Hin]; subst; [|destruct Hin].
      exists p. split; auto. split; auto. split; [intros _; auto|]. split; [intros; contradiction|].
      now apply expected_right with (Y := X).
    - intros X p tok fps HX Ht Hfl IH He. split; auto. intros g Hg. inversion Hg as [f|fps' x f parsed pending g' Hin Hg']; subst.
      + exists p. split; auto. split; auto. split; [intros; contradiction|].
        split; [intros _; apply nth_error_Some; congruence|]. now apply expected_right with (Y := X).
      + eapply (IH X); eauto. intros out Ho. apply Hcands in Ho as ([X' o] & Hp & Hi & Hx). simpl in *. now subst.
    - intros p X _ _ f parsed pending g [].
    - intros out outs p fp fps _ IH1 _ IH2 X Ho He f parsed pending g [->|Hin] Hg.
      + eapply (IH1 X); eauto. apply Ho. now left.
      + eapply (IH2 X); eauto. intros o Hi. apply Ho. now right.
    - intros u Y v p q parsed fs Hpp _ IH X Hp He f parsed' pending g Heq Hg. inversion Heq; subst f parsed' pending.
      destruct (prefix_forest Hpp) as (ns & w & Hf & Hb).
      destruct (expected_inside _ _ He Hp Hf Hb) as [Hle He'].
      destruct (IH He') as [_ H]. destruct (H g Hg) as (q' & Hq' & Hrest). exists q'. split; [lia|exact Hrest].
  Qed.

  Lemma path_expected X p outs : spath X p outs ->
    expected p X /\ exists tok before, nth_error tokens p = Some tok /\ cands X (tok_type tok) = before ++ outs.
  Proof.
    induction 1 as [tok Ht|X p u Y v parts q tok before outs _ [IH1 (tk & bf & Ht & Hc)] Hf HY Hn Hcy].
    - split; [|exists tok, []; auto]. split; [lia|]. split; [constructor|]. exists []. apply derives_refl.
    - split; [|eauto]. destruct (parts_forest Hf) as (ns & w & Hfo & Hb).
      assert (Hin : In (u ++ Y :: v) (cands X (tok_type tk))) by (rewrite Hc; apply in_or_app; right; now left).
      apply Hcands in Hin as ([X' o] & Hp & Hi & Ho). simpl in *. subst X' o.
      now apply (expected_inside _ _ IH1 Hp Hfo Hb).
  Qed.

  (** each report is one of an output tried *)
  Lemma listed outs p fps : flist outs p fps -> forall f parsed pending,
    In (FailedProduction f parsed pending) fps -> exists out, In out outs /\ In (failed_symbol_type f) out.
  Proof.
    induction 1 as [p|out outs p fp fps H _ IH]; intros f parsed pending; [intros []|].
    intros [->|Hin].
    - inversion H as [u Y v p' q parsed' fs Hpp Hr]; subst. eexists. split; [now left|].
      apply in_or_app. right. left. inversion Hr; reflexivity.
    - destruct (IH _ _ _ Hin) as (o & Ho & Hi). exists o. split; [now right|exact Hi].
  Qed.

  Lemma path_non_terminal X p outs : non_terminal ps init -> spath X p outs -> non_terminal ps X.
  Proof. intros H []; auto. Qed.
End Expect.
