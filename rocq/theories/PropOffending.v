(** * Nothing after the first offending token matters: C98 *)

From Verif Require Import BaseFacts GrammarFacts DerivFacts ParserSound ParserComplete.
From Verif Require Import FollowSpec ProductiveSpec CutFacts CoverFacts PrefixSpec ChoiceSpec RecoverSpec ParserRecover
  Examples ExampleTools MoreFacts PropParse PropReports PropPrefix PropRecover PropCut ExpectFacts
  GuidedSpec ParserGuided PropGuided SuppliedSpec PropEnd.

Set Implicit Arguments.

Section Transfer.
  Context {L T : Type} {E : EqDec T}.
  Variable eps init : T.
  Variable ps : list (production T).
  Variable tokens tokens' : list (token L T).
  Variable cands : T -> T -> list (list T).
  Hypothesis declared : forall A a out, In out (cands A a) -> exists p, In p ps /\ p_input p = A /\ p_output p = out.

  Notation types := (map (@tok_type L T)).
  Notation real := (fun t : token L T => tok_type t <> eps /\ ~ non_terminal ps (tok_type t)).

  (** the tokens before [p] are read and [form] is expected *)
  Definition expecting (p : nat) (form : list T) : Prop :=
    p <= length tokens /\ Forall real (firstn p tokens) /\
    derives eps ps [init] (types (firstn p tokens) ++ form).

  Hypothesis same : forall p X form, expecting p (X :: form) -> nth_error tokens' p = nth_error tokens p.

  Definition outputs_of (X : T) (outs : list (list T)) : Prop :=
    forall out, In out outs -> exists p, In p ps /\ p_input p = X /\ p_output p = out.

  Lemma firstn_next (l : list (token L T)) p t : nth_error l p = Some t -> firstn (p + 1) l = firstn p l ++ [t].
  Proof.
    revert p. induction l as [|x l IH]; intros p H; [destruct p; discriminate|].
    destruct p; simpl in *; [now inversion H|]. f_equal. auto.
  Qed.

  Lemma firstn_more (l : list (token L T)) p w v : skipn p l = w ++ v -> firstn (p + length w) l = firstn p l ++ w.
  Proof.
    intros H. destruct (Nat.le_gt_cases p (length l)) as [Hp|Hp].
    - rewrite <- (firstn_skipn p l) at 1. rewrite H, firstn_app, firstn_length, Nat.min_l by lia.
      replace (p + length w - p) with (length w) by lia.
      rewrite firstn_all2 by (rewrite firstn_length; lia). f_equal.
      rewrite firstn_app, Nat.sub_diag, firstn_all. apply app_nil_r.
    - rewrite skipn_all2 in H by lia. symmetry in H. apply app_eq_nil in H as [-> _]. simpl.
      now rewrite Nat.add_0_r, app_nil_r.
  Qed.

  Lemma expecting_out p X v out : expecting p (X :: v) ->
    (exists q, In q ps /\ p_input q = X /\ p_output q = out) -> expecting p (out ++ v).
  Proof.
    intros (H1 & H2 & H3) (q & Hq & <- & <-). split; auto. split; auto. now apply inside.
  Qed.

  Lemma expecting_after single X p outs h n q left h' v :
    derive eps ps tokens cands None single X p outs h (DTree n q left) h' -> outputs_of X outs ->
    expecting p (X :: v) -> expecting q v /\ outputs_of X left.
  Proof.
    intros Hd Ho (H1 & H2 & H3).
    destruct (proj1 (derived_guided eps ps tokens cands None) _ _ _ _ _ _ _ Hd _ _ _ eq_refl)
      as (Hl & out & ns & Hin & -> & Hf).
    destruct (proj2 (@guided_trees _ _ eps ps tokens cands declared) _ _ _ _ Hf) as (w & v' & Hw & -> & Hs).
    split; [|intros out' Hi; apply Ho, Hl; exact Hi].
    assert (Hlen : length (skipn p tokens) = length w + length v') by (rewrite Hs; apply app_length).
    rewrite skipn_length in Hlen.
    unfold expecting. rewrite (firstn_more _ _ _ _ Hs). split; [lia|]. split.
    - apply Forall_app. split; auto. exact (proj2 (@tree_leaves_all L T eps ps) _ _ _ Hw).
    - eapply derives_trans; [exact H3|]. rewrite map_app, <- app_assoc. apply derives_app; [apply derives_refl|].
      apply (@derives_app _ eps ps [X] (types w)); [|apply derives_refl].
      destruct (Ho _ Hin) as (pr & Hp & <- & <-). eapply derives_trans; [now apply derives_production|].
      apply (proj2 (@tree_derives_all L T eps ps) _ _ _ Hw).
  Qed.

  Definition ok_parts (r : parsed L T) : Prop := forall parts q, r = PParts parts q -> trees parts <> None.

  Lemma ok_parts_leaf n r : ok_parts r -> ok_parts (after_leaf n r).
  Proof.
    intros H parts q Heq. destruct r as [parts' q'|]; [|discriminate]. inversion Heq; subst. simpl.
    specialize (H _ _ eq_refl). destruct (trees parts'); congruence.
  Qed.

  Lemma transfer :
    (forall single X p outs h r h', derive eps ps tokens cands None single X p outs h r h' ->
       forall v, expecting p (X :: v) -> outputs_of X outs ->
         derive eps ps tokens' cands None single X p outs h r h' /\ forall fs q, r <> DFixed fs q) /\
    (forall single X p outs fps h r h', attempt eps ps tokens cands None single X p outs fps h r h' ->
       forall v, expecting p (X :: v) -> outputs_of X outs ->
         attempt eps ps tokens' cands None single X p outs fps h r h' /\ forall fs q, r <> inl (DFixed fs q)) /\
    (forall single Xs p h r h', RecoverSpec.parse eps ps tokens cands None single Xs p h r h' ->
       forall v, expecting p (Xs ++ v) ->
         RecoverSpec.parse eps ps tokens' cands None single Xs p h r h' /\ ok_parts r) /\
    (forall single X p outs Xs h r h', RecoverSpec.branch eps ps tokens cands None single X p outs Xs h r h' ->
       forall v, expecting p (X :: Xs ++ v) -> outputs_of X outs ->
         RecoverSpec.branch eps ps tokens' cands None single X p outs Xs h r h' /\ ok_parts r) /\
    (forall single X p outs Xs f before h r h', retry eps ps tokens cands None single X p outs Xs f before h r h' ->
       forall v, expecting p (X :: Xs ++ v) -> outputs_of X outs ->
         retry eps ps tokens' cands None single X p outs Xs f before h r h' /\ ok_parts r).
  Proof.
    apply recover_mutind.
    - intros single X p outs h r h' _ IH v He Ho. destruct (IH v He Ho) as [H1 H2].
      split; [now apply derive_done|]. intros fs q ->. apply (H2 fs q eq_refl).
    - intros single X p outs h fps h' _ IH Hs v He Ho. destruct (IH v He Ho) as [H1 H2].
      split; [now apply derive_failed|discriminate].
    - intros; discriminate.
    - intros; discriminate.
    - intros single X p fps h v _ _. split; [constructor|discriminate].
    - intros single X p out outs fps h parts q h' _ IH v He Ho.
      destruct (IH v (expecting_out He (Ho _ (or_introl eq_refl)))) as [H1 H2]. split; [now constructor|].
      intros fs q' Heq. unfold built in Heq. specialize (H2 _ _ eq_refl). destruct (trees parts); [discriminate|contradiction].
    - intros single X p out outs fps h f before h' r h'' _ IH1 _ IH2 v He Ho.
      destruct (IH1 v (expecting_out He (Ho _ (or_introl eq_refl)))) as [H1 _].
      destruct (IH2 v He (fun out' H => Ho out' (or_intror H))) as [H2 H3].
      split; [eapply attempt_next; eauto|exact H3].
    - intros single p h v He. split; [constructor|]. intros parts q Heq. inversion Heq; subst. discriminate.
    - intros single Xs p h r h' _ IH v (H1 & H2 & H3).
      assert (He : expecting p (Xs ++ v)).
      { split; auto. split; auto. eapply derives_trans; [exact H3|].
        apply derives_app; [apply derives_refl|]. apply derives_step, (derive1_epsilon eps ps [] (Xs ++ v)). }
      destruct (IH v He) as [G1 G2]. split; [now apply parse_epsilon|now apply ok_parts_leaf].
    - intros single Xs p tok h r h' Hn Hne Hnth _ IH v He. pose proof He as (H1 & H2 & H3).
      assert (Hlt : p < length tokens) by (apply nth_error_Some; congruence).
      assert (He' : expecting (p + 1) (Xs ++ v)).
      { unfold expecting. rewrite (firstn_next _ _ Hnth). split; [lia|]. split.
        - apply Forall_app. auto.
        - rewrite map_app, <- app_assoc. exact H3. }
      destruct (IH v He') as [G1 G2]. split; [|now apply ok_parts_leaf].
      apply parse_token; auto. rewrite <- Hnth. eapply same; eauto.
    - intros single X Xs p h Hn Hne Hm v He. split; [|intros parts q Heq; discriminate].
      apply parse_mismatch; auto. intros tok. rewrite (same He). auto.
    - intros single X Xs p tok h r h' HX Hnth _ IH v He.
      destruct (IH v He (fun out H => declared _ _ _ H)) as [G1 G2]. split; auto.
      eapply parse_non_terminal; eauto. rewrite <- Hnth. eapply same; eauto.
    - intros single X p outs Xs h f h' _ IH v He Ho. destruct (IH _ He Ho) as [G1 _].
      split; [now apply RecoverSpec.branch_failed|intros parts q Heq; discriminate].
    - intros single X p outs Xs h fs q h' r h'' _ IHd _ _ v He Ho. destruct (IHd (Xs ++ v) He Ho) as [_ G2].
      elim (G2 fs q eq_refl).
    - intros single X p outs Xs h n q left h' parts q' h'' Hd IHd _ IHp v He Ho. destruct (IHd (Xs ++ v) He Ho) as [G1 _].
      destruct (expecting_after Hd Ho He) as [He' _]. destruct (IHp v He') as [G2 G3].
      split; [eapply RecoverSpec.branch_tree; eauto|]. exact (ok_parts_leaf n G3).
    - intros single X p outs Xs h n q left h' f before h'' r h''' Hd IHd _ IHp _ IHr v He Ho.
      destruct (IHd (Xs ++ v) He Ho) as [G1 _]. destruct (expecting_after Hd Ho He) as [He' Ho'].
      destruct (IHp v He') as [G2 _]. destruct (IHr v He Ho') as [G3 G4].
      split; [eapply RecoverSpec.branch_retry; eauto|exact G4].
    - intros single X p outs Xs f before h r h' _ IHd Hr v He Ho. destruct (IHd (Xs ++ v) He Ho) as [G1 _].
      split; [eapply RecoverSpec.retry_failed; eauto|intros parts q Heq; discriminate].
    - intros single X p outs Xs f before h n q left h' parts q' h'' Hd IHd _ IHp v He Ho. destruct (IHd (Xs ++ v) He Ho) as [G1 _].
      destruct (expecting_after Hd Ho He) as [He' _]. destruct (IHp v He') as [G2 G3].
      split; [eapply RecoverSpec.retry_tree; eauto|]. exact (ok_parts_leaf n G3).
    - intros single X p outs Xs f before h n q left h' f' before' h'' r h''' Hd IHd _ IHp _ IHr v He Ho.
      destruct (IHd (Xs ++ v) He Ho) as [G1 _]. destruct (expecting_after Hd Ho He) as [He' Ho'].
      destruct (IHp v He') as [G2 _]. destruct (IHr v He Ho') as [G3 G4].
      split; [eapply RecoverSpec.retry_again; eauto|exact G4].
  Qed.
End Transfer.

Lemma viable_shorter {T : Type} (eps : T) ps init u v :
  viable_prefix eps ps init (u ++ v) -> viable_prefix eps ps init u.
Proof. intros [w H]. exists (v ++ w). now rewrite app_assoc. Qed.

Lemma expecting_viable {L T : Type} {E : EqDec T} (eps init : T) ps (tokens : list (token L T)) p form :
  all_productive eps ps init -> expecting eps init ps tokens p form ->
  viable_prefix eps ps init (map (@tok_type L T) (firstn p tokens)).
Proof.
  intros Hall (_ & Hr & Hd). destruct (fill _ _ Hall Hd) as (w & Hw & Hrw). exists w. split.
  - apply Forall_app. split; auto. clear - Hr. induction Hr; simpl; constructor; auto.
  - eapply derives_trans; [exact Hd|]. apply derives_app; [apply derives_refl|exact Hw].
Qed.

Lemma offending_position {L T : Type} (eps init : T) ps (u : list (token L T)) t rest p :
  ~ viable_prefix eps ps init (map (@tok_type L T) (u ++ [t])) ->
  viable_prefix eps ps init (map (@tok_type L T) (firstn p (u ++ t :: rest))) -> p <= length u.
Proof.
  intros Hno Hv. destruct (Nat.le_gt_cases p (length u)) as [H|H]; auto. exfalso. apply Hno.
  replace (u ++ t :: rest) with ((u ++ [t]) ++ rest) in Hv by now rewrite <- app_assoc.
  rewrite firstn_app, firstn_all2 in Hv by (rewrite app_length; simpl; lia).
  rewrite map_app in Hv. eapply viable_shorter; eauto.
Qed.

(** What comes after a token with which no sentence goes on has no influence on the outcome *)
Theorem C98_nothing_after_the_offending_token :
  forall (L T : Type) (E : EqDec T) (eps init : T) (ps : list (production T))
         (self : parser L T) (u : list (token L T)) (t : token L T) (rest rest' : list (token L T)),
    constructed_parser eps init ps None self -> all_productive eps ps init ->
    ~ viable_prefix eps ps init (map (@tok_type L T) (u ++ [t])) ->
    forall r, terminates_with (fun fuel => parse_from_tokens fuel self (u ++ t :: rest)) r <->
              terminates_with (fun fuel => parse_from_tokens fuel self (u ++ t :: rest')) r.
Proof.
  intros L T E eps init ps self u t rest rest' B Hall Hno.
  enough (one : forall rest rest' r, terminates_with (fun fuel => parse_from_tokens fuel self (u ++ t :: rest)) r ->
            terminates_with (fun fuel => parse_from_tokens fuel self (u ++ t :: rest')) r) by (intros r; split; apply one).
  clear rest rest'. intros rest rest' r H.
  assert (Hhd : exists tok more more', u ++ t :: rest = tok :: more /\ u ++ t :: rest' = tok :: more')
    by (destruct u; simpl; eauto).
  destruct Hhd as (tok & more & more' & H1 & H2).
  destruct r as [[res h]|q|].
  - rewrite H1 in H. apply (C59_exact_semantics tok more _ _ B) in H as (d & Hd & ->).
    rewrite H2. apply (C59_exact_semantics tok more' _ _ B). exists d. split; auto.
    assert (Hsame : forall p X form, expecting eps init ps (tok :: more) p (X :: form) ->
              nth_error (tok :: more') p = nth_error (tok :: more) p).
    { intros p X form He. pose proof (expecting_viable Hall He) as Hv. rewrite <- H1 in Hv |- *. rewrite <- H2.
      apply offending_position in Hv; auto.
      replace (u ++ t :: rest) with ((u ++ [t]) ++ rest) by now rewrite <- app_assoc.
      replace (u ++ t :: rest') with ((u ++ [t]) ++ rest') by now rewrite <- app_assoc.
      assert (Hp : p < length (u ++ [t])) by (rewrite app_length; simpl; lia).
      rewrite !(nth_error_app1 (u ++ [t])) by exact Hp. reflexivity. }
    refine (proj1 (proj1 (@transfer L T eps init ps (tok :: more) (tok :: more') (candidates self)
      (candidates_declared (constructed_built B)) Hsame) _ _ _ _ _ _ _ Hd [] _ _)).
    + split; [simpl; lia|]. split; [constructor|apply derives_refl].
    + intros out Hin. exact (candidates_declared (constructed_built B) _ _ _ Hin).
  - exfalso. pose proof H as H'. rewrite H1 in H'.
    destruct (C24_ordered_choice tok more B) as (_ & _ & _ & C4).
    destruct (C4 _ H') as [[root Hr]|[[f Hr]|Hr]]; try discriminate. inversion Hr; subst q.
    destruct H as [_ [fuel H]].
    destruct (C48_out_of_range_is_truncated _ _ B (fun s h c fr Hs => ltac:(discriminate Hs)) (H fuel (le_n _)))
      as (Hreal & (A & v & HA & Hd) & _).
    apply Hno. replace (u ++ t :: rest) with ((u ++ [t]) ++ rest) in Hreal, Hd by now rewrite <- app_assoc.
    destruct (fill _ _ Hall Hd) as (w & Hw & Hrw).
    apply (@viable_shorter _ _ _ _ _ (map (@tok_type L T) rest)). rewrite <- map_app. exists w. split.
    + apply Forall_app. split; auto. clear - Hreal. induction Hreal; simpl; constructor; auto.
    + eapply derives_trans; [exact Hd|]. apply derives_app; [apply derives_refl|exact Hw].
  - destruct H as [H _]. contradiction.
Qed.
Print Assumptions C98_nothing_after_the_offending_token.

(** ... and the parser does not index past the end *)
Theorem C98_no_panic_after_an_offending_token :
  forall (L T : Type) (E : EqDec T) (eps init : T) (ps : list (production T))
         (self : parser L T) (tokens : list (token L T)) (fuel : nat) q,
    constructed_parser eps init ps None self -> all_productive eps ps init -> tokens <> [] ->
    ~ viable_prefix eps ps init (map (@tok_type L T) tokens) ->
    parse_from_tokens fuel self tokens <> Panicked q.
Proof.
  intros L T E eps init ps self tokens fuel q B Hall Hne Hno H.
  destruct tokens as [|tok more]; [contradiction|].
  assert (H' : terminates_with (fun fuel => parse_from_tokens fuel self (tok :: more)) (Panicked q))
    by (eapply parse_terminates; [exact H|discriminate]).
  destruct (C24_ordered_choice tok more B) as (_ & _ & _ & C4).
  destruct (C4 _ H') as [[root Hr]|[[f Hr]|Hr]]; try discriminate. inversion Hr; subst q.
  destruct (C48_out_of_range_is_truncated _ _ B (fun s h c fr Hs => ltac:(discriminate Hs)) H)
    as (Hreal & (A & v & HA & Hd) & _).
  apply Hno. destruct (fill _ _ Hall Hd) as (w & Hw & Hrw). exists w. split.
  - apply Forall_app. split; auto. clear - Hreal. induction Hreal; simpl; constructor; auto.
  - eapply derives_trans; [exact Hd|]. apply derives_app; [apply derives_refl|exact Hw].
Qed.
Print Assumptions C98_no_panic_after_an_offending_token.

(** With a table without conflicts there is one report for each way of going wrong *)
Theorem C98_one_report_per_offending_token :
  forall (L T : Type) (E : EqDec T) (eps init : T) (ps : list (production T))
         (self : parser L T) (u : list (token L T)) (t : token L T),
    built_parser eps init ps None self -> conflict_free (pr_transitions self) ->
    repeats_harmless eps ps init -> initial_ends_in_terminal eps ps init -> all_productive eps ps init ->
    non_terminal ps init ->
    ~ viable_prefix eps ps init (map (@tok_type L T) (u ++ [t])) ->
    (forall w, prefix w u -> ~ sentence eps ps init (map (@tok_type L T) w)) ->
    exists f, forall rest,
      terminates_with (fun fuel => parse_from_tokens fuel self (u ++ t :: rest)) (Done (ResultErr f, [])).
Proof.
  intros L T E eps init ps self u t B Hcf Hrep Hend Hall Hn Hno Hpre.
  assert (Hne : u ++ [t] <> []) by (destruct u; discriminate).
  destruct (C94_every_outcome B Hcf Hrep Hend Hall Hn Hne) as (r & Hr & _ & _ & HErr).
  destruct (proj2 HErr) as [f ->].
  - split.
    + intros root (w & [v Hw] & Ht).
      assert (Hs : sentence eps ps init (map (@tok_type L T) w)).
      { split; [|exact (tree_derives Ht)]. pose proof (proj1 (@tree_leaves_all L T eps ps) _ _ _ Ht) as Hl.
        clear - Hl. induction Hl; simpl; constructor; auto. }
      destruct v as [|x v] using rev_ind.
      * apply Hno. rewrite Hw, app_nil_r. exists []. now rewrite app_nil_r.
      * rewrite app_assoc in Hw. apply app_inj_tail in Hw as [-> _]. apply (Hpre w); auto. now exists v.
    + intros (Hreal & A & v & HA & Hd). apply Hno.
      destruct (fill _ _ Hall Hd) as (w & Hw & Hrw). exists w. split.
      * apply Forall_app. split; auto. clear - Hreal. induction Hreal; simpl; constructor; auto.
      * eapply derives_trans; [exact Hd|]. apply derives_app; [apply derives_refl|exact Hw].
  - exists f. intros rest. apply (C98_nothing_after_the_offending_token (self := self) u t [] rest B Hall Hno). exact Hr.
Qed.
Print Assumptions C98_one_report_per_offending_token.

(** [id + )] *)
Lemma expr_all_productive : all_productive Eps expr_productions Prog.
Proof. intros X HX _. destruct (expr_productive HX) as (w & Hw & Hr). exists w. auto. Qed.

Example C98_case :
  let t := fun x => Token None x : token nat sym in
  built_parser Eps Prog expr_productions None expr_parser /\ conflict_free (pr_transitions expr_parser) /\
  repeats_harmless Eps expr_productions Prog /\ initial_ends_in_terminal Eps expr_productions Prog /\
  all_productive Eps expr_productions Prog /\ non_terminal expr_productions Prog /\
  ~ viable_prefix Eps expr_productions Prog [Id; Plus; RParen] /\
  (forall w, prefix w [t Id; t Plus] -> ~ sentence Eps expr_productions Prog (map (@tok_type nat sym) w)).
Proof.
  intros t. split; [exact expr_built|]. split; [exact expr_conflict_free|]. split; [exact expr_harmless|].
  split; [exact expr_ends|]. split; [exact expr_all_productive|]. split; [apply expr_nt; reflexivity|].
  assert (yes : forall w, sentence Eps expr_productions Prog w ->
            exists root, terminates_with (fun fuel => parse_from_tokens fuel expr_parser (map t w)) (Done (ResultOk root, []))).
  { intros w [Hr Hd].
    assert (Hm : map (@tok_type nat sym) (map t w) = w) by (rewrite map_map; apply map_id).
    destruct (@C23_sentences_accepted_and_unambiguous nat sym _ _ _ _ _ expr_parser (map t w) expr_built expr_conflict_free
      expr_harmless expr_ends) as (root & _ & _ & H); [apply expr_nt; reflexivity|now rewrite Hm| |eauto].
    clear - Hr. induction Hr; simpl; constructor; auto. }
  assert (no : forall w r, parse_from_tokens 60 expr_parser (map t w) = r -> r <> OutOfFuel ->
            (forall root, r <> Done (ResultOk root, [])) -> ~ sentence Eps expr_productions Prog w).
  { intros w r H Hr Hne Hs. destruct (yes _ Hs) as [root Hroot].
    apply (Hne root). exact (terminates_unique (parse_terminates _ _ _ H Hr) Hroot). }
  split.
  - intros [v Hs]. revert Hs. eapply no; [vm_compute; reflexivity|discriminate|discriminate].
  - intros w [v Hw]. destruct w as [|a [|b [|c w]]]; inversion Hw; subst;
      (eapply no; [vm_compute; reflexivity|discriminate|discriminate]).
Qed.

(** [X $] with [X -> a b | a X b], whose table has a conflict: after [a b b] nothing matters *)
Example C98_conflicts_case :
  let t := fun x => Token None x : token nat nat in
  constructed_parser 0 1 nested_productions None nested_parser /\ ~ conflict_free (pr_transitions nested_parser) /\
  all_productive 0 nested_productions 1 /\ ~ viable_prefix 0 nested_productions 1 [3; 4; 4] /\
  viable_prefix 0 nested_productions 1 [3; 4] /\
  exists f, forall rest,
    terminates_with (fun fuel => parse_from_tokens fuel nested_parser ([t 3; t 4] ++ t 4 :: rest)) (Done (ResultErr f, [])).
Proof.
  intros t.
  assert (Hall : all_productive 0 nested_productions 1).
  { intros X HX _.
    assert (Hp : PrefixSpec.productive 0 nested_productions)
      by (apply productive_check_ok with (rank := fun x => match x with 1 => 2 | 2 => 1 | _ => 0 end); reflexivity).
    destruct (Hp _ HX) as (w & Hw & Hr). exists w. auto. }
  assert (Hno : ~ viable_prefix 0 nested_productions 1 [3; 4; 4]).
  { intros [v [Hr Hd]].
    set (ts := map t ([3; 4; 4] ++ v)).
    assert (Hm : map (@tok_type nat nat) ts = [3; 4; 4] ++ v) by (unfold ts; rewrite map_map; apply map_id).
    rewrite <- Hm in Hd. destruct (derives_tree Hd) as [n Ht].
    { clear - Hr. unfold ts. induction Hr; simpl; constructor; auto. }
    inversion Ht as [tok H1 H2 Hx|Hx|p children w Hp Hf Hx]; subst.
    assert (Hp' : p = Production 1 [2; 5]) by (simpl in Hp; decompose [or] Hp; subst; try discriminate; try contradiction; auto).
      subst p. inversion Hf as [|? ? ? ? w1 w2 G1 G2]; subst. inversion G2 as [|? ? ? ? w3 w4 G3 G4]; subst. inversion G4; subst.
      destruct (proj1 (proj1 nested_words _ _ _ G1) eq_refl) as [k Hk].
      assert (H5 : map (@tok_type nat nat) w3 = [5]).
      { inversion G3 as [tok ? ? Hx'| |p ? ? Hp' ? Hx']; subst; [simpl; congruence|].
        simpl in Hp'. decompose [or] Hp'; subst; try discriminate; contradiction. }
      match goal with H : _ ++ _ = ts |- _ => rewrite <- H in Hm | H : ts = _ ++ _ |- _ => rewrite H in Hm end.
      rewrite !map_app, Hk, H5 in Hm. simpl in Hm.
      destruct k as [|k]; [discriminate|]. destruct k; discriminate. }
  split; [exact (built_constructed nested_built)|]. split.
  { intros H. destruct (transitions_get_productions (pr_transitions nested_parser) 2 3) as [l|] eqn:Hl; [|discriminate].
    specialize (H _ _ _ Hl). vm_compute in Hl. inversion Hl; subst. simpl in H. lia. }
  split; [exact Hall|]. split; [exact Hno|]. split.
  - exists [5]. split.
    + repeat constructor; try discriminate; apply non_terminalb_false; reflexivity.
    + eapply derives_trans; [apply (@derives_production _ 0 nested_productions (Production 1 [2; 5])); simpl; tauto|].
      apply (@derives_app _ 0 nested_productions [2] [3; 4]); [|apply derives_refl].
      apply (@derives_production _ 0 nested_productions (Production 2 [3; 4])). simpl; tauto.
  - eexists. intros rest.
    apply (C98_nothing_after_the_offending_token [t 3; t 4] (t 4) [] rest (built_constructed nested_built) Hall Hno).
    apply (@parse_terminates _ _ _ nested_parser _ 60); [vm_compute; reflexivity|discriminate].
Qed.
