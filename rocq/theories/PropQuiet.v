(** * A solver is not asked about what needs no second thoughts: C99 *)

From Verif Require Import BaseFacts GrammarFacts DerivFacts ParserSound ParserComplete.
From Verif Require Import FollowSpec ProductiveSpec CutFacts CoverFacts PrefixSpec ChoiceSpec RecoverSpec ParserRecover
  FollowRepeat Examples ExampleTools MoreFacts PropParse PropReports PropPrefix PropRecover PropCut ExpectFacts
  GuidedSpec ParserGuided PropGuided SuppliedSpec PropEnd LastSpec LastFacts PropLast ForeverFacts.
From Verif Require Export QuietSpec.

Set Implicit Arguments.

Scheme settled_mut := Minimality for settled Sort Prop
  with settled_forest_mut := Minimality for settled_forest Sort Prop.
Combined Scheme settled_ind2 from settled_mut, settled_forest_mut.

Section Off.
  Context {L T : Type} {E : EqDec T}.
  Variable eps : T.
  Variable ps : list (production T).
  Variable tokens : list (token L T).
  Variable cands : T -> T -> list (list T).
  Variable solver : option (syntax_error_solver L T).

  Notation choose := (choose eps ps tokens cands).
  Notation sequence := (sequence eps ps tokens cands).
  Notation cbranch := (ChoiceSpec.branch eps ps tokens cands).
  Notation derive := (derive eps ps tokens cands solver).
  Notation attempt := (attempt eps ps tokens cands solver).
  Notation parse := (RecoverSpec.parse eps ps tokens cands solver).
  Notation branch := (RecoverSpec.branch eps ps tokens cands solver).
  Notation retry := (RecoverSpec.retry eps ps tokens cands solver).

  Lemma attempt_derive X p outs h r h' :
    attempt false X p outs [] h r h' ->
    match r with
    | inl d => derive false X p outs h d h'
    | inr fps => derive false X p outs h (DFailed (FailedSymbol fps X)) h'
    end.
  Proof.
    intros H. destruct r as [d|fps].
    - apply derive_done. exact H.
    - eapply derive_failed; [exact H|auto].
  Qed.

  Scheme q_choose_mut := Minimality for ChoiceSpec.choose Sort Prop
  with q_sequence_mut := Minimality for ChoiceSpec.sequence Sort Prop
  with q_branch_mut := Minimality for ChoiceSpec.branch Sort Prop.
  Combined Scheme q_choice_ind from q_choose_mut, q_sequence_mut, q_branch_mut.

  Lemma built_parts X ns q others :
    built X (map FPartOk ns) q others = @DTree L T (Node ns (Token None X)) q others.
  Proof. unfold built. now rewrite trees_parts. Qed.

  (** off the single path: ordered choice, whatever the solver *)
  Lemma choice_derived :
    (forall X p outs r, choose X p outs r -> forall fps h,
       match r with
       | Some (n, q, others) => attempt false X p outs fps h (inl (DTree n q others)) h
       | None => exists fps', attempt false X p outs fps h (inr fps') h
       end) /\
    (forall Xs p r, sequence Xs p r -> forall h,
       match r with
       | Some (ns, q) => parse false Xs p h (PParts (map FPartOk ns) q) h
       | None => exists f before, parse false Xs p h (PFailed f before) h
       end) /\
    (forall X p outs Xs r, cbranch X p outs Xs r -> forall h,
       match r with
       | Some (ns, q) => branch false X p outs Xs h (PParts (map FPartOk ns) q) h /\
           forall f before, retry false X p outs Xs f before h (PParts (map FPartOk ns) q) h
       | None => (exists f before, branch false X p outs Xs h (PFailed f before) h) /\
           forall f before, exists f' before', retry false X p outs Xs f before h (PFailed f' before') h
       end).
  Proof.
    apply q_choice_ind.
    - intros X p fps h. exists fps. constructor.
    - intros X p out outs ns q _ IH fps h. rewrite <- built_parts. apply attempt_first. apply IH.
    - intros X p out outs r _ IH1 _ IH2 fps h. destruct (IH1 h) as (f & before & H1).
      specialize (IH2 (fps ++ [production_report out f before]) h).
      destruct r as [[[n q] others]|].
      + eapply attempt_next; eauto.
      + destruct IH2 as [fps' H2]. exists fps'. eapply attempt_next; eauto.
    - intros p h. constructor.
    - intros Xs p r _ IH h. specialize (IH h). destruct r as [[ns q]|]; simpl.
      + exact (parse_epsilon IH).
      + destruct IH as (f & before & H). exists f, (ParsedOk (Node [] (Token None eps)) :: before).
        exact (parse_epsilon H).
    - intros Xs p tok r H1 H2 H3 _ IH h. specialize (IH h). destruct r as [[ns q]|]; simpl.
      + exact (@parse_token _ _ eps ps tokens cands solver false Xs p tok h _ h H1 H2 H3 IH).
      + destruct IH as (f & before & H). exists f, (ParsedOk (Node [] tok) :: before).
        exact (@parse_token _ _ eps ps tokens cands solver false Xs p tok h _ h H1 H2 H3 H).
    - intros X Xs p H1 H2 H3 h. do 2 eexists. apply parse_mismatch; auto.
    - intros X Xs p tok r H1 H2 _ IH h. specialize (IH h). destruct r as [[ns q]|].
      + destruct IH as [IH _]. eapply parse_non_terminal; eauto.
      + destruct IH as [(f & before & H) _]. exists f, before. eapply parse_non_terminal; eauto.
    - intros X p outs Xs _ IH h. destruct (IH [] h) as [fps' H].
      pose proof (attempt_derive H) as Hd. simpl in Hd. split.
      + do 2 eexists. apply branch_failed. exact Hd.
      + intros f before. exists f, before. eapply retry_failed; [exact Hd|discriminate].
    - intros X p outs Xs n q outs' ns q' _ IH1 _ IH2 h.
      pose proof (attempt_derive (IH1 [] h)) as Hd. simpl in Hd. specialize (IH2 h). split.
      + simpl. eapply RecoverSpec.branch_tree; eauto.
      + intros f before. simpl. eapply RecoverSpec.retry_tree; eauto.
    - intros X p outs Xs n q outs' r _ IH1 _ IH2 _ IH3 h.
      pose proof (attempt_derive (IH1 [] h)) as Hd. simpl in Hd.
      destruct (IH2 h) as (f & before & Hf). specialize (IH3 h). destruct r as [[ns q']|].
      + destruct IH3 as [_ IH3]. split.
        * eapply RecoverSpec.branch_retry; eauto.
        * intros f' before'. eapply retry_again; eauto.
      + destruct IH3 as [_ IH3]. destruct (IH3 f before) as (f2 & before2 & Hr). split.
        * exists f2, before2. eapply RecoverSpec.branch_retry; eauto.
        * intros f' before'. exists f2, before2. eapply retry_again; eauto.
  Qed.

  Lemma choose_derive single X p outs n q others h :
    length outs <> 1 -> choose X p outs (Some (n, q, others)) ->
    derive single X p outs h (DTree n q others) h.
  Proof.
    intros Hl H. apply derive_done. apply Nat.eqb_neq in Hl. rewrite Hl, andb_false_r.
    exact (proj1 choice_derived _ _ _ _ H [] h).
  Qed.

  Lemma choose_guided X p outs n q others : choose X p outs (Some (n, q, others)) ->
    incl others outs /\ exists out ns, In out outs /\ n = Node ns (Token None X) /\
      guided_forest eps ps tokens cands out p ns q.
  Proof.
    intros H. pose proof (proj1 choice_derived _ _ _ _ H [] []) as Ha.
    exact (proj1 (proj2 (derived_guided eps ps tokens cands solver)) _ _ _ _ _ _ _ _ Ha _ _ _ eq_refl).
  Qed.

  (** settled trees are derived without a call *)
  Lemma settled_derives : ~ non_terminal ps eps ->
    (forall X p n q, settled eps ps tokens cands X p n q -> non_terminal ps X ->
       exists tok others, nth_error tokens p = Some tok /\
       forall single h, derive single X p (cands X (tok_type tok)) h (DTree n q others) h) /\
    (forall Xs p ns q, settled_forest eps ps tokens cands Xs p ns q ->
       forall single h, parse single Xs p h (PParts (map FPartOk ns) q) h).
  Proof.
    intros He. apply settled_ind2.
    - intros tok p _ H _ H'. contradiction.
    - intros p H. contradiction.
    - intros X p tok out ns q HX Hn Hc _ IH _. exists tok, []. split; auto.
      intros single h. rewrite Hc. apply derive_done. rewrite <- built_parts. apply attempt_first. apply IH.
    - intros X p tok n q others HX Hn Hl Hc _. exists tok, others. split; auto.
      intros single h. now apply choose_derive.
    - intros p single h. constructor.
    - intros X Xs p n q ns q' Ht IHt Hf IHf single h.
      destruct (non_terminal_dec ps X) as [HX|HX].
      + destruct (IHt HX) as (tok & others & Hn & Hd).
        eapply parse_non_terminal; eauto. simpl. eapply RecoverSpec.branch_tree; [apply Hd|apply IHf].
      + inversion Ht as [tok p0 H1 H2 H3|p0 H1|X0 p0 tok out children q0 HX0|X0 p0 tok n0 q0 o HX0]; subst;
          [| |contradiction|contradiction].
        * exact (@parse_token _ _ eps ps tokens cands solver single Xs p tok h _ h H2 H1 H3 (IHf single h)).
        * exact (parse_epsilon (IHf single h)).
  Qed.

  (** with fixed extents whatever ordered choice finds is settled *)
  Lemma branch_some X p outs Xs r : cbranch X p outs Xs r -> forall ns q, r = Some (ns, q) ->
    forall tok, nth_error tokens p = Some tok -> incl outs (cands X (tok_type tok)) -> non_terminal ps X ->
    exists n q1, guided eps ps tokens cands X p n q1 /\ exists ns', sequence Xs q1 (Some (ns', q)).
  Proof.
    induction 1 as [|X p outs Xs n q outs' ns q' Hc Hs|X p outs Xs n q outs' r Hc Hs Hb IH];
      intros ns0 q0 Hr tok Hn Hi HX; [discriminate| |].
    - inversion Hr; subst. destruct (choose_guided Hc) as (_ & out & ns1 & Hin & -> & Hf).
      do 2 eexists. split; [|eauto]. econstructor; eauto.
    - apply (IH _ _ Hr tok); auto. destruct (choose_guided Hc) as (Ho & _).
      intros x Hx. auto.
  Qed.

  Lemma choice_settled : ~ non_terminal ps eps ->
    (forall A a out, In out (cands A a) -> exists p, In p ps /\ p_input p = A /\ p_output p = out) ->
    fixed_extents eps ps tokens cands ->
    (forall X p outs r, choose X p outs r -> forall tok, nth_error tokens p = Some tok -> non_terminal ps X ->
       outs = cands X (tok_type tok) -> forall n q others, r = Some (n, q, others) ->
       settled eps ps tokens cands X p n q) /\
    (forall Xs p r, sequence Xs p r -> suffix_ok ps Xs -> forall ns q, r = Some (ns, q) ->
       settled_forest eps ps tokens cands Xs p ns q) /\
    (forall X p outs Xs r, cbranch X p outs Xs r -> suffix_ok ps (X :: Xs) -> forall tok, nth_error tokens p = Some tok ->
       non_terminal ps X -> outs = cands X (tok_type tok) -> forall ns q, r = Some (ns, q) ->
       settled_forest eps ps tokens cands (X :: Xs) p ns q).
  Proof.
    intros He Hdecl Hfix.
    assert (Hsuf : forall A a out, In out (cands A a) -> suffix_ok ps out).
    { intros A a out Hin. destruct (Hdecl _ _ _ Hin) as (pr & Hp & _ & Ho). exists pr, []. auto. }
    apply q_choice_ind.
    - intros X p tok Hn HX Ho n q others H. discriminate.
    - intros X p out outs ns q Hs IH tok Hn HX Ho n q0 others H. inversion H; subst.
      destruct others as [|o others].
      + eapply settled_single; eauto. apply IH; auto. eapply Hsuf. rewrite <- Ho. now left.
      + eapply settled_choice with (left := o :: others); eauto.
        * rewrite <- Ho. simpl. lia.
        * rewrite <- Ho. now apply choose_first.
    - intros X p out outs r Hs _ Hc _ tok Hn HX Ho n q others ->.
      eapply settled_choice with (left := others); eauto.
      + rewrite <- Ho. simpl. destruct outs; simpl; [inversion Hc|lia].
      + rewrite <- Ho. now apply choose_next.
    - intros p _ ns q H. inversion H; subst. constructor.
    - intros Xs p r _ IH Hs ns q H. destruct r as [[ns' q']|]; inversion H; subst.
      econstructor; [constructor|]. apply IH; auto. eapply suffix_tail; eauto.
    - intros Xs p tok r H1 H2 H3 _ IH Hs ns q H. destruct r as [[ns' q']|]; inversion H; subst.
      econstructor; [constructor; auto|]. apply IH; auto. eapply suffix_tail; eauto.
    - intros X Xs p _ _ _ _ ns q H. discriminate.
    - intros X Xs p tok r HX Hn _ IH Hs ns q H. eapply IH; eauto.
    - intros X p outs Xs _ _ _ tok _ _ _ ns q H. discriminate.
    - intros X p outs Xs n q outs' ns q' _ IH1 _ IH2 Hs tok Hn HX Ho ns0 q0 H. inversion H; subst.
      econstructor; [eapply IH1; eauto|]. apply IH2; auto. eapply suffix_tail; eauto.
    - intros X p outs Xs n q outs' r Hc _ Hseq _ Hb _ Hs tok Hn HX Ho ns0 q0 ->. exfalso.
      destruct (choose_guided Hc) as (Hincl & out & ns1 & Hin & -> & Hf).
      assert (Hi : incl outs' (cands X (tok_type tok))) by (subst outs; exact Hincl).
      destruct (branch_some Hb eq_refl Hn Hi HX) as (n2 & q2 & Hg & ns2 & Hs2).
      destruct Xs as [|Y Xs]; [inversion Hseq|].
      assert (q = q2).
      { eapply Hfix; [| |exact Hg].
        - destruct Hs as (pr & u & Hp & Hout). exists pr, u, Y, Xs. auto.
        - econstructor; eauto. now rewrite <- Ho. }
      subst q2. pose proof (sequence_unique He Hseq Hs2) as Heq. discriminate.
  Qed.
End Off.

(** a tree of an LL(1) grammar with nullable alternatives last is settled *)
Section Last.
  Context {L T : Type} {E : EqDec T}.
  Variable eps init : T.
  Variable ps : list (production T).
  Variable cands : T -> T -> list (list T).
  Variable tokens : list (token L T).
  Hypothesis Heps : ~ non_terminal ps eps.
  Hypothesis Hcands : forall A a out, In out (cands A a) ->
    exists p, In p ps /\ p_input p = A /\ p_output p = out.
  Hypothesis Hcov : covering eps init ps cands.
  Hypothesis Hno : others_fail eps init ps cands tokens.

  Notation choose := (choose eps ps tokens cands).
  Notation sequence := (sequence eps ps tokens cands).
  Notation cbranch := (ChoiceSpec.branch eps ps tokens cands).
  Notation placed := (placed eps init ps tokens).
  Notation set_out := (set_out eps init ps tokens).
  Notation types := (map (@tok_type L T)).
  Notation settled := (settled eps ps tokens cands).
  Notation settled_forest := (settled_forest eps ps tokens cands).

  Let wins := @right_candidate_wins_if L T E eps init ps cands tokens Heps Hcov Hno.

  Lemma placed_settled :
    (forall X pos outs r, choose X pos outs r -> forall out ns w u rest1 tok v,
       placed X out ns w u rest1 pos -> w ++ rest1 = tok :: v -> nth_error tokens pos = Some tok ->
       cands X (tok_type tok) = outs -> In out outs ->
       settled X pos (Node ns (Token None X)) (pos + length w)) /\
    (forall Xs pos r, sequence Xs pos r -> forall ns w u rest1, set_out Xs ns w u rest1 pos ->
       settled_forest Xs pos ns (pos + length w)) /\
    (forall X pos outs Xs r, cbranch X pos outs Xs r -> forall out ns w u tok v ns2 w2 rest1,
       placed X out ns w u (w2 ++ rest1) pos -> w ++ w2 ++ rest1 = tok :: v ->
       nth_error tokens pos = Some tok -> cands X (tok_type tok) = outs -> In out outs ->
       set_out Xs ns2 w2 (u ++ types w) rest1 (pos + length w) ->
       settled_forest (X :: Xs) pos (Node ns (Token None X) :: ns2) (pos + length w + length w2)).
  Proof.
    assert (Hnt : forall X out ns w u rest1 pos, placed X out ns w u rest1 pos -> non_terminal ps X).
    { intros X out ns w u rest1 pos (Hp & _). exists (Production X out). auto. }
    assert (Hmany : forall X pos outs r, choose X pos outs r -> forall out ns w u rest1 tok v,
       placed X out ns w u rest1 pos -> w ++ rest1 = tok :: v -> nth_error tokens pos = Some tok ->
       cands X (tok_type tok) = outs -> In out outs -> length outs <> 1 ->
       settled X pos (Node ns (Token None X)) (pos + length w)).
    { intros X pos outs r Hc out ns w u rest1 tok v Hpl Hw Hn Ho Hin Hl.
      destruct (proj1 wins _ _ _ _ Hc out ns w u rest1 tok v [] Hpl Hw Hn Ho Hin) as [outs' ->].
      subst outs. eapply settled_choice; eauto. }
    apply q_choice_ind.
    - intros X p out ns w u rest1 tok v _ _ _ _ [].
    - intros X p o outs ns q Hseq IH out ns0 w u rest1 tok v Hpl Hw Hn Hc Hin.
      destruct outs as [|o2 outs].
      + destruct Hin as [->|[]]. eapply settled_single; eauto. eapply IH. eapply placed_set_out; eauto.
      + pose proof (choose_first X (o2 :: outs) Hseq) as Hch.
        eapply (Hmany _ _ _ _ Hch); eauto. simpl. lia.
    - intros X p o outs r Hseq IH1 Hch IH2 out ns0 w u rest1 tok v Hpl Hw Hn Hc Hin.
      destruct (list_eq_dec eq_dec o out) as [->|Hne].
      + pose proof (proj1 (proj2 wins) _ _ _ Hseq _ _ _ _ (placed_set_out Hpl)). discriminate.
      + destruct Hin as [->|Hin]; [congruence|].
        pose proof (choose_next Hseq Hch) as Hch'.
        eapply (Hmany _ _ _ _ Hch'); eauto; [now right|]. simpl. destruct outs; [destruct Hin|simpl; lia].
    - intros p ns w u rest1 (Hf & _). inversion Hf; subst. rewrite Nat.add_0_r. constructor.
    - intros Xs p r _ IH ns w u rest1 Hs. apply (set_out_epsilon Heps) in Hs as (ns2 & -> & Hs).
      econstructor; [constructor|]. eapply IH; eauto.
    - intros Xs p tok r Hnt' Hne Hn _ IH ns w u rest1 Hs.
      apply set_out_not_terminal in Hs as (tok' & ns2 & w2 & Ht & -> & -> & Hn' & Hs); auto.
      rewrite Hn in Hn'. inversion Hn'; subst tok'.
      econstructor; [constructor; auto|]. simpl length. replace (p + S (length w2)) with (p + 1 + length w2) by lia. eapply IH; eauto.
    - intros X Xs p Hnt' Hne Hm ns w u rest1 Hs.
      apply set_out_not_terminal in Hs as (tok' & ns2 & w2 & Ht & -> & -> & Hn' & Hs); auto.
      exfalso. apply (Hm tok'); auto.
    - intros X Xs p tok r HX Hn _ IH ns w u rest1 Hs.
      apply (@set_out_head L T eps init ps cands tokens Heps Hcov X Xs _ _ _ _ _ HX) in Hs
        as (out & ns1 & ns2 & w1 & w2 & tok' & v & -> & -> & Hpl & Hw & Hn' & Hin & Hs).
      rewrite Hn in Hn'. inversion Hn'; subst tok'. rewrite app_length, Nat.add_assoc.
      eapply (IH out ns1 w1 u tok v ns2 w2 rest1); eauto.
    - intros X p outs Xs Hch _ out ns w u tok v ns2 w2 rest1 Hpl Hw Hn Hc Hin _.
      destruct (proj1 wins _ _ _ _ Hch out ns w u _ tok v [] Hpl Hw Hn Hc Hin) as [? H]. discriminate.
    - intros X p outs Xs n q outs' ns' q' Hch IH1 Hseq IH2 out ns w u tok v ns2 w2 rest1 Hpl Hw Hn Hc Hin Hs.
      destruct (proj1 wins _ _ _ _ Hch out ns w u _ tok v [] Hpl Hw Hn Hc Hin) as [? H]. inversion H; subst.
      econstructor; [eapply IH1; eauto|]. eapply IH2; eauto.
    - intros X p outs Xs n q outs' r Hch _ Hseq _ _ _ out ns w u tok v ns2 w2 rest1 Hpl Hw Hn Hc Hin Hs.
      destruct (proj1 wins _ _ _ _ Hch out ns w u _ tok v [] Hpl Hw Hn Hc Hin) as [? H]. inversion H; subst.
      pose proof (proj1 (proj2 wins) _ _ _ Hseq _ _ _ _ Hs). discriminate.
  Qed.
End Last.

(** a parse that makes no call is the same with every solver *)
Section Unasked.
  Context {L T : Type} {E : EqDec T}.
  Variable eps : T.
  Variable ps : list (production T).
  Variable tokens : list (token L T).
  Variable cands : T -> T -> list (list T).
  Variable solver : option (syntax_error_solver L T).

  Notation derive := (derive eps ps tokens cands).
  Notation attempt := (attempt eps ps tokens cands).
  Notation parse := (RecoverSpec.parse eps ps tokens cands).
  Notation branch := (RecoverSpec.branch eps ps tokens cands).
  Notation retry := (RecoverSpec.retry eps ps tokens cands).
  Notation calls := (list (solver_call L T)).

  Definition grew (h h' : calls) : Prop := exists more, h' = h ++ more.
  Lemma grew_refl h : grew h h.
  Proof. exists []. now rewrite app_nil_r. Qed.
  Lemma grew_trans h1 h2 h3 : grew h1 h2 -> grew h2 h3 -> grew h1 h3.
  Proof. intros [a ->] [b ->]. exists (a ++ b). now rewrite app_assoc. Qed.
  Lemma grew_last h h' c : grew h h' -> grew h (h' ++ [c]).
  Proof. intros [a ->]. exists (a ++ [c]). now rewrite app_assoc. Qed.
  Lemma grew_between h1 h2 : grew h1 h2 -> grew h2 h1 -> h2 = h1.
  Proof.
    intros [a ->] [b H]. rewrite <- app_assoc in H. rewrite <- (app_nil_r h1) in H at 1.
    apply app_inv_head in H. symmetry in H. apply app_eq_nil in H as [-> _]. apply app_nil_r.
  Qed.
  Lemma grew_not_last h h' c : grew h h' -> h' ++ [c] <> h.
  Proof.
    intros [a ->] H. rewrite <- app_assoc in H. rewrite <- (app_nil_r h) in H at 2.
    apply app_inv_head in H. now destruct a.
  Qed.

  Lemma calls_grow :
    (forall single X p outs h r h', derive solver single X p outs h r h' -> grew h h') /\
    (forall single X p outs fps h r h', attempt solver single X p outs fps h r h' -> grew h h') /\
    (forall single Xs p h r h', parse solver single Xs p h r h' -> grew h h') /\
    (forall single X p outs Xs h r h', branch solver single X p outs Xs h r h' -> grew h h') /\
    (forall single X p outs Xs f before h r h', retry solver single X p outs Xs f before h r h' -> grew h h').
  Proof.
    apply recover_mutind; intros; auto using grew_refl, grew_last; eauto using grew_trans.
  Qed.

  Variable solver' : option (syntax_error_solver L T).
  Variable s : syntax_error_solver L T.
  Hypothesis Hs : solver = Some s.

  Lemma unasked :
    (forall single X p outs h r h', derive solver single X p outs h r h' -> h' = h ->
       derive solver' single X p outs h r h) /\
    (forall single X p outs fps h r h', attempt solver single X p outs fps h r h' -> h' = h ->
       attempt solver' single X p outs fps h r h) /\
    (forall single Xs p h r h', parse solver single Xs p h r h' -> h' = h ->
       parse solver' single Xs p h r h) /\
    (forall single X p outs Xs h r h', branch solver single X p outs Xs h r h' -> h' = h ->
       branch solver' single X p outs Xs h r h) /\
    (forall single X p outs Xs f before h r h', retry solver single X p outs Xs f before h r h' -> h' = h ->
       retry solver' single X p outs Xs f before h r h).
  Proof.
    destruct calls_grow as (G1 & G2 & G3 & G4 & G5).
    assert (Hmid : forall h h1 h2 : calls, grew h h1 -> grew h1 h2 -> h2 = h -> h1 = h /\ h2 = h1).
    { intros h h1 h2 H1 H2 ->. assert (h1 = h) by now apply grew_between. subst. auto. }
    assert (Hmid3 : forall h h1 h2 h3 : calls, grew h h1 -> grew h1 h2 -> grew h2 h3 -> h3 = h ->
      h1 = h /\ h2 = h1 /\ h3 = h2).
    { intros h h1 h2 h3 H1 H2 H3 H4. destruct (Hmid _ _ _ H1 (grew_trans H2 H3) H4) as [-> ->].
      destruct (Hmid _ _ _ H2 H3 eq_refl) as [-> _]. auto. }
    apply recover_mutind.
    - intros single X p outs h r h' _ IH ->. apply derive_done. auto.
    - intros single X p outs h fps h' _ IH [->|H] ->; [|congruence]. apply derive_failed; auto.
    - intros X p outs h fps h' s' Ha _ _ _ Heq. exfalso. eapply grew_not_last; [eapply G2; eauto|exact Heq].
    - intros X p outs h fps h' s' fp q Ha _ _ _ Heq. exfalso. eapply grew_not_last; [eapply G2; eauto|exact Heq].
    - intros; constructor.
    - intros single X p out outs fps h parts q h' _ IH ->. apply attempt_first. auto.
    - intros single X p out outs fps h f before h' r h'' H1 IH1 H2 IH2 Heq.
      destruct (Hmid h h' h'') as [-> ->]; eauto. eapply attempt_next; eauto.
    - intros; constructor.
    - intros single Xs p h r h' _ IH ->. apply parse_epsilon. auto.
    - intros single Xs p tok h r h' A B C _ IH ->. apply parse_token; auto.
    - intros; apply parse_mismatch; auto.
    - intros single X Xs p tok h r h' A B _ IH ->. eapply parse_non_terminal; eauto.
    - intros single X p outs Xs h f h' _ IH ->. apply branch_failed. auto.
    - intros single X p outs Xs h fs q h' r h'' H1 IH1 H2 IH2 Heq.
      destruct (Hmid h h' h'') as [-> ->]; eauto. eapply branch_fixed; eauto.
    - intros single X p outs Xs h n q others h' parts q' h'' H1 IH1 H2 IH2 Heq.
      destruct (Hmid h h' h'') as [-> ->]; eauto. eapply RecoverSpec.branch_tree; eauto.
    - intros single X p outs Xs h n q others h' f before h'' r h''' H1 IH1 H2 IH2 H3 IH3 Heq.
      destruct (Hmid3 h h' h'' h''') as (-> & -> & ->); eauto. eapply RecoverSpec.branch_retry; eauto.
    - intros single X p outs Xs f before h r h' _ IH Hr ->. eapply retry_failed; eauto.
    - intros single X p outs Xs f before h n q others h' parts q' h'' H1 IH1 H2 IH2 Heq.
      destruct (Hmid h h' h'') as [-> ->]; eauto. eapply RecoverSpec.retry_tree; eauto.
    - intros single X p outs Xs f before h n q others h' f' before' h'' r h''' H1 IH1 H2 IH2 H3 IH3 Heq.
      destruct (Hmid3 h h' h'' h''') as (-> & -> & ->); eauto. eapply RecoverSpec.retry_again; eauto.
  Qed.
End Unasked.

Lemma prefix_free_fixed {L T : Type} (eps : T) ps (tokens : list (token L T)) cands :
  (forall A a out, In out (cands A a) -> exists p, In p ps /\ p_input p = A /\ p_output p = out) ->
  prefix_free_symbols eps ps -> fixed_extents eps ps tokens cands.
Proof.
  intros Hc Hpf A p n q n' q' Hrs H1 H2.
  destruct (proj1 (@guided_trees _ _ eps ps tokens cands Hc) _ _ _ _ H1) as (w & v & Ht & -> & Hs).
  destruct (proj1 (@guided_trees _ _ eps ps tokens cands Hc) _ _ _ _ H2) as (w' & v' & Ht' & -> & Hs').
  rewrite Hs in Hs'.
  pose proof (proj1 (tree_leaves_all eps ps) _ _ _ Ht) as Hl.
  pose proof (proj1 (tree_leaves_all eps ps) _ _ _ Ht') as Hl'.
  pose proof (tree_derives Ht) as Hd. pose proof (tree_derives Ht') as Hd'.
  assert (Htypes : forall x : list (token L T), Forall (fun t => tok_type t <> eps /\ ~ non_terminal ps (tok_type t)) x ->
    Forall (fun y => y <> eps /\ ~ non_terminal ps y) (map (@tok_type L T) x)).
  { intros x Hx. rewrite Forall_forall in *. intros y Hy. apply in_map_iff in Hy as (t & <- & Hin). auto. }
  destruct (app_eq_app _ _ _ _ Hs') as (m & [[Ha _]|[Ha _]]).
  - subst w. rewrite map_app in Hd. apply Htypes in Hl. rewrite map_app in Hl.
    pose proof (Hpf A _ _ Hrs Hl Hd' Hd) as Hm. apply map_eq_nil in Hm. subst m. now rewrite app_nil_r.
  - subst w'. rewrite map_app in Hd'. apply Htypes in Hl'. rewrite map_app in Hl'.
    pose proof (Hpf A _ _ Hrs Hl' Hd Hd') as Hm. apply map_eq_nil in Hm. subst m. now rewrite app_nil_r.
Qed.

(** ** A tree found without second thoughts is returned whatever the solver would say *)
Theorem C99_settled_not_asked :
  forall (L T : Type) (E : EqDec T) (eps init : T) (ps : list (production T))
         (solver : option (syntax_error_solver L T)) (self : parser L T)
         (tokens : list (token L T)) (root : node L T) (q : nat),
    constructed_parser eps init ps solver self -> non_terminal ps init ->
    settled eps ps tokens (candidates self) init 0 root q ->
    terminates_with (fun fuel => parse_from_tokens fuel self tokens) (Done (ResultOk root, [])).
Proof.
  intros L T E eps init ps solver self tokens root q B Hinit Hs.
  pose proof (constructed_built B) as F.
  assert (Heps : ~ non_terminal ps eps) by apply (eps_not_nt (po_grammar (bf_of F))).
  destruct (proj1 (settled_derives tokens (candidates self) solver Heps) _ _ _ _ Hs Hinit)
    as (tok & others & Hn & Hd).
  destruct tokens as [|t rest]; simpl in Hn; inversion Hn; subst t.
  apply (C59_exact_semantics tok rest (ResultOk root) [] B). eexists. split; [apply Hd|reflexivity].
Qed.
Print Assumptions C99_settled_not_asked.

(** ** Symbols with fixed extents: with any solver as without *)
Theorem C99_fixed_extents_not_asked :
  forall (L T : Type) (E : EqDec T) (eps init : T) (ps : list (production T))
         (solver : option (syntax_error_solver L T)) (self self0 : parser L T)
         (tokens : list (token L T)) (root : node L T),
    built_parser eps init ps solver self -> built_parser eps init ps None self0 ->
    prefix_free_symbols eps ps \/ fixed_extents eps ps tokens (candidates self) ->
    terminates_with (fun fuel => parse_from_tokens fuel self0 tokens) (Done (ResultOk root, [])) ->
    terminates_with (fun fuel => parse_from_tokens fuel self tokens) (Done (ResultOk root, [])).
Proof.
  intros L T E eps init ps solver self self0 tokens root B B0 Hfix H.
  pose proof (constructed_built B) as F.
  assert (Heps : ~ non_terminal ps eps) by apply (eps_not_nt (po_grammar (bf_of F))).
  assert (Hfx : fixed_extents eps ps tokens (candidates self)).
  { destruct Hfix as [Hfix|Hfix]; auto. apply prefix_free_fixed; auto. apply (candidates_declared F). }
  pose proof (built_with_solver None B) as B1.
  assert (H1 : terminates_with (fun fuel => parse_from_tokens fuel (with_solver self None) tokens) (Done (ResultOk root, []))).
  { destruct H as [H1 [n H2]]. split; auto. exists n. intros fuel Hf. rewrite <- (H2 fuel Hf). now apply built_parse_eq with (eps := eps) (init := init) (ps := ps) (solver := None). }
  destruct H as [_ [n Hn]]. specialize (Hn n (le_n _)).
  destruct (C14_parse_trees_valid _ _ B0 Hn) as (_ & Hinit & _). clear n Hn.
  destruct tokens as [|tok rest].
  { destruct H1 as [_ [n Hn]]. specialize (Hn n (le_n _)). discriminate. }
  destruct (C24_ordered_choice tok rest B1) as (Hc & _).
  apply Hc in H1 as (q & outs & Hch).
  eapply C99_settled_not_asked; [exact B|exact Hinit|].
  exact (proj1 (@choice_settled L T eps ps (tok :: rest) (candidates self) None Heps
                  (candidates_declared F) Hfx) _ _ _ _ Hch tok eq_refl Hinit eq_refl _ _ _ eq_refl).
Qed.
Print Assumptions C99_fixed_extents_not_asked.

Lemma constructed_without_solver {L T : Type} {E : EqDec T} (eps init : T) ps sol (self : parser L T) :
  constructed_parser eps init ps sol self -> constructed_parser eps init ps None (with_solver self None).
Proof.
  intros (ho1 & ho2 & g & Hg & H). exists ho1, ho2, g. split; auto.
  assert (Hrd : exists ffs, rdp_from ho2 g ffs sol = Done self).
  { destruct sol as [s|].
    - destruct H as [fuel H]. unfold from_grammar_and_solver in H. apply bind_done in H as (ffs & _ & H). eauto.
    - exact H. }
  destruct Hrd as [ffs Hrd]. exists ffs. unfold from_grammar_and_first_follow_symbols, rdp_from in *.
  apply bind_done in Hrd as (t & H1 & H2). inversion H2; subst self. rewrite H1. reflexivity.
Qed.

(** the conditions are needed only where the initial symbol reaches *)
Lemma covering_order_any_solver :
  forall (L T : Type) (E : EqDec T) (eps init : T) (ps : list (production T))
         (solver : option (syntax_error_solver L T)) (self : parser L T) (tokens : list (token L T)),
    constructed_parser eps init ps solver self -> covering eps init ps (candidates self) ->
    reachable_ll1 eps ps init -> nothing_vanishes_early eps ps init (candidates self) ->
    no_left_recursion_from eps ps init -> initial_ends_in_terminal eps ps init -> non_terminal ps init ->
    (forall root w, tree_for eps ps init root w -> prefix w tokens ->
       terminates_with (fun fuel => parse_from_tokens fuel self tokens) (Done (ResultOk root, []))) /\
    (forall fuel root h, parse_from_tokens fuel self tokens = Done (ResultOk root, h) ->
       h = [] /\ exists w, tree_for eps ps init root w /\ prefix w tokens).
Proof.
  intros L T E eps init ps solver self tokens B Hcov Hll Hord Hlr Hend Hinit.
  assert (H1 : forall root w, tree_for eps ps init root w -> prefix w tokens ->
       terminates_with (fun fuel => parse_from_tokens fuel self tokens) (Done (ResultOk root, []))).
  { intros root w Ht Hpre.
    pose proof (constructed_built B) as F.
    assert (Heps : ~ non_terminal ps eps) by apply (eps_not_nt (po_grammar (bf_of F))).
    destruct (root_placed Heps Hcov Hend Hinit Ht Hpre) as (out & ns & tok & v & -> & Hpl & Hw & Hn & Hin).
    pose proof (constructed_without_solver B) as B1.
    pose proof (covering_order_exact B1 Hcov Hll Hord Hlr Hend Hinit Ht Hpre) as Hok.
    destruct tokens as [|t rest]; simpl in Hn; inversion Hn; subst t.
    destruct (C24_ordered_choice tok rest B1) as (Hc & _).
    apply Hc in Hok as (q & outs & Hch).
    assert (Hwt : w ++ [] = tok :: v) by now rewrite app_nil_r.
    eapply C99_settled_not_asked; [exact B|exact Hinit|].
    exact (proj1 (@placed_settled L T E eps init ps (candidates self) (tok :: rest) Heps Hcov
               (@order_others_fail L T eps init ps (candidates self) (tok :: rest) (candidates_declared F) Hll Hord))
             _ _ _ _ Hch out ns w [] [] tok v Hpl Hwt Hn eq_refl Hin). }
  split; auto. intros fuel root h H.
  destruct (C14_parse_trees_valid _ _ B H) as (_ & _ & w & Ht & Hp). split; [|eauto].
  pose proof (terminates_unique (parse_terminates _ _ _ H ltac:(discriminate)) (H1 _ _ Ht Hp)) as Heq.
  now inversion Heq.
Qed.

Lemma reachable_last_any_solver :
  forall (L T : Type) (E : EqDec T) (eps init : T) (ps : list (production T))
         (solver : option (syntax_error_solver L T)) (self : parser L T) (tokens : list (token L T)),
    built_parser eps init ps solver self ->
    reachable_ll1 eps ps init -> reachable_nullable_last eps ps init -> repeats_harmless eps ps init ->
    no_left_recursion_from eps ps init -> initial_ends_in_terminal eps ps init -> non_terminal ps init ->
    (forall root w, tree_for eps ps init root w -> prefix w tokens ->
       terminates_with (fun fuel => parse_from_tokens fuel self tokens) (Done (ResultOk root, []))) /\
    (forall fuel root h, parse_from_tokens fuel self tokens = Done (ResultOk root, h) ->
       h = [] /\ exists w, tree_for eps ps init root w /\ prefix w tokens).
Proof.
  intros L T E eps init ps solver self tokens B Hll Hlast Hrep Hlr Hend Hinit.
  exact (covering_order_any_solver tokens B (harmless_covering (built_built B) Hrep Hinit) Hll (nullable_last_order B Hlast)
           Hlr Hend Hinit).
Qed.

(** ** LL(1) with nullable alternatives last: Ok means the same with any solver *)
Theorem C99_nullable_last_any_solver :
  forall (L T : Type) (E : EqDec T) (eps init : T) (ps : list (production T))
         (solver : option (syntax_error_solver L T)) (self : parser L T) (tokens : list (token L T)),
    built_parser eps init ps solver self ->
    ll1 eps ps init -> nullable_last eps ps -> repeats_harmless eps ps init ->
    no_left_recursion_from eps ps init -> initial_ends_in_terminal eps ps init -> non_terminal ps init ->
    (forall root w, tree_for eps ps init root w -> prefix w tokens ->
       terminates_with (fun fuel => parse_from_tokens fuel self tokens) (Done (ResultOk root, []))) /\
    (forall fuel root h, parse_from_tokens fuel self tokens = Done (ResultOk root, h) ->
       h = [] /\ exists w, tree_for eps ps init root w /\ prefix w tokens).
Proof.
  intros L T E eps init ps solver self tokens B Hll Hlast.
  exact (reachable_last_any_solver tokens B (ll1_reachable Hll) (nullable_last_reachable Hlast)).
Qed.
Print Assumptions C99_nullable_last_any_solver.

(** ** Prefix-free symbols and an end marker: exactly the sentences, with any solver *)
Theorem C99_prefix_free_any_solver :
  forall (L T : Type) (E : EqDec T) (eps init eof : T) (ps : list (production T))
         (solver : option (syntax_error_solver L T)) (self : parser L T)
         (before : list (token L T)) (t : token L T),
    built_parser eps init ps solver self ->
    prefix_free_symbols eps ps -> repeats_harmless eps ps init ->
    no_left_recursion_from eps ps init -> eof_discipline eps ps init eof -> non_terminal ps init ->
    tok_type t = eof -> Forall (fun x => tok_type x <> eof) before ->
    ((exists root, tree_for eps ps init root (before ++ [t])) <->
     exists root, terminates_with (fun fuel => parse_from_tokens fuel self (before ++ [t])) (Done (ResultOk root, []))) /\
    (forall fuel root h, parse_from_tokens fuel self (before ++ [t]) = Done (ResultOk root, h) ->
       h = [] /\ tree_for eps ps init root (before ++ [t])).
Proof.
  intros L T E eps init eof ps solver self before t B Hpf Hrep Hlr He Hinit Ht Hb.
  pose proof (constructed_built B) as F.
  assert (Heps : ~ non_terminal ps eps) by apply (eps_not_nt (po_grammar (bf_of F))).
  assert (Hpp : prefix_free_productions eps ps).
  { intros p u v Hp Hr Hl H1 H2. apply (Hpf (p_input p) u v); auto;
      (eapply derives_trans; [now apply derives_production|assumption]). }
  assert (Hin : (exists root, tree_for eps ps init root (before ++ [t])) ->
     exists root, terminates_with (fun fuel => parse_from_tokens fuel self (before ++ [t])) (Done (ResultOk root, []))).
  { intros [root0 Htr]. pose proof (built_with_solver None B) as B1.
    destruct (@C25_prefix_free_partial L T E eps init eof ps (with_solver self None) (before ++ [t])) as [root Hr]; auto.
    - exact (tree_derives Htr).
    - exact (proj1 (tree_leaves_all eps ps) _ _ _ Htr).
    - exists root. exact (C99_fixed_extents_not_asked B B1 (or_introl Hpf) Hr). }
  assert (Hout : forall fuel root h, parse_from_tokens fuel self (before ++ [t]) = Done (ResultOk root, h) ->
       tree_for eps ps init root (before ++ [t])).
  { intros fuel root h Hr. destruct (C14_parse_trees_valid _ _ (built_constructed B) Hr) as (_ & _ & w & Hw & rest & Hp).
    destruct (sentence_ends_in_eof He Heps Hinit Hw) as (b & t' & -> & Ht').
    destruct rest as [|z rest] using rev_ind; [rewrite app_nil_r in Hp; now rewrite Hp|]. clear IHrest. exfalso.
    rewrite app_assoc in Hp. apply app_inj_tail in Hp as [Hp _].
    rewrite Hp in Hb. apply Forall_app in Hb as [Hb _]. apply Forall_app in Hb as [_ Hb].
    inversion Hb; subst. contradiction. }
  split.
  - split; auto. intros [root [_ [n Hr]]]. exists root. exact (Hout n root [] (Hr n (le_n n))).
  - intros fuel root h Hr. pose proof (Hout _ _ _ Hr) as Htr. split; auto.
    destruct (Hin (ex_intro _ root Htr)) as [root' Hr'].
    pose proof (terminates_unique (parse_terminates _ _ _ Hr ltac:(discriminate)) Hr') as Heq. now inversion Heq.
Qed.
Print Assumptions C99_prefix_free_any_solver.

(** ** A solver that was not asked could have been any other, or none *)
Theorem C99_unasked_solver_irrelevant :
  forall (L T : Type) (E : EqDec T) (eps init : T) (ps : list (production T))
         (s : syntax_error_solver L T) (solver' : option (syntax_error_solver L T))
         (self self' : parser L T) (tokens : list (token L T)) (fuel : nat) (res : parse_result L T),
    built_parser eps init ps (Some s) self -> built_parser eps init ps solver' self' ->
    parse_from_tokens fuel self tokens = Done (res, []) ->
    (exists root, res = ResultOk root) /\
    terminates_with (fun fuel => parse_from_tokens fuel self' tokens) (Done (res, [])).
Proof.
  intros L T E eps init ps s solver' self self' tokens fuel res B B' H.
  destruct tokens as [|tok rest]; [discriminate|].
  pose proof (parse_terminates _ _ _ H ltac:(discriminate)) as Ht.
  apply (C59_exact_semantics tok rest res [] B) in Ht as (r & Hd & ->).
  pose proof (built_with_solver solver' B) as B1.
  assert (H1 : terminates_with (fun fuel => parse_from_tokens fuel (with_solver self solver') (tok :: rest)) (Done (answer_of r, []))).
  { apply (C59_exact_semantics tok rest (answer_of r) [] B1). exists r. split; auto.
    exact (proj1 (unasked eps ps (tok :: rest) (candidates self) solver' eq_refl) _ _ _ _ _ _ _ Hd eq_refl). }
  split.
  - destruct r as [n q others|fs q|f]; cbn [answer_of] in *; [eauto| |].
    + destruct (C29_fix_needs_answer _ _ B H) as [_ Hf].
      destruct (Hf _ eq_refl) as (s' & h1 & c & h2 & fr & _ & Hh & _). now destruct h1.
    + exfalso. destruct (calls_grow eps ps (tok :: rest) (candidates self) (Some s)) as (_ & G & _).
      inversion Hd as [? ? ? ? ? ? ? Ha|? ? ? ? ? ? ? Ha Hno|? ? ? ? ? h' ? Ha|]; subst.
      * clear -Ha. remember (inl (DFailed f)) as r. induction Ha; try discriminate; auto.
        unfold built in Heqr. destruct (trees parts); discriminate.
      * destruct Hno; discriminate.
      * now destruct h'.
  - destruct H1 as [G1 [n G2]]. split; auto. exists n. intros fuel' Hf. rewrite <- (G2 fuel' Hf).
    now apply built_parse_eq with (eps := eps) (init := init) (ps := ps) (solver := solver').
Qed.
Print Assumptions C99_unasked_solver_irrelevant.

(** ** Cases *)

(** S = 1 -> A $ ; A = 2 -> a b | a c; a = 3, b = 4, c = 5, $ = 9: both alternatives of A
    are candidates on a.  The solver always answers that all is well at the end. *)
Definition pair_productions : list (production nat) :=
  [Production 1 [2; 9]; Production 2 [3; 4]; Production 2 [3; 5]].
Definition meddling_solver : syntax_error_solver nat nat :=
  fun _ c => Reply (Some (FixResult (length (call_tokens c)) (FixedProduction []))).
Definition pair_parser (s : option (syntax_error_solver nat nat)) : parser nat nat :=
  with_solver (get_done (no_parser 0) (build 0 1 pair_productions None 100)) s.

Lemma pair_built s : built_parser 0 1 pair_productions s (pair_parser s).
Proof.
  apply built_with_solver with (sol := None). apply build_built with (fuel := 100).
  vm_compute. reflexivity.
Qed.

(** what a symbol derives has a fixed length *)
Definition pair_length (x : nat) : nat := match x with 0 => 0 | 1 => 3 | 2 => 2 | _ => 1 end.

Lemma pair_lengths u v : derives 0 pair_productions u v ->
  list_sum (map pair_length u) = list_sum (map pair_length v).
Proof.
  induction 1 as [|u v w Hs _ IH]; auto. rewrite <- IH. clear IH.
  destruct Hs as [x y p Hp|x y]; rewrite !map_app, !list_sum_app.
  - simpl in Hp. decompose [or] Hp; subst; try contradiction; reflexivity.
  - simpl. lia.
Qed.

Lemma pair_prefix_free : prefix_free_symbols 0 pair_productions.
Proof.
  intros A u v _ Hl Hd1 Hd2. apply pair_lengths in Hd1, Hd2. rewrite Hd1, map_app, list_sum_app in Hd2.
  destruct v as [|x v]; auto. exfalso. apply Forall_app in Hl as [_ Hl]. inversion Hl as [|? ? [H1 H2] _]; subst.
  simpl in Hd2. assert (1 <= pair_length x) by (do 3 (destruct x as [|x]; simpl; [try lia|]); lia). lia.
Qed.

Example C99_fixed_extents_case :
  let tokens := [Token (Some 6) 3; Token (Some 7) 5; Token None 9] in
  built_parser 0 1 pair_productions (Some meddling_solver) (pair_parser (Some meddling_solver)) /\
  built_parser 0 1 pair_productions None (pair_parser None) /\
  prefix_free_symbols 0 pair_productions /\
  ~ conflict_free (pr_transitions (pair_parser None)) /\
  (exists root, terminates_with (fun fuel => parse_from_tokens fuel (pair_parser None) tokens) (Done (ResultOk root, []))) /\
  (* the solver does answer when the input is wrong *)
  (exists fs c c', parse_from_tokens 50 (pair_parser (Some meddling_solver)) [Token (Some 6) 3; Token None 9] =
     Done (ResultFix fs, [c; c'])).
Proof.
  intros tokens. splits.
  - apply pair_built.
  - apply pair_built.
  - exact pair_prefix_free.
  - intros H. specialize (H 2 3 [Production 2 [3; 4]; Production 2 [3; 5]] eq_refl). simpl in H. lia.
  - eexists. apply parse_terminates with (k := 50); [vm_compute; reflexivity|discriminate].
  - do 3 eexists. vm_compute. reflexivity.
Qed.

(** the grammar of C69_case with a solver that would answer *)
Example C99_nullable_last_case :
  let self := with_solver reordered_parser (Some meddling_solver) in
  built_parser 0 1 ll1_reordered (Some meddling_solver) self /\
  ll1 0 ll1_reordered 1 /\ nullable_last 0 ll1_reordered /\ repeats_harmless 0 ll1_reordered 1 /\
  no_left_recursion_from 0 ll1_reordered 1 /\ initial_ends_in_terminal 0 ll1_reordered 1 /\
  non_terminal ll1_reordered 1 /\ ~ conflict_free (pr_transitions self) /\
  (exists root, tree_for 0 ll1_reordered 1 root [Token (Some 9) 5; Token None 6; Token None 8]) /\
  (exists fs c c', parse_from_tokens 80 self [Token (Some 9) 5; Token None 8] = Done (ResultFix fs, [c; c'])).
Proof.
  intros self. destruct C69_case as (H1 & H2 & H3 & H4 & H5 & H6 & H7 & H8 & H9 & _ & H10).
  splits; auto.
  - exact (built_with_solver (Some meddling_solver) H1).
  - eapply eof_ends; eauto.
  - do 3 eexists. vm_compute. reflexivity.
Qed.

(** a settled tree where the parser does go back, below a choice *)
Example C99_settled_case :
  let tokens := [Token (Some 6) 3; Token (Some 7) 5; Token None 9] in
  exists root, settled 0 pair_productions tokens (candidates (pair_parser None)) 1 0 root 3.
Proof.
  intros tokens. eexists. eapply settled_single; [apply non_terminalb_spec; reflexivity|reflexivity|vm_compute; reflexivity|].
  econstructor; [|econstructor; [|constructor]].
  - eapply settled_choice; [apply non_terminalb_spec; reflexivity|reflexivity|vm_compute; discriminate|].
    change (candidates (pair_parser None) 2 _) with [[3; 4]; [3; 5]]. apply choose_next.
    + apply (@sequence_token _ _ 0 pair_productions _ _ [4] 0 (Token (Some 6) 3) None);
        [apply non_terminalb_false; reflexivity|discriminate|reflexivity|].
      apply sequence_mismatch; [apply non_terminalb_false; reflexivity|discriminate|].
      intros tok H. inversion H. discriminate.
    + apply choose_first.
      apply (@sequence_token _ _ 0 pair_productions _ _ [5] 0 (Token (Some 6) 3) (Some ([Node [] (Token (Some 7) 5)], 2)));
        [apply non_terminalb_false; reflexivity|discriminate|reflexivity|].
      apply (@sequence_token _ _ 0 pair_productions _ _ [] 1 (Token (Some 7) 5) (Some ([], 2)));
        [apply non_terminalb_false; reflexivity|discriminate|reflexivity|]. constructor.
  - apply (@settled_token _ _ 0 pair_productions tokens _ (Token None 9) 2); [discriminate|apply non_terminalb_false; reflexivity|reflexivity].
Qed.

(** the same grammar meets [C99_prefix_free_any_solver] *)
Example C99_prefix_free_case :
  prefix_free_symbols 0 pair_productions /\ repeats_harmless 0 pair_productions 1 /\
  no_left_recursion_from 0 pair_productions 1 /\ eof_discipline 0 pair_productions 1 9 /\
  non_terminal pair_productions 1 /\
  (exists root, parse_from_tokens 50 (pair_parser (Some meddling_solver))
     [Token (Some 6) 3; Token (Some 7) 5; Token None 9] = Done (ResultOk root, [])).
Proof.
  splits.
  - exact pair_prefix_free.
  - apply no_repeated_neighbours_harmless, no_repeated_neighbours_check. reflexivity.
  - apply no_left_recursion_anywhere, rank_check_ok with (N := fun x => Nat.eqb x 0)
      (rank := fun x => match x with 1 => 3 | 2 => 2 | 0 => 0 | _ => 1 end). reflexivity.
  - split; [discriminate|]. split; [apply non_terminalb_false; reflexivity|].
    split; [|split]; intros p Hp; simpl in Hp.
    + intros Hin. decompose [or] Hp; subst; simpl in Hin; intuition discriminate.
    + intros Hi. decompose [or] Hp; subst; try discriminate; try contradiction.
      exists [2]. split; [reflexivity|simpl; intuition discriminate].
    + intros Hi Hin. decompose [or] Hp; subst; simpl in Hin, Hi; intuition discriminate.
  - apply non_terminalb_spec. reflexivity.
  - eexists. vm_compute. reflexivity.
Qed.
