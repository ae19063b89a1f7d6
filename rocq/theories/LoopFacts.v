(** * Ordered choice ends or loops (proofs) *)

From Verif Require Import BaseFacts GrammarFacts DerivFacts.
From Verif Require Export LoopSpec ForeverFacts.

Set Implicit Arguments.

Section LoopFacts.
  Context {L T : Type} {E : EqDec T}.
  Variable eps : T.
  Variable ps : list (production T).
  Hypothesis Heps : ~ non_terminal ps eps.
  Variable tokens : list (token L T).
  Variable cands : T -> T -> list (list T).
  Notation choose := (choose eps ps tokens cands).
  Notation sequence := (sequence eps ps tokens cands).
  Notation branch := (branch eps ps tokens cands).
  Notation choose_past := (choose_past eps ps tokens cands).
  Notation sequence_past := (sequence_past eps ps tokens cands).
  Notation branch_past := (branch_past eps ps tokens cands).
  Notation choose_forever := (choose_forever eps ps tokens cands).
  Notation sequence_forever := (sequence_forever eps ps tokens cands).
  Notation branch_forever := (branch_forever eps ps tokens cands).
  Notation calls := (calls eps ps tokens cands).
  Notation sequence_calls := (sequence_calls eps ps tokens cands).
  Notation branch_calls := (branch_calls eps ps tokens cands).
  Notation loops := (loops eps ps tokens cands).
  Notation call := (@call T).
  Notation outs_t := (list (list T)).

  (** ** an infinite chain of calls is an infinite descent *)
  Section Chain.
    Variable Q : call -> Prop.
    Hypothesis HQ : forall c, Q c -> exists c', Q c' /\ calls c c'.

    CoFixpoint chain_choose X p outs c' : calls (X, p, outs) c' -> Q c' -> choose_forever X p outs
    with chain_sequence Xs p c' : sequence_calls Xs p c' -> Q c' -> sequence_forever Xs p
    with chain_branch X p outs Xs c' : branch_calls X p outs Xs c' -> Q c' -> branch_forever X p outs Xs.
    Proof.
      - intros H Hc. inversion H as [? ? out outs0 ? H1|? ? out outs0 ? H1 H2]; subst.
        + apply choose_forever_first. exact (chain_sequence _ _ _ H1 Hc).
        + apply choose_forever_next; [exact H1|]. exact (chain_choose _ _ _ _ H2 Hc).
      - intros H Hc. inversion H as [Xs0 ? ? H1|Xs0 ? tok ? H1 H2 H3 H4|X Xs0 ? tok ? H1 H2 H3]; subst.
        + apply sequence_forever_epsilon. exact (chain_sequence _ _ _ H1 Hc).
        + apply sequence_forever_token; [exact H1|exact H2|exact H3|]. exact (chain_sequence _ _ _ H4 Hc).
        + apply sequence_forever_non_terminal with (tok := tok); [exact H1|exact H2|].
          exact (chain_branch _ _ _ _ _ H3 Hc).
      - intros H Hc. inversion H as [| ? ? ? ? n q outs' ? H1 H2|? ? ? ? n q outs' ? H1 H2 H3]; subst.
        + apply branch_forever_here. destruct (HQ Hc) as (c' & Hc' & Hcall).
          exact (chain_choose _ _ _ _ Hcall Hc').
        + apply branch_forever_after with (1 := H1). exact (chain_sequence _ _ _ H2 Hc).
        + apply branch_forever_retry with (1 := H1); [exact H2|]. exact (chain_branch _ _ _ _ _ H3 Hc).
    Qed.
  End Chain.

  Lemma loops_forever X p outs : loops (X, p, outs) -> choose_forever X p outs.
  Proof.
    intros (d & Hd & Hloop).
    assert (Hone : forall c, clos_trans_1n _ calls c d -> exists c', clos_trans_1n _ calls c' d /\ calls c c').
    { intros c Hc. inversion Hc as [? H|c' ? H H']; subst; eauto. }
    assert (Hp : clos_trans_1n _ calls (X, p, outs) d).
    { clear Hone. induction Hd as [|x y z H _ IH]; auto. eapply Relation_Operators.t1n_trans; eauto. }
    destruct (Hone _ Hp) as (c1 & Hc1 & Hcall).
    exact (@chain_choose (fun c => clos_trans_1n _ calls c d) Hone X p outs c1 Hcall Hc1).
  Qed.

  (** ** evaluation to a given depth *)
  Inductive ans (R : Type) : Type := Ended (r : R) | PastEnd | Deep.
  Arguments Ended {R}. Arguments PastEnd {R}. Arguments Deep {R}.

  Section Eval.
    Variable rec : T -> nat -> outs_t -> ans (option (node L T * nat * outs_t)).

    Fixpoint branch_e (m : nat) (X : T) (p : nat) (outs : outs_t)
             (k : nat -> ans (option (list (node L T) * nat))) : ans (option (list (node L T) * nat)) :=
      match rec X p outs with
      | Deep => Deep
      | PastEnd => PastEnd
      | Ended None => Ended None
      | Ended (Some (n, q, outs')) =>
          match k q with
          | Deep => Deep
          | PastEnd => PastEnd
          | Ended (Some (ns, q')) => Ended (Some (n :: ns, q'))
          | Ended None => match m with O => Deep | S m' => branch_e m' X p outs' k end
          end
      end.

    Fixpoint sequence_e (Xs : list T) (p : nat) : ans (option (list (node L T) * nat)) :=
      match Xs with
      | [] => Ended (Some ([], p))
      | X :: Xs' =>
          if eq_dec X eps then
            match sequence_e Xs' p with
            | Ended r => Ended (consed (Node [] (Token None eps)) r)
            | PastEnd => PastEnd
            | Deep => Deep
            end
          else if non_terminal_dec ps X then
            match nth_error tokens p with
            | None => PastEnd
            | Some tok => branch_e (length (cands X (tok_type tok))) X p (cands X (tok_type tok)) (sequence_e Xs')
            end
          else
            match nth_error tokens p with
            | None => Ended None
            | Some tok =>
                if eq_dec (tok_type tok) X then
                  match sequence_e Xs' (p + 1) with
                  | Ended r => Ended (consed (Node [] tok) r)
                  | PastEnd => PastEnd
                  | Deep => Deep
                  end
                else Ended None
            end
      end.

    Fixpoint choose_e (X : T) (p : nat) (outs : outs_t) : ans (option (node L T * nat * outs_t)) :=
      match outs with
      | [] => Ended None
      | out :: outs' =>
          match sequence_e out p with
          | Ended (Some (ns, q)) => Ended (Some (Node ns (Token None X), q, outs'))
          | Ended None => choose_e X p outs'
          | PastEnd => PastEnd
          | Deep => Deep
          end
      end.
  End Eval.

  Fixpoint choose_n (n : nat) : T -> nat -> outs_t -> ans (option (node L T * nat * outs_t)) :=
    match n with
    | O => fun _ _ _ => Deep
    | S n' => choose_e (choose_n n')
    end.

  Lemma choose_outs X p outs n q outs' : choose X p outs (Some (n, q, outs')) -> length outs' < length outs.
  Proof.
    intros H. remember (Some (n, q, outs')) as r eqn:Hr.
    revert Hr. induction H; intros Hr; inversion Hr; subst; simpl; try lia.
    specialize (IHchoose eq_refl). lia.
  Qed.

  Section EvalFacts.
    Variable rec : T -> nat -> outs_t -> ans (option (node L T * nat * outs_t)).
    (** the calls [rec] cannot answer *)
    Definition deep (c : call) : Prop := match c with (X, p, outs) => rec X p outs = Deep end.
    Hypothesis Hrec : forall X p outs,
      match rec X p outs with
      | Ended r => choose X p outs r
      | PastEnd => choose_past X p outs
      | Deep => True
      end.

    Definition seq_spec Xs p (a : ans (option (list (node L T) * nat))) : Prop :=
      match a with
      | Ended r => sequence Xs p r
      | PastEnd => sequence_past Xs p
      | Deep => exists c', sequence_calls Xs p c' /\ deep c'
      end.

    Lemma branch_e_spec k Xs : (forall q, seq_spec Xs q (k q)) ->
      forall m X p outs, length outs <= m ->
      match branch_e rec m X p outs k with
      | Ended r => branch X p outs Xs r
      | PastEnd => branch_past X p outs Xs
      | Deep => exists c', branch_calls X p outs Xs c' /\ deep c'
      end.
    Proof.
      intros Hk. induction m as [|m IH]; intros X p outs Hm; simpl;
        pose proof (Hrec X p outs) as HR; destruct (rec X p outs) as [[[[n q] outs']|]| |] eqn:Hr.
      - exfalso. apply choose_outs in HR. lia.
      - now apply branch_fail.
      - now apply branch_past_here.
      - exists (X, p, outs). split; [constructor|exact Hr].
      - specialize (Hk q). destruct (k q) as [[[ns q']|]| |]; simpl in Hk.
        + eapply branch_ok; eauto.
        + pose proof (choose_outs HR) as Hl. specialize (IH X p outs' ltac:(lia)).
          destruct (branch_e rec m X p outs' k) as [r| |].
          * eapply branch_retry; eauto.
          * eapply branch_past_retry; eauto.
          * destruct IH as (c' & Hc & Hd). exists c'. split; auto. eapply branch_calls_retry; eauto.
        + eapply branch_past_after; eauto.
        + destruct Hk as (c' & Hc & Hd). exists c'. split; auto. eapply branch_calls_after; eauto.
      - now apply branch_fail.
      - now apply branch_past_here.
      - exists (X, p, outs). split; [constructor|exact Hr].
    Qed.

    Lemma sequence_e_spec Xs : forall p, seq_spec Xs p (sequence_e rec Xs p).
    Proof.
      induction Xs as [|X Xs IH]; intros p; simpl; [constructor|].
      destruct (eq_dec X eps) as [->|He].
      - specialize (IH p). destruct (sequence_e rec Xs p) as [r| |]; simpl in *.
        + now apply sequence_epsilon.
        + now apply sequence_past_epsilon.
        + destruct IH as (c' & Hc & Hd). exists c'. split; auto. now apply sequence_calls_epsilon.
      - destruct (non_terminal_dec ps X) as [HX|HX].
        + destruct (nth_error tokens p) as [tok|] eqn:Htok; [|now apply sequence_past_end].
          pose proof (@branch_e_spec (sequence_e rec Xs) Xs IH _ X p (cands X (tok_type tok)) (le_n _)) as Hb.
          destruct (branch_e rec _ X p _ _) as [r| |]; simpl.
          * eapply sequence_non_terminal; eauto.
          * eapply sequence_past_non_terminal; eauto.
          * destruct Hb as (c' & Hc & Hd). exists c'. split; auto. eapply sequence_calls_non_terminal; eauto.
        + destruct (nth_error tokens p) as [tok|] eqn:Htok.
          2:{ apply sequence_mismatch; auto. congruence. }
          destruct (eq_dec (tok_type tok) X) as [<-|Hne].
          2:{ apply sequence_mismatch; auto. congruence. }
          specialize (IH (p + 1)). destruct (sequence_e rec Xs (p + 1)) as [r| |]; simpl in *.
          * eapply sequence_token; eauto.
          * eapply sequence_past_token; eauto.
          * destruct IH as (c' & Hc & Hd). exists c'. split; auto. eapply sequence_calls_token; eauto.
    Qed.

    Lemma choose_e_spec X p outs :
      match choose_e rec X p outs with
      | Ended r => choose X p outs r
      | PastEnd => choose_past X p outs
      | Deep => exists c', calls (X, p, outs) c' /\ deep c'
      end.
    Proof.
      induction outs as [|out outs IH]; simpl; [constructor|].
      pose proof (sequence_e_spec out p) as Hs.
      destruct (sequence_e rec out p) as [[[ns q]|]| |]; simpl in Hs.
      - now apply choose_first.
      - destruct (choose_e rec X p outs) as [r| |].
        + now apply choose_next.
        + now apply choose_past_next.
        + destruct IH as (c' & Hc & Hd). exists c'. split; auto. now apply calls_next.
      - now apply choose_past_first.
      - destruct Hs as (c' & Hc & Hd). exists c'. split; auto. now apply calls_first.
    Qed.
  End EvalFacts.

  Lemma choose_n_spec n : forall X p outs,
    match choose_n n X p outs with
    | Ended r => choose X p outs r
    | PastEnd => choose_past X p outs
    | Deep => True
    end.
  Proof.
    induction n as [|n IH]; intros X p outs; simpl; auto.
    pose proof (@choose_e_spec _ IH X p outs) as H. destruct (choose_e _ X p outs); auto.
  Qed.

  Definition deep_at n : call -> Prop := deep (choose_n n).

  Lemma deep_step n c : deep_at (S n) c -> exists c', calls c c' /\ deep_at n c'.
  Proof.
    destruct c as [[X p] outs]. unfold deep_at, deep. simpl. intros H.
    pose proof (@choose_e_spec (choose_n n) (choose_n_spec n) X p outs) as Hs. now rewrite H in Hs.
  Qed.

  (** ** finitely many calls *)
  Definition suffixes (outs : outs_t) : list outs_t :=
    map (fun i => skipn i outs) (seq 0 (S (length outs))).

  Lemma suffix_In outs pre suf : outs = pre ++ suf -> In suf (suffixes outs).
  Proof.
    intros ->. apply in_map_iff. exists (length pre). split.
    - rewrite skipn_app, skipn_all, Nat.sub_diag. reflexivity.
    - apply in_seq. rewrite app_length. lia.
  Qed.

  (** the calls made below others *)
  Definition all_calls : list call :=
    flat_map (fun X => flat_map (fun p =>
      match nth_error tokens p with
      | None => []
      | Some tok => map (fun s => (X, p, s)) (suffixes (cands X (tok_type tok)))
      end) (seq 0 (length tokens))) (map (@p_input T) ps).

  Scheme calls_mut := Minimality for LoopSpec.calls Sort Prop
    with sequence_calls_mut := Minimality for LoopSpec.sequence_calls Sort Prop
    with branch_calls_mut := Minimality for LoopSpec.branch_calls Sort Prop.
  Combined Scheme calls_mutind from calls_mut, sequence_calls_mut, branch_calls_mut.

  Lemma choose_suffix X p outs n q outs' : choose X p outs (Some (n, q, outs')) ->
    exists pre, outs = pre ++ outs'.
  Proof.
    intros H. remember (Some (n, q, outs')) as r eqn:Hr.
    revert Hr. induction H; intros Hr; inversion Hr; subst.
    - exists [out]. reflexivity.
    - destruct (IHchoose eq_refl) as [pre ->]. exists (out :: pre). reflexivity.
  Qed.

  Lemma called_all :
    (forall c c', calls c c' -> In c' all_calls) /\
    (forall Xs p c', sequence_calls Xs p c' -> In c' all_calls) /\
    (forall X p outs Xs c', branch_calls X p outs Xs c' ->
       forall tok pre, non_terminal ps X -> nth_error tokens p = Some tok ->
       cands X (tok_type tok) = pre ++ outs -> In c' all_calls).
  Proof.
    apply calls_mutind; auto.
    - intros X Xs p tok c' HX Htok _ IH. apply (IH tok []); auto.
    - intros X p outs Xs tok pre (pr & Hp & Hi) Htok Hc. unfold all_calls.
      apply in_flat_map. exists X. split; [apply in_map_iff; eauto|].
      apply in_flat_map. exists p. split.
      + apply in_seq. split; [lia|]. simpl. apply nth_error_Some. congruence.
      + rewrite Htok. apply in_map. eapply suffix_In; eauto.
    - intros X p outs Xs n q outs' c' H _ _ IH tok pre HX Htok Hc. apply choose_suffix in H as [pre' ->].
      apply (IH tok (pre ++ pre')); auto. now rewrite <- app_assoc.
  Qed.

  Lemma outs_eq_dec (x y : outs_t) : {x = y} + {x <> y}.
  Proof. apply list_eq_dec, list_eq_dec, eq_dec. Qed.

  Lemma call_eq_dec (x y : call) : {x = y} + {x <> y}.
  Proof.
    destruct x as [[X p] o], y as [[Y q] o']. destruct (eq_dec X Y), (Nat.eq_dec p q), (outs_eq_dec o o');
      subst; auto; right; congruence.
  Qed.

  Notation calls_star := (clos_refl_trans_1n _ calls).
  Notation calls_plus := (clos_trans_1n _ calls).

  Lemma star_plus a b : calls_star a b -> a = b \/ calls_plus a b.
  Proof.
    induction 1 as [|x y z H _ IH]; auto. right.
    destruct IH as [->|IH]; [now apply Relation_Operators.t1n_step|eapply Relation_Operators.t1n_trans; eauto].
  Qed.

  Lemma plus_star a b c : calls_plus a b -> calls_star b c -> calls_plus a c.
  Proof.
    intros H1 H2. apply star_plus in H2 as [->|H2]; auto.
    apply clos_trans_t1n_iff. apply clos_trans_t1n_iff in H1, H2. eapply t_trans; eauto.
  Qed.

  (** paths of calls, latest first *)
  Inductive path : list call -> Prop :=
  | path_one c : path [c]
  | path_cons c c' l : calls c c' -> path (c :: l) -> path (c' :: c :: l).

  Lemma deep_path n : forall c l, path (c :: l) -> deep_at n c ->
    exists l', path (l' ++ c :: l) /\ length l' = n.
  Proof.
    induction n as [|n IH]; intros c l Hp Hd; [exists []; auto|].
    apply deep_step in Hd as (c' & Hcall & Hd).
    destruct (IH c' (c :: l) (path_cons Hcall Hp) Hd) as (l' & Hl & Hlen).
    exists (l' ++ [c']). split; [now rewrite <- app_assoc|]. rewrite app_length. simpl. lia.
  Qed.

  Lemma path_reaches x y l : path (x :: l) -> In y l -> calls_plus y x.
  Proof.
    revert x. induction l as [|z l IH]; intros x H Hy; [destruct Hy|].
    inversion H as [|? ? ? Hc Hp]; subst. destruct Hy as [->|Hy].
    - now apply Relation_Operators.t1n_step.
    - apply plus_star with z; [now apply IH|]. eapply Relation_Operators.rt1n_trans; [exact Hc|constructor].
  Qed.

  Lemma path_app l l' : path (l ++ l') -> l' <> [] -> path l'.
  Proof.
    induction l as [|x l IH]; auto. intros H Hl. simpl in H. apply IH; auto.
    remember (x :: l ++ l') as m eqn:Hm. destruct H as [y|y y' m Hc Hp]; inversion Hm; subst; auto.
    destruct l; simpl in *; [now elim Hl|discriminate].
  Qed.

  Lemma path_start l c : path (l ++ [c]) -> forall x, In x (l ++ [c]) -> calls_star c x.
  Proof.
    induction l as [|y l IH]; simpl.
    - intros _ x [<-|[]]. constructor.
    - intros H x [<-|Hx].
      + assert (Hp : calls_plus c y) by (eapply path_reaches; [exact H|apply in_elt]).
        apply clos_rt_rt1n_iff. apply clos_trans_t1n_iff in Hp. clear - Hp.
        induction Hp; [now apply rt_step|eapply rt_trans; eauto].
      + apply IH; auto. apply (path_app [y]); [exact H|]. destruct l; discriminate.
  Qed.

  Lemma not_nodup_split (l : list call) : ~ NoDup l ->
    exists l1 x l2, l = l1 ++ x :: l2 /\ In x l2.
  Proof.
    induction l as [|x l IH]; intros H; [elim H; constructor|].
    destruct (in_dec call_eq_dec x l) as [Hx|Hx].
    - exists [], x, l. auto.
    - destruct IH as (l1 & y & l2 & -> & Hy).
      + intros Hn. apply H. now constructor.
      + exists (x :: l1), y, l2. auto.
  Qed.

  Lemma deep_loop c : deep_at (S (length all_calls)) c -> loops c.
  Proof.
    intros Hd. destruct (deep_path _ (path_one c) Hd) as (l & Hp & Hlen).
    assert (Hall : forall x, In x l -> In x all_calls).
    { clear - Hp Hp. induction l as [|y l IH]; intros x [].
      - subst y. simpl in Hp. remember (x :: l ++ [c]) as m eqn:Hm.
        destruct Hp as [y|y y' m Hc Hp]; inversion Hm; subst; [destruct l; discriminate|].
        exact (proj1 called_all _ _ Hc).
      - apply IH; auto. apply (path_app [y]); [exact Hp|]. destruct l; discriminate. }
    assert (Hdup : ~ NoDup l).
    { intros Hn. pose proof (NoDup_incl_length Hn Hall). lia. }
    apply not_nodup_split in Hdup as (l1 & x & l2 & -> & Hx).
    exists x. split.
    - eapply path_start; [exact Hp|]. apply in_or_app. left. apply in_elt.
    - assert (Hp' : path (x :: l2 ++ [c])).
      { apply (path_app l1); [|discriminate]. now rewrite <- app_assoc in Hp. }
      eapply path_reaches; [exact Hp'|]. apply in_or_app. auto.
  Qed.

  (** ** ordered choice ends or loops *)
  Lemma ends_or_loops X p outs :
    (exists r, choose X p outs r) \/ choose_past X p outs \/ loops (X, p, outs).
  Proof.
    pose proof (choose_n_spec (S (length all_calls)) X p outs) as H.
    destruct (choose_n (S (length all_calls)) X p outs) as [r| |] eqn:Hn; eauto.
    right; right. apply deep_loop. exact Hn.
  Qed.
End LoopFacts.
