(** * Without a solver, reading past the end is ordered choice reading past the end (proofs) *)

From Verif Require Import BaseFacts GrammarFacts DerivFacts.
From Verif Require Export ParserChoice.

Set Implicit Arguments.

Scheme choose_past_mut := Minimality for choose_past Sort Prop
with sequence_past_mut := Minimality for sequence_past Sort Prop
with branch_past_mut := Minimality for branch_past Sort Prop.
Combined Scheme past_choice_mutind from choose_past_mut, sequence_past_mut, branch_past_mut.

Section PastChoice.
  Context {L T : Type} {E : EqDec T}.
  Context {eps init : T} {ps : list (production T)} {self : parser L T}.
  Hypothesis P : parser_of eps init ps self.
  Hypothesis Hns : pr_solver self = None.
  Variable tokens : list (token L T).
  Let G := po_grammar P.
  Notation cands := (inner_get_token_productions self).
  Notation choose := (choose eps ps tokens cands).
  Notation sequence := (sequence eps ps tokens cands).
  Notation branch := (branch eps ps tokens cands).
  Notation choose_past := (choose_past eps ps tokens cands).
  Notation sequence_past := (sequence_past eps ps tokens cands).
  Notation branch_past := (branch_past eps ps tokens cands).
  Notation cstack := (@cstack L T ps).
  Let CS := code_to_spec P Hns tokens.

  (** ** code to spec *)

  (** backtracking from a failure with [rest] pending reads past the end *)
  Inductive resume_past : list (state L T) -> list T -> list T -> Prop :=
  | rp_leaf st states X syms rest :
      ps_prod_iter_option st = None -> resume_past states syms (X :: rest) ->
      resume_past (StParsing st :: states) (X :: syms) rest
  | rp_here st states X syms rest it :
      ps_prod_iter_option st = Some it ->
      branch_past X (ps_initial_token_position st) it rest ->
      resume_past (StParsing st :: states) (X :: syms) rest
  | rp_next st states X syms rest it :
      ps_prod_iter_option st = Some it ->
      branch X (ps_initial_token_position st) it rest None ->
      resume_past states syms (X :: rest) ->
      resume_past (StParsing st :: states) (X :: syms) rest.

  Definition going_past states syms rest pos : Prop :=
    sequence_past rest pos \/ (sequence rest pos None /\ resume_past states syms rest).

  Lemma step_leaf Y pos child h st h' : RStep self tokens Y pos child h (SymOk st) h' ->
    ps_prod_iter_option st = None ->
    forall Xs, sequence_past Xs (ps_final_token_position st) -> sequence_past (Y :: Xs) pos.
  Proof.
    intros HS Hit Xs Hx. remember (SymOk st) as r eqn:Hr.
    destruct HS as [Y pos child h tok r h' Hnt Htok HR|Y pos child h Hnt]; [subst r|].
    - apply (proj1 CS) in HR as (_ & (o & _ & Ho) & _). simpl in Ho.
      destruct Ho as (it & Ho & _). congruence.
    - apply (is_non_terminal_false G) in Hnt. revert Hr.
      unfold inner_parse_terminal_symbol, get_epsilon_symbol. rewrite (go_eps G).
      destruct (eqb eps Y) eqn:He.
      + apply eqb_iff in He; subst Y. intros Hr. inversion Hr; subst st. simpl in Hx.
        now apply sequence_past_epsilon.
      + apply eqb_ne_iff in He. unfold inner_parse_non_epsilon_terminal_symbol.
        destruct (nth_error tokens pos) as [tok|] eqn:Htok; [|discriminate].
        destruct (eqb Y (tok_type tok)) eqn:Ht; [|discriminate].
        apply eqb_iff in Ht; subst Y. intros Hr. inversion Hr; subst st. simpl in Hx.
        apply sequence_past_token; auto.
  Qed.

  Lemma pop_going states child failed h states' popped h' :
    RPop self tokens states child failed h states' popped h' -> popped = None ->
    forall syms rest, cstack states syms ->
    exists st' states'' syms' rest', states' = st' :: states'' /\ cstack states' syms' /\
      rev syms ++ rest = rev syms' ++ rest' /\
      (going_past states' syms' rest' (state_final_token_position st') ->
       resume_past states syms rest).
  Proof.
    induction 1 as [child failed h|fs states child failed h states' popped h' _ IH
                   |st states child failed h states' popped h' Hit _ IH
                   |st it states child failed h ps' h' Hit HR
                   |st it states child failed h r h' states' popped h'' Hit HR Hr _ IH];
      intros Hpop syms rest Hs; subst.
    - discriminate.
    - inversion Hs.
    - inversion Hs as [|st0 states0 X syms0 Hs0 Hit0|st0 states0 X syms0 it0 Hs0 Hit0]; subst;
        [|congruence].
      destruct (IH eq_refl syms0 (X :: rest) Hs0) as (st' & states'' & syms' & rest' & Heq & Hs' & Hout & Hk).
      exists st', states'', syms', rest'. split; auto. split; auto. split.
      + simpl. rewrite <- app_assoc. exact Hout.
      + intros Hg. apply rp_leaf; auto.
    - inversion Hs as [|st0 states0 X syms0 Hs0 Hit0|st0 states0 X syms0 it0 Hs0 Hit0 Hnt HX]; subst;
        [congruence|].
      apply (proj1 CS) in HR as (-> & (o & Ho1 & Ho2) & Hp).
      simpl in Ho2. destruct Ho2 as (it' & Hit' & ->). destruct (Hp ps' eq_refl) as [Hp1 Hp2].
      set (X := tok_type (node_token (ps_node st))) in *.
      exists (StParsing ps'), states, (X :: syms0), rest. split; auto.
      split; [eapply cstack_choice; eauto|]. split; auto.
      intros [Hg|[Hg1 Hg2]]; simpl in *.
      + eapply rp_here; [exact Hit|]. eapply branch_past_after; eauto.
      + inversion Hg2 as [? ? ? ? ? Hx|? ? ? ? ? it1 Hx Hb|? ? ? ? ? it1 Hx Hb Hre]; subst; [congruence| |].
        * assert (it1 = it') by congruence. subst it1. rewrite Hp1 in Hb.
          eapply rp_here; [exact Hit|]. eapply branch_past_retry; eauto.
        * assert (it1 = it') by congruence. subst it1. rewrite Hp1 in Hb.
          eapply rp_next; [exact Hit| |exact Hre]. eapply branch_retry; eauto.
    - inversion Hs as [|st0 states0 X syms0 Hs0 Hit0|st0 states0 X syms0 it0 Hs0 Hit0 Hnt HX]; subst;
        [congruence|].
      apply (proj1 CS) in HR as (-> & (o & Ho1 & Ho2) & Hp).
      assert (o = None).
      { destruct r as [st1|e|f]; simpl in Ho2; auto; [exfalso; now apply (Hr st1)|destruct Ho2]. }
      subst o.
      destruct (IH eq_refl syms0 (tok_type (node_token (ps_node st)) :: rest) Hs0)
        as (st' & states'' & syms' & rest' & Heq & Hs' & Hout & Hk).
      exists st', states'', syms', rest'. split; auto. split; auto. split.
      + simpl. rewrite <- app_assoc. exact Hout.
      + intros Hg. eapply rp_next; [exact Hit|now apply branch_fail|auto].
  Qed.

  Lemma out_next states syms rest out Y : cstack states syms -> out = rev syms ++ rest ->
    nth_error out (length states) = Some Y -> exists rest0, rest = Y :: rest0.
  Proof.
    intros Hs -> HY. rewrite (cstack_length Hs), <- (rev_length syms), nth_error_app2, Nat.sub_diag in HY by lia.
    destruct rest as [|y rest]; [discriminate|]. simpl in HY. inversion HY; subst y. eauto.
  Qed.

  Lemma past_code_to_spec :
    (forall X pos prods single h, PSym self tokens X pos prods single h -> choose_past X pos prods) /\
    (forall X pos child prods failed h, PTry self tokens X pos child prods failed h ->
       choose_past X pos prods) /\
    (forall X out child states pos h, PProd self tokens X out child states pos h ->
       forall syms rest, cstack states syms -> out = rev syms ++ rest ->
       going_past states syms rest pos) /\
    (forall Y pos child h, PStep self tokens Y pos child h -> forall Xs, sequence_past (Y :: Xs) pos) /\
    (forall states child failed h, PPop self tokens states child failed h ->
       forall syms rest, cstack states syms -> resume_past states syms rest).
  Proof.
    destruct CS as (CSym & CTry & CProd & CStep & CPop).
    apply past_mutind.
    - auto.
    - intros X pos child out rest failed h _ IH. apply choose_past_first.
      destruct (IH [] out) as [H|[_ H]]; [constructor|reflexivity|auto|inversion H].
    - intros X pos child out rest failed h fp pos' h' HP _ IH.
      apply choose_past_next; auto. apply CProd in HP as (_ & HP).
      destruct (HP [] out) as (o & r & Hs & Hr & ->); [constructor|reflexivity|].
      inversion Hr; subst. exact Hs.
    - intros X out child states pos h Y HY _ IH syms rest Hs Ho.
      destruct (out_next _ Hs Ho HY) as (rest0 & ->). left. apply IH.
    - intros X out child states pos h Y st h' HY HS _ IH syms rest Hs Ho.
      destruct (out_next _ Hs Ho HY) as (rest0 & ->).
      pose proof (CStep _ _ _ _ _ _ HS) as (-> & Hi & IH1).
      destruct (ps_prod_iter_option st) as [it|] eqn:Hit.
      + destruct IH1 as (Hnt & Htt & tok & Htok & Hch).
        destruct (IH (Y :: syms) rest0) as [Hg|[Hg1 Hg2]].
        { eapply cstack_choice; eauto. }
        { subst out. simpl. now rewrite <- app_assoc. }
        * left. eapply sequence_past_non_terminal; eauto. eapply branch_past_after; eauto.
        * inversion Hg2 as [? ? ? ? ? Hx|? ? ? ? ? it1 Hx Hb|? ? ? ? ? it1 Hx Hb Hre]; subst; [congruence| |];
            assert (it1 = it) by congruence; subst it1.
          -- left. eapply sequence_past_non_terminal; eauto. eapply branch_past_retry; eauto.
          -- right. split; auto. eapply sequence_non_terminal; eauto. eapply branch_retry; eauto.
      + destruct (IH (Y :: syms) rest0) as [Hg|[Hg1 Hg2]].
        { eapply cstack_leaf; eauto. }
        { subst out. simpl. now rewrite <- app_assoc. }
        * left. eapply step_leaf; eauto.
        * inversion Hg2; subst; try congruence. right. split; auto.
          exact (IH1 _ _ Hg1).
    - intros X out child states pos h Y fs h' HY HS. apply CStep in HS as (_ & []).
    - intros X out child states pos h Y fs h' HY HS _ IH syms rest Hs Ho.
      destruct (out_next _ Hs Ho HY) as (rest0 & ->). apply CStep in HS as (_ & HS). right. auto.
    - intros X out child states pos h Y fs h' st states' h'' HY HS HP _ IH syms rest Hs Ho.
      destruct (out_next _ Hs Ho HY) as (rest0 & ->). apply CStep in HS as (_ & HS).
      destruct (pop_going HP eq_refl (Y :: rest0) Hs) as (st' & states'' & syms' & rest' & Heq & Hs' & Hout & Hk).
      inversion Heq; subst st' states''. right. split; auto. apply Hk. apply IH; auto. congruence.
    - intros Y pos child h Hnt Htok Xs. apply (is_non_terminal_spec G) in Hnt.
      now apply sequence_past_end.
    - intros Y pos child h tok Hnt Htok _ IH Xs. apply (is_non_terminal_spec G) in Hnt.
      eapply sequence_past_non_terminal; eauto. now apply branch_past_here.
    - intros fs states child failed h _ _ syms rest Hs. inversion Hs.
    - intros st states child failed h Hit _ IH syms rest Hs.
      inversion Hs as [|st0 states0 X syms0 Hs0 Hit0|st0 states0 X syms0 it0 Hs0 Hit0]; subst; [|congruence].
      apply rp_leaf; auto.
    - intros st it states child failed h Hit _ IH syms rest Hs.
      inversion Hs as [|st0 states0 X syms0 Hs0 Hit0|st0 states0 X syms0 it0 Hs0 Hit0 Hnt HX]; subst; [congruence|].
      eapply rp_here; [exact Hit|]. now apply branch_past_here.
    - intros st it states child failed h r h' Hit HR Hr _ IH syms rest Hs.
      inversion Hs as [|st0 states0 X syms0 Hs0 Hit0|st0 states0 X syms0 it0 Hs0 Hit0 Hnt HX]; subst; [congruence|].
      apply CSym in HR as (-> & (o & Ho1 & Ho2) & Hp).
      assert (o = None).
      { destruct r as [st1|e|f]; simpl in Ho2; auto; [exfalso; now apply (Hr st1)|destruct Ho2]. }
      subst o. eapply rp_next; [exact Hit|now apply branch_fail|auto].
  Qed.

  (** ** spec to code *)
  Definition past_seq (Xs : list T) (p : nat) : Prop :=
    forall X out child states syms h, cstack states syms -> out = rev syms ++ Xs ->
      PProd self tokens X out child states p h.

  Definition past_branch (X : T) (p : nat) (outs : list (list T)) (Xs : list T) : Prop :=
    non_terminal ps X ->
    (forall tok, nth_error tokens p = Some tok -> outs = cands X (tok_type tok) ->
       past_seq (X :: Xs) p) /\
    (forall X0 out child st states syms h,
       ps_prod_iter_option st = Some outs -> ps_initial_token_position st = p ->
       tok_type (node_token (ps_node st)) = X ->
       cstack states syms -> out = rev syms ++ X :: Xs ->
       pops (self := self) tokens X0 out child (StParsing st :: states) h EPast).

  Lemma past_spec_to_code :
    (forall X p outs, choose_past X p outs -> forall child failed h,
       PTry self tokens X p child outs failed h) /\
    (forall Xs p, sequence_past Xs p -> past_seq Xs p) /\
    (forall X p outs Xs, branch_past X p outs Xs -> past_branch X p outs Xs).
  Proof.
    destruct (spec_to_code P Hns tokens) as (SC & SS & SB).
    apply past_choice_mutind.
    - intros X p out outs _ IH child failed h. apply PTry_here.
      apply (IH X out child [] [] h (@cstack_nil L T ps) eq_refl).
    - intros X p out outs Hs _ IH child failed h.
      destruct (SS _ _ _ Hs X out child [] [] h (@cstack_nil L T ps) eq_refl EErr) as (fp & pos' & HP).
      { left. split; auto. exists []. intros f. apply RPop_nil. }
      eapply PTry_next; eauto.
    - intros X Xs p Hnt Htok X0 out child states syms h Hs Ho. subst out.
      eapply PProd_step; [apply nth_after, (cstack_length Hs)|].
      apply PStep_end; auto. now apply (is_non_terminal_spec G).
    - intros Xs p _ IH X out child states syms h Hs Ho. subst out.
      assert (HN : is_non_terminal (pr_grammar self) eps = false)
        by (apply (is_non_terminal_false G); apply (eps_not_nt G)).
      pose proof (RStep_t self tokens eps p child h HN) as HR.
      unfold inner_parse_terminal_symbol, get_epsilon_symbol in HR. rewrite (go_eps G), eqb_self in HR.
      eapply PProd_ok; [apply nth_after, (cstack_length Hs)|exact HR|]. simpl.
      apply (IH _ _ _ _ (eps :: syms)); [now apply cstack_leaf|]. simpl. now rewrite <- app_assoc.
    - intros Xs p tok Hnt He Htok _ IH X out child states syms h Hs Ho. subst out.
      assert (HN : is_non_terminal (pr_grammar self) (tok_type tok) = false)
        by now apply (is_non_terminal_false G).
      pose proof (RStep_t self tokens (tok_type tok) p child h HN) as HR.
      unfold inner_parse_terminal_symbol, get_epsilon_symbol in HR. rewrite (go_eps G) in HR.
      assert (He' : eqb eps (tok_type tok) = false) by (apply eqb_ne_iff; congruence).
      rewrite He' in HR. unfold inner_parse_non_epsilon_terminal_symbol in HR.
      rewrite Htok, eqb_self in HR.
      eapply PProd_ok; [apply nth_after, (cstack_length Hs)|exact HR|]. simpl.
      apply (IH _ _ _ _ (tok_type tok :: syms)); [now apply cstack_leaf|]. simpl. now rewrite <- app_assoc.
    - intros X Xs p tok Hnt Htok _ IH. exact (proj1 (IH Hnt) tok Htok eq_refl).
    - (* here *)
      intros X p outs Xs _ IH Hnt. split.
      + intros tok Htok -> X0 out child states syms h Hs Ho. subst out.
        eapply PProd_step; [apply nth_after, (cstack_length Hs)|].
        eapply PStep_nt; eauto. { now apply (is_non_terminal_spec G). } apply PSym_try. apply IH.
      + intros X0 out child st states syms h Hit Hi HX Hs Ho. right; left. split; auto.
        intros failed. eapply PPop_here; eauto. rewrite HX, Hi. apply PSym_try. apply IH.
    - (* after *)
      intros X p outs Xs n q outs' Hc _ IH Hnt.
      set (st' := {| ps_initial_token_position := p; ps_final_token_position := q;
                     ps_prod_iter_option := Some outs'; ps_node := n |}) in *.
      split.
      + intros tok Htok -> X0 out child states syms h Hs Ho. subst out.
        destruct (SC _ _ _ _ Hc (is_child_single_path child (cands X (tok_type tok))) [] h) as [HT Hn].
        eapply PProd_ok with (st := st') (h' := h); [apply nth_after, (cstack_length Hs)| |].
        * eapply RStep_nt; eauto. { now apply (is_non_terminal_spec G). } now apply RSym_done.
        * apply (IH _ _ _ _ (X :: syms)); [eapply cstack_choice; eauto; reflexivity|].
          simpl. now rewrite <- app_assoc.
      + intros X0 out child st states syms h Hit Hi HX Hs Ho. subst out.
        destruct (SC _ _ _ _ Hc (is_child_single_path child outs) [] h) as [HT Hn].
        right; right. exists (StParsing st'), states. split.
        * intros failed. eapply RPop_ok; eauto. rewrite HX, Hi. now apply RSym_done.
        * apply (IH _ _ _ _ (X :: syms)); [eapply cstack_choice; eauto; reflexivity|].
          simpl. now rewrite <- app_assoc.
    - (* retry *)
      intros X p outs Xs n q outs' Hc Hse _ IH Hnt. destruct (IH Hnt) as [_ IH3].
      set (st' := {| ps_initial_token_position := p; ps_final_token_position := q;
                     ps_prod_iter_option := Some outs'; ps_node := n |}) in *.
      split.
      + intros tok Htok -> X0 out child states syms h Hs Ho. subst out.
        destruct (SC _ _ _ _ Hc (is_child_single_path child (cands X (tok_type tok))) [] h) as [HT Hn].
        eapply PProd_ok with (st := st') (h' := h); [apply nth_after, (cstack_length Hs)| |].
        * eapply RStep_nt; eauto. { now apply (is_non_terminal_spec G). } now apply RSym_done.
        * apply (SS _ _ _ Hse X0 _ child (StParsing st' :: states) (X :: syms) h) with (res := EPast).
          -- eapply cstack_choice; eauto; reflexivity.
          -- simpl. now rewrite <- app_assoc.
          -- eapply IH3; eauto.
      + intros X0 out child st states syms h Hit Hi HX Hs Ho. subst out.
        destruct (SC _ _ _ _ Hc (is_child_single_path child outs) [] h) as [HT Hn].
        right; right. exists (StParsing st'), states. split.
        * intros failed. eapply RPop_ok; eauto. rewrite HX, Hi. now apply RSym_done.
        * apply (SS _ _ _ Hse X0 _ child (StParsing st' :: states) (X :: syms) h) with (res := EPast).
          -- eapply cstack_choice; eauto; reflexivity.
          -- simpl. now rewrite <- app_assoc.
          -- eapply IH3; eauto.
  Qed.
End PastChoice.

Section PastTop.
  Context {L T : Type} {E : EqDec T}.
  Context {eps init : T} {ps : list (production T)} {self : parser L T}.
  Hypothesis P : parser_of eps init ps self.
  Hypothesis Hns : pr_solver self = None.
  Notation cands := (inner_get_token_productions self).

  Theorem parse_past_sound fuel (tok : token L T) rest :
    parse_from_tokens fuel self (tok :: rest) = Panicked PanicTokenOutOfRange ->
    choose_past eps ps (tok :: rest) cands init 0 (cands init (tok_type tok)).
  Proof.
    unfold parse_from_tokens. intros H. apply bind_panics in H as [H|([r h] & _ & H)]; [|discriminate].
    apply past_sound in H. apply (proj1 (past_code_to_spec P Hns (tok :: rest))) in H.
    unfold get_initial_symbol in H. rewrite (go_init (po_grammar P)) in H. exact H.
  Qed.

  Theorem parse_past_complete (tok : token L T) rest :
    choose_past eps ps (tok :: rest) cands init 0 (cands init (tok_type tok)) ->
    exists n, forall fuel, n <= fuel ->
      parse_from_tokens fuel self (tok :: rest) = Panicked PanicTokenOutOfRange.
  Proof.
    intros H. apply (proj1 (past_spec_to_code P Hns (tok :: rest))) with
      (child := is_child_single_path true (cands init (tok_type tok))) (failed := []) (h := []) in H.
    apply PSym_try, past_complete in H as [n Hn]. exists n. intros fuel Hf.
    unfold parse_from_tokens, get_initial_symbol. rewrite (go_init (po_grammar P)).
    rewrite Hn by lia. reflexivity.
  Qed.
End PastTop.
