(** * A parse with any solver panics exactly when StopSpec.v says so (proofs) *)

From Verif Require Import BaseFacts GrammarFacts.
From Verif Require Export ParserRecover StopSpec.

Set Implicit Arguments.

Scheme derive_stops_mut := Minimality for derive_stops Sort Prop
with attempt_stops_mut := Minimality for attempt_stops Sort Prop
with parse_stops_mut := Minimality for parse_stops Sort Prop
with branch_stops_mut := Minimality for branch_stops Sort Prop
with retry_stops_mut := Minimality for retry_stops Sort Prop.
Combined Scheme stops_mutind from derive_stops_mut, attempt_stops_mut, parse_stops_mut,
  branch_stops_mut, retry_stops_mut.

Section StopRecover.
  Context {L T : Type} {E : EqDec T}.
  Context {eps init : T} {ps : list (production T)} {self : parser L T}.
  Hypothesis P : parser_of eps init ps self.
  Variable tokens : list (token L T).
  Let G := po_grammar P.
  Notation cands := (inner_get_token_productions self).
  Notation derive := (derive eps ps tokens cands (pr_solver self)).
  Notation attempt := (attempt eps ps tokens cands (pr_solver self)).
  Notation parse := (RecoverSpec.parse eps ps tokens cands (pr_solver self)).
  Notation branch := (branch eps ps tokens cands (pr_solver self)).
  Notation retry := (retry eps ps tokens cands (pr_solver self)).
  Notation derive_stops := (derive_stops eps ps tokens cands (pr_solver self)).
  Notation attempt_stops := (attempt_stops eps ps tokens cands (pr_solver self)).
  Notation parse_stops := (parse_stops eps ps tokens cands (pr_solver self)).
  Notation branch_stops := (branch_stops eps ps tokens cands (pr_solver self)).
  Notation retry_stops := (retry_stops eps ps tokens cands (pr_solver self)).
  Notation cstack := (@cstack L T ps).
  Let CS := ParserRecover.code_to_spec P tokens.

  (** the two reasons that are panics *)
  Definition panic_of (w : why) (q : panic) : Prop :=
    (w = PastTheEnd /\ q = PanicTokenOutOfRange) \/ (w = SolverPanics /\ q = PanicSolver).
  Variable w : why.
  Variable q : panic.
  Hypothesis Hw : panic_of w q.

  Lemma below_w : below w = w.
  Proof. destruct Hw as [[-> _]|[-> _]]; reflexivity. Qed.

  (** ** code to spec *)
  Inductive resume_stops (child : bool) : list (state L T) -> list T -> list T -> failed_symbol L T ->
            list (production_parsed_symbol L T) -> history L T -> Prop :=
  | rs_leaf st states X syms rest f b h :
      ps_prod_iter_option st = None ->
      resume_stops child states syms (X :: rest) f (ParsedOk (ps_node st) :: b) h ->
      resume_stops child (StParsing st :: states) (X :: syms) rest f b h
  | rs_fixed fs states X syms rest f b h :
      resume_stops child states syms (X :: rest) f (ParsedFix (fst_fixed_symbol fs) :: b) h ->
      resume_stops child (StFixed fs :: states) (X :: syms) rest f b h
  | rs_here st states X syms rest it f b h :
      ps_prod_iter_option st = Some it ->
      retry_stops w child X (ps_initial_token_position st) it rest h ->
      resume_stops child (StParsing st :: states) (X :: syms) rest f b h
  | rs_next st states X syms rest it f b h f' b' h' :
      ps_prod_iter_option st = Some it ->
      retry child X (ps_initial_token_position st) it rest f b h (PFailed f' b') h' ->
      resume_stops child states syms (X :: rest) f' b' h' ->
      resume_stops child (StParsing st :: states) (X :: syms) rest f b h.

  Definition going child states syms rest pos h : Prop :=
    parse_stops w child rest pos h \/
    exists f b h1, parse child rest pos h (PFailed f b) h1 /\ resume_stops child states syms rest f b h1.

  Lemma step_leaf Y pos child h st h' : RStep self tokens Y pos child h (SymOk st) h' ->
    ps_prod_iter_option st = None ->
    forall Xs, parse_stops w child Xs (ps_final_token_position st) h' -> parse_stops w child (Y :: Xs) pos h.
  Proof.
    intros HS Hit Xs Hx. remember (SymOk st) as r eqn:Hr.
    destruct HS as [Y pos child h tok r h' Hnt Htok HR|Y pos child h Hnt]; [subst r|].
    - apply (proj1 CS) in HR as (_ & d & _ & Hd). simpl in Hd.
      destruct Hd as (it & Ho & _). congruence.
    - apply (is_non_terminal_false G) in Hnt. revert Hr.
      unfold inner_parse_terminal_symbol, get_epsilon_symbol. rewrite (go_eps G).
      destruct (eqb eps Y) eqn:He.
      + apply eqb_iff in He; subst Y. intros Hr. inversion Hr; subst st. simpl in Hx.
        now apply parse_stops_epsilon.
      + apply eqb_ne_iff in He. unfold inner_parse_non_epsilon_terminal_symbol.
        destruct (nth_error tokens pos) as [tok|] eqn:Htok; [|discriminate].
        destruct (eqb Y (tok_type tok)) eqn:Ht; [|discriminate].
        apply eqb_iff in Ht; subst Y. intros Hr. inversion Hr; subst st. simpl in Hx.
        apply parse_stops_token; auto.
  Qed.

  Lemma pop_going states child failed h states' popped h' :
    RPop self tokens states child failed h states' popped h' -> popped = None ->
    forall syms rest f, cstack states syms ->
    exists st' states'' syms' rest', states' = st' :: states'' /\ cstack states' syms' /\
      rev syms ++ rest = rev syms' ++ rest' /\
      (going child states' syms' rest' (state_final_token_position st') h' ->
       resume_stops child states syms rest f (map (@state_to_parsed_symbol L T) failed) h).
  Proof.
    induction 1 as [child failed h|fs states child failed h states' popped h' _ IH
                   |st states child failed h states' popped h' Hit _ IH
                   |st it states child failed h ps' h' Hit HR
                   |st it states child failed h r h' states' popped h'' Hit HR Hr _ IH];
      intros Hpop syms rest f Hs; subst.
    - discriminate.
    - inversion Hs as [|fs0 states0 X syms0 Hs0| |]; subst.
      destruct (IH eq_refl syms0 (X :: rest) f Hs0) as (st' & states'' & syms' & rest' & Heq & Hs' & Hout & Hk).
      exists st', states'', syms', rest'. split; auto. split; auto. split.
      + simpl. rewrite <- app_assoc. exact Hout.
      + intros Hg. apply rs_fixed. apply Hk. exact Hg.
    - inversion Hs as [| |st0 states0 X syms0 Hs0 Hit0|st0 states0 X syms0 it0 Hs0 Hit0]; subst;
        [|congruence].
      destruct (IH eq_refl syms0 (X :: rest) f Hs0) as (st' & states'' & syms' & rest' & Heq & Hs' & Hout & Hk).
      exists st', states'', syms', rest'. split; auto. split; auto. split.
      + simpl. rewrite <- app_assoc. exact Hout.
      + intros Hg. apply rs_leaf; [exact Hit|]. apply Hk. exact Hg.
    - inversion Hs as [| |st0 states0 X syms0 Hs0 Hit0|st0 states0 X syms0 it0 Hs0 Hit0 Hnt HX]; subst;
        [congruence|].
      apply (proj1 CS) in HR as (Hp & d & Hd & Hdr).
      simpl in Hdr. destruct Hdr as (it' & Hit' & ->). destruct (Hp ps' eq_refl) as [Hp1 Hp2].
      set (X := tok_type (node_token (ps_node st))) in *.
      exists (StParsing ps'), states, (X :: syms0), rest. split; auto.
      split; [eapply cstack_choice; eauto|]. split; auto.
      intros [Hg|(f' & b' & h1 & Hg1 & Hg2)]; simpl in *.
      + eapply rs_here; [exact Hit|]. eapply retry_stops_tree; eauto.
      + inversion Hg2 as [? ? ? ? ? ? ? ? Hx| |? ? ? ? ? it1 ? ? ? Hx Hb|? ? ? ? ? it1 ? ? ? ? ? ? Hx Hb Hre]; subst; [congruence| |].
        * assert (it1 = it') by congruence. subst it1. rewrite Hp1 in Hb.
          eapply rs_here; [exact Hit|]. eapply retry_stops_again; eauto.
        * assert (it1 = it') by congruence. subst it1. rewrite Hp1 in Hb.
          eapply rs_next; [exact Hit| |exact Hre]. eapply retry_again; eauto.
    - inversion Hs as [| |st0 states0 X syms0 Hs0 Hit0|st0 states0 X syms0 it0 Hs0 Hit0 Hnt HX]; subst;
        [congruence|].
      apply (proj1 CS) in HR as (Hp & d & Hd & Hdr).
      assert (Hnd : forall n q left, d <> DTree n q left).
      { destruct r as [st1|e|g]; simpl in Hdr; [exfalso; now apply (Hr st1)| |]; subst d; discriminate. }
      destruct (IH eq_refl syms0 (tok_type (node_token (ps_node st)) :: rest) f Hs0)
        as (st' & states'' & syms' & rest' & Heq & Hs' & Hout & Hk).
      exists st', states'', syms', rest'. split; auto. split; auto. split.
      + simpl. rewrite <- app_assoc. exact Hout.
      + intros Hg. eapply rs_next; [exact Hit|eapply retry_failed; eauto|]. apply Hk. exact Hg.
  Qed.

  Lemma out_next states syms rest out Y : cstack states syms -> out = rev syms ++ rest ->
    nth_error out (length states) = Some Y -> exists rest0, rest = Y :: rest0.
  Proof.
    intros Hs -> HY. rewrite (cstack_length Hs), <- (rev_length syms), nth_error_app2, Nat.sub_diag in HY by lia.
    destruct rest as [|y rest]; [discriminate|]. simpl in HY. inversion HY; subst y. eauto.
  Qed.

  Lemma stop_code_to_spec :
    (forall X pos prods single h, QSym self tokens q X pos prods single h ->
       derive_stops w single X pos prods h) /\
    (forall X pos child prods failed h, QTry self tokens q X pos child prods failed h ->
       attempt_stops w child X pos prods h) /\
    (forall X out child states pos h, QProd self tokens q X out child states pos h ->
       forall syms rest, cstack states syms -> out = rev syms ++ rest ->
       going child states syms rest pos h) /\
    (forall Y pos child h, QStep self tokens q Y pos child h -> forall Xs, parse_stops w child (Y :: Xs) pos h) /\
    (forall states child failed h, QPop self tokens q states child failed h ->
       forall syms rest f, cstack states syms ->
       resume_stops child states syms rest f (map (@state_to_parsed_symbol L T) failed) h).
  Proof.
    destruct CS as (CSym & CTry & CProd & CStep & CPop).
    apply stop_mutind.
    - intros X pos prods single h _ IH. apply derive_stops_inside. rewrite below_w. exact IH.
    - intros X pos prods single h failed h' HT Hfix.
      apply CTry in HT as (Ha & Hlen). simpl in Hlen. rewrite is_child_eq in *.
      unfold inner_parse_from_tokens_try_fix_productions in Hfix.
      destruct (pr_solver self) as [s|] eqn:Hs; [|discriminate].
      destruct single; [|discriminate]. simpl in Ha, Hfix.
      assert (Hcall : bind (await (s h' (fix_call tokens pos failed)))
                        (fun answer => Done (answer, h' ++ [fix_call tokens pos failed])) = Panicked q).
      { destruct (Nat.eqb (length prods) 1) eqn:He.
        - apply Nat.eqb_eq in He. destruct failed as [|fp [|fp' failed]]; simpl in Hlen; try lia.
          exact Hfix.
        - apply Nat.eqb_neq in He.
          destruct failed as [|fp [|fp' failed]]; simpl in Hlen; [exact Hfix|lia|exact Hfix]. }
      destruct (s h' (fix_call tokens pos failed)) as [a| |] eqn:Hr; simpl in Hcall; try discriminate.
      destruct Hw as [[-> ->]|[-> ->]]; [discriminate|].
      eapply derive_stops_panic; eauto.
    - intros X pos child out rest failed h _ IH. apply attempt_stops_first.
      destruct (IH [] out) as [H|(f & b & h1 & _ & H)]; [constructor|reflexivity|auto|inversion H].
    - intros X pos child out rest failed h fp pos' h' HP _ IH.
      apply CProd in HP.
      destruct (HP [] out) as (o & h1 & r & Hs & Hr & f & b & -> & ->); [constructor|reflexivity|].
      inversion Hr; subst. eapply attempt_stops_next; eauto.
    - intros X out child states pos h Y HY _ IH syms rest Hs Ho.
      destruct (out_next _ Hs Ho HY) as (rest0 & ->). left. apply IH.
    - intros X out child states pos h Y st h' HY HS _ IH syms rest Hs Ho.
      destruct (out_next _ Hs Ho HY) as (rest0 & ->).
      pose proof (CStep _ _ _ _ _ _ HS) as (Hi & IH1).
      destruct (ps_prod_iter_option st) as [it|] eqn:Hit.
      + destruct IH1 as (Hnt & Htt & tok & Htok & Hch).
        destruct (IH (Y :: syms) rest0) as [Hg|(f & b & h1 & Hg1 & Hg2)].
        { eapply cstack_choice; eauto. }
        { subst out. simpl. now rewrite <- app_assoc. }
        * left. eapply parse_stops_non_terminal; eauto. eapply branch_stops_tree; eauto.
        * inversion Hg2 as [? ? ? ? ? ? ? ? Hx| |? ? ? ? ? it1 ? ? ? Hx Hb|? ? ? ? ? it1 ? ? ? ? ? ? Hx Hb Hre]; subst; [congruence| |];
            assert (it1 = it) by congruence; subst it1.
          -- left. eapply parse_stops_non_terminal; eauto. eapply branch_stops_retry; eauto.
          -- right. do 3 eexists. split; [|exact Hre]. eapply parse_non_terminal; eauto. eapply branch_retry; eauto.
      + destruct (IH (Y :: syms) rest0) as [Hg|(f & b & h1 & Hg1 & Hg2)].
        { eapply cstack_leaf; eauto. }
        { subst out. simpl. now rewrite <- app_assoc. }
        * left. eapply step_leaf; eauto.
        * inversion Hg2; subst; try congruence. right. do 3 eexists. split; [|eassumption].
          exact (IH1 _ _ _ Hg1).
    - intros X out child states pos h Y fs h' HY HS _ IH syms rest Hs Ho.
      destruct (out_next _ Hs Ho HY) as (rest0 & ->).
      pose proof (CStep _ _ _ _ _ _ HS) as (Hnt & tok & Htok & Hd).
      destruct (IH (Y :: syms) rest0) as [Hg|(f & b & h1 & Hg1 & Hg2)].
      { now apply cstack_fixed. }
      { subst out. simpl. now rewrite <- app_assoc. }
      + left. eapply parse_stops_non_terminal; eauto. eapply branch_stops_fixed; eauto.
      + inversion Hg2; subst. right. do 3 eexists. split; [|eassumption].
        eapply parse_non_terminal; eauto. exact (branch_fixed Hd Hg1).
    - intros X out child states pos h Y fs h' HY HS _ IH syms rest Hs Ho.
      destruct (out_next _ Hs Ho HY) as (rest0 & ->). apply CStep in HS.
      right. exists fs, [], h'. split; [apply HS|]. exact (IH syms (Y :: rest0) fs Hs).
    - intros X out child states pos h Y fs h' st states' h'' HY HS HP _ IH syms rest Hs Ho.
      destruct (out_next _ Hs Ho HY) as (rest0 & ->). apply CStep in HS.
      destruct (pop_going HP eq_refl (Y :: rest0) fs Hs) as (st' & states'' & syms' & rest' & Heq & Hs' & Hout & Hk).
      inversion Heq; subst st' states''. right. exists fs, [], h'. split; [apply HS|]. apply Hk. apply IH; auto. congruence.
    - intros Y pos child h Hq Hnt Htok Xs. apply (is_non_terminal_spec G) in Hnt.
      destruct Hw as [[-> _]|[_ Hq']]; [|congruence]. now apply parse_stops_past.
    - intros Y pos child h tok Hnt Htok _ IH Xs. apply (is_non_terminal_spec G) in Hnt.
      eapply parse_stops_non_terminal; eauto. now apply branch_stops_here.
    - intros fs states child failed h _ IH syms rest f Hs.
      inversion Hs as [|fs0 states0 X syms0 Hs0| |]; subst.
      apply rs_fixed. apply (IH _ (X :: rest) f Hs0).
    - intros st states child failed h Hit _ IH syms rest f Hs.
      inversion Hs as [| |st0 states0 X syms0 Hs0 Hit0|st0 states0 X syms0 it0 Hs0 Hit0]; subst; [|congruence].
      apply rs_leaf; auto.
    - intros st it states child failed h Hit _ IH syms rest f Hs.
      inversion Hs as [| |st0 states0 X syms0 Hs0 Hit0|st0 states0 X syms0 it0 Hs0 Hit0 Hnt HX]; subst; [congruence|].
      eapply rs_here; [exact Hit|]. now apply retry_stops_here.
    - intros st it states child failed h r h' Hit HR Hr _ IH syms rest f Hs.
      inversion Hs as [| |st0 states0 X syms0 Hs0 Hit0|st0 states0 X syms0 it0 Hs0 Hit0 Hnt HX]; subst; [congruence|].
      apply CSym in HR as (Hp & d & Hd & Hdr).
      assert (Hnd : forall n q left, d <> DTree n q left).
      { destruct r as [st1|e|g]; simpl in Hdr; [exfalso; now apply (Hr st1)| |]; subst d; discriminate. }
      eapply rs_next; [exact Hit|eapply retry_failed; eauto|]. apply (IH _ _ f Hs0).
  Qed.

  (** ** spec to code *)
  Definition stop_parse child (Xs : list T) (p : nat) h : Prop :=
    forall X out states syms, cstack states syms -> out = rev syms ++ Xs ->
      QProd self tokens q X out child states p h.
  Definition stop_branch child (X : T) (p : nat) (outs : list (list T)) (Xs : list T) h : Prop :=
    non_terminal ps X -> forall tok, nth_error tokens p = Some tok -> outs = cands X (tok_type tok) ->
    stop_parse child (X :: Xs) p h.
  Definition stop_retry child (X : T) (p : nat) (outs : list (list T)) (Xs : list T) h : Prop :=
    non_terminal ps X ->
    forall X0 out st states syms f b,
       ps_prod_iter_option st = Some outs -> ps_initial_token_position st = p ->
       tok_type (node_token (ps_node st)) = X ->
       cstack states syms -> out = rev syms ++ X :: Xs ->
       pops (self := self) tokens q X0 out child (StParsing st :: states) f b h None.

  Lemma stop_spec_to_code :
    (forall w0 single X p outs h, derive_stops w0 single X p outs h -> w0 = w ->
       QSym self tokens q X p outs single h) /\
    (forall w0 single X p outs h, attempt_stops w0 single X p outs h -> w0 = w ->
       forall failed, QTry self tokens q X p single outs failed h) /\
    (forall w0 child Xs p h, parse_stops w0 child Xs p h -> w0 = w -> stop_parse child Xs p h) /\
    (forall w0 child X p outs Xs h, branch_stops w0 child X p outs Xs h -> w0 = w ->
       stop_branch child X p outs Xs h) /\
    (forall w0 child X p outs Xs h, retry_stops w0 child X p outs Xs h -> w0 = w ->
       stop_retry child X p outs Xs h).
  Proof.
    destruct (ParserRecover.spec_to_code P tokens q) as (SD & SA & SP & SB & SR).
    apply stops_mutind.
    - intros single X p outs h Hw0. destruct Hw as [[-> _]|[-> _]]; discriminate.
    - intros w0 single X p outs h _ IH ->. apply QSym_try. apply IH. apply below_w.
    - intros X p outs h fps h' s Ha Hs Hr <-.
      destruct (SA _ _ _ _ _ _ _ _ Ha) as [HT Hlen]. simpl in Hlen.
      eapply QSym_fix; [rewrite is_child_eq; exact HT|].
      destruct Hw as [[Hw0 _]|[_ ->]]; [discriminate|].
      unfold inner_parse_from_tokens_try_fix_productions. rewrite Hs, is_child_eq. simpl.
      rewrite <- Hlen. destruct fps as [|fp [|fp' fps]]; simpl in *; rewrite Hr; reflexivity.
    - intros X p outs h fps h' s Ha Hs Hr Hw0. destruct Hw as [[-> _]|[-> _]]; discriminate.
    - intros w0 single X p out outs h _ IH Hw0 failed. apply QTry_here.
      apply (IH Hw0 X out [] [] (@cstack_nil L T ps) eq_refl).
    - intros w0 single X p out outs h f b h' Hs _ IH Hw0 failed.
      destruct (SP _ _ _ _ _ _ Hs X out [] [] (@cstack_nil L T ps) eq_refl (Some (PFailed f b, h'))) as (pos' & HP).
      { left. exists [], h'. split; auto. intros. constructor. }
      eapply QTry_next; eauto.
    - intros child X Xs p h Hnt Htok Hw0 X0 out states syms Hs Ho. subst out.
      eapply QProd_step; [apply nth_after, (cstack_length Hs)|].
      apply QStep_end; auto.
      + destruct Hw as [[_ Hq]|[Hw1 _]]; [exact Hq|congruence].
      + now apply (is_non_terminal_spec G).
    - intros w0 child Xs p h _ IH Hw0 X out states syms Hs Ho. subst out.
      assert (HN : is_non_terminal (pr_grammar self) eps = false)
        by (apply (is_non_terminal_false G); apply (eps_not_nt G)).
      pose proof (RStep_t self tokens eps p child h HN) as HR.
      unfold inner_parse_terminal_symbol, get_epsilon_symbol in HR. rewrite (go_eps G), eqb_self in HR.
      eapply QProd_ok; [apply nth_after, (cstack_length Hs)|exact HR|]. simpl.
      apply (IH Hw0 _ _ _ (eps :: syms)); [now apply cstack_leaf|]. simpl. now rewrite <- app_assoc.
    - intros w0 child Xs p tok h Hnt He Htok _ IH Hw0 X out states syms Hs Ho. subst out.
      assert (HN : is_non_terminal (pr_grammar self) (tok_type tok) = false)
        by now apply (is_non_terminal_false G).
      pose proof (RStep_t self tokens (tok_type tok) p child h HN) as HR.
      unfold inner_parse_terminal_symbol, get_epsilon_symbol in HR. rewrite (go_eps G) in HR.
      assert (He' : eqb eps (tok_type tok) = false) by (apply eqb_ne_iff; congruence).
      rewrite He' in HR. unfold inner_parse_non_epsilon_terminal_symbol in HR.
      rewrite Htok, eqb_self in HR.
      eapply QProd_ok; [apply nth_after, (cstack_length Hs)|exact HR|]. simpl.
      apply (IH Hw0 _ _ _ (tok_type tok :: syms)); [now apply cstack_leaf|]. simpl. now rewrite <- app_assoc.
    - intros w0 child X Xs p tok h Hnt Htok _ IH Hw0. exact (IH Hw0 Hnt tok Htok eq_refl).
    - (* branch here *)
      intros w0 child X p outs Xs h _ IH Hw0 Hnt tok Htok -> X0 out states syms Hs Ho. subst out.
      eapply QProd_step; [apply nth_after, (cstack_length Hs)|].
      eapply QStep_nt; eauto. now apply (is_non_terminal_spec G).
    - (* branch fixed *)
      intros w0 child X p outs Xs h fs p' h' Hd _ IH Hw0 Hnt tok Htok -> X0 out states syms Hs Ho. subst out.
      destruct (SD _ _ _ _ _ _ _ Hd) as [_ HR]. simpl in HR.
      eapply QProd_fix; [apply nth_after, (cstack_length Hs)| |].
      + eapply RStep_nt; eauto. now apply (is_non_terminal_spec G).
      + apply (IH Hw0 _ _ _ (X :: syms)); [now apply cstack_fixed|]. simpl. now rewrite <- app_assoc.
    - (* branch tree *)
      intros w0 child X p outs Xs h n p' lft h' Hd _ IH Hw0 Hnt tok Htok -> X0 out states syms Hs Ho. subst out.
      destruct (SD _ _ _ _ _ _ _ Hd) as [Hr HR]. simpl in HR.
      eapply QProd_ok; [apply nth_after, (cstack_length Hs)| |].
      + eapply RStep_nt; eauto. now apply (is_non_terminal_spec G).
      + apply (IH Hw0 _ _ _ (X :: syms)).
        * eapply cstack_choice; [exact Hs|reflexivity|exact Hnt|exact (Hr _ _ _ eq_refl)].
        * simpl. now rewrite <- app_assoc.
    - (* branch retry *)
      intros w0 child X p outs Xs h n p' lft h' f b h'' Hd Hp _ IH Hw0 Hnt tok Htok -> X0 out states syms Hs Ho. subst out.
      destruct (SD _ _ _ _ _ _ _ Hd) as [Hr HR]. simpl in HR.
      set (st' := {| ps_initial_token_position := p; ps_final_token_position := p';
                     ps_prod_iter_option := Some lft; ps_node := n |}) in *.
      eapply QProd_ok with (st := st'); [apply nth_after, (cstack_length Hs)| |].
      + eapply RStep_nt; eauto. now apply (is_non_terminal_spec G).
      + apply (SP _ _ _ _ _ _ Hp X0 _ (StParsing st' :: states) (X :: syms)) with (e := None).
        * eapply cstack_choice; [exact Hs|reflexivity|exact Hnt|exact (Hr _ _ _ eq_refl)].
        * simpl. now rewrite <- app_assoc.
        * eapply (IH Hw0 Hnt); eauto.
    - (* retry here *)
      intros w0 child X p outs Xs h _ IH Hw0 Hnt X0 out st states syms f b Hit Hi HX Hs Ho.
      right; left. split; auto. intros failed. eapply QPop_here; eauto. rewrite HX, Hi. auto.
    - (* retry tree *)
      intros w0 child X p outs Xs h n p' lft h' Hd _ IH Hw0 Hnt X0 out st states syms f b Hit Hi HX Hs Ho. subst out.
      destruct (SD _ _ _ _ _ _ _ Hd) as [Hr HR]. simpl in HR.
      right; right. do 3 eexists. split.
      + intros failed. eapply RPop_ok; eauto. rewrite HX, Hi. exact HR.
      + apply (IH Hw0 _ _ _ (X :: syms)).
        * eapply cstack_choice; [exact Hs|reflexivity|exact Hnt|exact (Hr _ _ _ eq_refl)].
        * simpl. now rewrite <- app_assoc.
    - (* retry again *)
      intros w0 child X p outs Xs h n p' lft h' f' b' h'' Hd Hp _ IH Hw0 Hnt X0 out st states syms f b Hit Hi HX Hs Ho. subst out.
      destruct (SD _ _ _ _ _ _ _ Hd) as [Hr HR]. simpl in HR.
      set (st' := {| ps_initial_token_position := p; ps_final_token_position := p';
                     ps_prod_iter_option := Some lft; ps_node := n |}) in *.
      right; right. exists (StParsing st'), states, h'. split.
      + intros failed. eapply RPop_ok; eauto. rewrite HX, Hi. exact HR.
      + apply (SP _ _ _ _ _ _ Hp X0 _ (StParsing st' :: states) (X :: syms)) with (e := None).
        * eapply cstack_choice; [exact Hs|reflexivity|exact Hnt|exact (Hr _ _ _ eq_refl)].
        * simpl. now rewrite <- app_assoc.
        * eapply (IH Hw0 Hnt); eauto.
  Qed.
End StopRecover.
