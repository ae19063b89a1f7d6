(** * The solver-less parser computes ordered choice (proofs) *)

From Verif Require Import BaseFacts GrammarFacts DerivFacts.
From Verif Require Export ParserSound ParserReport ParserPast PastSpec.

Set Implicit Arguments.

Section Choice.
  Context {L T : Type} {E : EqDec T}.
  Context {eps init : T} {ps : list (production T)} {self : parser L T}.
  Hypothesis P : parser_of eps init ps self.
  Hypothesis Hns : pr_solver self = None.
  Variable tokens : list (token L T).
  Let G := po_grammar P.
  Notation cands := (inner_get_token_productions self).
  Notation choose := (choose eps ps tokens cands).
  Notation sequence := (sequence eps ps tokens cands).
  Notation branch := (branch eps ps tokens cands).

  Scheme choose_mut := Minimality for ChoiceSpec.choose Sort Prop
  with sequence_mut := Minimality for ChoiceSpec.sequence Sort Prop
  with branch_mut := Minimality for ChoiceSpec.branch Sort Prop.
  Combined Scheme choice_mutind from choose_mut, sequence_mut, branch_mut.

  Lemma no_fix pos single child failed h fo h' :
    inner_parse_from_tokens_try_fix_productions self tokens pos single child failed h = Done (fo, h') ->
    fo = None /\ h' = h.
  Proof.
    unfold inner_parse_from_tokens_try_fix_productions. rewrite Hns.
    intros H; inversion H; auto.
  Qed.

  (** ** code to spec *)

  (** stack entries: parsed states with their symbols, last symbol first *)
  Inductive cstack : list (state L T) -> list T -> Prop :=
  | cstack_nil : cstack [] []
  | cstack_leaf st states X syms :
      cstack states syms -> ps_prod_iter_option st = None ->
      cstack (StParsing st :: states) (X :: syms)
  | cstack_choice st states X syms it :
      cstack states syms -> ps_prod_iter_option st = Some it -> non_terminal ps X ->
      tok_type (node_token (ps_node st)) = X ->
      cstack (StParsing st :: states) (X :: syms).

  Lemma cstack_length states syms : cstack states syms -> length states = length syms.
  Proof. induction 1; simpl; lia. Qed.

  Definition snode (s : state L T) : node L T :=
    match s with StParsing st => ps_node st | StFixed _ => Node [] (Token None eps) end.
  Definition nodes (states : list (state L T)) : list (node L T) := map snode (rev states).

  Lemma nodes_cons s states ns : nodes (s :: states) ++ ns = nodes states ++ snode s :: ns.
  Proof. unfold nodes. simpl. rewrite map_app, <- app_assoc. reflexivity. Qed.

  Lemma cstack_nodes states syms : cstack states syms ->
    existsb (@is_fixed L T) (rev states) = false /\ states_to_nodes (rev states) = Done (nodes states).
  Proof.
    assert (Hsnoc : forall (l : list (state L T)) st ns, states_to_nodes l = Done ns ->
              states_to_nodes (l ++ [StParsing st]) = Done (ns ++ [ps_node st])).
    { induction l as [|[a|a] l IH]; intros st ns Hl; simpl in *.
      - inversion Hl; subst. reflexivity.
      - apply bind_done in Hl as (ns1 & H1 & H2). inversion H2; subst.
        rewrite (IH _ _ H1). reflexivity.
      - discriminate. }
    induction 1 as [|st states X syms Hs [IH1 IH2] Hit|st states X syms it Hs [IH1 IH2] Hit _ _].
    - split; reflexivity.
    - simpl. rewrite existsb_app, IH1. split; auto. unfold nodes. simpl. rewrite map_app.
      now apply Hsnoc.
    - simpl. rewrite existsb_app, IH1. split; auto. unfold nodes. simpl. rewrite map_app.
      now apply Hsnoc.
  Qed.

  (** what remains to be done after the symbols [rest] of a production have been
      tried with outcome [o] on top of the stack *)
  Inductive resume : list (state L T) -> list T -> list T ->
                     option (list (node L T) * nat) -> option (list (node L T) * nat) -> Prop :=
  | resume_ok states syms rest ns q :
      resume states syms rest (Some (ns, q)) (Some (nodes states ++ ns, q))
  | resume_fail rest : resume [] [] rest None None
  | resume_leaf st states X syms rest r :
      ps_prod_iter_option st = None ->
      resume states syms (X :: rest) None r ->
      resume (StParsing st :: states) (X :: syms) rest None r
  | resume_branch st states X syms rest it o r :
      ps_prod_iter_option st = Some it ->
      branch X (ps_initial_token_position st) it rest o ->
      resume states syms (X :: rest) o r ->
      resume (StParsing st :: states) (X :: syms) rest None r.

  Definition osym (r : parse_symbol_result L T) (o : option (node L T * nat * list (list T))) : Prop :=
    match r with
    | SymOk st => exists it, ps_prod_iter_option st = Some it /\
                             o = Some (ps_node st, ps_final_token_position st, it)
    | SymErr _ => o = None
    | SymFix _ => False
    end.

  Definition CSym X pos prods (single : bool) (h : history L T) r (h' : history L T) : Prop :=
    h' = h /\ (exists o, choose X pos prods o /\ osym r o) /\
    (forall st, r = SymOk st -> ps_initial_token_position st = pos /\
                                tok_type (node_token (ps_node st)) = X).
  Definition CTry X pos (child : bool) prods (failed : list (failed_production L T))
             (h : history L T) (r : parse_symbol_result L T + list (failed_production L T))
             (h' : history L T) : Prop :=
    h' = h /\
    match r with
    | inl r => (exists o, choose X pos prods o /\ osym r o) /\
        (forall st, r = SymOk st -> ps_initial_token_position st = pos /\
                                tok_type (node_token (ps_node st)) = X) /\
        (forall e, r <> SymErr e)
    | inr _ => choose X pos prods None
    end.
  Definition CProd X out (child : bool) states pos (h : history L T) pr pos' (h' : history L T) : Prop :=
    h' = h /\
    forall syms rest, cstack states syms -> out = rev syms ++ rest ->
    exists o r, sequence rest pos o /\ resume states syms rest o r /\
    match pr with
    | ProdOk n => exists ns, n = Node ns (Token None X) /\ r = Some (ns, pos')
    | ProdErr _ => r = None
    | ProdFix _ => False
    end.
  Definition CStep Y pos (child : bool) (h : history L T) r (h' : history L T) : Prop :=
    h' = h /\
    match r with
    | SymOk st =>
        ps_initial_token_position st = pos /\
        match ps_prod_iter_option st with
        | None => forall Xs o, sequence Xs (ps_final_token_position st) o ->
                               sequence (Y :: Xs) pos (consed (ps_node st) o)
        | Some it => non_terminal ps Y /\ tok_type (node_token (ps_node st)) = Y /\
            exists tok, nth_error tokens pos = Some tok /\
            choose Y pos (cands Y (tok_type tok))
                   (Some (ps_node st, ps_final_token_position st, it))
        end
    | SymErr _ => forall Xs, sequence (Y :: Xs) pos None
    | SymFix _ => False
    end.
  Definition CPop states (child : bool) (failed : list (state L T)) (h : history L T)
             states' (popped : option (list (state L T))) (h' : history L T) : Prop :=
    h' = h /\
    forall syms rest, cstack states syms ->
    match popped with
    | Some _ => resume states syms rest None None
    | None => exists st' states'' syms' rest',
        states' = st' :: states'' /\ cstack states' syms' /\
        rev syms ++ rest = rev syms' ++ rest' /\
        forall o r, sequence rest' (state_final_token_position st') o ->
                    resume states' syms' rest' o r -> resume states syms rest None r
    end.

  Lemma code_to_spec :
    (forall X pos prods single h r h', RSym self tokens X pos prods single h r h' ->
       CSym X pos prods single h r h') /\
    (forall X pos child prods failed h r h', RTry self tokens X pos child prods failed h r h' ->
       CTry X pos child prods failed h r h') /\
    (forall X out child states pos h pr pos' h',
       RProd self tokens X out child states pos h pr pos' h' ->
       CProd X out child states pos h pr pos' h') /\
    (forall Y pos child h r h', RStep self tokens Y pos child h r h' -> CStep Y pos child h r h') /\
    (forall states child failed h states' popped h',
       RPop self tokens states child failed h states' popped h' ->
       CPop states child failed h states' popped h').
  Proof.
    apply run_mutind; unfold CSym, CTry, CProd, CStep, CPop.
    - intros X pos prods single h r h' _ (-> & Hr & Hp & _). auto.
    - intros X pos prods single h failed h' fo h'' _ (-> & Hr) Hfix.
      apply no_fix in Hfix as (-> & ->). simpl. split; auto. split; [|discriminate].
      exists None. auto.
    - intros. split; auto. constructor.
    - intros X pos child out rest failed h n pos' h' _ (-> & IH). split; auto.
      destruct (IH [] out) as (o & r & Hs & Hr & ns & -> & ->); [constructor|reflexivity|].
      inversion Hr as [states syms rest' ns' q Ha Hb Hc Hd Hf| | | ]; subst.
      split; [|split].
      + eexists. split; [eapply choose_first; eauto|]. simpl. exists rest. auto.
      + intros st Hst. inversion Hst; subst. auto.
      + discriminate.
    - intros X pos child out rest failed h fp pos' h' r h'' _ (-> & IH1) _ (-> & IH2). split; auto.
      destruct (IH1 [] out) as (o & r' & Hs & Hr & ->); [constructor|reflexivity|].
      inversion Hr; subst.
      destruct r as [r|failed'].
      + destruct IH2 as ((o & Ho1 & Ho2) & Hp). split; auto. exists o. split; auto.
        apply choose_next; auto.
      + apply choose_next; auto.
    - intros X pos child out rest failed h fp pos' h' _ (-> & IH). split; auto.
      destruct (IH [] out) as (o & r' & _ & _ & []); [constructor|reflexivity].
    - intros X out child states pos h pr Hlen Hb. split; auto. intros syms rest Hs Ho.
      pose proof (cstack_length Hs) as Hl.
      assert (Hrest : rest = []).
      { destruct rest as [|y rest]; auto. subst out. rewrite app_length, rev_length in Hlen. simpl in Hlen. lia. }
      subst rest. destruct (cstack_nodes Hs) as [Hf Hn].
      unfold inner_parse_from_tokens_production_build_node in Hb. rewrite Hf, Hn in Hb.
      inversion Hb; subst pr. exists (Some ([], pos)), (Some (nodes states, pos)).
      split; [constructor|]. split; [|eauto].
      pose proof (resume_ok states syms [] [] pos) as Hro. now rewrite app_nil_r in Hro.
    - intros X out child states pos h Y st h' pr pos' h'' HY _ (-> & IH1) _ (-> & IH2).
      split; auto. intros syms rest Hs Ho. destruct IH1 as (Hi & IH1).
      pose proof (cstack_length Hs) as Hl. subst out.
      rewrite Hl, <- (rev_length syms), nth_error_app2, Nat.sub_diag in HY by lia.
      destruct rest as [|y rest]; [discriminate|]. simpl in HY. inversion HY; subst y.
      destruct (ps_prod_iter_option st) as [it|] eqn:Hit.
      + destruct IH1 as (Hnt & Htt & tok & Htok & Hch).
        destruct (IH2 (Y :: syms) rest) as (o & r & Hse & Hre & Hpr).
        { eapply cstack_choice; eauto. }
        { simpl. now rewrite <- app_assoc. }
        destruct o as [[ns q]|].
        * exists (Some (ps_node st :: ns, q)), r. split; [|split; auto].
          -- eapply sequence_non_terminal; eauto. eapply branch_ok; eauto.
          -- inversion Hre; subst. rewrite nodes_cons. apply resume_ok.
        * inversion Hre as [ | |? ? ? ? ? ? Hit' |st' states' X' syms' rest' it' o r' Hit' Hbr Hre']; subst.
          { congruence. }
          exists o, r. split; [|split; auto].
          eapply sequence_non_terminal; eauto. eapply branch_retry; eauto.
          assert (it' = it) by congruence. now subst it'.
      + destruct (IH2 (Y :: syms) rest) as (o & r & Hse & Hre & Hpr).
        { eapply cstack_leaf; eauto. }
        { simpl. now rewrite <- app_assoc. }
        exists (consed (ps_node st) o), r. split; [auto|]. split; auto.
        destruct o as [[ns q]|]; simpl.
        * inversion Hre; subst. rewrite nodes_cons. apply resume_ok.
        * inversion Hre; subst; auto. congruence.
    - intros X out child states pos h Y fs h' pr pos' h'' HY _ (_ & []).
    - intros X out child states pos h Y fs h' states' fstates h'' HY _ (-> & IH1) _ (-> & IH2).
      split; auto. intros syms rest Hs Ho.
      pose proof (cstack_length Hs) as Hl. subst out.
      rewrite Hl, <- (rev_length syms), nth_error_app2, Nat.sub_diag in HY by lia.
      destruct rest as [|y rest]; [discriminate|]. simpl in HY. inversion HY; subst y.
      exists None, None. split; [auto|]. split; [now apply (IH2 syms (Y :: rest))|reflexivity].
    - intros X out child states pos h Y fs h' st states' h'' pr pos' h3 HY _ (-> & IH1) _ (-> & IHpop) _ (-> & IH).
      split; auto. intros syms rest Hs Ho.
      pose proof (cstack_length Hs) as Hl.
      assert (HYr : exists rest0, rest = Y :: rest0).
      { subst out. rewrite Hl, <- (rev_length syms), nth_error_app2, Nat.sub_diag in HY by lia.
        destruct rest as [|y rest]; [discriminate|]. simpl in HY. inversion HY; subst y. eauto. }
      destruct HYr as (rest0 & ->).
      destruct (IHpop syms (Y :: rest0) Hs) as (st' & states'' & syms' & rest' & Heq & Hs' & Hout & Hk).
      inversion Heq; subst st' states''.
      destruct (IH syms' rest' Hs') as (o & r & Hse & Hre & Hpr); [congruence|].
      exists None, r. split; [auto|]. split; auto. eapply Hk; eauto.
    - intros Y pos child h tok r h' Hnt Htok _ (-> & (o & Ho1 & Ho2) & Hp).
      apply (is_non_terminal_spec G) in Hnt. split; auto.
      destruct r as [st|e|f]; simpl in Ho2.
      + destruct Ho2 as (it & Hit & ->). destruct (Hp st eq_refl) as [Hp1 Hp2]. split; auto.
        rewrite Hit. split; auto. split; auto. eauto.
      + subst o. intros Xs. eapply sequence_non_terminal; eauto. now apply branch_fail.
      + destruct Ho2.
    - intros Y pos child h Hnt. apply (is_non_terminal_false G) in Hnt. split; auto.
      unfold inner_parse_terminal_symbol, get_epsilon_symbol. rewrite (go_eps G).
      destruct (eqb eps Y) eqn:He.
      + apply eqb_iff in He; subst Y. simpl. split; auto. intros. now apply sequence_epsilon.
      + apply eqb_ne_iff in He. unfold inner_parse_non_epsilon_terminal_symbol.
        destruct (nth_error tokens pos) as [tok|] eqn:Htok; simpl.
        * destruct (eqb Y (tok_type tok)) eqn:Ht; simpl.
          -- apply eqb_iff in Ht; subst Y. split; auto. intros. apply sequence_token; auto.
          -- apply eqb_ne_iff in Ht. intros Xs. apply sequence_mismatch; auto.
             intros tok' Htok'. rewrite Htok in Htok'. inversion Htok'; subst. auto.
        * intros Xs. apply sequence_mismatch; auto. intros tok' Htok'. congruence.
    - intros child failed h. split; auto. intros syms rest Hs. inversion Hs; subst. constructor.
    - intros fs states child failed h states' popped h' _ (-> & IH). split; auto.
      intros syms rest Hs. inversion Hs.
    - intros st states child failed h states' popped h' Hit _ (-> & IH). split; auto.
      intros syms rest Hs. inversion Hs as [|st0 states0 X syms0 Hs0 Hit0|st0 states0 X syms0 it0 Hs0 Hit0]; subst;
        [|congruence].
      specialize (IH syms0 (X :: rest) Hs0). destruct popped as [fstates|].
      + now apply resume_leaf.
      + destruct IH as (st' & states'' & syms' & rest' & Heq & Hs' & Hout & Hk).
        exists st', states'', syms', rest'. split; auto. split; auto. split.
        * simpl. rewrite <- app_assoc. exact Hout.
        * intros o r Ha Hb. apply resume_leaf; auto. eapply Hk; eauto.
    - intros st it states child failed h ps' h' Hit _ (-> & (o & Ho1 & Ho2) & Hp). split; auto.
      intros syms rest Hs. inversion Hs as [|st0 states0 X syms0 Hs0 Hit0|st0 states0 X syms0 it0 Hs0 Hit0 Hnt HX]; subst;
        [congruence|].
      assert (it0 = it) by congruence. subst it0.
      simpl in Ho2. destruct Ho2 as (it' & Hit' & ->). destruct (Hp ps' eq_refl) as [Hp1 Hp2].
      set (X := tok_type (node_token (ps_node st))) in *.
      exists (StParsing ps'), states, (X :: syms0), rest. split; auto. split; [eapply cstack_choice; eauto|].
      split; auto. intros o r Ha Hb. simpl in Ha.
      destruct o as [[ns q]|].
      + inversion Hb; subst. rewrite nodes_cons. simpl.
        apply resume_branch with (it := it) (o := Some (ps_node ps' :: ns, q)); auto.
        * eapply branch_ok; eauto.
        * apply resume_ok.
      + inversion Hb as [ | |? ? ? ? ? ? Hit1 |? ? ? ? ? it1 o1 ? Hit1 Hbr Hre']; subst; [congruence|].
        assert (it1 = it') by congruence. subst it1.
        apply resume_branch with (it := it) (o := o1); auto.
        eapply branch_retry; eauto. now rewrite <- Hp1.
    - intros st it states child failed h r h' states' popped h'' Hit _ (-> & (o & Ho1 & Ho2) & Hp) Hr _ (-> & IH).
      split; auto.
      intros syms rest Hs. inversion Hs as [|st0 states0 X syms0 Hs0 Hit0|st0 states0 X syms0 it0 Hs0 Hit0 Hnt HX]; subst;
        [congruence|].
      assert (it0 = it) by congruence. subst it0.
      assert (o = None).
      { destruct r as [st1|e|f]; simpl in Ho2; auto; [exfalso; now apply (Hr st1)|destruct Ho2]. }
      subst o. specialize (IH syms0 (tok_type (node_token (ps_node st)) :: rest) Hs0).
      destruct popped as [fstates|].
      + eapply resume_branch; eauto. now apply branch_fail.
      + destruct IH as (st' & states'' & syms' & rest' & Heq & Hs' & Hout & Hk).
        exists st', states'', syms', rest'. split; auto. split; auto. split.
        * simpl. rewrite <- app_assoc. exact Hout.
        * intros o r' Ha Hb. eapply resume_branch; eauto. now apply branch_fail.
  Qed.

  (** ** spec to code *)

  Inductive ending : Type :=
  | EOk (r : list (node L T) * nat)
  | EErr
  | EPast.

  Definition finishes X out child states pos h (res : ending) : Prop :=
    match res with
    | EOk (ns, q) => RProd self tokens X out child states pos h (ProdOk (Node ns (Token None X))) q h
    | EErr => exists fp pos', RProd self tokens X out child states pos h (ProdErr fp) pos' h
    | EPast => PProd self tokens X out child states pos h
    end.

  Definition pops X out child states h (res : ending) : Prop :=
    (res = EErr /\ exists fstates, forall failed,
       RPop self tokens states child failed h [] (Some (fstates ++ failed)) h) \/
    (res = EPast /\ forall failed, PPop self tokens states child failed h) \/
    (exists st states', (forall failed, RPop self tokens states child failed h (st :: states') None h) /\
       finishes X out child (st :: states') (state_final_token_position st) h res).

  Lemma fail_finishes X out child states pos h Y fs res :
    nth_error out (length states) = Some Y ->
    RStep self tokens Y pos child h (SymErr fs) h ->
    pops X out child states h res -> finishes X out child states pos h res.
  Proof.
    intros HY HS [[-> (fstates & Hp)]|[[-> Hp]|(st & states' & Hp & Hf)]].
    - simpl. do 2 eexists. eapply RProd_failed; eauto.
    - simpl. eapply PProd_pop; eauto.
    - destruct res as [[ns q]| |]; simpl in *.
      + eapply RProd_retry; eauto.
      + destruct Hf as (fp & pos' & Hf). exists fp, pos'. eapply RProd_retry; eauto.
      + eapply PProd_retry; eauto.
  Qed.

  Lemma ok_finishes X out child states pos h Y st res :
    nth_error out (length states) = Some Y ->
    RStep self tokens Y pos child h (SymOk st) h ->
    finishes X out child (StParsing st :: states) (ps_final_token_position st) h res ->
    finishes X out child states pos h res.
  Proof.
    intros HY HS Hf. destruct res as [[ns q]| |]; simpl in *.
    - eapply RProd_ok; eauto.
    - destruct Hf as (fp & pos' & Hf). exists fp, pos'. eapply RProd_ok; eauto.
    - eapply PProd_ok; eauto.
  Qed.

  Lemma leaf_pops X out child st states h res :
    ps_prod_iter_option st = None ->
    pops X out child states h res -> pops X out child (StParsing st :: states) h res.
  Proof.
    intros Hit [[-> (fstates & Hp)]|[[-> Hp]|(st' & states' & Hp & Hf)]].
    - left. split; auto. exists (fstates ++ [StParsing st]). intros failed.
      apply RPop_leaf; auto. rewrite <- app_assoc. apply Hp.
    - right; left. split; auto. intros. now apply PPop_leaf.
    - right; right. exists st', states'. split; auto. intros. now apply RPop_leaf.
  Qed.

  Lemma nth_after (A : Type) (syms : list A) (Y : A) rest n :
    n = length syms -> nth_error (rev syms ++ Y :: rest) n = Some Y.
  Proof.
    intros ->. rewrite <- (rev_length syms), nth_error_app2, Nat.sub_diag by lia. reflexivity.
  Qed.

  Definition after_seq (Xs : list T) (p : nat) (r : option (list (node L T) * nat)) : Prop :=
    forall X out child states syms h, cstack states syms -> out = rev syms ++ Xs ->
    match r with
    | Some (ns, q) => finishes X out child states p h (EOk (nodes states ++ ns, q))
    | None => forall res, pops X out child states h res -> finishes X out child states p h res
    end.

  Definition after_branch (X : T) (p : nat) (outs : list (list T)) (Xs : list T)
             (r : option (list (node L T) * nat)) : Prop :=
    non_terminal ps X ->
    (forall tok, nth_error tokens p = Some tok -> outs = cands X (tok_type tok) ->
       after_seq (X :: Xs) p r) /\
    (forall X0 out child st states syms h,
       ps_prod_iter_option st = Some outs -> ps_initial_token_position st = p ->
       tok_type (node_token (ps_node st)) = X ->
       cstack states syms -> out = rev syms ++ X :: Xs ->
       match r with
       | Some (ns, q) => pops X0 out child (StParsing st :: states) h (EOk (nodes states ++ ns, q))
       | None => forall res, pops X0 out child states h res ->
                             pops X0 out child (StParsing st :: states) h res
       end).

  Lemma spec_to_code :
    (forall X p outs r, choose X p outs r -> forall child failed h,
       match r with
       | Some (n, q, outs') => RTry self tokens X p child outs failed h
           (inl (SymOk {| ps_initial_token_position := p; ps_final_token_position := q;
                          ps_prod_iter_option := Some outs'; ps_node := n |})) h /\
           tok_type (node_token n) = X
       | None => exists fps, RTry self tokens X p child outs failed h (inr fps) h
       end) /\
    (forall Xs p r, sequence Xs p r -> after_seq Xs p r) /\
    (forall X p outs Xs r, branch X p outs Xs r -> after_branch X p outs Xs r).
  Proof.
    assert (RSym_err : forall X p outs single h fps,
      RTry self tokens X p (is_child_single_path single outs) outs [] h (inr fps) h ->
      RSym self tokens X p outs single h (SymErr (FailedSymbol fps X)) h).
    { intros X p outs single h fps HT.
      eapply (@RSym_failed _ _ _ self) with (fo := None); eauto.
      unfold inner_parse_from_tokens_try_fix_productions. now rewrite Hns. }
    apply choice_mutind.
    - intros X p child failed h. exists failed. constructor.
    - intros X p out outs ns q _ IH child failed h. split; auto.
      apply RTry_ok. apply (IH X out child [] [] h cstack_nil eq_refl).
    - intros X p out outs r _ IH1 _ IH2 child failed h.
      destruct (IH1 X out child [] [] h cstack_nil eq_refl EErr) as (fp & pos' & HP).
      { left. split; auto. exists []. intros f. apply RPop_nil. }
      specialize (IH2 child (failed ++ [fp]) h).
      destruct r as [[[n q] outs']|].
      + destruct IH2 as [HT Hn]. split; auto. eapply RTry_err; eauto.
      + destruct IH2 as [fps HT]. exists fps. eapply RTry_err; eauto.
    - intros p X out child states syms h Hs Ho. simpl. rewrite !app_nil_r in *. subst out.
      destruct (cstack_nodes Hs) as [Hf Hn]. apply RProd_done.
      + rewrite rev_length, (cstack_length Hs). lia.
      + unfold inner_parse_from_tokens_production_build_node. rewrite Hf, Hn. reflexivity.
    - intros Xs p r _ IH X out child states syms h Hs Ho. subst out.
      assert (HN : is_non_terminal (pr_grammar self) eps = false)
        by (apply (is_non_terminal_false G); apply (eps_not_nt G)).
      pose proof (fun child h => RStep_t self tokens eps p child h HN) as HR.
      unfold inner_parse_terminal_symbol, get_epsilon_symbol in HR. rewrite (go_eps G), eqb_self in HR.
      set (st := {| ps_initial_token_position := p; ps_final_token_position := p;
               ps_prod_iter_option := None; ps_node := Node [] (Token None eps) |}) in *.
      assert (Hs' : cstack (StParsing st :: states) (eps :: syms)) by now apply cstack_leaf.
      specialize (IH X (rev syms ++ eps :: Xs) child (StParsing st :: states) (eps :: syms) h Hs').
      simpl rev in IH. rewrite <- app_assoc in IH. specialize (IH eq_refl).
      destruct r as [[ns q]|]; simpl consed.
      + eapply ok_finishes; [apply nth_after, cstack_length; auto|apply HR|].
        rewrite nodes_cons in IH. exact IH.
      + intros res Hp. eapply ok_finishes; [apply nth_after, cstack_length; auto|apply HR|].
        apply IH. now apply leaf_pops.
    - intros Xs p tok r Hnt He Htok _ IH X out child states syms h Hs Ho. subst out.
      assert (HN : is_non_terminal (pr_grammar self) (tok_type tok) = false)
        by now apply (is_non_terminal_false G).
      pose proof (fun child h => RStep_t self tokens (tok_type tok) p child h HN) as HR.
      unfold inner_parse_terminal_symbol, get_epsilon_symbol in HR. rewrite (go_eps G) in HR.
      assert (He' : eqb eps (tok_type tok) = false) by (apply eqb_ne_iff; congruence).
      rewrite He' in HR. unfold inner_parse_non_epsilon_terminal_symbol in HR.
      rewrite Htok, eqb_self in HR.
      set (st := {| ps_initial_token_position := p; ps_final_token_position := p + 1;
               ps_prod_iter_option := None; ps_node := Node [] tok |}) in *.
      assert (Hs' : cstack (StParsing st :: states) (tok_type tok :: syms)) by now apply cstack_leaf.
      specialize (IH X (rev syms ++ tok_type tok :: Xs) child (StParsing st :: states) (tok_type tok :: syms) h Hs').
      simpl rev in IH. rewrite <- app_assoc in IH. specialize (IH eq_refl).
      destruct r as [[ns q]|]; simpl consed.
      + eapply ok_finishes; [apply nth_after, cstack_length; auto|apply HR|].
        rewrite nodes_cons in IH. exact IH.
      + intros res Hp. eapply ok_finishes; [apply nth_after, cstack_length; auto|apply HR|].
        apply IH. now apply leaf_pops.
    - intros X Xs p Hnt He Hno X0 out child states syms h Hs Ho. subst out. intros res Hp.
      assert (HN : is_non_terminal (pr_grammar self) X = false)
        by now apply (is_non_terminal_false G).
      pose proof (RStep_t self tokens X p child h HN) as HR.
      unfold inner_parse_terminal_symbol, get_epsilon_symbol in HR. rewrite (go_eps G) in HR.
      assert (He' : eqb eps X = false) by (apply eqb_ne_iff; congruence).
      rewrite He' in HR. unfold inner_parse_non_epsilon_terminal_symbol in HR.
      eapply fail_finishes; eauto; [apply nth_after, cstack_length; eauto|].
      destruct (nth_error tokens p) as [tok|] eqn:Htok; [|exact HR].
      assert (Hx : eqb X (tok_type tok) = false).
      { apply eqb_ne_iff. intros ->. now apply (Hno tok). }
      rewrite Hx in HR. exact HR.
    - intros X Xs p tok r Hnt Htok _ IH. exact (proj1 (IH Hnt) tok Htok eq_refl).
    - (* branch_fail *)
      intros X p outs Xs _ IH Hnt. split.
      + intros tok Htok -> X0 out child states syms h Hs Ho res Hp. subst out.
        destruct (IH (is_child_single_path child (cands X (tok_type tok))) [] h) as [fps HT].
        eapply fail_finishes; [apply nth_after, cstack_length; auto| |exact Hp].
        eapply RStep_nt; eauto. { now apply (is_non_terminal_spec G). }
      + intros X0 out child st states syms h Hit Hi HX Hs Ho res Hp.
        destruct (IH (is_child_single_path child outs) [] h) as [fps HT]. apply RSym_err in HT.
        destruct Hp as [[-> (fstates & Hp)]|[[-> Hp]|(st' & states' & Hp & Hf)]].
        * left. split; auto. exists fstates. intros failed.
          eapply RPop_skip; [exact Hit|rewrite HX, Hi; exact HT|discriminate|apply Hp].
        * right; left. split; auto. intros failed.
          eapply PPop_skip; [exact Hit|rewrite HX, Hi; exact HT|discriminate|apply Hp].
        * right; right. exists st', states'. split; auto. intros failed.
          eapply RPop_skip; [exact Hit|rewrite HX, Hi; exact HT|discriminate|apply Hp].
    - (* branch_ok *)
      intros X p outs Xs n q outs' ns q' _ IH1 _ IH2 Hnt.
      set (st' := {| ps_initial_token_position := p; ps_final_token_position := q;
                     ps_prod_iter_option := Some outs'; ps_node := n |}) in *.
      split.
      + intros tok Htok -> X0 out child states syms h Hs Ho. subst out.
        destruct (IH1 (is_child_single_path child (cands X (tok_type tok))) [] h) as [HT Hn].
        eapply ok_finishes with (st := st'); [apply nth_after, cstack_length; auto| |].
        * eapply RStep_nt; eauto. { now apply (is_non_terminal_spec G). } now apply RSym_done.
        * change (n :: ns) with (snode (StParsing st') :: ns). rewrite <- nodes_cons.
          apply (IH2 X0 _ child (StParsing st' :: states) (X :: syms) h).
          -- eapply cstack_choice; eauto. reflexivity.
          -- simpl. now rewrite <- app_assoc.
      + intros X0 out child st states syms h Hit Hi HX Hs Ho. subst out.
        destruct (IH1 (is_child_single_path child outs) [] h) as [HT Hn].
        right; right. exists (StParsing st'), states. split.
        * intros failed. eapply RPop_ok; eauto. rewrite HX, Hi. now apply RSym_done.
        * change (n :: ns) with (snode (StParsing st') :: ns). rewrite <- nodes_cons.
          apply (IH2 X0 _ child (StParsing st' :: states) (X :: syms) h).
          -- eapply cstack_choice; eauto. reflexivity.
          -- simpl. now rewrite <- app_assoc.
    - (* branch_retry *)
      intros X p outs Xs n q outs' r _ IH1 _ IH2 _ IH3 Hnt.
      destruct (IH3 Hnt) as [_ IH3'].
      set (st' := {| ps_initial_token_position := p; ps_final_token_position := q;
                     ps_prod_iter_option := Some outs'; ps_node := n |}) in *.
      assert (Hst' : tok_type (node_token n) = X -> forall states syms, cstack states syms ->
                cstack (StParsing st' :: states) (X :: syms)).
      { intros Hn states syms Hs. eapply cstack_choice; eauto. reflexivity. }
      split.
      + intros tok Htok -> X0 out child states syms h Hs Ho. subst out.
        destruct (IH1 (is_child_single_path child (cands X (tok_type tok))) [] h) as [HT Hn].
        assert (HS : RStep self tokens X p child h (SymOk st') h).
        { eapply RStep_nt; eauto. { now apply (is_non_terminal_spec G). } now apply RSym_done. }
        assert (Hcont : forall res, pops X0 (rev syms ++ X :: Xs) child (StParsing st' :: states) h res ->
                  finishes X0 (rev syms ++ X :: Xs) child states p h res).
        { intros res Hp. eapply ok_finishes; [apply nth_after, cstack_length; auto|exact HS|].
          apply (IH2 X0 _ child (StParsing st' :: states) (X :: syms) h); auto.
          simpl. now rewrite <- app_assoc. }
        specialize (IH3' X0 (rev syms ++ X :: Xs) child st' states syms h eq_refl eq_refl Hn Hs eq_refl).
        destruct r as [[ns q2]|]; auto.
      + intros X0 out child st states syms h Hit Hi HX Hs Ho. subst out.
        destruct (IH1 (is_child_single_path child outs) [] h) as [HT Hn].
        assert (Hpop : forall failed, RPop self tokens (StParsing st :: states) child failed h
                  (StParsing st' :: states) None h).
        { intros failed. eapply RPop_ok; eauto. rewrite HX, Hi. now apply RSym_done. }
        assert (Hcont : forall res, pops X0 (rev syms ++ X :: Xs) child (StParsing st' :: states) h res ->
                  pops X0 (rev syms ++ X :: Xs) child (StParsing st :: states) h res).
        { intros res Hp. right; right. exists (StParsing st'), states. split; auto.
          apply (IH2 X0 _ child (StParsing st' :: states) (X :: syms) h); auto.
          simpl. now rewrite <- app_assoc. }
        specialize (IH3' X0 (rev syms ++ X :: Xs) child st' states syms h eq_refl eq_refl Hn Hs eq_refl).
        destruct r as [[ns q2]|]; auto.
  Qed.

  Theorem parse_choice_sound fuel res h :
    parse_from_tokens fuel self tokens = Done (res, h) ->
    exists tok rest, tokens = tok :: rest /\ h = [] /\
    match res with
    | ResultOk root => exists q outs, choose init 0 (cands init (tok_type tok)) (Some (root, q, outs))
    | ResultErr _ => choose init 0 (cands init (tok_type tok)) None
    | ResultFix _ => False
    end.
  Proof.
    intros H. apply parse_run in H as (tok & rest & r & Ht & Hres & Hrun).
    exists tok, rest. split; auto.
    unfold get_initial_symbol in Hrun. rewrite (go_init G) in Hrun.
    apply (proj1 code_to_spec) in Hrun as (-> & (o & Ho1 & Ho2) & _). split; auto.
    destruct r as [st|e|f]; simpl in *; subst res.
    - destruct Ho2 as (it & _ & ->). eauto.
    - now subst o.
    - auto.
  Qed.
End Choice.

Section ChoiceTop.
  Context {L T : Type} {E : EqDec T}.
  Context {eps init : T} {ps : list (production T)} {self : parser L T}.
  Hypothesis P : parser_of eps init ps self.
  Hypothesis Hns : pr_solver self = None.
  Notation cands := (inner_get_token_productions self).

  Theorem parse_choice_complete (tok : token L T) rest r :
    choose eps ps (tok :: rest) cands init 0 (cands init (tok_type tok)) r ->
    exists n res, (forall fuel, n <= fuel -> parse_from_tokens fuel self (tok :: rest) = Done (res, [])) /\
    match r with
    | Some (root, _, _) => res = ResultOk root
    | None => exists f, res = ResultErr f
    end.
  Proof.
    intros H. apply (proj1 (spec_to_code P Hns (tok :: rest))) with
      (child := is_child_single_path true (cands init (tok_type tok))) (failed := []) (h := []) in H.
    assert (Hrun : exists r', RSym self (tok :: rest) init 0 (cands init (tok_type tok)) true [] r' [] /\
              match r with
              | Some (root, _, _) => parse_symbol_result_to_parse_result r' = ResultOk root
              | None => exists f, parse_symbol_result_to_parse_result r' = ResultErr f
              end).
    { destruct r as [[[n q] outs]|].
      - destruct H as [HT _]. eexists. split; [apply RSym_done; exact HT|]. reflexivity.
      - destruct H as [fps HT]. exists (SymErr (FailedSymbol fps init)). split; [|simpl; eauto].
        eapply (@RSym_failed _ _ _ self) with (fo := None); eauto.
        unfold inner_parse_from_tokens_try_fix_productions. now rewrite Hns. }
    destruct Hrun as (r' & Hrun & Hr).
    assert (Hi : get_initial_symbol (pr_grammar self) = init) by apply (go_init (po_grammar P)).
    rewrite <- Hi in Hrun. apply run_parse in Hrun as [n Hn].
    exists n, (parse_symbol_result_to_parse_result r'). split; auto.
  Qed.
End ChoiceTop.
