(** * Soundness of Ok results (proofs) *)

From Verif Require Import BaseFacts GrammarFacts DerivFacts TransitionsFacts.
From Verif Require Export ParserRel.

Set Implicit Arguments.

(** [self] parses with grammar ([eps], [init], [ps]) and its cells only hold
    productions of the right symbol. *)
Record parser_of {L T} {E : EqDec T} (eps init : T) (ps : list (production T))
       (self : parser L T) : Prop := {
  po_grammar : grammar_of eps init ps (pr_grammar self);
  po_cells : forall A a l p,
    transitions_get_productions (pr_transitions self) A a = Some l -> In p l ->
    In p ps /\ p_input p = A;
  po_cell_size : forall A a l,
    transitions_get_productions (pr_transitions self) A a = Some l -> length l <= length ps
}.

Definition progress_solver {L T} (self : parser L T) : Prop := progressing (pr_solver self).

Section Sound.
  Context {L T : Type} {E : EqDec T}.
  Context {eps init : T} {ps : list (production T)} {self : parser L T}.
  Hypothesis P : parser_of eps init ps self.
  Variable tokens : list (token L T).
  Let G := po_grammar P.

  Definition good_prods (X : T) (prods : list (list T)) : Prop :=
    (forall out, In out prods -> exists p, In p ps /\ p_input p = X /\ p_output p = out) /\
    length prods <= length ps.

  Lemma good_prods_tail X out prods : good_prods X (out :: prods) -> good_prods X prods.
  Proof.
    intros [H1 H2]. split; [|simpl in H2; lia]. intros o Ho. apply H1; simpl; auto.
  Qed.

  Definition span (p1 : nat) (w : list (token L T)) (p2 : nat) : Prop :=
    p2 = p1 + length w /\ prefix w (skipn p1 tokens).

  Lemma span_nil p : span p [] p.
  Proof. split; [simpl; lia|]. exists (skipn p tokens); reflexivity. Qed.

  Lemma skipn_add (A : Type) (l : list A) a b : skipn (a + b) l = skipn b (skipn a l).
  Proof.
    revert l; induction a as [|a IH]; intros l; simpl; [reflexivity|].
    destruct l; [now rewrite skipn_nil|apply IH].
  Qed.

  Lemma span_app p1 w1 p2 w2 p3 : span p1 w1 p2 -> span p2 w2 p3 -> span p1 (w1 ++ w2) p3.
  Proof.
    intros [-> [r1 H1]] [-> [r2 H2]]. split; [rewrite app_length; lia|].
    exists r2. rewrite skipn_add in H2. rewrite H1 in H2.
    rewrite skipn_app, Nat.sub_diag, skipn_all in H2. simpl in H2. rewrite H1, H2.
    now rewrite app_assoc.
  Qed.

  Lemma span_one p tok : nth_error tokens p = Some tok -> span p [tok] (p + 1).
  Proof.
    intros H. split; [reflexivity|]. apply nth_error_split in H as (u & v & -> & <-).
    exists v. rewrite skipn_app, Nat.sub_diag, skipn_all. reflexivity.
  Qed.

  Lemma token_productions_good X a : good_prods X (inner_get_token_productions self X a).
  Proof.
    unfold inner_get_token_productions.
    destruct (transitions_get_productions (pr_transitions self) X a) as [l|] eqn:Hl.
    - split.
      + intros out Hin. apply in_map_iff in Hin as (p & Ho & Hp).
        destruct (po_cells P _ _ _ Hl Hp). exists p; auto.
      + rewrite map_length. eapply po_cell_size; eauto.
    - split; [intros out []|simpl; lia].
  Qed.

  (** a parsed state for symbol [X] starting at [p1] *)
  Definition sok (X : T) (st : parsing_state L T) (p1 : nat) : Prop :=
    (exists w, tree_for eps ps X (ps_node st) w /\ span p1 w (ps_final_token_position st)) /\
    ps_initial_token_position st = p1 /\
    match ps_prod_iter_option st with
    | None => ~ non_terminal ps X
    | Some it => tok_type (node_token (ps_node st)) = X /\ good_prods X it /\ p1 < length tokens /\
                 non_terminal ps X
    end.

  (** a stack of states (top first) for the symbols [syms], from [p0] to [p] *)
  Inductive stack_ok : list (state L T) -> nat -> nat -> list T -> Prop :=
  | stack_nil p0 : stack_ok [] p0 p0 []
  | stack_parsing st states p0 p1 syms X :
      stack_ok states p0 p1 syms -> sok X st p1 ->
      stack_ok (StParsing st :: states) p0 (ps_final_token_position st) (syms ++ [X])
  | stack_fixed fs states p0 p1 syms X :
      stack_ok states p0 p1 syms ->
      (progress_solver self -> p1 < fst_final_token_position fs) ->
      stack_ok (StFixed fs :: states) p0 (fst_final_token_position fs) (syms ++ [X]).

  Lemma stack_ok_length states p0 p syms :
    stack_ok states p0 p syms -> length states = length syms.
  Proof. induction 1; simpl; rewrite ?app_length; simpl; lia. Qed.

  Lemma stack_ok_top st states p0 p syms :
    stack_ok (st :: states) p0 p syms -> p = state_final_token_position st.
  Proof. inversion 1; subst; reflexivity. Qed.

  Lemma stack_parsing_inv st states p0 p syms :
    stack_ok (StParsing st :: states) p0 p syms ->
    exists p1 syms0 X, syms = syms0 ++ [X] /\ p = ps_final_token_position st /\
      stack_ok states p0 p1 syms0 /\ sok X st p1.
  Proof. inversion 1; subst. eauto 10. Qed.

  Lemma stack_fixed_inv fs states p0 p syms :
    stack_ok (StFixed fs :: states) p0 p syms ->
    exists p1 syms0 X, syms = syms0 ++ [X] /\ p = fst_final_token_position fs /\
      stack_ok states p0 p1 syms0.
  Proof. inversion 1; subst. eauto 10. Qed.

  Lemma stack_mono states p0 p syms : progress_solver self ->
    stack_ok states p0 p syms ->
    p0 <= p /\ (existsb (@is_fixed L T) states = true -> p0 < p).
  Proof.
    intros Hpr. induction 1 as [p0|st states p0 p1 syms X Hs [IH1 IH2] Hok|fs states p0 p1 syms X Hs [IH1 IH2] Hf];
      simpl.
    - split; [lia|discriminate].
    - destruct Hok as ((w & _ & [Hw _]) & _). split; [lia|]. intros H. specialize (IH2 H). lia.
    - specialize (Hf Hpr). split; [lia|]. intros _; lia.
  Qed.

  Lemma states_to_nodes_snoc (l : list (state L T)) st ns :
    states_to_nodes (l ++ [StParsing st]) = Done ns ->
    exists ns', states_to_nodes l = Done ns' /\ ns = ns' ++ [ps_node st].
  Proof.
    revert ns; induction l as [|[x|x] l IH]; intros ns H; simpl in *; try discriminate.
    - inversion H; subst. exists []; auto.
    - apply bind_done in H as (ns1 & H1 & H2). inversion H2; subst.
      destruct (IH _ H1) as (ns' & -> & ->). simpl. eexists; split; [reflexivity|reflexivity].
  Qed.

  Lemma forest_app Xs ns w Ys ms v :
    forest_for eps ps Xs ns w -> forest_for eps ps Ys ms v ->
    forest_for (L := L) eps ps (Xs ++ Ys) (ns ++ ms) (w ++ v).
  Proof.
    intros H H'. induction H; simpl; auto. rewrite <- app_assoc. constructor; auto.
  Qed.

  Lemma stack_forest states p0 p syms : stack_ok states p0 p syms ->
    existsb (@is_fixed L T) states = false -> forall ns,
    states_to_nodes (rev states) = Done ns ->
    exists w, forest_for eps ps syms ns w /\ span p0 w p.
  Proof.
    induction 1 as [p0|st states p0 p1 syms X Hs IH Hok|fs states p0 p1 syms X Hs IH];
      intros Hf ns Hn; simpl in *.
    - inversion Hn; subst. exists []. split; [constructor|apply span_nil].
    - apply states_to_nodes_snoc in Hn as (ns' & Hn & ->).
      destruct (IH Hf ns' Hn) as (w & Hw & Hsp). destruct Hok as ((v & Hv & Hsp') & _).
      exists (w ++ v). split; [|eapply span_app; eauto].
      apply forest_app; auto. rewrite <- (app_nil_r v). constructor; [auto|constructor].
    - discriminate.
  Qed.

  (** what a symbol run yields *)
  Definition sym_result_ok (X : T) (pos : nat) (prods : list (list T))
             (r : parse_symbol_result L T) : Prop :=
    match r with
    | SymOk st => sok X st pos /\
                  exists it, ps_prod_iter_option st = Some it /\ length it < length prods
    | SymErr _ => True
    | SymFix fs => progress_solver self -> pos < fst_final_token_position fs
    end.

  Definition SSym X pos prods (single : bool) (h : history L T) r (h' : history L T) : Prop :=
    good_prods X prods -> pos < length tokens -> sym_result_ok X pos prods r.
  Definition STry X pos (child : bool) prods (failed : list (failed_production L T))
             (h : history L T) (r : parse_symbol_result L T + list (failed_production L T))
             (h' : history L T) : Prop :=
    good_prods X prods -> pos < length tokens ->
    match r with inl r => sym_result_ok X pos prods r | inr _ => True end.
  Definition SProd X out (child : bool) states pos (h : history L T) pr pos' (h' : history L T) : Prop :=
    forall p0 syms rest, stack_ok states p0 pos syms -> out = syms ++ rest ->
    match pr with
    | ProdOk n => exists ns w, n = Node ns (Token None X) /\ forest_for eps ps out ns w /\ span p0 w pos'
    | ProdErr _ => True
    | ProdFix _ => progress_solver self -> p0 < pos'
    end.
  Definition SStep Y pos (child : bool) (h : history L T) r (h' : history L T) : Prop :=
    match r with
    | SymOk st => sok Y st pos /\
                  (forall it, ps_prod_iter_option st = Some it -> length it < length ps)
    | SymErr _ => True
    | SymFix fs => progress_solver self -> pos < fst_final_token_position fs
    end.
  Definition SPop states (child : bool) (failed : list (state L T)) (h : history L T)
             states' (popped : option (list (state L T))) (h' : history L T) : Prop :=
    forall p0 p syms, stack_ok states p0 p syms -> popped = None ->
    exists p' syms' rest, syms = syms' ++ rest /\ stack_ok states' p0 p' syms'.

  Lemma run_sound :
    (forall X pos prods single h r h', RSym self tokens X pos prods single h r h' ->
       SSym X pos prods single h r h') /\
    (forall X pos child prods failed h r h', RTry self tokens X pos child prods failed h r h' ->
       STry X pos child prods failed h r h') /\
    (forall X out child states pos h pr pos' h',
       RProd self tokens X out child states pos h pr pos' h' ->
       SProd X out child states pos h pr pos' h') /\
    (forall Y pos child h r h', RStep self tokens Y pos child h r h' -> SStep Y pos child h r h') /\
    (forall states child failed h states' popped h',
       RPop self tokens states child failed h states' popped h' ->
       SPop states child failed h states' popped h').
  Proof.
    apply run_mutind; unfold SSym, STry, SProd, SStep, SPop.
    - intros X pos prods single h r h' _ IH Hg Hpos. apply IH; auto.
    - intros X pos prods single h failed h' fo h'' _ _ Hfix Hg Hpos.
      destruct fo as [fr|]; simpl; auto. intros Hprog.
      unfold inner_parse_from_tokens_try_fix_productions in Hfix.
      destruct (pr_solver self) as [solver|] eqn:Hsol; [|discriminate].
      destruct single; [|discriminate].
      destruct (is_child_single_path true prods).
      + destruct failed as [|fp failed]; [discriminate|]. apply await_done in Hfix as [Hfix _].
        exact (proj2 (Hprog solver _ _ Hsol) _ Hfix).
      + apply await_done in Hfix as [Hfix _]. exact (proj2 (Hprog solver _ _ Hsol) _ Hfix).
    - auto.
    - intros X pos child out rest failed h n pos' h' _ IH Hg Hpos.
      destruct (proj1 Hg out) as (p & Hp & Hi & Ho); [simpl; auto|].
      destruct (IH pos [] out) as (ns & w & -> & Hf & Hsp); auto; [constructor|].
      split; [|exists rest; simpl; auto].
      split; [|split; simpl; auto].
      + exists w. simpl. split; auto. subst X. constructor; auto. now rewrite Ho.
      + split; auto. split; [eapply good_prods_tail; eauto|]. split; auto. exists p; auto.
    - intros X pos child out rest failed h fp pos' h' r h'' _ _ _ IH Hg Hpos.
      specialize (IH (good_prods_tail Hg) Hpos). destruct r as [[st|e|f]|]; simpl in *; auto.
      destruct IH as (H1 & it & H2 & H3). split; auto. exists it; split; auto.
    - intros X pos child out rest failed h fp pos' h' _ IH Hg Hpos. simpl.
      apply (IH pos [] out); auto. constructor.
    - intros X out child states pos h pr Hlen Hb p0 syms rest Hs Ho.
      pose proof (stack_ok_length Hs) as Hl.
      assert (Hrest : rest = []).
      { destruct rest as [|y rest]; auto. subst out. rewrite app_length in Hlen. simpl in Hlen. lia. }
      subst rest. rewrite app_nil_r in Ho. subst out.
      unfold inner_parse_from_tokens_production_build_node in Hb.
      assert (Hrev : existsb (@is_fixed L T) (rev states) = existsb (@is_fixed L T) states).
      { apply eq_true_iff_eq. rewrite !existsb_exists.
        split; intros (x & Hx & Hxf); exists x; split; auto; [now apply in_rev|now apply in_rev in Hx]. }
      rewrite Hrev in Hb.
      destruct (existsb (@is_fixed L T) states) eqn:Hfx.
      + inversion Hb; subst. intros Hprog. now apply (stack_mono Hprog Hs).
      + apply bind_done in Hb as (ns & Hn & Hb). inversion Hb; subst.
        destruct (stack_forest Hs Hfx Hn) as (w & Hw & Hsp). exists ns, w. auto.
    - intros X out child states pos h Y st h' pr pos' h'' HY _ [IH1 _] _ IH2 p0 syms rest Hs Ho.
      pose proof (stack_ok_length Hs) as Hl. subst out.
      rewrite Hl, nth_error_app2, Nat.sub_diag in HY by lia.
      destruct rest as [|y rest]; [discriminate|]. simpl in HY. inversion HY; subst y.
      apply (IH2 p0 (syms ++ [Y]) rest); [|now rewrite <- app_assoc].
      eapply stack_parsing; eauto.
    - intros X out child states pos h Y fs h' pr pos' h'' HY _ IH1 _ IH2 p0 syms rest Hs Ho.
      pose proof (stack_ok_length Hs) as Hl. subst out.
      rewrite Hl, nth_error_app2, Nat.sub_diag in HY by lia.
      destruct rest as [|y rest]; [discriminate|]. simpl in HY. inversion HY; subst y.
      apply (IH2 p0 (syms ++ [Y]) rest); [|now rewrite <- app_assoc].
      eapply stack_fixed; eauto.
    - simpl. auto.
    - intros X out child states pos h Y fs h' st states' h'' pr pos' h3 HY _ _ _ IHpop _ IH
        p0 syms rest Hs Ho.
      destruct (IHpop p0 pos syms Hs eq_refl) as (p' & syms' & rest' & Hsy & Hs').
      pose proof (stack_ok_top Hs') as Hp'. rewrite Hp' in Hs'.
      apply (IH p0 syms' (rest' ++ rest)); auto. subst. now rewrite <- app_assoc.
    - intros Y pos child h tok r h' Hnt Htok _ IH.
      assert (Hpos : pos < length tokens) by (apply nth_error_Some; congruence).
      specialize (IH (token_productions_good _ _) Hpos).
      destruct r as [st|e|f]; simpl in *; auto.
      destruct IH as (H1 & it & H2 & H3). split; auto. intros it' Hit'.
      pose proof (proj2 (token_productions_good Y (tok_type tok))). assert (it' = it) by congruence.
      subst; lia.
    - intros Y pos child h Hnt. apply (is_non_terminal_false G) in Hnt.
      unfold inner_parse_terminal_symbol, get_epsilon_symbol. rewrite (go_eps G).
      destruct (eqb eps Y) eqn:He.
      + apply eqb_iff in He; subst Y.
        split; [|discriminate]. split; [|split; simpl; auto].
        exists []. simpl. split; [constructor|apply span_nil].
      + apply eqb_ne_iff in He. unfold inner_parse_non_epsilon_terminal_symbol.
        destruct (nth_error tokens pos) as [tok|] eqn:Htok; simpl; auto.
        destruct (eqb Y (tok_type tok)) eqn:Ht; simpl; auto.
        apply eqb_iff in Ht; subst Y.
        split; [|discriminate]. split; [|split; simpl; auto]. exists [tok]. simpl. split; [|now apply span_one].
        constructor; auto.
    - discriminate.
    - intros fs states child failed h states' popped h' _ IH p0 p syms Hs Hn.
      apply stack_fixed_inv in Hs as (p1 & syms0 & X & -> & _ & Hs).
      destruct (IH _ _ _ Hs Hn) as (p' & syms' & rest & -> & Hs').
      exists p', syms', (rest ++ [X]). rewrite <- app_assoc; auto.
    - intros st states child failed h states' popped h' Hit _ IH p0 p syms Hs Hn.
      apply stack_parsing_inv in Hs as (p1 & syms0 & X & -> & _ & Hs & _).
      destruct (IH _ _ _ Hs Hn) as (p' & syms' & rest & -> & Hs').
      exists p', syms', (rest ++ [X]). rewrite <- app_assoc; auto.
    - intros st it states child failed h ps' h' Hit _ IH p0 p syms Hs Hn.
      apply stack_parsing_inv in Hs as (p1 & syms0 & X & -> & _ & Hs & Hok).
      destruct Hok as (Ht & Hi & Hm). rewrite Hit in Hm. destruct Hm as (HX & Hg & Hpos & HXn).
      exists (ps_final_token_position ps'), (syms0 ++ [X]), []. rewrite app_nil_r. split; auto.
      eapply stack_parsing; eauto. subst X. rewrite <- Hi. rewrite <- Hi in Hpos. apply (IH Hg Hpos).
    - intros st it states child failed h r h' states' popped h'' Hit _ _ Hr _ IH p0 p syms Hs Hn.
      apply stack_parsing_inv in Hs as (p1 & syms0 & X & -> & _ & Hs & _).
      destruct (IH _ _ _ Hs Hn) as (p' & syms' & rest & -> & Hs').
      exists p', syms', (rest ++ [X]). rewrite <- app_assoc; auto.
  Qed.

  Theorem parse_ok_sound fuel root h :
    parse_from_tokens fuel self tokens = Done (ResultOk root, h) ->
    exists w, tree_for eps ps init root w /\ prefix w tokens.
  Proof.
    intros H. apply parse_run in H as (tok & rest & r & Ht & Hres & Hrun).
    destruct r as [st|e|f]; try discriminate. inversion Hres; subst root.
    apply (proj1 run_sound) in Hrun.
    destruct (Hrun (token_productions_good _ _)) as (((w & Hw & Hsp) & _) & _);
      [rewrite Ht; simpl; lia|].
    unfold get_initial_symbol in Hw. rewrite (go_init G) in Hw.
    exists w. split; auto. destruct Hsp as [_ Hp]. exact Hp.
  Qed.
End Sound.

(** trees are derivations *)
Section TreeDerives.
  Context {L T : Type} {E : EqDec T}.
  Variable eps : T.
  Variable ps : list (production T).

  Scheme tree_for_mut := Minimality for tree_for Sort Prop
  with forest_for_mut := Minimality for forest_for Sort Prop.
  Combined Scheme tree_forest_ind from tree_for_mut, forest_for_mut.

  Lemma tree_derives_all :
    (forall X n w, tree_for (L := L) eps ps X n w ->
       derives eps ps [X] (map (@tok_type L T) w) /\ tok_type (node_token n) = X) /\
    (forall Xs ns w, forest_for (L := L) eps ps Xs ns w ->
       derives eps ps Xs (map (@tok_type L T) w) /\
       map (fun n => tok_type (node_token n)) ns = Xs).
  Proof.
    apply tree_forest_ind.
    - intros tok _ _. split; [apply derives_refl|reflexivity].
    - split; [apply derives_eps|reflexivity].
    - intros p children w Hp _ [IH _]. split; [|reflexivity].
      eapply derives_trans; [now apply derives_production|exact IH].
    - split; [apply derives_refl|reflexivity].
    - intros X Xs n ns w ws _ [IH1 IH1'] _ [IH2 IH2']. split.
      + rewrite map_app. exact (derives_app IH1 IH2).
      + simpl. congruence.
  Qed.

  Lemma tree_derives X n w : tree_for (L := L) eps ps X n w ->
    derives eps ps [X] (map (@tok_type L T) w).
  Proof. intros H. apply (proj1 tree_derives_all) in H. tauto. Qed.

  Lemma tree_root X n w : tree_for (L := L) eps ps X n w -> tok_type (node_token n) = X.
  Proof. intros H. apply (proj1 tree_derives_all) in H. tauto. Qed.

  Lemma tree_leaves_all :
    (forall X n w, tree_for (L := L) eps ps X n w ->
       Forall (fun t => tok_type t <> eps /\ ~ non_terminal ps (tok_type t)) w) /\
    (forall Xs ns w, forest_for (L := L) eps ps Xs ns w ->
       Forall (fun t => tok_type t <> eps /\ ~ non_terminal ps (tok_type t)) w).
  Proof.
    apply tree_forest_ind; intros; auto.
    apply Forall_app; auto.
  Qed.

  Lemma forest_split Xs Ys : forall ns w, forest_for (L := L) eps ps (Xs ++ Ys) ns w ->
    exists ns1 ns2 w1 w2, ns = ns1 ++ ns2 /\ w = w1 ++ w2 /\
      forest_for eps ps Xs ns1 w1 /\ forest_for eps ps Ys ns2 w2.
  Proof.
    induction Xs as [|X Xs IH]; intros ns w H; simpl in H.
    - exists [], ns, [], w. repeat split; auto. constructor.
    - inversion H; subst. destruct (IH _ _ H5) as (n1 & n2 & w1 & w2 & -> & -> & Ha & Hb).
      exists (n :: n1), n2, (w0 ++ w1), w2. rewrite app_assoc. repeat split; auto.
      now constructor.
  Qed.
End TreeDerives.
