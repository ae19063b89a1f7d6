(** * What a table without conflicts certifies about the grammar: C70 *)

From Verif Require Import BaseFacts GrammarFacts DerivFacts FirstFacts FollowFacts FollowRepeat TransitionsFacts.
From Verif Require Import ParserBuild Examples LL1Check PropFirstFollow PropTable PropParse.

Set Implicit Arguments.

(** a tree determines its symbol and its tokens *)
Lemma tree_yield_unique {L T : Type} (eps : T) (ps : list (production T)) : ~ non_terminal ps eps ->
  (forall X (n : node L T) w, tree_for eps ps X n w -> forall X' w', tree_for eps ps X' n w' -> X' = X /\ w' = w) /\
  (forall Xs (ns : list (node L T)) w, forest_for eps ps Xs ns w ->
     forall Xs' w', forest_for eps ps Xs' ns w' -> w' = w).
Proof.
  intros Heps. apply tree_forest_ind.
  - intros tok He Hn X' w' H. inversion H as [? H1 H2 H3|H1 H2 H3|p ch w0 Hp Hf H1 H2 H3]; subst; auto.
    + contradiction.
    + exfalso. apply Hn. exists p. auto.
  - intros X' w' H. inversion H as [? H1 H2 H3|H1 H2 H3|p ch w0 Hp Hf H1 H2 H3]; subst; auto.
    + simpl in *. congruence.
    + exfalso. apply Heps. exists p. auto.
  - intros p ch w Hp Hf IH X' w' H. inversion H as [? H1 H2 H3|H1 H2 H3|p' ch' w0 Hp' Hf' H1 H2 H3]; subst.
    + exfalso. apply H2. exists p. auto.
    + exfalso. apply Heps. exists p. auto.
    + split; auto. eapply IH; eauto.
  - intros Xs' w' H. now inversion H.
  - intros X Xs n ns w ws _ IH1 _ IH2 Xs' w' H. inversion H; subst.
    f_equal; [eapply IH1; eauto|eapply IH2; eauto].
Qed.

(** the grammar is LL(1), and no token list has two trees *)
Definition C70_full_statement : Prop :=
  forall (L T : Type) (E : EqDec T) (eps init eof : T) (ps : list (production T))
         (solver : option (syntax_error_solver L T)) (self : parser L T),
    built_parser eps init ps solver self -> conflict_free (pr_transitions self) ->
    eof_discipline eps ps init eof -> non_terminal ps init ->
    ll1 eps ps init /\
    forall (tokens : list (token L T)) root root',
      tree_for eps ps init root tokens -> tree_for eps ps init root' tokens -> root' = root.

(** 0 epsilon; S = 1 -> B B $; B = 2 -> b | epsilon; b = 3, $ = 4.  [b $] has two trees. *)
Definition ambiguous_productions : list (production nat) :=
  [Production 1 [2; 2; 4]; Production 2 [3]; Production 2 [0]].

Lemma ambiguous_eof : eof_discipline 0 ambiguous_productions 1 4.
Proof.
  split; [discriminate|]. split; [apply non_terminalb_false; reflexivity|].
  split; [|split].
  - intros p Hp. simpl in Hp. intros Hin.
    decompose [or] Hp; subst; simpl in Hin; intuition discriminate.
  - intros p Hp Hi. simpl in Hp.
    decompose [or] Hp; subst; try discriminate; try contradiction.
    exists [2; 2]. split; [reflexivity|simpl; intuition discriminate].
  - intros p Hp Hi. simpl in Hp. intros Hin.
    decompose [or] Hp; subst; simpl in Hin, Hi; intuition discriminate.
Qed.

Section AmbiguousTrees.
  Let tb : token nat nat := Token (Some 9) 3.
  Let te : token nat nat := Token None 4.
  Let nb : node nat nat := Node [Node [] tb] (Token None 2).
  Let n0 : node nat nat := Node [Node [] (Token None 0)] (Token None 2).
  Let left_tree : node nat nat := Node [nb; n0; Node [] te] (Token None 1).
  Let right_tree : node nat nat := Node [n0; nb; Node [] te] (Token None 1).

  Let Hb : tree_for 0 ambiguous_productions 2 nb [tb].
  Proof.
    apply (@tree_production _ _ 0 ambiguous_productions (Production 2 [3])); [simpl; auto|].
    change [tb] with ([tb] ++ []). constructor; [|constructor].
    apply (@tree_token _ _ 0 ambiguous_productions tb); [discriminate|apply non_terminalb_false; reflexivity].
  Qed.
  Let H0 : tree_for 0 ambiguous_productions 2 n0 [].
  Proof.
    apply (@tree_production _ _ 0 ambiguous_productions (Production 2 [0])); [simpl; auto|].
    change (@nil (token nat nat)) with (@nil (token nat nat) ++ []). constructor; constructor.
  Qed.
  Let He : tree_for 0 ambiguous_productions 4 (Node [] te) [te].
  Proof. apply (@tree_token _ _ 0 ambiguous_productions te); [discriminate|apply non_terminalb_false; reflexivity]. Qed.

  Lemma ambiguous_trees : exists (tokens : list (token nat nat)) root root',
    tree_for 0 ambiguous_productions 1 root tokens /\ tree_for 0 ambiguous_productions 1 root' tokens /\
    root' <> root.
  Proof.
    exists [tb; te], left_tree, right_tree. split; [|split; [|discriminate]].
    - apply (@tree_production _ _ 0 ambiguous_productions (Production 1 [2; 2; 4])); [simpl; auto|].
      change [tb; te] with ([tb] ++ [] ++ [te] ++ []).
      constructor; [exact Hb|]. constructor; [exact H0|]. constructor; [exact He|constructor].
    - apply (@tree_production _ _ 0 ambiguous_productions (Production 1 [2; 2; 4])); [simpl; auto|].
      change [tb; te] with ([] ++ [tb] ++ [te] ++ []).
      constructor; [exact H0|]. constructor; [exact Hb|]. constructor; [exact He|constructor].
  Qed.
End AmbiguousTrees.

Theorem C70_full_statement_refuted : ~ C70_full_statement.
Proof.
  intros H.
  destruct (build (L := nat) 0 1 ambiguous_productions None 200) as [self| |] eqn:Hb;
    [|vm_compute in Hb; discriminate..].
  apply build_built in Hb as B.
  destruct (H _ _ _ _ _ 4 _ _ _ B) as [_ Hu].
  - apply conflict_free_check_ok. vm_compute in Hb. inversion Hb; subst self. vm_compute. reflexivity.
  - exact ambiguous_eof.
  - apply non_terminalb_spec. reflexivity.
  - destruct ambiguous_trees as (tokens & r & r' & H1 & H2 & Hne). exact (Hne (Hu _ _ _ H1 H2)).
Qed.
Print Assumptions C70_full_statement_refuted.

(** What holds: repeated neighbours must be harmless (C08, FollowSpec).  Missing: the other
    grammars, such as the one above. *)
Theorem C70_conflict_free_certifies_partial :
  forall (L T : Type) (E : EqDec T) (eps init : T) (ps : list (production T))
         (solver : option (syntax_error_solver L T)) (self : parser L T),
    built_parser eps init ps solver self -> conflict_free (pr_transitions self) ->
    repeats_harmless eps ps init ->
    ll1 eps ps init /\
    (initial_ends_in_terminal eps ps init -> non_terminal ps init ->
     forall (tokens w w' : list (token L T)) root root',
       tree_for eps ps init root w -> tree_for eps ps init root' w' ->
       prefix w tokens -> prefix w' tokens -> root' = root /\ w' = w).
Proof.
  intros L T E eps init ps solver self B Hcf Hrep. split.
  - intros A a p q Hp Hq. apply built_inv in B as (ho1 & ho2 & fuel & g & ffs & Hg & Hf & Hs).
    destruct (rdp_from_inv _ _ _ _ Hs) as (_ & _ & Ht).
    destruct (@C12_table_covers_textbook_partial _ _ _ _ _ _ _ _ _ _ _ _ _ _ _ Hg Hf Ht Hrep Hp) as (l & Hl & Hpl).
    destruct (@C12_table_covers_textbook_partial _ _ _ _ _ _ _ _ _ _ _ _ _ _ _ Hg Hf Ht Hrep Hq) as (l' & Hl' & Hql).
    rewrite Hl in Hl'. inversion Hl'; subst l'. pose proof (Hcf _ _ _ Hl) as Hlen.
    destruct l as [|x [|? ?]]; simpl in *; [contradiction| |lia].
    destruct Hpl as [<-|[]]. destruct Hql as [<-|[]]. reflexivity.
  - intros Hend Hinit tokens w w' root root' Ht Ht' Hw Hw'.
    pose proof (C23_conflict_free_exact B Hcf Hrep Hend Hinit Ht Hw) as H1.
    pose proof (C23_conflict_free_exact B Hcf Hrep Hend Hinit Ht' Hw') as H2.
    pose proof (terminates_unique H2 H1) as Heq. inversion Heq; subst. split; auto.
    eapply (proj1 (tree_yield_unique (eps_not_nt (po_grammar (bf_of (built_built B)))))); eauto.
Qed.
Print Assumptions C70_conflict_free_certifies_partial.

Example C70_case : built_parser (L := nat) Eps Prog expr_productions None expr_parser /\
  conflict_free (pr_transitions expr_parser) /\ repeats_harmless Eps expr_productions Prog /\
  initial_ends_in_terminal Eps expr_productions Prog /\ non_terminal expr_productions Prog.
Proof.
  splits; [exact expr_built|exact expr_conflict_free|exact expr_harmless|exact expr_ends|].
  apply non_terminalb_spec. reflexivity.
Qed.
