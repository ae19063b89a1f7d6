(** * LL1Check: deciding [ll1] on concrete grammars

    FIRST and FOLLOW as computed by the model are exact on grammars without
    back-to-back repetitions (C05, C07, C08), so the textbook table can be
    read off them. *)

From Verif Require Import BaseFacts GrammarFacts DerivFacts FirstFacts FollowFacts TransitionsFacts.
From Verif Require Export Examples PropFirstFollow PropTable.

Set Implicit Arguments.

Section Check.
  Context {T : Type} {E : EqDec T}.
  Variables eps init : T.
  Variable ps : list (production T).

  Definition set_of (o : option (list T)) : list T := match o with Some s => s | None => [] end.

  Fixpoint first_of (ffs : first_follow_symbols T) (out : list T) : list T :=
    match out with
    | [] => []
    | X :: out' =>
        set_of (get_first_symbols ffs X) ++
        (if existsb (eqb eps) (set_of (get_first_symbols ffs X)) then first_of ffs out' else [])
    end.

  Definition nullable_of (ffs : first_follow_symbols T) (out : list T) : bool :=
    forallb (fun X => existsb (eqb eps) (set_of (get_first_symbols ffs X))) out.

  Definition textbook_of (ffs : first_follow_symbols T) (p : production T) : list T :=
    filter (fun a => negb (eqb eps a)) (first_of ffs (p_output p)) ++
    (if nullable_of ffs (p_output p) then set_of (get_follow_symbols ffs (p_input p)) else []).

  Variables ho ho' : hash_order T.
  Variable g : grammar T.
  Variable fuel : nat.
  Variable ffs : first_follow_symbols T.
  Hypothesis Hg : cfg_new ho eps init ps = Done g.
  Hypothesis Hf : ffs_from ho' fuel g = Done ffs.
  Hypothesis Hrep : no_repeated_neighbours ps.
  Hypothesis Hinit : non_terminal ps init.

  Lemma first_some p X : In p ps -> In X (p_output p) ->
    exists s, get_first_symbols ffs X = Some s.
  Proof.
    intros Hp HX. destruct (@C06_first_follow_hygiene _ _ _ _ _ _ _ _ _ _ Hg Hf) as [H _].
    apply H. exists p. auto.
  Qed.

  Lemma nullable_one p X : In p ps -> In X (p_output p) -> nullable eps ps [X] ->
    existsb (eqb eps) (set_of (get_first_symbols ffs X)) = true.
  Proof.
    intros Hp HX Hn. destruct (first_some p X Hp HX) as [s Hs]. rewrite Hs. simpl.
    apply existsb_exists. exists eps. split; [|apply eqb_self].
    destruct (@C05_first_exact _ _ _ _ _ _ _ _ _ _ _ _ Hg Hf Hs) as [_ H]. now apply H.
  Qed.

  Lemma textbook_of_complete A a p :
    textbook_cell eps ps init A a p -> In a (textbook_of ffs p) /\ p_input p = A /\ In p ps.
  Proof.
    intros (Hp & Hi & Hc). split; auto. unfold textbook_of. apply in_or_app.
    destruct Hc as [Ha|[Hn Hfol]].
    - left. apply filter_In. split.
      2:{ destruct (eqb eps a) eqn:He; auto. apply eqb_iff in He. destruct Ha. congruence. }
      assert (Hsub : incl (p_output p) (p_output p)) by apply incl_refl.
      revert Hsub Ha. generalize (p_output p) at 1 3 4 as out.
      induction out as [|X out IH]; intros Hsub Ha.
      + exfalso. eapply can_start_nil; eauto.
      + assert (HX : In X (p_output p)) by (apply Hsub; now left).
        simpl. apply in_or_app. apply can_start_cons in Ha as [Ha|[Hn Ha]].
        * left. destruct (first_some p X Hp HX) as [s Hs]. rewrite Hs. simpl.
          destruct Ha as (He & Hnt & Hd).
          destruct (@C05_first_exact _ _ _ _ _ _ _ _ _ _ _ _ Hg Hf Hs) as [H _].
          apply H; auto.
        * right. rewrite (@nullable_one p X Hp HX Hn). apply IH; auto.
          intros y Hy. apply Hsub. now right.
    - right.
      assert (Hall : nullable_of ffs (p_output p) = true).
      { unfold nullable_of. apply forallb_forall. intros X HX.
        apply nullable_one with (p := p); auto.
        revert Hn HX. generalize (p_output p) as out. induction out as [|Y out IH]; intros Hn HX; [destruct HX|].
        apply nullable_cons in Hn as [Hn1 Hn2]. destruct HX as [-> |HX]; auto. }
      rewrite Hall.
      destruct (@C08_follow_complete_partial _ _ _ _ _ _ _ _ _ _ Hg Hf) as [_ H].
      destruct (H Hrep A a) as (s & Hs & Hin).
      + exists p; auto.
      + exists init. auto.
      + rewrite Hi, Hs. exact Hin.
  Qed.

  Definition disjointb (l m : list T) : bool := forallb (fun x => negb (existsb (eqb x) m)) l.

  Lemma disjointb_ok l m a : disjointb l m = true -> In a l -> In a m -> False.
  Proof.
    intros H Hl Hm. unfold disjointb in H. rewrite forallb_forall in H. specialize (H a Hl).
    apply negb_true_iff in H. rewrite <- not_true_iff_false in H. apply H.
    apply existsb_exists. exists a. split; auto. apply eqb_self.
  Qed.

  Fixpoint ll1_check (l : list (production T)) : bool :=
    match l with
    | [] => true
    | p :: l' =>
        forallb (fun q => implb (eqb (p_input p) (p_input q))
                                (disjointb (textbook_of ffs p) (textbook_of ffs q))) l' &&
        ll1_check l'
    end.

  Lemma ll1_check_ok : ll1_check ps = true -> ll1 eps ps init.
  Proof.
    intros Hc A a p q Hp Hq.
    apply textbook_of_complete in Hp as (Hp1 & Hp2 & Hp3).
    apply textbook_of_complete in Hq as (Hq1 & Hq2 & Hq3).
    revert Hc Hp3 Hq3. generalize ps as l. clear -Hp1 Hp2 Hq1 Hq2.
    induction l as [|r l IH]; intros Hc Hp Hq; [destruct Hp|].
    simpl in Hc. apply andb_true_iff in Hc as [H1 H2]. rewrite forallb_forall in H1.
    assert (Hin : eqb A A = true) by apply eqb_self.
    destruct Hp as [Hp|Hp], Hq as [Hq|Hq]; auto.
    - congruence.
    - exfalso. specialize (H1 q Hq). subst r. rewrite Hp2, Hq2, Hin in H1. simpl in H1.
      eapply disjointb_ok; eauto.
    - exfalso. specialize (H1 p Hp). subst r. rewrite Hp2, Hq2, Hin in H1. simpl in H1.
      eapply disjointb_ok; eauto.
  Qed.
End Check.

Lemma expr_ll1 : ll1 Eps expr_productions Prog.
Proof.
  eapply ll1_check_ok.
  - exact expr_grammar_new.
  - exact expr_ffs_from.
  - exact expr_no_repeated.
  - apply non_terminalb_spec. reflexivity.
  - vm_compute. reflexivity.
Qed.
