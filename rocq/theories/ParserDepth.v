(** * How deep the recursion goes (proofs) *)

From Verif Require Import BaseFacts GrammarFacts DerivFacts.
From Verif Require Export ParserTerm DepthSpec.

Set Implicit Arguments.

Lemma refines_bind_done {A B} (o o' : outcome A) (f f' : A -> outcome B) :
  refines o o' -> (forall a, o = Done a -> refines (f a) (f' a)) -> refines (bind o f) (bind o' f').
Proof.
  intros [-> | ->] Hf; [left; reflexivity|].
  destruct o; simpl; [now apply Hf|right; reflexivity|left; reflexivity].
Qed.

Section Depth.
  Context {L T : Type} {E : EqDec T}.
  Variable eps init : T.
  Variable ps : list (production T).
  Variable self : parser L T.
  Hypothesis P : parser_of eps init ps self.
  Variable tokens : list (token L T).
  Hypothesis Hpr : progress_solver self.
  Hypothesis Hno : no_left_recursion_from eps ps init.

  Notation stk := (@stack_ok L T eps ps self tokens).
  Notation good := (@good_prods T ps).

  Lemma progress_nullable states p0 syms : stk states p0 p0 syms -> nullable eps ps syms.
  Proof.
    intros Hs. destruct (stack_mono Hpr Hs) as [_ Hf].
    assert (Hnf : existsb (@is_fixed L T) states = false).
    { destruct (existsb (@is_fixed L T) states); auto. specialize (Hf eq_refl). lia. }
    assert (Hnf' : existsb (@is_fixed L T) (rev states) = false).
    { apply not_true_iff_false. rewrite existsb_exists. intros (x & Hx & Hxf).
      apply in_rev in Hx. apply not_true_iff_false in Hnf. apply Hnf.
      rewrite existsb_exists. eauto. }
    destruct (@states_to_nodes_total L T (rev states) Hnf') as [ns Hn].
    destruct (stack_forest Hs Hnf Hn) as (w & Hw & [Hsp _]).
    destruct w; [|simpl in Hsp; lia]. apply (proj2 (@tree_derives_all L T eps ps)) in Hw. tauto.
  Qed.

  Section Prod.
    Variable X : T.
    Variable p0 : nat.
    Variable n : nat.
    Let rec := inner_parse_from_tokens n self tokens.
    Variable rec' : T -> nat -> list (list T) -> bool -> history L T ->
                    outcome (parse_symbol_result L T * history L T).
    Hypothesis Hcall : forall Y p1 prods single h, part ps X Y -> non_terminal ps Y ->
      smaller eps ps X p0 Y p1 -> good Y prods -> p1 < length tokens ->
      refines (rec Y p1 prods single h) (rec' Y p1 prods single h).

    Section Out.
      Variable out : list T.
      Hypothesis Hout : exists p, In p ps /\ p_input p = X /\ p_output p = out.

      Lemma dep_part syms rest Y : out = syms ++ Y :: rest -> part ps X Y.
      Proof.
        intros Ho. destruct Hout as (p & Hp & Hi & Hpo). exists p. repeat split; auto.
        rewrite Hpo, Ho. apply in_elt.
      Qed.

      Lemma dep_smaller states p1 syms Y rest :
        stk states p0 p1 syms -> out = syms ++ Y :: rest -> non_terminal ps Y ->
        smaller eps ps X p0 Y p1.
      Proof.
        intros Hs Ho HY. destruct (stack_mono Hpr Hs) as [Hle _].
        destruct (Nat.eq_dec p1 p0) as [->|Hne]; [|left; lia].
        right. split; auto. split; auto. destruct Hout as (p & Hp & Hi & Hpo).
        exists p, syms, rest. subst. repeat split; auto. eapply progress_nullable; eauto.
      Qed.

      Lemma dep_step states p1 syms Y rest child h :
        stk states p0 p1 syms -> out = syms ++ Y :: rest ->
        refines (inner_parse_from_tokens_production_symbol self tokens rec Y p1 child h)
                (inner_parse_from_tokens_production_symbol self tokens rec' Y p1 child h).
      Proof.
        intros Hs Ho. unfold inner_parse_from_tokens_production_symbol,
          inner_parse_from_tokens_production_non_terminal.
        destruct (is_non_terminal (pr_grammar self) Y) eqn:HY; [|apply refines_refl].
        apply (is_non_terminal_spec (po_grammar P)) in HY.
        destruct (nth_error tokens p1) as [tok|] eqn:Ht; [|apply refines_refl].
        apply Hcall; auto.
        - now apply (dep_part syms rest).
        - eapply dep_smaller; eauto.
        - apply (token_productions_good P).
        - apply nth_error_Some; congruence.
      Qed.

      Lemma dep_pop states : forall p1 syms rest child failed h,
        stk states p0 p1 syms -> out = syms ++ rest ->
        refines (inner_parse_pop_states rec states child failed h)
                (inner_parse_pop_states rec' states child failed h).
      Proof.
        induction states as [|[st|fs] states IH]; intros p1 syms rest child failed h Hs Ho; simpl.
        - apply refines_refl.
        - apply stack_parsing_inv in Hs as (p2 & syms0 & Y & -> & _ & Hs & Ht & Hi & Hm).
          rewrite <- app_assoc in Ho. simpl in Ho.
          destruct (ps_prod_iter_option st) as [it|] eqn:Hit; [|eapply IH; eauto].
          destruct Hm as (HY & Hg & Hpos & HYn).
          apply refines_bind.
          + rewrite HY, Hi. apply Hcall; auto.
            * now apply (dep_part syms0 rest).
            * eapply dep_smaller; eauto.
          + intros [[st'|e|f] h']; [apply refines_refl|eapply IH; eauto|eapply IH; eauto].
        - apply stack_fixed_inv in Hs as (p2 & syms0 & Y & -> & _ & Hs).
          rewrite <- app_assoc in Ho. simpl in Ho. eapply IH; eauto.
      Qed.

      Lemma dep_prod fuel : forall fuel' states pos syms rest child h, fuel <= fuel' ->
        stk states p0 pos syms -> out = syms ++ rest ->
        refines (inner_parse_from_tokens_production self tokens rec fuel X out child states pos h)
                (inner_parse_from_tokens_production self tokens rec' fuel' X out child states pos h).
      Proof.
        induction fuel as [|fuel IH]; intros fuel' states pos syms rest child h Hle Hs Ho; [left; reflexivity|].
        destruct fuel' as [|fuel']; [lia|]. simpl.
        destruct (length states <? length out) eqn:Hlt; [|apply refines_refl].
        apply Nat.ltb_lt in Hlt. pose proof (stack_ok_length Hs) as Hl.
        destruct rest as [|Y rest]; [rewrite Ho, app_nil_r in Hlt; lia|].
        assert (HY : nth_error out (length states) = Some Y).
        { rewrite Ho, Hl, nth_error_app2, Nat.sub_diag by lia. reflexivity. }
        rewrite HY. simpl.
        apply refines_bind_done; [eapply dep_step; eauto|]. intros [r h1] Hr.
        assert (HRS : RStep self tokens Y pos child h r h1).
        { eapply step_sound; [|exact Hr]. intros *; apply rel_sound. }
        apply (proj1 (proj2 (proj2 (proj2 (run_sound P tokens))))) in HRS.
        unfold SStep in HRS. destruct r as [st|e|fs].
        - destruct HRS as [Hok _]. eapply (IH _ _ _ (syms ++ [Y]) rest); [lia| |].
          + eapply stack_parsing; eauto.
          + now rewrite <- app_assoc.
        - apply refines_bind_done; [eapply dep_pop; eauto|]. intros [[states' popped] h2] Hpop.
          destruct popped as [fstates|]; [apply refines_refl|].
          assert (HRP : RPop self tokens states child [] h1 states' None h2).
          { eapply pop_sound; [|exact Hpop]. intros *; apply rel_sound. }
          apply (proj2 (proj2 (proj2 (proj2 (run_sound P tokens))))) in HRP.
          destruct (HRP p0 pos syms Hs eq_refl) as (p' & syms' & rest' & Hsy & Hs').
          destruct states' as [|s' below]; [apply refines_refl|].
          pose proof (stack_ok_top Hs') as Hp'. rewrite Hp' in Hs'.
          eapply (IH _ _ _ syms' (rest' ++ Y :: rest)); [lia|exact Hs'|].
          rewrite Ho, Hsy. now rewrite <- app_assoc.
        - eapply (IH _ _ _ (syms ++ [Y]) rest); [lia| |].
          + eapply stack_fixed; eauto.
          + now rewrite <- app_assoc.
      Qed.
    End Out.

    Lemma dep_try fuel fuel' prods : fuel <= fuel' -> good X prods -> forall child failed h,
      refines (try_parse_productions_loop self tokens rec fuel X p0 child prods failed h)
              (try_parse_productions_loop self tokens rec' fuel' X p0 child prods failed h).
    Proof.
      intros Hle. induction prods as [|out prods IH]; intros Hg child failed h; simpl.
      - apply refines_refl.
      - apply refines_bind.
        + eapply dep_prod with (syms := []) (rest := out); auto; [|constructor].
          apply (proj1 Hg out). simpl; auto.
        + intros [[[nd|fp|fp] pos'] h']; [apply refines_refl| |apply refines_refl].
          apply IH. eapply good_prods_tail; eauto.
    Qed.

    Lemma dep_inner fuel fuel' prods single h : fuel <= fuel' -> good X prods ->
      refines (inner_parse_from_tokens_step self tokens rec fuel X p0 prods single h)
              (inner_parse_from_tokens_step self tokens rec' fuel' X p0 prods single h).
    Proof.
      intros Hle Hg. unfold inner_parse_from_tokens_step, inner_parse_from_tokens_try_parse_productions.
      apply refines_bind; [now apply dep_try|]. intros [[r|failed] h']; apply refines_refl.
    Qed.
  End Prod.

  Notation N := (length (non_terminals ps)).

  Lemma path_short (path : list T) : NoDup path -> (forall Z, In Z path -> non_terminal ps Z) ->
    length path <= N.
  Proof.
    intros Hnd Hnt. apply NoDup_incl_length; auto. intros Z HZ. apply Hnt in HZ as (p & Hp & Hi).
    apply nodup_In. subst Z. now apply in_map.
  Qed.

  (** [path]: the symbols being derived from the same position, below [X] *)
  Lemma dep_sym loops n : n <= loops -> forall X p0 prods single h path d,
    reachable_from eps ps init X -> NoDup (X :: path) ->
    (forall Z, In Z (X :: path) -> non_terminal ps Z) ->
    (forall Z, In Z path -> lc_plus eps ps Z X) ->
    p0 < length tokens -> good X prods ->
    (length tokens - p0) * N <= d + length path ->
    refines (inner_parse_from_tokens n self tokens X p0 prods single h)
            (inner_at_depth loops d self tokens X p0 prods single h).
  Proof.
    induction n as [|n IH]; intros Hn X p0 prods single h path d HR Hnd Hnt Hlc Hp0 Hg Hd;
      [left; reflexivity|].
    pose proof (path_short Hnd Hnt) as Hshort. simpl in Hshort.
    destruct d as [|d].
    { exfalso. assert (1 * N <= (length tokens - p0) * N) by (apply Nat.mul_le_mono_r; lia). lia. }
    simpl. apply dep_inner; [|lia|auto].
    intros Y p1 prods' single' h' Hpt HY [Hlt|[-> Hl]] Hg' Hp1.
    - apply (IH ltac:(lia) Y p1 prods' single' h' []); auto.
      + eapply reachable_part; eauto.
      + constructor; [auto|constructor].
      + intros Z [<-|[]]; auto.
      + intros Z [].
      + assert ((length tokens - p1 + 1) * N <= (length tokens - p0) * N)
          by (apply Nat.mul_le_mono_r; lia). simpl. nia.
    - pose proof (reachable_part HR Hpt) as HRY.
      apply (IH ltac:(lia) Y p0 prods' single' h' (X :: path)); auto.
      + constructor; auto. intros [->|Hin].
        * apply (lc_acyclic Hno HRY). now apply Relation_Operators.t1n_step.
        * apply (lc_acyclic Hno HRY). apply clos_trans_t1n_iff.
          eapply Relation_Operators.t_trans; [apply clos_trans_t1n_iff; now apply Hlc|].
          now apply Relation_Operators.t_step.
      + intros Z [<-|HZ]; auto.
      + intros Z [->|HZ].
        * now apply Relation_Operators.t1n_step.
        * apply clos_trans_t1n_iff. eapply Relation_Operators.t_trans.
          -- apply clos_trans_t1n_iff. now apply Hlc.
          -- now apply Relation_Operators.t_step.
      + simpl. lia.
  Qed.

  Lemma dep_parse n loops : non_terminal ps init -> n <= loops ->
    refines (parse_from_tokens n self tokens)
            (parse_at_depth loops (N * length tokens) self tokens).
  Proof.
    intros Hin Hle. unfold parse_from_tokens, parse_at_depth.
    assert (H : 0 < length tokens -> forall a,
      refines (inner_parse_from_tokens n self tokens (get_initial_symbol (pr_grammar self)) 0
                 (inner_get_token_productions self (get_initial_symbol (pr_grammar self)) a) true [])
              (inner_at_depth loops (N * length tokens) self tokens (get_initial_symbol (pr_grammar self)) 0
                 (inner_get_token_productions self (get_initial_symbol (pr_grammar self)) a) true [])).
    { intros Hlen a. unfold get_initial_symbol. rewrite (go_init (po_grammar P)).
      apply dep_sym with (path := []); auto.
      - exists [], []. apply derives_refl.
      - constructor; [auto|constructor].
      - intros Z [<-|[]]; auto.
      - intros Z [].
      - apply (token_productions_good P).
      - simpl. nia. }
    destruct tokens as [|tok rest]; [apply refines_refl|].
    apply refines_bind; [apply H; simpl; lia|]. intros [r h]. apply refines_refl.
  Qed.
End Depth.
