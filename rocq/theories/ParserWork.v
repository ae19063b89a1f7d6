(** * How many calls a parse makes on a conflict-free table (proofs) *)

From Verif Require Import BaseFacts GrammarFacts DerivFacts ParserSim.
From Verif Require Export WorkFacts.

Set Implicit Arguments.

Lemma orel_mono {A B} {R : A -> B -> Prop} (Q : A -> B -> Prop) o o' :
  orel R o o' -> (forall a b, R a b -> Q a b) -> orel Q o o'.
Proof. destruct o, o'; simpl; auto. Qed.

Section Work.
  Context {L T : Type} {E : EqDec T}.
  Variable eps init : T.
  Variable ps : list (production T).
  Variable self : parser L T.
  Hypothesis P : parser_of eps init ps self.
  Hypothesis Hsol : pr_solver self = None.
  Hypothesis Hsize : forall A a, length (inner_get_token_productions self A a) <= 1.
  Hypothesis Hno : no_left_recursion_from eps ps init.
  Variable tokens : list (token L T).
  Variable B : nat.

  Notation stk := (@stack_ok L T eps ps self tokens).
  Notation good := (@good_prods T ps).
  Notation N := (nts ps).
  Notation M := (longest_output ps).
  Notation z := (full_tree M).
  Notation A := (per_node ps).
  Definition per_call : nat := 1 + M + M * z N.
  Notation D := per_call.

  Lemma A_le_D : A <= D.
  Proof. unfold per_node, per_call. lia. Qed.

  (** calls allowed to a symbol at position [p] below [path] *)
  Definition allowance (p : nat) (path : list T) : nat :=
    D * ((N - length path) + (2 * (length tokens - p) - 2) * N).

  Definition frz (s : state L T) : Prop :=
    match s with
    | StParsing st => ps_prod_iter_option st = None \/ ps_prod_iter_option st = Some []
    | StFixed _ => False
    end.

  Definition sweight (states : list (state L T)) : nat :=
    list_sum (map (fun s => match s with StParsing st => inner_nodes (ps_node st) | StFixed _ => 0 end) states).

  Lemma frz_nofix states : Forall frz states -> existsb (@is_fixed L T) states = false.
  Proof.
    induction 1 as [|s states Hs _ IH]; simpl; auto. destruct s; simpl in *; tauto.
  Qed.

  Lemma frz_nofix_rev states : Forall frz states -> existsb (@is_fixed L T) (rev states) = false.
  Proof.
    intros H. apply frz_nofix. apply Forall_forall. intros s Hs. rewrite Forall_forall in H.
    apply H. now apply in_rev.
  Qed.

  Lemma sweight_app l l' : sweight (l ++ l') = sweight l + sweight l'.
  Proof. unfold sweight. now rewrite map_app, list_sum_app. Qed.

  Lemma sweight_rev states : sweight (rev states) = sweight states.
  Proof.
    induction states as [|s states IH]; simpl; auto. rewrite sweight_app, IH.
    unfold sweight. simpl. lia.
  Qed.

  Lemma nodes_sweight states : forall ns, states_to_nodes states = Done ns -> weight ns = sweight states.
  Proof.
    induction states as [|[st|fs] states IH]; intros ns H; simpl in H.
    - inversion H; reflexivity.
    - apply bind_done in H as (ns' & H1 & H2). inversion H2; subst. specialize (IH _ H1).
      unfold weight, sweight in *. simpl. lia.
    - discriminate.
  Qed.

  Section Prod.
    Variable X : T.
    Variable p0 : nat.
    Variable path : list T.
    Hypothesis HR : reachable_from eps ps init X.
    Hypothesis Hpath : on_path eps ps X path.
    Hypothesis Hp0 : p0 < length tokens.
    Variable out : list T.
    Hypothesis Hout : exists p, In p ps /\ p_input p = X /\ p_output p = out.

    Lemma out_placed syms rest : out = syms ++ rest -> placed ps X [] syms.
    Proof. intros Ho. destruct Hout as (p & Hp & Hi & Hpo). exists p, rest. subst. auto. Qed.

    (** what the symbols before a point of the production cost *)
    Lemma prefix_cost states pos syms rest : stk states p0 pos syms -> Forall frz states ->
      out = syms ++ rest ->
      p0 <= pos /\ pos <= length tokens /\ length states <= M /\
      exists m, m <= pos - p0 /\ (p0 < pos -> 1 <= m) /\
        sweight states <= M * z N + A * N * (2 * (pos - p0) - m) /\
        (m = 1 -> sweight states <= M * z N + A * ((N - S (length path)) + (2 * (pos - p0) - 2) * N)) /\
        (pos = p0 -> nullable eps ps syms).
    Proof.
      intros Hs Hf Ho. pose proof (frz_nofix_rev Hf) as Hnf.
      destruct (states_to_nodes_total _ Hnf) as [ns Hn].
      destruct (stack_forest Hs (frz_nofix Hf) Hn) as (w & Hw & [Hpos Hpre]).
      assert (Hlen : length w <= length tokens - p0).
      { destruct Hpre as [r Hr]. apply (f_equal (@length _)) in Hr.
        rewrite skipn_length, app_length in Hr. lia. }
      pose proof (out_placed _ _ Ho) as Hpl.
      destruct (proj2 (tree_size Hno) _ _ _ Hw X [] HR Hpl) as (m & Hm & Hm1 & H1 & H2).
      rewrite (nodes_sweight _ Hn), sweight_rev in H1, H2.
      pose proof (placed_length Hpl) as Hl. rewrite <- (stack_ok_length Hs) in Hl.
      assert (Hz : length syms * z N <= M * z N)
        by (apply Nat.mul_le_mono_r; rewrite <- (stack_ok_length Hs); lia).
      split; [lia|]. split; [lia|]. split; auto.
      exists m. replace (pos - p0) with (length w) by lia. split; auto.
      split; [intros; apply Hm1; destruct w; [simpl in *; lia|discriminate]|].
      split; [lia|]. split.
      - intros Hm'. specialize (H2 Hm' (nullable_nil eps ps) path Hpath). lia.
      - intros ->. destruct w; [|simpl in Hpos; lia].
        apply (proj2 (@tree_derives_all L T eps ps)) in Hw. tauto.
    Qed.

    (** a failure here is within the allowance *)
    Lemma fail_cost states pos syms rest : stk states p0 pos syms -> Forall frz states ->
      out = syms ++ rest -> 1 + sweight states + length states <= allowance p0 path.
    Proof.
      intros Hs Hf Ho. destruct (prefix_cost _ Hs Hf Ho) as (Hle & Hlt & Hl & m & Hm & Hm1 & H1 & H2 & _).
      pose proof (on_path_short Hpath) as Hk. unfold allowance.
      set (k := N - length path) in *. set (R := length tokens - p0) in *.
      assert (HD : 1 + M + M * z N = D) by reflexivity.
      assert (Hmain : 1 + sweight states + length states <= D + D * (k - 1 + (2 * R - 2) * N)).
      { destruct (Nat.eq_dec pos p0) as [->|Hne].
        - assert (m = 0) by lia. subst m. replace (2 * (p0 - p0) - 0) with 0 in H1 by lia.
          rewrite Nat.mul_0_r in H1.
          pose proof (Nat.le_0_l (D * (k - 1 + (2 * R - 2) * N))). lia.
        - specialize (Hm1 ltac:(lia)). destruct (Nat.eq_dec m 1) as [->|Hm2].
          + specialize (H2 eq_refl).
            assert (A * (N - S (length path) + (2 * (pos - p0) - 2) * N) <=
                    D * (k - 1 + (2 * R - 2) * N)).
            { apply Nat.mul_le_mono; [apply A_le_D|]. apply Nat.add_le_mono; [lia|].
              apply Nat.mul_le_mono_r. lia. }
            lia.
          + assert (A * N * (2 * (pos - p0) - m) <= D * (k - 1 + (2 * R - 2) * N)).
            { rewrite <- Nat.mul_assoc. apply Nat.mul_le_mono; [apply A_le_D|].
              rewrite Nat.mul_comm. etransitivity; [apply Nat.mul_le_mono_r with (m := 2 * R - 2); lia|lia]. }
            lia. }
      replace (k + (2 * R - 2) * N) with (S (k - 1 + (2 * R - 2) * N)) by lia.
      rewrite Nat.mul_succ_r. lia.
    Qed.

    (** so is a non-terminal asked for here, with its own allowance *)
    Lemma call_cost states pos syms Y rest : stk states p0 pos syms -> Forall frz states ->
      out = syms ++ Y :: rest -> non_terminal ps Y -> pos < length tokens ->
      exists path', on_path eps ps Y path' /\
        1 + sweight states + allowance pos path' + length states <= allowance p0 path.
    Proof.
      intros Hs Hf Ho HY Hpos.
      destruct (prefix_cost _ Hs Hf Ho) as (Hle & Hlt & Hl & m & Hm & Hm1 & H1 & H2 & Hnull).
      pose proof (on_path_short Hpath) as Hk.
      assert (HD : 1 + M + M * z N = D) by reflexivity.
      destruct (Nat.eq_dec pos p0) as [->|Hne].
      - exists (X :: path). split.
        + apply (on_path_cons Hno Hpath HR). split; auto. destruct Hout as (p & Hp & Hi & Hpo).
          exists p, syms, rest. subst. auto.
        + assert (m = 0) by lia. subst m. replace (2 * (p0 - p0) - 0) with 0 in H1 by lia.
          rewrite Nat.mul_0_r in H1. unfold allowance. simpl length.
          replace (N - length path + (2 * (length tokens - p0) - 2) * N) with
            (S (N - S (length path) + (2 * (length tokens - p0) - 2) * N)) by lia.
          rewrite Nat.mul_succ_r. lia.
      - exists []. split; [now apply on_path_nil|]. specialize (Hm1 ltac:(lia)).
        unfold allowance. simpl length. rewrite Nat.sub_0_r.
        set (R := length tokens - p0) in *. set (W := pos - p0) in *.
        replace (length tokens - pos) with (R - W) by lia.
        assert (HW : W < R) by lia.
        replace (N + (2 * (R - W) - 2) * N) with ((2 * (R - W) - 1) * N)
          by (replace (2 * (R - W) - 1) with (S (2 * (R - W) - 2)) by lia; lia).
        assert (Ha : A * N * (2 * W - m) <= D * (N * (2 * W - 1))).
        { rewrite <- Nat.mul_assoc. apply Nat.mul_le_mono; [apply A_le_D|].
          apply Nat.mul_le_mono_l. lia. }
        assert (Hb : D * (N * (2 * W - 1)) + D * ((2 * (R - W) - 1) * N) = D * ((2 * R - 2) * N)).
        { rewrite <- Nat.mul_add_distr_l. f_equal. rewrite (Nat.mul_comm N), <- Nat.mul_add_distr_r.
          f_equal. lia. }
        assert (Hc : D * 1 <= D * (N - length path)) by (apply Nat.mul_le_mono_l; lia).
        rewrite (Nat.mul_add_distr_l D (N - length path)). lia.
    Qed.
  End Prod.

  (** ** the two parses step by step *)
  Definition sym_work (p : nat) (path : list T) (h : history L T)
             (x y : parse_symbol_result L T * history L T) : Prop :=
    fst y = fst x /\
    match fst x with
    | SymOk st => ps_prod_iter_option st = Some [] /\
                  length (snd y) = length h + inner_nodes (ps_node st)
    | SymErr _ => length (snd y) <= length h + allowance p path
    | SymFix _ => False
    end.

  Notation inner := (fun n => inner_parse_from_tokens n self tokens).
  Notation within := (fun n => inner_within B n self tokens).

  Lemma within_nil n X p single h0 h : length h < B ->
    orel (fun x y => x = (SymErr (FailedSymbol [] X), h0) /\
                     y = (SymErr (FailedSymbol [] X), h ++ [tick p]))
         (inner n X p [] single h0) (within n X p [] single h).
  Proof.
    intros Hh. destruct n as [|n]; [exact I|]. simpl.
    rewrite (proj2 (Nat.ltb_lt _ _) Hh).
    unfold inner_parse_from_tokens_step. simpl.
    unfold inner_parse_from_tokens_try_fix_productions. rewrite Hsol. simpl. auto.
  Qed.

  Lemma pop_work n states : Forall frz states -> forall child failed h0 h,
    length h + length states <= B ->
    orel (fun x y => exists f, fst x = ([], Some f) /\ fst y = ([], Some f) /\
                               length (snd y) <= length h + length states)
         (inner_parse_pop_states (inner n) states child failed h0)
         (inner_parse_pop_states (within n) states child failed h).
  Proof.
    induction 1 as [|s states Hs _ IH]; intros child failed h0 h Hh; simpl.
    - exists failed. simpl. repeat split; auto. lia.
    - destruct s as [st|fs]; [|contradiction]. simpl in Hs, Hh. destruct Hs as [Hit|Hit]; rewrite Hit.
      + apply (orel_mono _ _ _ (IH child (StParsing st :: failed) h0 h ltac:(lia))).
        intros x y (f & H1 & H2 & H3). exists f. repeat split; auto. lia.
      + eapply orel_bind; [apply within_nil; lia|].
        intros [r hr] [r' hr'] _ _ [Hx Hy]. inversion Hx; inversion Hy; subst.
        specialize (IH child failed h0 (h ++ [tick (ps_initial_token_position st)])).
        rewrite app_length in IH. simpl in IH.
        apply (orel_mono _ _ _ (IH ltac:(lia))).
        intros x y (f & H1 & H2 & H3). exists f. repeat split; auto. lia.
  Qed.

  Section Loop.
    Variable n : nat.
    Hypothesis IHn : forall X p0 prods single h0 h path,
      reachable_from eps ps init X -> on_path eps ps X path -> p0 < length tokens ->
      good X prods -> length prods <= 1 -> length h + allowance p0 path <= B ->
      orel (sym_work p0 path h) (inner n X p0 prods single h0) (within n X p0 prods single h).

    Variable X : T.
    Variable p0 : nat.
    Variable path : list T.
    Hypothesis HR : reachable_from eps ps init X.
    Hypothesis Hpath : on_path eps ps X path.
    Hypothesis Hp0 : p0 < length tokens.
    Variable out : list T.
    Hypothesis Hout : exists p, In p ps /\ p_input p = X /\ p_output p = out.
    Hypothesis Hne : out <> [].
    (** calls before [X] was asked for *)
    Variable H0 : nat.
    Hypothesis HB : H0 + allowance p0 path <= B.

    Definition prod_work (x y : parse_production_result L T * nat * history L T) : Prop :=
      fst y = fst x /\
      match fst (fst x) with
      | ProdOk nd => length (snd y) = H0 + inner_nodes nd
      | ProdErr _ => length (snd y) <= H0 + allowance p0 path
      | ProdFix _ => False
      end.

    Lemma loop_work fuel : forall states pos syms rest child h0 h,
      stk states p0 pos syms -> Forall frz states -> out = syms ++ rest ->
      length h = H0 + 1 + sweight states ->
      orel prod_work
        (inner_parse_from_tokens_production self tokens (inner n) fuel X out child states pos h0)
        (inner_parse_from_tokens_production self tokens (within n) fuel X out child states pos h).
    Proof.
      induction fuel as [|fuel IH]; intros states pos syms rest child h0 h Hs Hf Ho Hh; [exact I|].
      simpl. pose proof (stack_ok_length Hs) as Hl.
      destruct rest as [|Y rest].
      { assert (Hlt : (length states <? length out) = false).
        { apply Nat.ltb_ge. rewrite Ho, app_nil_r. lia. }
        rewrite Hlt. unfold inner_parse_from_tokens_production_build_node.
        rewrite (frz_nofix_rev Hf). simpl.
        destruct (states_to_nodes_total _ (frz_nofix_rev Hf)) as [ns Hn]. rewrite Hn. simpl.
        split; auto. simpl. pose proof (nodes_sweight _ Hn) as Hw. rewrite sweight_rev in Hw.
        destruct (stack_forest Hs (frz_nofix Hf) Hn) as (w & Hfo & _).
        destruct ns as [|nd ns].
        - exfalso. inversion Hfo; subst. apply Hne. reflexivity.
        - rewrite Hh, <- Hw. unfold weight. simpl. lia. }
      assert (Hlt : (length states <? length out) = true).
      { apply Nat.ltb_lt. rewrite Ho, app_length. simpl. lia. }
      assert (HY : nth_error out (length states) = Some Y).
      { rewrite Ho, Hl, nth_error_app2, Nat.sub_diag by lia. reflexivity. }
      rewrite Hlt, HY. simpl.
      (* what one symbol does *)
      assert (Hstep : orel (fun x y => fst y = fst x /\
                match fst x with
                | SymOk st => frz (StParsing st) /\ length (snd y) = length h + inner_nodes (ps_node st)
                | SymErr _ => length (snd y) + length states <= H0 + allowance p0 path
                | SymFix _ => False
                end)
        (inner_parse_from_tokens_production_symbol self tokens (inner n) Y pos child h0)
        (inner_parse_from_tokens_production_symbol self tokens (within n) Y pos child h)).
      { unfold inner_parse_from_tokens_production_symbol,
          inner_parse_from_tokens_production_non_terminal.
        destruct (is_non_terminal (pr_grammar self) Y) eqn:Hnt.
        - apply (is_non_terminal_spec (po_grammar P)) in Hnt.
          destruct (nth_error tokens pos) as [tok|] eqn:Ht; [|reflexivity].
          assert (Hpos : pos < length tokens) by (apply nth_error_Some; congruence).
          destruct (call_cost HR Hpath Hp0 Hout _ Hs Hf Ho Hnt Hpos) as (path' & Hpath' & Hcost).
          assert (HRY : reachable_from eps ps init Y).
          { apply (reachable_part HR). destruct Hout as (p & Hp & Hi & Hpo). exists p.
            repeat split; auto. rewrite Hpo, Ho. apply in_elt. }
          apply (orel_mono _ _ _ (@IHn Y pos (inner_get_token_productions self Y (tok_type tok)) child h0 h path'
                        HRY Hpath' Hpos (token_productions_good P _ _) (Hsize _ _) ltac:(lia))).
          intros [r hr] [r' hr'] [Heq H]. simpl in *. subst r'. split; auto. destruct r as [st|e|fs]; auto.
          + destruct H as [H1 H2]. auto.
          + lia.
        - simpl. split; auto. unfold inner_parse_terminal_symbol, inner_parse_non_epsilon_terminal_symbol.
          destruct (eqb (get_epsilon_symbol (pr_grammar self)) Y); simpl; [split; auto; lia|].
          pose proof (fail_cost HR Hpath Hp0 Hout _ Hs Hf Ho) as Hfc.
          destruct (nth_error tokens pos) as [tok|]; simpl; [destruct (eqb Y (tok_type tok))|]; simpl;
            try (split; [auto|lia]); lia. }
      eapply orel_bind; [exact Hstep|].
      intros [r h1] [r' h1'] Hr Hr' [Heq Hw]. simpl in Heq, Hw. subst r'.
      assert (HRS : RStep self tokens Y pos child h0 r h1).
      { eapply step_sound; [|exact Hr]. intros *; apply rel_sound. }
      apply (proj1 (proj2 (proj2 (proj2 (run_sound P tokens))))) in HRS. unfold SStep in HRS.
      destruct r as [st|e|fs]; [| |contradiction].
      - destruct HRS as [Hok _]. destruct Hw as [Hfz Hlen].
        apply (IH _ _ (syms ++ [Y]) rest).
        + eapply stack_parsing; eauto.
        + constructor; auto.
        + now rewrite <- app_assoc.
        + unfold sweight in *. simpl. lia.
      - assert (Hb1 : length h1' + length states <= B) by lia.
        eapply orel_bind; [exact (pop_work n Hf child [] h1 h1' Hb1)|].
        intros [[s1 f1] h2] [[s2 f2] h2'] _ _ (f & H1 & H2 & H3). simpl in *.
        inversion H1; inversion H2; subst. simpl. split; auto. simpl. lia.
    Qed.
  End Loop.

  Hypothesis Houts : forall p, In p ps -> p_output p <> [].

  Lemma sym_work_all n : forall X p0 prods single h0 h path,
    reachable_from eps ps init X -> on_path eps ps X path -> p0 < length tokens ->
    good X prods -> length prods <= 1 -> length h + allowance p0 path <= B ->
    orel (sym_work p0 path h) (inner n X p0 prods single h0) (within n X p0 prods single h).
  Proof.
    induction n as [|n IHn]; intros X p0 prods single h0 h path HR Hpath Hp0 Hg Hl Hh; [exact I|].
    assert (Hal : 1 <= allowance p0 path).
    { unfold allowance. pose proof (on_path_short Hpath).
      assert (1 * 1 <= D * (N - length path + (2 * (length tokens - p0) - 2) * N))
        by (apply Nat.mul_le_mono; [unfold per_call; lia|etransitivity; [|apply Nat.le_add_r]; lia]). lia. }
    destruct prods as [|out [|o prods]]; [| |simpl in Hl; lia].
    - eapply orel_mono; [apply within_nil; lia|].
      intros x y [-> ->]. split; auto. simpl. rewrite app_length. simpl. lia.
    - simpl. rewrite (proj2 (Nat.ltb_lt (length h) B)) by lia.
      unfold inner_parse_from_tokens_step, inner_parse_from_tokens_try_parse_productions. simpl.
      assert (Hout : exists p, In p ps /\ p_input p = X /\ p_output p = out) by (apply Hg; simpl; auto).
      assert (Hne : out <> []) by (destruct Hout as (p & Hp & _ & <-); auto).
      pose proof (@loop_work n IHn X p0 path HR Hpath Hp0 out Hout Hne (length h) ltac:(lia) n [] p0 [] out
                    (is_child_single_path single [out]) h0 (h ++ [tick p0])
                    (@stack_nil L T eps ps self tokens p0) (Forall_nil _) eq_refl) as Hw.
      rewrite app_length in Hw. simpl in Hw. specialize (Hw ltac:(unfold sweight; simpl; lia)).
      match type of Hw with orel _ ?a ?b =>
        destruct a as [[[pr pos] hr]|q|]; destruct b as [[[pr' pos'] hr']|q'|] end;
        simpl in *; try contradiction; auto.
      destruct Hw as [Heq Hw]. simpl in *. inversion Heq; subst.
      destruct pr as [nd|fp|fp]; simpl in *; [| |contradiction].
      + split; simpl; auto.
      + unfold inner_parse_from_tokens_try_fix_productions. rewrite Hsol. simpl. split; auto.
  Qed.
End Work.
