(** * How many calls a parse with an advancing solver makes at most (proofs) *)

From Verif Require Import BaseFacts GrammarFacts DerivFacts ParserSim.
From Verif Require Export ParserExp CountSpec.

Set Implicit Arguments.

Section Logs.
  Context {L T : Type}.
  Implicit Types h : history L T.

  Lemma solver_calls_app h h' : solver_calls (h ++ h') = solver_calls h ++ solver_calls h'.
  Proof. apply filter_app. Qed.
  Lemma recursive_calls_app h h' : recursive_calls (h ++ h') = recursive_calls h ++ recursive_calls h'.
  Proof. apply filter_app. Qed.
End Logs.

Section Count.
  Context {L T : Type} {E : EqDec T}.
  Variable eps init : T.
  Variable ps : list (production T).
  Variable self : parser L T.
  Hypothesis P : parser_of eps init ps self.
  Hypothesis Hpr : progress_solver self.
  Hypothesis Hno : no_left_recursion_from eps ps init.
  Variable tokens : list (token L T).
  Hypothesis Htok : tokens <> [].
  Variable B : nat.

  Notation stk := (@stack_ok L T eps ps self tokens).
  Notation good := (@good_prods T ps).
  Notation N := (nts ps).
  Notation M := (longest_output ps).
  Notation K := (length ps).
  Notation V := (tries K).
  Notation inner := (fun n => inner_parse_from_tokens n self tokens).
  Notation counted := (fun n => inner_counted B n self tokens).
  Notation ticks h := (length (recursive_calls h)).

  (** the logs agree, and each call of the recursive function made at most one of the solver *)
  Definition logs (h0 h hx hy : history L T) : Prop :=
    h0 = solver_calls h ->
    hx = solver_calls hy /\ length hx + ticks h <= length h0 + ticks hy.

  Lemma logs_refl h0 h : logs h0 h h0 h.
  Proof. intros H. split; auto. Qed.

  Lemma logs_trans h0 h h1 h1' h2 h2' : logs h0 h h1 h1' -> logs h1 h1' h2 h2' -> logs h0 h h2 h2'.
  Proof.
    intros H1 H2 H. destruct (H1 H) as [Ha Hb]. destruct (H2 Ha) as [Hc Hd]. split; auto. lia.
  Qed.

  Definition sym_count (C : nat) (prods : list (list T)) (h0 h : history L T)
             (x y : parse_symbol_result L T * history L T) : Prop :=
    fst y = fst x /\ ticks (snd y) <= ticks h + C /\ snd x = solver_calls (snd y) /\
    length (snd x) + ticks h <= length h0 + ticks (snd y) /\
    match fst x with
    | SymOk st => exists it, ps_prod_iter_option st = Some it /\ length it < length prods
    | SymErr _ => True
    | SymFix _ => True
    end.

  Section Prod.
    Variable X : T.
    Variable p0 : nat.
    Variable n : nat.
    Variable C : nat.
    Hypothesis Hcall : forall Y p1 prods single h0 h, part ps X Y -> non_terminal ps Y ->
      smaller eps ps X p0 Y p1 -> good Y prods -> p1 < length tokens -> ticks h + C <= B ->
      h0 = solver_calls h ->
      orel (sym_count C prods h0 h) (inner n Y p1 prods single h0) (counted n Y p1 prods single h).

    Section Out.
      Variable out : list T.
      Hypothesis Hout : exists p, In p ps /\ p_input p = X /\ p_output p = out.

      Lemma cnt_smaller states p1 syms Y rest :
        stk states p0 p1 syms -> out = syms ++ Y :: rest -> non_terminal ps Y ->
        smaller eps ps X p0 Y p1.
      Proof.
        intros Hs Ho HY.
        apply (@dep_smaller L T E eps ps self tokens Hpr X p0 n (inner n)
                 ltac:(intros; apply refines_refl) out Hout states p1 syms Y rest); auto.
      Qed.

      Lemma cnt_K_pos : 0 < K.
      Proof. destruct Hout as (p & Hp & _). destruct ps; [destruct Hp|simpl; lia]. Qed.

      Lemma cnt_step states pos syms Y rest child h0 h r :
        stk states p0 pos syms -> out = syms ++ Y :: rest -> ticks h + C <= B -> h0 = solver_calls h ->
        orel (fun x y => fst y = fst x /\ snd x = solver_calls (snd y) /\
                length (snd x) + ticks h <= length h0 + ticks (snd y) /\
                match fst x with
                | SymOk st => ticks (snd y) + C * (V r + phi ps [StParsing st] r) <= ticks h + C * V (S r)
                | SymErr _ => ticks (snd y) <= ticks h + C
                | SymFix _ => ticks (snd y) + C * V r <= ticks h + C * V (S r)
                end)
          (inner_parse_from_tokens_production_symbol self tokens (inner n) Y pos child h0)
          (inner_parse_from_tokens_production_symbol (counting self) tokens (counted n) Y pos child h).
      Proof.
        intros Hs Ho HB Hh. unfold inner_parse_from_tokens_production_symbol,
          inner_parse_from_tokens_production_non_terminal, inner_get_token_productions,
          inner_parse_terminal_symbol. cbn [counting pr_grammar pr_transitions].
        pose proof (tries_step r cnt_K_pos) as Ht1. apply (Nat.mul_le_mono_l _ _ C) in Ht1.
        rewrite !Nat.mul_add_distr_l, Nat.mul_1_r in Ht1.
        destruct (is_non_terminal (pr_grammar self) Y) eqn:HY.
        - apply (is_non_terminal_spec (po_grammar P)) in HY.
          destruct (nth_error tokens pos) as [tok|] eqn:Ht; [|reflexivity].
          assert (Hpos : pos < length tokens) by (apply nth_error_Some; congruence).
          pose proof (token_productions_good P Y (tok_type tok)) as Hg.
          eapply orel_mono; [apply Hcall; auto|].
          + exact (dep_part ps Hout syms rest Y Ho).
          + eapply cnt_smaller; eauto.
          + intros [x hx] [y hy] (Heq & Hl & Hc1 & Hc2 & Hit). cbn [fst snd] in *. split; auto.
            split; [auto|]. split; [auto|].
            destruct x as [st|e|fs]; auto; [|lia]. cbn [phi]. destruct Hit as (it & Hit & Hlen). rewrite Hit.
            assert (Hlt : length it < K) by (destruct Hg as [_ Hg]; unfold inner_get_token_productions in Hg; lia).
            pose proof (@tries_next K r (length it) Hlt) as Ht2.
            apply (Nat.mul_le_mono_l _ _ C) in Ht2. rewrite !Nat.mul_add_distr_l in *. simpl in *. lia.
        - simpl in Ht1. simpl. split; auto. split; auto. split; [lia|].
          unfold inner_parse_non_epsilon_terminal_symbol.
          destruct (eqb (get_epsilon_symbol (pr_grammar self)) Y); simpl; [rewrite !Nat.add_0_r; lia|].
          destruct (nth_error tokens pos) as [tok|]; simpl; [destruct (eqb Y (tok_type tok))|]; simpl;
            rewrite ?Nat.add_0_r; lia.
      Qed.

      Lemma cnt_pop states : forall p1 syms rest child failed h0 h r,
        stk states p0 p1 syms -> out = syms ++ rest -> ticks h + C * phi ps states r <= B ->
        h0 = solver_calls h ->
        orel (fun x y => fst y = fst x /\ snd x = solver_calls (snd y) /\
                length (snd x) + ticks h <= length h0 + ticks (snd y) /\
                match snd (fst x) with
                | Some _ => ticks (snd y) <= ticks h + C * phi ps states r
                | None =>
                    exists r', r' + length (fst (fst x)) = r + length states /\ r <= r' /\
                      ticks (snd y) + C * (V r' + phi ps (fst (fst x)) r') <= ticks h + C * phi ps states r
                end)
          (inner_parse_pop_states (inner n) states child failed h0)
          (inner_parse_pop_states (counted n) states child failed h).
      Proof.
        induction states as [|[st|fs] states IH]; intros p1 syms rest child failed h0 h r Hs Ho HB Hh; simpl.
        - split; auto. split; auto. simpl. lia.
        - apply stack_parsing_inv in Hs as (p2 & syms0 & Y & -> & _ & Hs & Ht & Hi & Hm).
          rewrite <- app_assoc in Ho. simpl in Ho. simpl in HB.
          destruct (ps_prod_iter_option st) as [it|] eqn:Hit.
          + destruct Hm as (HY & Hg & Hpos & HYn).
            assert (H1 : C + C * phi ps states (S r) <= C * (retries K r (length it) + phi ps states (S r))).
            { rewrite Nat.mul_add_distr_l. apply Nat.add_le_mono_r. unfold retries.
              rewrite <- (Nat.mul_1_r C) at 1. apply Nat.mul_le_mono_l. lia. }
            eapply orel_bind.
            { rewrite HY, Hi. apply (@Hcall Y p2 it child h0 h); auto.
              - exact (dep_part ps Hout syms0 rest Y Ho).
              - eapply cnt_smaller; eauto.
              - lia. }
            intros [x hx] [y hy] _ _ (Heq & Hl & Hc1 & Hc2 & Hk). simpl in Heq, Hl, Hc1, Hc2, Hk. subst y.
            destruct x as [st'|e|f].
            * simpl. split; auto. split; auto. split; auto. exists r. split; [simpl; lia|]. split; [lia|].
              destruct Hk as (it' & -> & Hlt).
              pose proof (@retries_next K r (length it) (length it') Hlt) as Hr.
              apply (Nat.mul_le_mono_l _ _ C) in Hr. rewrite !Nat.mul_add_distr_l in *. simpl in *. lia.
            * eapply orel_mono; [eapply (IH p2 syms0 (Y :: rest) child failed hx hy (S r)); eauto; lia|].
              intros [[s1 f1] h1] [[s2 f2] h2] (Heq & Hc3 & Hc4 & H). simpl in *. split; auto. split; auto.
              split; [lia|]. destruct f1; [lia|].
              destruct H as (r' & Hr1 & Hr2 & H). exists r'. split; [lia|]. split; [lia|]. lia.
            * eapply orel_mono; [eapply (IH p2 syms0 (Y :: rest) child failed hx hy (S r)); eauto; lia|].
              intros [[s1 f1] h1] [[s2 f2] h2] (Heq & Hc3 & Hc4 & H). simpl in *. split; auto. split; auto.
              split; [lia|]. destruct f1; [lia|].
              destruct H as (r' & Hr1 & Hr2 & H). exists r'. split; [lia|]. split; [lia|]. lia.
          + eapply orel_mono; [eapply (IH p2 syms0 (Y :: rest) child (StParsing st :: failed) h0 h (S r)); eauto|].
            intros [[s1 f1] h1] [[s2 f2] h2] (Heq & Hc3 & Hc4 & H). simpl in *. split; auto. split; auto.
            split; [lia|]. destruct f1; [lia|].
            destruct H as (r' & Hr1 & Hr2 & H). exists r'. split; [lia|]. split; [lia|]. lia.
        - apply stack_fixed_inv in Hs as (p2 & syms0 & Y & -> & _ & Hs). simpl in HB.
          rewrite <- app_assoc in Ho. simpl in Ho.
          eapply orel_mono; [eapply (IH p2 syms0 (Y :: rest) child (StFixed fs :: failed) h0 h (S r)); eauto|].
          intros [[s1 f1] h1] [[s2 f2] h2] (Heq & Hc3 & Hc4 & H). simpl in *. split; auto. split; auto.
          split; [lia|]. destruct f1; [lia|].
          destruct H as (r' & Hr1 & Hr2 & H). exists r'. split; [lia|]. split; [lia|]. lia.
      Qed.

      Definition prod_count (h0 h : history L T) (c : nat)
                 (x y : parse_production_result L T * nat * history L T) : Prop :=
        fst y = fst x /\ ticks (snd y) <= ticks h + c /\ snd x = solver_calls (snd y) /\
        length (snd x) + ticks h <= length h0 + ticks (snd y).

      Lemma cnt_prod fuel : forall states pos syms rest child h0 h,
        stk states p0 pos syms -> out = syms ++ rest ->
        ticks h + C * (V (length rest) + phi ps states (length rest)) <= B -> h0 = solver_calls h ->
        orel (prod_count h0 h (C * (V (length rest) + phi ps states (length rest))))
          (inner_parse_from_tokens_production self tokens (inner n) fuel X out child states pos h0)
          (inner_parse_from_tokens_production (counting self) tokens (counted n) fuel X out child states pos h).
      Proof.
        induction fuel as [|fuel IH]; intros states pos syms rest child h0 h Hs Ho HB Hh; [exact I|].
        simpl. pose proof (stack_ok_length Hs) as Hl.
        destruct rest as [|Y rest].
        { assert (Hlt : (length states <? length out) = false).
          { apply Nat.ltb_ge. rewrite Ho, app_nil_r. lia. }
          rewrite Hlt. destruct (inner_parse_from_tokens_production_build_node X (rev states)); simpl; auto.
          split; auto. simpl. split; [lia|]. split; [auto|lia]. }
        assert (Hlt : (length states <? length out) = true).
        { apply Nat.ltb_lt. rewrite Ho, app_length. simpl. lia. }
        assert (HY : nth_error out (length states) = Some Y).
        { rewrite Ho, Hl, nth_error_app2, Nat.sub_diag by lia. reflexivity. }
        rewrite Hlt, HY. cbn [unwrap bind]. cbn [length] in HB.
        set (r := length rest) in *.
        assert (Hone : C + C * phi ps states (S r) <= C * (V (S r) + phi ps states (S r))).
        { rewrite Nat.mul_add_distr_l. apply Nat.add_le_mono_r.
          rewrite <- (Nat.mul_1_r C) at 1. apply Nat.mul_le_mono_l. pose proof (tries_step r cnt_K_pos). lia. }
        eapply orel_bind; [eapply (@cnt_step states pos syms Y rest child h0 h r); eauto; lia|].
        intros [x h1] [y h1'] Hx Hy (Heq & Hc1 & Hc2 & Hw). cbn [fst snd] in Heq, Hc1, Hc2, Hw. subst y.
        assert (HRS : RStep self tokens Y pos child h0 x h1).
        { eapply step_sound; [|exact Hx]. intros *; apply rel_sound. }
        apply (proj1 (proj2 (proj2 (proj2 (run_sound P tokens))))) in HRS. unfold SStep in HRS.
        destruct x as [st|e|fs].
        - destruct HRS as [Hok _].
          assert (Hle : ticks h1' + C * (V r + phi ps (StParsing st :: states) r) <=
                        ticks h + C * (V (S r) + phi ps states (S r))).
          { cbn [phi] in Hw |- *. rewrite !Nat.mul_add_distr_l in *. rewrite Nat.mul_0_r in Hw. lia. }
          eapply orel_mono; [eapply (IH _ _ (syms ++ [Y]) rest)|].
          + eapply stack_parsing; eauto.
          + now rewrite <- app_assoc.
          + fold r. lia.
          + exact Hc1.
          + fold r. intros a b (H1 & H2 & H3 & H4). split; auto. cbn [length]. fold r.
            split; [lia|]. split; [auto|lia].
        - eapply orel_bind.
          { eapply (@cnt_pop states pos syms (Y :: rest) child [] h1 h1' (S r)); [exact Hs|exact Ho| |exact Hc1]. lia. }
          intros [[s1 f1] h2] [[s2 f2] h2'] Hp1 _ (Heq & Hc3 & Hc4 & H).
          cbn [fst snd] in Heq, Hc3, Hc4, H. inversion Heq; subst s2 f2. clear Heq.
          destruct f1 as [f1|].
          + simpl. split; auto. cbn [length fst snd]. fold r. split; [lia|]. split; [auto|lia].
          + destruct H as (r' & Hr1 & Hr2 & H).
            assert (HRP : RPop self tokens states child [] h1 s1 None h2).
            { eapply pop_sound; [|exact Hp1]. intros *; apply rel_sound. }
            apply (proj2 (proj2 (proj2 (proj2 (run_sound P tokens))))) in HRP.
            destruct (HRP p0 pos syms Hs eq_refl) as (p' & syms' & rest' & Hsy & Hs').
            destruct s1 as [|s' below]; [reflexivity|].
            pose proof (stack_ok_top Hs') as Hp'. rewrite Hp' in Hs'.
            pose proof (stack_ok_length Hs') as Hl'.
            assert (Hr : r' = length (rest' ++ Y :: rest)).
            { rewrite app_length. cbn [length]. fold r. rewrite Hsy, app_length in Hl. lia. }
            eapply orel_mono; [eapply (IH _ _ syms' (rest' ++ Y :: rest)); [exact Hs'| | |exact Hc3]|].
            * rewrite Ho, Hsy. now rewrite <- app_assoc.
            * rewrite <- Hr. simpl in *. lia.
            * rewrite <- Hr. intros a b (H1 & H2 & H3 & H4). split; auto.
              cbn [length]. fold r. split; [lia|]. split; [auto|lia].
        - assert (Hle : ticks h1' + C * (V r + phi ps (StFixed fs :: states) r) <=
                        ticks h + C * (V (S r) + phi ps states (S r))).
          { cbn [phi]. rewrite !Nat.mul_add_distr_l in *. cbn [Nat.add]. lia. }
          eapply orel_mono; [eapply (IH _ _ (syms ++ [Y]) rest)|].
          + eapply stack_fixed; eauto.
          + now rewrite <- app_assoc.
          + fold r. lia.
          + exact Hc1.
          + fold r. intros a b (H1 & H2 & H3 & H4). split; auto. cbn [length]. fold r.
            split; [lia|]. split; [auto|lia].
      Qed.
    End Out.

    Lemma cnt_try fuel prods : forall child failed h0 h, good X prods ->
      ticks h + C * V M * length prods <= B -> h0 = solver_calls h ->
      orel (fun x y => fst y = fst x /\ ticks (snd y) <= ticks h + C * V M * length prods /\
              snd x = solver_calls (snd y) /\
              length (snd x) + ticks h <= length h0 + ticks (snd y) /\
              match fst x with
              | inl (SymOk st) => exists it, ps_prod_iter_option st = Some it /\ length it < length prods
              | _ => True
              end)
        (try_parse_productions_loop self tokens (inner n) fuel X p0 child prods failed h0)
        (try_parse_productions_loop (counting self) tokens (counted n) fuel X p0 child prods failed h).
    Proof.
      induction prods as [|out prods IH]; intros child failed h0 h Hg HB Hh; simpl.
      - split; auto. simpl. split; [lia|]. split; [auto|]. split; [lia|auto].
      - assert (Hout : exists p, In p ps /\ p_input p = X /\ p_output p = out) by (apply Hg; simpl; auto).
        assert (Hlen : C * V (length out) <= C * V M).
        { apply Nat.mul_le_mono_l. apply tries_mono; [apply (cnt_K_pos Hout)|].
          destruct Hout as (p & Hp & _ & <-). now apply longest_output_ge. }
        cbn [length] in HB. rewrite Nat.mul_succ_r in HB.
        eapply orel_bind.
        { eapply (@cnt_prod out Hout fuel [] p0 [] out child h0 h); [constructor|reflexivity| |exact Hh].
          simpl. rewrite Nat.add_0_r. lia. }
        intros [[x pos1] h1] [[y pos2] h2] _ _ (Heq & Hl & Hc1 & Hc2). cbn [fst snd] in Heq, Hl, Hc1, Hc2.
        inversion Heq; subst y pos2. cbn [phi] in Hl. rewrite Nat.add_0_r in Hl.
        destruct x as [nd|fp|fp].
        + simpl. split; auto. split; [rewrite Nat.mul_succ_r; simpl; lia|]. split; [auto|]. split; [auto|].
          eexists. split; [reflexivity|]. simpl. lia.
        + eapply orel_mono; [eapply IH; [eapply good_prods_tail; eauto| |exact Hc1]; simpl in *; lia|].
          intros [a ha] [b hb] (H1 & H2 & H3 & H4 & H5). simpl in *. split; auto. rewrite Nat.mul_succ_r.
          split; [lia|]. split; [auto|]. split; [lia|].
          destruct a as [[st|e|fs]|f]; auto. destruct H5 as (it & Hit & H5). exists it. split; auto.
        + simpl. split; auto. split; [rewrite Nat.mul_succ_r; simpl; lia|]. split; [auto|]. split; [auto|auto].
    Qed.
  End Prod.

  Notation factor := (calls_factor ps).

  Lemma cnt_fix pos single child failed h0 h : h0 = solver_calls h ->
    orel (fun x y => fst y = fst x /\ recursive_calls (snd y) = recursive_calls h /\
                     snd x = solver_calls (snd y) /\ length (snd x) <= length h0 + 1)
      (inner_parse_from_tokens_try_fix_productions self tokens pos single child failed h0)
      (inner_parse_from_tokens_try_fix_productions (counting self) tokens pos single child failed h).
  Proof.
    intros ->. unfold inner_parse_from_tokens_try_fix_productions. cbn [counting pr_solver].
    destruct (pr_solver self) as [s|]; simpl; [|repeat split; auto; lia].
    destruct single; [|simpl; repeat split; auto; lia].
    destruct tokens as [|tok rest]; [now elim Htok|].
    destruct child.
    - destruct failed as [|f0 failed]; [reflexivity|].
      destruct (s (solver_calls h) _) as [a| |]; simpl; auto.
      split; auto. rewrite recursive_calls_app, solver_calls_app, app_length. simpl. rewrite app_nil_r. auto.
    - destruct (s (solver_calls h) _) as [a| |]; simpl; auto.
      split; auto. rewrite recursive_calls_app, solver_calls_app, app_length. simpl. rewrite app_nil_r. auto.
  Qed.

  Lemma cnt_sym n : forall X p0 prods single h0 h path d,
    reachable_from eps ps init X -> on_path eps ps X path -> p0 < length tokens ->
    good X prods -> (length tokens - p0) * N <= d + length path ->
    ticks h + factor ^ d <= B -> h0 = solver_calls h ->
    orel (sym_count (factor ^ d) prods h0 h) (inner n X p0 prods single h0) (counted n X p0 prods single h).
  Proof.
    induction n as [|n IHn]; intros X p0 prods single h0 h path d HR Hpath Hp0 Hg Hd HB Hh; [exact I|].
    pose proof (on_path_short Hpath) as Hshort.
    destruct d as [|d].
    { exfalso. assert (1 * N <= (length tokens - p0) * N) by (apply Nat.mul_le_mono_r; lia). lia. }
    pose proof (factor_step ps d) as Hf. cbn [inner_parse_from_tokens inner_counted].
    rewrite (proj2 (Nat.ltb_lt (ticks h) B)) by lia.
    unfold inner_parse_from_tokens_step, inner_parse_from_tokens_try_parse_productions.
    assert (Hcost : factor ^ d * V M * length prods <= factor ^ d * V M * K)
      by (apply Nat.mul_le_mono_l; apply Hg).
    assert (Htk : ticks (h ++ [tick p0]) = ticks h + 1) by (rewrite recursive_calls_app, app_length; reflexivity).
    eapply orel_bind.
    - apply (@cnt_try X p0 n (factor ^ d)); [|exact Hg|lia|rewrite solver_calls_app; simpl; now rewrite app_nil_r].
      intros Y p1 prods' single' h0' h' Hpt HY [Hlt|[-> Hl]] Hg' Hp1 HB' Hh'.
      + apply (IHn Y p1 prods' single' h0' h' []); auto.
        * eapply reachable_part; eauto.
        * now apply on_path_nil.
        * assert ((length tokens - p1 + 1) * N <= (length tokens - p0) * N)
            by (apply Nat.mul_le_mono_r; lia). simpl. nia.
      + apply (IHn Y p0 prods' single' h0' h' (X :: path)); auto.
        * eapply reachable_part; eauto.
        * apply (on_path_cons Hno Hpath HR Hl).
        * simpl. lia.
    - intros [a ha] [b hb] _ _ (Heq & Hl & Hc1 & Hc2 & Hk). cbn [fst snd] in Heq, Hl, Hc1, Hc2, Hk. subst b.
      destruct a as [x|failed].
      + simpl. split; auto. cbn [fst snd]. split; [simpl in Hf; lia|]. split; [auto|]. split; [lia|].
        destruct x; auto.
      + eapply orel_bind; [apply cnt_fix; exact Hc1|].
        intros [fo h1] [fo' h1'] _ _ (Heq & Hr & Hc3 & Hc4). cbn [fst snd] in *. subst fo'.
        simpl. split; auto. cbn [fst snd]. rewrite Hr. split; [simpl in Hf; lia|]. split; [auto|].
        split; [lia|]. destruct fo; simpl; auto.
  Qed.
End Count.

Section Mono.
  Context {L T : Type} {E : EqDec T}.
  Variable self : parser L T.
  Variable tokens : list (token L T).

  Lemma counted_refines B n : forall n' X pos prods single h, n <= n' ->
    refines (inner_counted B n self tokens X pos prods single h)
            (inner_counted B n' self tokens X pos prods single h).
  Proof.
    induction n as [|n IH]; intros n' X pos prods single h Hn; [left; reflexivity|].
    destruct n' as [|n']; [lia|]. simpl. destruct (length (recursive_calls h) <? B); [|left; reflexivity].
    apply inner_step_refines; [|lia]. intros. apply IH. lia.
  Qed.

  Lemma parse_counted_terminates B n r : parse_counted B n self tokens = r -> r <> OutOfFuel ->
    terminates_with (fun fuel => parse_counted B fuel self tokens) r.
  Proof.
    intros H Hr. split; auto. exists n. intros fuel Hf.
    assert (H1 : refines (parse_counted B n self tokens) (parse_counted B fuel self tokens)).
    { unfold parse_counted. destruct tokens as [|tok rest] eqn:Ht; [apply refines_refl|].
      rewrite <- Ht. apply refines_bind; [now apply counted_refines|]. intros [x h]. apply refines_refl. }
    destruct H1 as [H'|H']; congruence.
  Qed.
End Mono.

(** ** A counted parse that ends is a parse *)
Section Sound.
  Context {L T : Type} {E : EqDec T}.
  Variable self : parser L T.
  Variable tokens : list (token L T).
  Hypothesis Htok : tokens <> [].
  Variable B : nat.
  Notation psr := (parse_symbol_result L T).
  Notation ticks h := (length (recursive_calls h)).

  Definition counts {A : Type} (h : history L T) (o o' : outcome (A * history L T)) : Prop :=
    match o' with
    | OutOfFuel => True
    | Panicked q => o = Panicked q
    | Done (a, hy) =>
        o = Done (a, solver_calls hy) /\
        length (solver_calls hy) + ticks h <= length (solver_calls h) + ticks hy /\
        (ticks h <= B -> ticks hy <= B)
    end.

  Lemma counts_done {A : Type} h (a : A) : counts h (Done (a, solver_calls h)) (Done (a, h)).
  Proof. simpl. auto. Qed.

  Lemma counts_bind {A C : Type} h (o o' : outcome (A * history L T))
        (f f' : A * history L T -> outcome (C * history L T)) :
    counts h o o' -> (forall a hy, counts hy (f (a, solver_calls hy)) (f' (a, hy))) ->
    counts h (bind o f) (bind o' f').
  Proof.
    destruct o' as [[a hy]|q|]; simpl; auto.
    - intros (-> & H1 & H2) Hf. simpl. specialize (Hf a hy). unfold counts in *.
      destruct (f' (a, hy)) as [[c hz]|q|]; auto. destruct Hf as (-> & H3 & H4). repeat split; auto. lia.
    - intros -> _. reflexivity.
  Qed.

  Section Rec.
    Variables rec rec' : T -> nat -> list (list T) -> bool -> history L T -> outcome (psr * history L T).
    Hypothesis Hrec : forall X pos prods single h,
      counts h (rec X pos prods single (solver_calls h)) (rec' X pos prods single h).
    Notation self' := (counting self).

    Lemma step_counts Y pos child h :
      counts h (inner_parse_from_tokens_production_symbol self tokens rec Y pos child (solver_calls h))
               (inner_parse_from_tokens_production_symbol self' tokens rec' Y pos child h).
    Proof.
      unfold inner_parse_from_tokens_production_symbol, inner_parse_from_tokens_production_non_terminal,
        inner_get_token_productions, inner_parse_terminal_symbol. cbn [counting pr_grammar pr_transitions].
      destruct (is_non_terminal _ _); [|apply counts_done].
      destruct (nth_error tokens pos); [apply Hrec|reflexivity].
    Qed.

    Lemma pop_counts states : forall child failed h,
      counts h (inner_parse_pop_states rec states child failed (solver_calls h))
               (inner_parse_pop_states rec' states child failed h).
    Proof.
      induction states as [|[st|fs] states IH]; intros child failed h; simpl; auto.
      destruct (ps_prod_iter_option st); auto.
      apply counts_bind; [apply Hrec|]. intros [ps'|e|f] hy; auto. apply counts_done.
    Qed.

    Lemma prod_counts fuel : forall X out child states pos h,
      counts h (inner_parse_from_tokens_production self tokens rec fuel X out child states pos (solver_calls h))
               (inner_parse_from_tokens_production self' tokens rec' fuel X out child states pos h).
    Proof.
      induction fuel as [|fuel IH]; intros X out child states pos h; [exact I|]. simpl.
      destruct (length states <? length out).
      - destruct (nth_error out (length states)) as [Y|]; [|reflexivity]. cbn [unwrap bind].
        apply counts_bind; [apply step_counts|]. intros [st|e|f] hy.
        + apply IH.
        + apply counts_bind; [apply pop_counts|]. intros [states' [fstates|]] h2.
          * apply counts_done.
          * destruct states'; [reflexivity|]. apply IH.
        + apply IH.
      - destruct (inner_parse_from_tokens_production_build_node _ _); simpl; auto.
    Qed.

    Lemma try_counts fuel prods : forall X pos child failed h,
      counts h (try_parse_productions_loop self tokens rec fuel X pos child prods failed (solver_calls h))
               (try_parse_productions_loop self' tokens rec' fuel X pos child prods failed h).
    Proof.
      induction prods as [|out prods IH]; intros X pos child failed h; [apply counts_done|].
      cbn [try_parse_productions_loop].
      apply counts_bind; [apply prod_counts|]. intros [[n|fp|fp] pos'] h1; auto; apply counts_done.
    Qed.

    Lemma inner_step_counts fuel X pos prods single h : ticks h < B ->
      counts h (inner_parse_from_tokens_step self tokens rec fuel X pos prods single (solver_calls h))
               (inner_parse_from_tokens_step self' tokens rec' fuel X pos prods single (h ++ [tick pos])).
    Proof.
      intros HB. unfold inner_parse_from_tokens_step, inner_parse_from_tokens_try_parse_productions.
      pose proof (try_counts fuel prods X pos (is_child_single_path single prods) [] (h ++ [tick pos])) as Ht.
      assert (Hs : solver_calls (h ++ [tick pos]) = solver_calls h)
        by (rewrite solver_calls_app; apply app_nil_r).
      assert (Hk : ticks (h ++ [tick pos]) = ticks h + 1)
        by (rewrite recursive_calls_app, app_length; reflexivity).
      rewrite Hs in Ht. unfold counts at 1 in Ht. rewrite Hs, Hk in Ht.
      destruct (try_parse_productions_loop self' tokens rec' _ _ _ _ _ _ _)
        as [[[r|failed] h1]|q|]; cbn [bind].
      - destruct Ht as (-> & H1 & H2). simpl. repeat split; auto; try lia.
      - destruct Ht as (-> & H1 & H2). cbn [bind].
        pose proof (@cnt_fix L T self tokens Htok pos single (is_child_single_path single prods) failed
                      (solver_calls h1) h1 eq_refl) as Hf.
        destruct (inner_parse_from_tokens_try_fix_productions self tokens _ _ _ _ _) as [[a ha]|q|];
          destruct (inner_parse_from_tokens_try_fix_productions self' tokens _ _ _ _ _) as [[b hb]|q'|];
          simpl in Hf; try contradiction; simpl; [|congruence|auto].
        destruct Hf as (-> & Hr & -> & Hl). rewrite Hr. repeat split; auto; lia.
      - rewrite Ht. reflexivity.
      - exact I.
    Qed.
  End Rec.

  Lemma inner_counts n : forall X pos prods single h,
    counts h (inner_parse_from_tokens n self tokens X pos prods single (solver_calls h))
             (inner_counted B n self tokens X pos prods single h).
  Proof.
    induction n as [|n IH]; intros X pos prods single h; [exact I|]. simpl.
    destruct (ticks h <? B) eqn:HB; [|exact I]. apply Nat.ltb_lt in HB. now apply inner_step_counts.
  Qed.
End Sound.

Lemma parse_counts {L T : Type} {E : EqDec T} (self : parser L T) (tokens : list (token L T)) B n :
  match parse_counted B n self tokens with
  | OutOfFuel => True
  | r => parse_from_tokens n self tokens = r /\ forall res h, r = Done (res, h) -> length h <= B
  end.
Proof.
  unfold parse_counted, parse_from_tokens. destruct tokens as [|tok rest]; [split; [auto|discriminate]|].
  pose proof (@inner_counts L T E self (tok :: rest) ltac:(discriminate) B n
    (get_initial_symbol (pr_grammar self)) 0
    (inner_get_token_productions self (get_initial_symbol (pr_grammar self)) (tok_type tok)) true []) as H.
  destruct (inner_counted B n self (tok :: rest) _ _ _ _ _) as [[r log]|q|]; simpl in *; auto.
  - destruct H as (-> & H1 & H2). simpl. split; auto. intros res h Heq. inversion Heq; subst. lia.
  - rewrite H. split; [auto|discriminate].
Qed.
