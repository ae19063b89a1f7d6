(** * How many calls a parse makes at most, whatever the table (proofs) *)

From Verif Require Import BaseFacts GrammarFacts DerivFacts ParserSim.
From Verif Require Export ParserDepth ParserWork.

Set Implicit Arguments.

(** ** the calls one candidate makes: [K] bounds the candidates of a cell *)
Section Count.
  Variable K : nat.

  (** [tries r]: with [r] symbols to go *)
  Fixpoint tries (r : nat) : nat :=
    match r with
    | O => 0
    | S r' => (K + 1) + K * tries r'
    end.

  (** [retries r k]: of a symbol with [k] candidates left and [r] symbols after it *)
  Definition retries (r k : nat) : nat := (k + 1) + k * tries r.

  Lemma retries_next r k k' : k' < k -> 1 + tries r + retries r k' <= retries r k.
  Proof.
    intros H. unfold retries. assert (Hm : S k' * tries r <= k * tries r) by (apply Nat.mul_le_mono_r; lia).
    simpl in Hm. lia.
  Qed.

  Lemma tries_next r k' : k' < K -> 1 + tries r + retries r k' <= tries (S r).
  Proof. intros H. apply (@retries_next r K k' H). Qed.

  Lemma tries_step r : 0 < K -> 1 + tries r <= tries (S r).
  Proof. intros H. simpl. assert (1 * tries r <= K * tries r) by (apply Nat.mul_le_mono_r; lia). lia. Qed.

  Lemma tries_mono r r' : 0 < K -> r <= r' -> tries r <= tries r'.
  Proof. intros HK H. induction H as [|r' _ IH]; auto. pose proof (tries_step r' HK). lia. Qed.

  Lemma tries_pow r : S (tries r) <= (K + 2) ^ r.
  Proof.
    induction r as [|r IH]; [simpl; lia|]. rewrite Nat.pow_succ_r'. simpl tries.
    assert (H1 : K * S (tries r) <= K * (K + 2) ^ r) by (apply Nat.mul_le_mono_l; auto).
    rewrite Nat.mul_add_distr_r. rewrite Nat.mul_succ_r in H1. lia.
  Qed.
End Count.

Section Exp.
  Context {L T : Type} {E : EqDec T}.
  Variable eps init : T.
  Variable ps : list (production T).
  Variable self : parser L T.
  Hypothesis P : parser_of eps init ps self.
  Hypothesis Hsol : pr_solver self = None.
  Hypothesis Hno : no_left_recursion_from eps ps init.
  Variable tokens : list (token L T).
  Variable B : nat.

  Notation stk := (@stack_ok L T eps ps self tokens).
  Notation good := (@good_prods T ps).
  Notation N := (nts ps).
  Notation M := (longest_output ps).
  Notation K := (length ps).
  Notation V := (tries K).
  Notation inner := (fun n => inner_parse_from_tokens n self tokens).
  Notation within := (fun n => inner_within B n self tokens).

  Lemma no_solver_progress : progress_solver self.
  Proof. unfold progress_solver. rewrite Hsol. intros s Hs. discriminate. Qed.

  (** what backtracking into [states] can still cost, in calls; [r] symbols follow *)
  Fixpoint phi (states : list (state L T)) (r : nat) : nat :=
    match states with
    | [] => 0
    | s :: below =>
        match s with
        | StParsing st => match ps_prod_iter_option st with
                          | Some it => retries K r (length it)
                          | None => 0
                          end
        | StFixed _ => 0
        end + phi below (S r)
    end.

  Definition sym_cost (C : nat) (prods : list (list T)) (h : history L T)
             (x y : parse_symbol_result L T * history L T) : Prop :=
    fst y = fst x /\ length (snd y) <= length h + C /\
    match fst x with
    | SymOk st => exists it, ps_prod_iter_option st = Some it /\ length it < length prods
    | SymErr _ => True
    | SymFix _ => False
    end.

  Section Prod.
    Variable X : T.
    Variable p0 : nat.
    Variable n : nat.
    Variable C : nat.
    Hypothesis Hcall : forall Y p1 prods single h0 h, part ps X Y -> non_terminal ps Y ->
      smaller eps ps X p0 Y p1 -> good Y prods -> p1 < length tokens -> length h + C <= B ->
      orel (sym_cost C prods h) (inner n Y p1 prods single h0) (within n Y p1 prods single h).

    Section Out.
      Variable out : list T.
      Hypothesis Hout : exists p, In p ps /\ p_input p = X /\ p_output p = out.

      Lemma exp_smaller states p1 syms Y rest :
        stk states p0 p1 syms -> out = syms ++ Y :: rest -> non_terminal ps Y ->
        smaller eps ps X p0 Y p1.
      Proof.
        intros Hs Ho HY.
        apply (@dep_smaller L T E eps ps self tokens no_solver_progress X p0 n (inner n)
                 ltac:(intros; apply refines_refl) out Hout states p1 syms Y rest); auto.
      Qed.

      Lemma K_pos : 0 < K.
      Proof. destruct Hout as (p & Hp & _). destruct ps; [destruct Hp|simpl; lia]. Qed.

      Lemma exp_step states pos syms Y rest child h0 h r :
        stk states p0 pos syms -> out = syms ++ Y :: rest -> length h + C <= B ->
        orel (fun x y => fst y = fst x /\
                match fst x with
                | SymOk st => length (snd y) + C * (V r + phi [StParsing st] r) <= length h + C * V (S r)
                | SymErr _ => length (snd y) <= length h + C
                | SymFix _ => False
                end)
          (inner_parse_from_tokens_production_symbol self tokens (inner n) Y pos child h0)
          (inner_parse_from_tokens_production_symbol self tokens (within n) Y pos child h).
      Proof.
        intros Hs Ho HB. unfold inner_parse_from_tokens_production_symbol,
          inner_parse_from_tokens_production_non_terminal.
        destruct (is_non_terminal (pr_grammar self) Y) eqn:HY.
        - apply (is_non_terminal_spec (po_grammar P)) in HY.
          destruct (nth_error tokens pos) as [tok|] eqn:Ht; [|reflexivity].
          assert (Hpos : pos < length tokens) by (apply nth_error_Some; congruence).
          pose proof (token_productions_good P Y (tok_type tok)) as Hg.
          eapply orel_mono; [apply Hcall; auto|].
          + exact (dep_part ps Hout syms rest Y Ho).
          + eapply exp_smaller; eauto.
          + intros [x hx] [y hy] (Heq & Hl & Hit). simpl in *. split; auto.
            destruct x as [st|e|fs]; auto. destruct Hit as (it & Hit & Hlen). rewrite Hit.
            assert (Hlt : length it < K) by (destruct Hg; lia).
            pose proof (@tries_next K r (length it) Hlt) as Ht1.
            apply (Nat.mul_le_mono_l _ _ C) in Ht1. rewrite !Nat.mul_add_distr_l in *. simpl in *. lia.
        - simpl. split; auto. unfold inner_parse_terminal_symbol, inner_parse_non_epsilon_terminal_symbol.
          pose proof (tries_step r K_pos) as Ht1. apply (Nat.mul_le_mono_l _ _ C) in Ht1.
          rewrite !Nat.mul_add_distr_l in Ht1. simpl in Ht1.
          destruct (eqb (get_epsilon_symbol (pr_grammar self)) Y); simpl; [rewrite !Nat.add_0_r; lia|].
          destruct (nth_error tokens pos) as [tok|]; simpl; [destruct (eqb Y (tok_type tok))|]; simpl;
            rewrite ?Nat.add_0_r; lia.
      Qed.

      Lemma exp_pop states : forall p1 syms rest child failed h0 h r,
        stk states p0 p1 syms -> out = syms ++ rest -> length h + C * phi states r <= B ->
        orel (fun x y => fst y = fst x /\
                match snd (fst x) with
                | Some _ => length (snd y) <= length h + C * phi states r
                | None =>
                    exists r', r' + length (fst (fst x)) = r + length states /\ r <= r' /\
                      length (snd y) + C * (V r' + phi (fst (fst x)) r') <= length h + C * phi states r
                end)
          (inner_parse_pop_states (inner n) states child failed h0)
          (inner_parse_pop_states (within n) states child failed h).
      Proof.
        induction states as [|[st|fs] states IH]; intros p1 syms rest child failed h0 h r Hs Ho HB; simpl.
        - split; auto. simpl. lia.
        - apply stack_parsing_inv in Hs as (p2 & syms0 & Y & -> & _ & Hs & Ht & Hi & Hm).
          rewrite <- app_assoc in Ho. simpl in Ho. simpl in HB.
          destruct (ps_prod_iter_option st) as [it|] eqn:Hit.
          + destruct Hm as (HY & Hg & Hpos & HYn).
            assert (H1 : C + C * phi states (S r) <= C * (retries K r (length it) + phi states (S r))).
            { rewrite Nat.mul_add_distr_l. apply Nat.add_le_mono_r. unfold retries.
              rewrite <- (Nat.mul_1_r C) at 1. apply Nat.mul_le_mono_l. lia. }
            eapply orel_bind.
            { rewrite HY, Hi. apply (@Hcall Y p2 it child h0 h); auto.
              - exact (dep_part ps Hout syms0 rest Y Ho).
              - eapply exp_smaller; eauto.
              - lia. }
            intros [x hx] [y hy] _ _ (Heq & Hl & Hk). simpl in Heq, Hl, Hk. subst y.
            destruct x as [st'|e|f]; [| |contradiction].
            * simpl. split; auto. exists r. split; [simpl; lia|]. split; [lia|].
              destruct Hk as (it' & -> & Hlt).
              pose proof (@retries_next K r (length it) (length it') Hlt) as Hr.
              apply (Nat.mul_le_mono_l _ _ C) in Hr. rewrite !Nat.mul_add_distr_l in *. simpl in *. lia.
            * eapply orel_mono; [eapply (IH p2 syms0 (Y :: rest) child failed hx hy (S r)); eauto; lia|].
              intros [[s1 f1] h1] [[s2 f2] h2] [Heq H]. simpl in *. split; auto. destruct f1; [lia|].
              destruct H as (r' & Hr1 & Hr2 & H). exists r'. split; [lia|]. split; [lia|]. lia.
          + eapply orel_mono; [eapply (IH p2 syms0 (Y :: rest) child (StParsing st :: failed) h0 h (S r)); eauto|].
            intros [[s1 f1] h1] [[s2 f2] h2] [Heq H]. simpl in *. split; auto. destruct f1; [lia|].
            destruct H as (r' & Hr1 & Hr2 & H). exists r'. split; [lia|]. split; [lia|]. lia.
        - apply stack_fixed_inv in Hs as (p2 & syms0 & Y & -> & _ & Hs). simpl in HB.
          rewrite <- app_assoc in Ho. simpl in Ho.
          eapply orel_mono; [eapply (IH p2 syms0 (Y :: rest) child (StFixed fs :: failed) h0 h (S r)); eauto|].
          intros [[s1 f1] h1] [[s2 f2] h2] [Heq H]. simpl in *. split; auto. destruct f1; [lia|].
          destruct H as (r' & Hr1 & Hr2 & H). exists r'. split; [lia|]. split; [lia|]. lia.
      Qed.

      Definition prod_cost (b : nat) (x y : parse_production_result L T * nat * history L T) : Prop :=
        fst y = fst x /\ length (snd y) <= b /\ forall fp, fst (fst x) <> ProdFix fp.

      Lemma exp_prod fuel : forall states pos syms rest child h0 h,
        stk states p0 pos syms -> existsb (@is_fixed L T) states = false -> out = syms ++ rest ->
        length h + C * (V (length rest) + phi states (length rest)) <= B ->
        orel (prod_cost (length h + C * (V (length rest) + phi states (length rest))))
          (inner_parse_from_tokens_production self tokens (inner n) fuel X out child states pos h0)
          (inner_parse_from_tokens_production self tokens (within n) fuel X out child states pos h).
      Proof.
        induction fuel as [|fuel IH]; intros states pos syms rest child h0 h Hs Hnf Ho HB; [exact I|].
        simpl. pose proof (stack_ok_length Hs) as Hl.
        destruct rest as [|Y rest].
        { assert (Hlt : (length states <? length out) = false).
          { apply Nat.ltb_ge. rewrite Ho, app_nil_r. lia. }
          rewrite Hlt. unfold inner_parse_from_tokens_production_build_node.
          assert (Hnf' : existsb (@is_fixed L T) (rev states) = false).
          { apply not_true_iff_false. rewrite existsb_exists. intros (x & Hx & Hxf).
            apply in_rev in Hx. apply not_true_iff_false in Hnf. apply Hnf.
            rewrite existsb_exists. eauto. }
          rewrite Hnf'. destruct (@states_to_nodes_total L T (rev states) Hnf') as [ns Hn].
          rewrite Hn. simpl. split; auto. split; [simpl; lia|]. simpl. discriminate. }
        assert (Hlt : (length states <? length out) = true).
        { apply Nat.ltb_lt. rewrite Ho, app_length. simpl. lia. }
        assert (HY : nth_error out (length states) = Some Y).
        { rewrite Ho, Hl, nth_error_app2, Nat.sub_diag by lia. reflexivity. }
        rewrite Hlt, HY. cbn [unwrap bind]. cbn [length] in HB.
        set (r := length rest) in *.
        assert (Hone : C + C * phi states (S r) <= C * (V (S r) + phi states (S r))).
        { rewrite Nat.mul_add_distr_l. apply Nat.add_le_mono_r.
          rewrite <- (Nat.mul_1_r C) at 1. apply Nat.mul_le_mono_l. pose proof (tries_step r K_pos). lia. }
        eapply orel_bind; [eapply (@exp_step states pos syms Y rest child h0 h r); eauto; lia|].
        intros [x h1] [y h1'] Hx Hy [Heq Hw]. cbn [fst snd] in Heq, Hw. subst y.
        assert (HRS : RStep self tokens Y pos child h0 x h1).
        { eapply step_sound; [|exact Hx]. intros *; apply rel_sound. }
        apply (proj1 (proj2 (proj2 (proj2 (run_sound P tokens))))) in HRS. unfold SStep in HRS.
        destruct x as [st|e|fs]; [| |contradiction].
        - destruct HRS as [Hok _].
          assert (Hle : length h1' + C * (V r + phi (StParsing st :: states) r) <=
                        length h + C * (V (S r) + phi states (S r))).
          { cbn [phi] in Hw |- *. rewrite !Nat.mul_add_distr_l in *. rewrite Nat.mul_0_r in Hw. lia. }
          eapply orel_mono; [eapply (IH _ _ (syms ++ [Y]) rest)|].
          + eapply stack_parsing; eauto.
          + exact Hnf.
          + now rewrite <- app_assoc.
          + fold r. lia.
          + fold r. intros a b (H1 & H2 & H3). split; auto. split; auto. cbn [length]. fold r. lia.
        - eapply orel_bind.
          { eapply (@exp_pop states pos syms (Y :: rest) child [] h1 h1' (S r)); [exact Hs|exact Ho|]. lia. }
          intros [[s1 f1] h2] [[s2 f2] h2'] Hp1 _ [Heq H]. simpl in Heq, H. inversion Heq; subst s2 f2. clear Heq.
          destruct f1 as [f1|].
          + simpl. split; auto. split; [|simpl; discriminate]. cbn [length]. fold r. simpl in *. lia.
          + destruct H as (r' & Hr1 & Hr2 & H).
            assert (HRP : RPop self tokens states child [] h1 s1 None h2).
            { eapply pop_sound; [|exact Hp1]. intros *; apply rel_sound. }
            apply (proj2 (proj2 (proj2 (proj2 (run_sound P tokens))))) in HRP.
            destruct (HRP p0 pos syms Hs eq_refl) as (p' & syms' & rest' & Hsy & Hs').
            destruct s1 as [|s' below]; [reflexivity|].
            pose proof (stack_ok_top Hs') as Hp'. rewrite Hp' in Hs'.
            pose proof (stack_ok_length Hs') as Hl'.
            assert (Hr : r' = length (rest' ++ Y :: rest)).
            { rewrite app_length. cbn [length]. fold r. rewrite Hsy, app_length in Hl. lia. }
            eapply orel_mono; [eapply (IH _ _ syms' (rest' ++ Y :: rest)); [exact Hs'| | |]|].
            * (* a retried state is not a fix; below nothing changed *)
              clear -Hp1 Hnf. revert Hp1 Hnf. generalize (@nil (state L T)) as fl. revert h1.
              induction states as [|[st|f] sts IHs]; simpl; intros hh fl Hp Hn; [discriminate| |discriminate].
              destruct (ps_prod_iter_option st).
              -- apply bind_done in Hp as ([rr hr] & _ & Hp). destruct rr as [st'|e'|f'].
                 ++ inversion Hp; subst. exact Hn.
                 ++ eapply IHs; eauto.
                 ++ eapply IHs; eauto.
              -- eapply IHs; eauto.
            * rewrite Ho, Hsy. now rewrite <- app_assoc.
            * rewrite <- Hr. simpl in *. lia.
            * rewrite <- Hr. intros a b (H1 & H2 & H3). split; auto. split; auto.
              cbn [length]. fold r. simpl in *. lia.
      Qed.
    End Out.

    Lemma exp_try fuel prods : forall child failed h0 h, good X prods ->
      length h + C * V M * length prods <= B ->
      orel (fun x y => fst y = fst x /\ length (snd y) <= length h + C * V M * length prods /\
              match fst x with
              | inl (SymOk st) => exists it, ps_prod_iter_option st = Some it /\ length it < length prods
              | inl (SymErr _) => False
              | inl (SymFix _) => False
              | inr _ => True
              end)
        (try_parse_productions_loop self tokens (inner n) fuel X p0 child prods failed h0)
        (try_parse_productions_loop self tokens (within n) fuel X p0 child prods failed h).
    Proof.
      induction prods as [|out prods IH]; intros child failed h0 h Hg HB; simpl.
      - split; auto. simpl. split; [lia|auto].
      - assert (Hout : exists p, In p ps /\ p_input p = X /\ p_output p = out) by (apply Hg; simpl; auto).
        assert (Hlen : C * V (length out) <= C * V M).
        { apply Nat.mul_le_mono_l. apply tries_mono; [apply (K_pos Hout)|].
          destruct Hout as (p & Hp & _ & <-). now apply longest_output_ge. }
        cbn [length] in HB. rewrite Nat.mul_succ_r in HB.
        eapply orel_bind.
        { eapply (@exp_prod out Hout fuel [] p0 [] out child h0 h); [constructor|reflexivity|reflexivity|].
          simpl. rewrite Nat.add_0_r. lia. }
        intros [[x pos1] h1] [[y pos2] h2] _ _ (Heq & Hl & Hnf). simpl in Heq, Hl, Hnf.
        inversion Heq; subst y pos2. rewrite Nat.add_0_r in Hl.
        destruct x as [nd|fp|fp].
        + simpl. split; auto. split; [rewrite Nat.mul_succ_r; simpl; lia|]. eexists. split; [reflexivity|]. simpl. lia.
        + eapply orel_mono; [eapply IH; [eapply good_prods_tail; eauto|]; simpl in *; lia|].
          intros [a ha] [b hb] (H1 & H2 & H3). simpl in *. split; auto. rewrite Nat.mul_succ_r. split; [lia|].
          destruct a as [[st|e|fs]|f]; auto. destruct H3 as (it & Hit & H3). exists it. split; auto.
        + elim (Hnf fp). reflexivity.
    Qed.
  End Prod.

  Notation factor := (calls_factor ps).

  Lemma factor_step d : 1 + factor ^ d * V M * K <= factor ^ S d.
  Proof.
    pose proof (tries_pow K M) as H1. unfold calls_factor. rewrite Nat.pow_succ_r'.
    set (f := 1 + K * (K + 2) ^ M).
    assert (Hf : 1 <= f ^ d) by (rewrite <- (Nat.pow_1_l d); apply Nat.pow_le_mono_l; subst f; lia).
    assert (H2 : V M * K <= K * (K + 2) ^ M) by (rewrite (Nat.mul_comm K); apply Nat.mul_le_mono_r; lia).
    apply (Nat.mul_le_mono_l _ _ (f ^ d)) in H2.
    rewrite <- Nat.mul_assoc. subst f. set (z := K * (K + 2) ^ M) in *. set (g := (1 + z) ^ d) in *.
    rewrite Nat.mul_add_distr_r, (Nat.mul_comm z g). lia.
  Qed.

  Lemma exp_sym n : forall X p0 prods single h0 h path d,
    reachable_from eps ps init X -> on_path eps ps X path -> p0 < length tokens ->
    good X prods -> (length tokens - p0) * N <= d + length path ->
    length h + factor ^ d <= B ->
    orel (sym_cost (factor ^ d) prods h) (inner n X p0 prods single h0) (within n X p0 prods single h).
  Proof.
    induction n as [|n IHn]; intros X p0 prods single h0 h path d HR Hpath Hp0 Hg Hd HB; [exact I|].
    pose proof (on_path_short Hpath) as Hshort.
    destruct d as [|d].
    { exfalso. assert (1 * N <= (length tokens - p0) * N) by (apply Nat.mul_le_mono_r; lia). lia. }
    pose proof (factor_step d) as Hf. cbn [inner_parse_from_tokens inner_within].
    rewrite (proj2 (Nat.ltb_lt (length h) B)) by lia.
    unfold inner_parse_from_tokens_step, inner_parse_from_tokens_try_parse_productions.
    assert (Hcost : factor ^ d * V M * length prods <= factor ^ d * V M * K)
      by (apply Nat.mul_le_mono_l; apply Hg).
    eapply orel_bind.
    - apply (@exp_try X p0 n (factor ^ d)); [|exact Hg|rewrite app_length; simpl; lia].
      intros Y p1 prods' single' h0' h' Hpt HY [Hlt|[-> Hl]] Hg' Hp1 HB'.
      + apply (IHn Y p1 prods' single' h0' h' []); auto.
        * eapply reachable_part; eauto.
        * now apply on_path_nil.
        * assert ((length tokens - p1 + 1) * N <= (length tokens - p0) * N)
            by (apply Nat.mul_le_mono_r; lia). simpl. nia.
      + apply (IHn Y p0 prods' single' h0' h' (X :: path)); auto.
        * eapply reachable_part; eauto.
        * apply (on_path_cons Hno Hpath HR Hl).
        * simpl. lia.
    - intros [a ha] [b hb] _ _ (Heq & Hl & Hk). simpl in Heq, Hl, Hk. subst b.
      rewrite app_length in Hl. simpl in Hl.
      destruct a as [x|failed].
      + simpl. split; auto. split; [simpl; simpl in Hf; lia|].
        simpl. destruct x; auto.
      + unfold inner_parse_from_tokens_try_fix_productions. rewrite Hsol. simpl. split; auto.
        split; auto. simpl; simpl in Hf. lia.
  Qed.
End Exp.
