(** * The calls that ordered choice makes (proofs)

    Ordered choice (ChoiceSpec, PastSpec) once more, with the number of calls
    of the recursive function, and that the parser makes that many. *)

From Verif Require Import BaseFacts GrammarFacts DerivFacts.
From Verif Require Export ParserChoice ParserPastChoice WorkSpec WorkLog.

Set Implicit Arguments.

Inductive res (A : Type) : Type :=
| ROk (a : A)
| RFail
| RPast.
Arguments ROk {A} _.
Arguments RFail {A}.
Arguments RPast {A}.

Section Effort.
  Context {L T : Type}.
  Variable eps : T.
  Variable ps : list (production T).
  Variable tokens : list (token L T).
  Variable candidates : T -> T -> list (list T).

  Definition rcons (n : node L T) (r : res (list (node L T) * nat)) : res (list (node L T) * nat) :=
    match r with ROk (ns, q) => ROk (n :: ns, q) | RFail => RFail | RPast => RPast end.

  Inductive ctry : T -> nat -> list (list T) -> res (node L T * nat * list (list T)) -> nat -> Prop :=
  | ctry_none X p : ctry X p [] RFail 0
  | ctry_first X p out outs ns q k :
      cseq out p (ROk (ns, q)) k ->
      ctry X p (out :: outs) (ROk (Node ns (Token None X), q, outs)) k
  | ctry_past X p out outs k :
      cseq out p RPast k -> ctry X p (out :: outs) RPast k
  | ctry_next X p out outs r k k' :
      cseq out p RFail k -> ctry X p outs r k' -> ctry X p (out :: outs) r (k + k')
  with cseq : list T -> nat -> res (list (node L T) * nat) -> nat -> Prop :=
  | cseq_nil p : cseq [] p (ROk ([], p)) 0
  | cseq_epsilon Xs p r k :
      cseq Xs p r k -> cseq (eps :: Xs) p (rcons (Node [] (Token None eps)) r) k
  | cseq_token Xs p tok r k :
      ~ non_terminal ps (tok_type tok) -> tok_type tok <> eps ->
      nth_error tokens p = Some tok -> cseq Xs (p + 1) r k ->
      cseq (tok_type tok :: Xs) p (rcons (Node [] tok) r) k
  | cseq_mismatch X Xs p :
      ~ non_terminal ps X -> X <> eps ->
      (forall tok, nth_error tokens p = Some tok -> tok_type tok <> X) ->
      cseq (X :: Xs) p RFail 0
  | cseq_end X Xs p :
      non_terminal ps X -> nth_error tokens p = None -> cseq (X :: Xs) p RPast 0
  | cseq_non_terminal X Xs p tok r k :
      non_terminal ps X -> nth_error tokens p = Some tok ->
      cbranch X p (candidates X (tok_type tok)) Xs r k -> cseq (X :: Xs) p r k
  with cbranch : T -> nat -> list (list T) -> list T -> res (list (node L T) * nat) -> nat -> Prop :=
  | cbranch_fail X p outs Xs k :
      ctry X p outs RFail k -> cbranch X p outs Xs RFail (S k)
  | cbranch_here X p outs Xs k :
      ctry X p outs RPast k -> cbranch X p outs Xs RPast (S k)
  | cbranch_ok X p outs Xs n q outs' ns q' k k' :
      ctry X p outs (ROk (n, q, outs')) k -> cseq Xs q (ROk (ns, q')) k' ->
      cbranch X p outs Xs (ROk (n :: ns, q')) (S k + k')
  | cbranch_after X p outs Xs n q outs' k k' :
      ctry X p outs (ROk (n, q, outs')) k -> cseq Xs q RPast k' ->
      cbranch X p outs Xs RPast (S k + k')
  | cbranch_retry X p outs Xs n q outs' r k k' k'' :
      ctry X p outs (ROk (n, q, outs')) k -> cseq Xs q RFail k' ->
      cbranch X p outs' Xs r k'' -> cbranch X p outs Xs r (S k + k' + k'').

  Scheme ctry_mut := Minimality for ctry Sort Prop
  with cseq_mut := Minimality for cseq Sort Prop
  with cbranch_mut := Minimality for cbranch Sort Prop.
  Combined Scheme effort_mutind from ctry_mut, cseq_mut, cbranch_mut.

  (** every choice has its number of calls *)
  Notation choose := (choose eps ps tokens candidates).
  Notation sequence := (sequence eps ps tokens candidates).
  Notation branch := (branch eps ps tokens candidates).

  Definition of_option {A} (o : option A) : res A := match o with Some a => ROk a | None => RFail end.

  Lemma choice_effort :
    (forall X p outs r, choose X p outs r -> exists k, ctry X p outs (of_option r) k) /\
    (forall Xs p r, sequence Xs p r -> exists k, cseq Xs p (of_option r) k) /\
    (forall X p outs Xs r, branch X p outs Xs r -> exists k, cbranch X p outs Xs (of_option r) k).
  Proof.
    assert (Hc : forall n o, of_option (consed n o) = rcons n (of_option o)) by (intros n [[ns q]|]; reflexivity).
    apply choice_mutind.
    - intros. exists 0. constructor.
    - intros X p out outs ns q _ [k IH]. exists k. now constructor.
    - intros X p out outs r _ [k IH] _ [k' IH']. exists (k + k'). now constructor.
    - intros. exists 0. constructor.
    - intros Xs p r _ [k IH]. exists k. rewrite Hc. now constructor.
    - intros Xs p tok r H1 H2 H3 _ [k IH]. exists k. rewrite Hc. now constructor.
    - intros. exists 0. now constructor.
    - intros X Xs p tok r H1 H2 _ [k IH]. exists k. eapply cseq_non_terminal; eauto.
    - intros X p outs Xs _ [k IH]. exists (S k). now constructor.
    - intros X p outs Xs n q outs' ns q' _ [k IH] _ [k' IH']. exists (S k + k'). eapply cbranch_ok; eauto.
    - intros X p outs Xs n q outs' r _ [k IH] _ [k' IH'] _ [k'' IH'']. exists (S k + k' + k'').
      eapply cbranch_retry; eauto.
  Qed.

  Lemma past_effort :
    (forall X p outs, choose_past eps ps tokens candidates X p outs -> exists k, ctry X p outs RPast k) /\
    (forall Xs p, sequence_past eps ps tokens candidates Xs p -> exists k, cseq Xs p RPast k) /\
    (forall X p outs Xs, branch_past eps ps tokens candidates X p outs Xs -> exists k, cbranch X p outs Xs RPast k).
  Proof.
    apply past_choice_mutind.
    - intros X p out outs _ [k IH]. exists k. now constructor.
    - intros X p out outs Hs _ [k' IH]. apply choice_effort in Hs as [k Hs]. exists (k + k'). now constructor.
    - intros. exists 0. now constructor.
    - intros Xs p _ [k IH]. exists k. now apply (@cseq_epsilon Xs p RPast).
    - intros Xs p tok H1 H2 H3 _ [k IH]. exists k. now apply (@cseq_token Xs p tok RPast).
    - intros X Xs p tok H1 H2 _ [k IH]. exists k. eapply cseq_non_terminal; eauto.
    - intros X p outs Xs _ [k IH]. exists (S k). now constructor.
    - intros X p outs Xs n q outs' Hc _ [k' IH]. apply choice_effort in Hc as [k Hc].
      exists (S k + k'). eapply cbranch_after; eauto.
    - intros X p outs Xs n q outs' Hc Hs _ [k'' IH]. apply choice_effort in Hc as [k Hc].
      apply choice_effort in Hs as [k' Hs]. exists (S k + k' + k''). eapply cbranch_retry; eauto.
  Qed.
End Effort.

Section Code.
  Context {L T : Type} {E : EqDec T}.
  Context {eps init : T} {ps : list (production T)} {self : parser L T}.
  Hypothesis P : parser_of eps init ps self.
  Hypothesis Hns : pr_solver self = None.
  Variable tokens : list (token L T).
  Variable B : nat.
  Let G := po_grammar P.
  Notation cands := (inner_get_token_productions self).
  Notation ctry := (ctry eps ps tokens cands).
  Notation cseq := (cseq eps ps tokens cands).
  Notation cbranch := (cbranch eps ps tokens cands).
  Notation W n := (inner_within B n self tokens).
  Notation hist := (history L T).

  Definition loop (f n : nat) X out child states pos h :=
    inner_parse_from_tokens_production self tokens (W n) f X out child states pos h.

  Definition popc (f n : nat) (X : T) (out : list T) (child : bool) (fs : failed_symbol L T) (cur : nat)
             (failed states : list (state L T)) (h : hist)
    : outcome (parse_production_result L T * nat * hist) :=
    '(states', popped, h'') <- inner_parse_pop_states (W n) states child failed h ;;
    match popped with
    | Some production_parsing_states =>
        Done (inner_parse_from_tokens_production_build_failed_symbol fs out production_parsing_states, cur, h'')
    | None =>
        match states' with
        | [] => Panicked PanicSubUnderflow
        | st :: _ => loop f n X out child states' (state_final_token_position st) h''
        end
    end.

  Definition plain (states : list (state L T)) : Prop :=
    Forall (fun s => exists st, s = StParsing st) states.
  Definition snode (s : state L T) : node L T :=
    match s with StParsing st => ps_node st | StFixed _ => Node [] (Token None eps) end.
  Definition nodes (states : list (state L T)) : list (node L T) := map snode (rev states).

  Lemma plain_nodes states : plain states ->
    existsb (@is_fixed L T) (rev states) = false /\ states_to_nodes (rev states) = Done (nodes states).
  Proof.
    intros H. assert (Hr : plain (rev states)) by now apply Forall_rev. unfold nodes.
    induction Hr as [|s l [st ->] _ [IH1 IH2]]; [split; reflexivity|].
    simpl. rewrite IH1, IH2. split; reflexivity.
  Qed.

  Lemma nodes_push st states : nodes (StParsing st :: states) = nodes states ++ [ps_node st].
  Proof. unfold nodes. simpl. now rewrite map_app. Qed.

  (** how a run of the loop over the rest of a production goes on *)
  Definition lands (r : res (list (node L T) * nat)) X out child states
             (run : nat -> nat -> outcome (parse_production_result L T * nat * hist)) (h : hist) (k : nat) : Prop :=
    exists n0 d h1, length h1 = length h + k /\
    match r with
    | ROk (ns, q) => exists states2, plain states2 /\ nodes states2 = nodes states ++ ns /\
        length states2 = length out /\
        forall n f, n0 <= n -> run (d + f) n = loop f n X out child states2 q h1
    | RFail => exists fs cur failed,
        forall n f, n0 <= n -> run (d + f) n = popc f n X out child fs cur failed states h1
    | RPast => forall n f, n0 <= n -> run (d + f) n = Panicked PanicTokenOutOfRange
    end.

  Definition a_seq (Xs : list T) (p : nat) (r : res (list (node L T) * nat)) (k : nat) : Prop :=
    forall X out child states h, plain states -> length states + length Xs = length out ->
      skipn (length states) out = Xs -> length h + k <= B ->
      lands r X out child states (fun f n => loop f n X out child states p h) h k.

  Definition a_branch (X : T) (p : nat) (outs : list (list T)) (Xs : list T)
             (r : res (list (node L T) * nat)) (k : nat) : Prop :=
    forall X0 out child states h run d0 fsf cur failed K, plain states ->
      length states + S (length Xs) = length out -> skipn (length states) out = X :: Xs ->
      length h + k <= B ->
      (forall n f, run (d0 + f) n = bind (W n X p outs child h) (K n f)) ->
      (forall n f st h', K n f (SymOk st, h') =
         loop f n X0 out child (StParsing st :: states) (ps_final_token_position st) h') ->
      (forall n f e h', K n f (SymErr e, h') = popc f n X0 out child (fsf e) cur failed states h') ->
      lands r X0 out child states run h k.

  Definition a_try (X : T) (p : nat) (outs : list (list T))
             (r : res (node L T * nat * list (list T))) (k : nat) : Prop :=
    forall child failed h, length h + k <= B ->
    exists n0 h1, length h1 = length h + k /\
    match r with
    | ROk (nd, q, outs') => tok_type (node_token nd) = X /\ forall n f, n0 <= n -> n0 <= f ->
        try_parse_productions_loop self tokens (W n) f X p child outs failed h =
        Done (inl (SymOk {| ps_initial_token_position := p; ps_final_token_position := q;
                            ps_prod_iter_option := Some outs'; ps_node := nd |}), h1)
    | RFail => exists fps, forall n f, n0 <= n -> n0 <= f ->
        try_parse_productions_loop self tokens (W n) f X p child outs failed h = Done (inr fps, h1)
    | RPast => forall n f, n0 <= n -> n0 <= f ->
        try_parse_productions_loop self tokens (W n) f X p child outs failed h = Panicked PanicTokenOutOfRange
    end.

  (** a call *)
  Definition a_call (X : T) (p : nat) (outs : list (list T))
             (r : res (node L T * nat * list (list T))) (k : nat) : Prop :=
    forall single h, length h + S k <= B ->
    exists n0 h1, length h1 = length h + S k /\
    match r with
    | ROk (nd, q, outs') => tok_type (node_token nd) = X /\ forall n, n0 <= n ->
        W n X p outs single h =
        Done (SymOk {| ps_initial_token_position := p; ps_final_token_position := q;
                       ps_prod_iter_option := Some outs'; ps_node := nd |}, h1)
    | RFail => exists e, forall n, n0 <= n -> W n X p outs single h = Done (SymErr e, h1)
    | RPast => forall n, n0 <= n -> W n X p outs single h = Panicked PanicTokenOutOfRange
    end.

  Lemma try_call X p outs r k : a_try X p outs r k -> a_call X p outs r k.
  Proof.
    intros H single h Hk.
    destruct (H (is_child_single_path single outs) [] (h ++ [tick p])) as (n0 & h1 & Hl & Hr);
      [rewrite app_length; simpl; lia|].
    exists (S n0), h1. rewrite app_length in Hl. simpl in Hl. split; [lia|].
    assert (Hb : length h <? B = true) by (apply Nat.ltb_lt; lia).
    destruct r as [[[nd q] outs']| |].
    - destruct Hr as [Ht Hr]. split; auto. intros [|n] Hn; [lia|]. simpl. rewrite Hb.
      unfold inner_parse_from_tokens_step, inner_parse_from_tokens_try_parse_productions.
      rewrite Hr by lia. reflexivity.
    - destruct Hr as [fps Hr]. exists (FailedSymbol fps X). intros [|n] Hn; [lia|]. simpl. rewrite Hb.
      unfold inner_parse_from_tokens_step, inner_parse_from_tokens_try_parse_productions.
      rewrite Hr by lia. unfold inner_parse_from_tokens_try_fix_productions. rewrite Hns. reflexivity.
    - intros [|n] Hn; [lia|]. simpl. rewrite Hb.
      unfold inner_parse_from_tokens_step, inner_parse_from_tokens_try_parse_productions.
      rewrite Hr by lia. reflexivity.
  Qed.

  Lemma skipn_nth (A : Type) n (l : list A) x r : skipn n l = x :: r ->
    nth_error l n = Some x /\ skipn (S n) l = r.
  Proof.
    revert l. induction n as [|n IH]; intros [|y l] H; simpl in *; try discriminate.
    - inversion H; subst. auto.
    - apply IH in H as [H1 H2]. auto.
  Qed.

  Lemma pushed_length (st : parsing_state L T) states (out : list T) n :
    length states + S n = length out -> length (StParsing st :: states) + n = length out.
  Proof. simpl. lia. Qed.

  (** a symbol without candidates, parsed to [st] *)
  Lemma seq_leaf Y Xs p st r k :
    (forall child h n, inner_parse_from_tokens_production_symbol self tokens (W n) Y p child h = Done (SymOk st, h)) ->
    ps_prod_iter_option st = None ->
    a_seq Xs (ps_final_token_position st) r k -> a_seq (Y :: Xs) p (rcons (ps_node st) r) k.
  Proof.
    intros Hst Hit H X out child states h Hp Hl Hs Hk.
    destruct (skipn_nth _ _ Hs) as [Hn Hs'].
    assert (Hp' : plain (StParsing st :: states)) by (constructor; eauto).
    destruct (H X out child (StParsing st :: states) h Hp' (pushed_length st _ _ _ Hl) Hs' Hk) as (n0 & d & h1 & Hh & Hr).
    exists n0, (S d), h1. split; auto. simpl in Hl.
    assert (Hstep : forall n f, loop (S f) n X out child states p h =
      loop f n X out child (StParsing st :: states) (ps_final_token_position st) h).
    { intros n f. unfold loop at 1. simpl.
      replace (length states <? length out) with true by (symmetry; apply Nat.ltb_lt; lia).
      rewrite Hn. simpl. rewrite Hst. reflexivity. }
    assert (Hpop : forall n f fs cur failed h', popc f n X out child fs cur failed (StParsing st :: states) h' =
      popc f n X out child fs cur (StParsing st :: failed) states h').
    { intros. unfold popc. simpl. rewrite Hit. reflexivity. }
    destruct r as [[ns q]| |]; cbn [rcons].
    - destruct Hr as (states2 & H1 & H2 & H3 & H4). exists states2. split; auto. split.
      + rewrite H2, nodes_push, <- app_assoc. reflexivity.
      + split; auto. intros n f Hn0. cbv beta. rewrite Nat.add_succ_l, Hstep. now apply H4.
    - destruct Hr as (fs & cur & failed & Hr). exists fs, cur, (StParsing st :: failed).
      intros n f Hn0. cbv beta. rewrite Nat.add_succ_l, Hstep, Hr by auto. apply Hpop.
    - intros n f Hn0. cbv beta. rewrite Nat.add_succ_l, Hstep. now apply Hr.
  Qed.

  Lemma effort_code :
    (forall X p outs r k, ctry X p outs r k -> a_try X p outs r k) /\
    (forall Xs p r k, cseq Xs p r k -> a_seq Xs p r k) /\
    (forall X p outs Xs r k, cbranch X p outs Xs r k -> non_terminal ps X -> a_branch X p outs Xs r k).
  Proof.
    apply effort_mutind.
    - intros X p child failed h Hk. exists 0, h. split; [lia|]. exists failed. reflexivity.
    - intros X p out outs ns q k _ IH child failed h Hk.
      destruct (IH X out child [] h) as (n0 & d & h1 & Hh & states2 & H1 & H2 & H3 & H4);
        [constructor|reflexivity|reflexivity|lia|].
      exists (n0 + d + 1), h1. split; auto. split; auto. intros n f Hn Hf. simpl.
      replace f with (d + S (f - d - 1)) by lia. fold (loop (d + S (f - d - 1)) n X out child [] p h). rewrite H4 by lia.
      unfold loop. simpl. rewrite H3, Nat.ltb_irrefl.
      destruct (plain_nodes H1) as [Hf1 Hf2]. unfold inner_parse_from_tokens_production_build_node.
      rewrite Hf1, Hf2, H2. reflexivity.
    - intros X p out outs k _ IH child failed h Hk.
      destruct (IH X out child [] h) as (n0 & d & h1 & Hh & H4);
        [constructor|reflexivity|reflexivity|lia|].
      exists (n0 + d), h1. split; auto. intros n f Hn Hf. simpl.
      replace f with (d + (f - d)) by lia. fold (loop (d + (f - d)) n X out child [] p h).
      rewrite H4 by lia. reflexivity.
    - intros X p out outs r k k' _ IH _ IH' child failed h Hk.
      destruct (IH X out child [] h) as (n0 & d & h1 & Hh & fs & cur & fl & H4);
        [constructor|reflexivity|reflexivity|lia|].
      set (fp := match inner_parse_from_tokens_production_build_failed_symbol (L := L) fs out fl with ProdErr fp => fp | _ => FailedProduction fs [] [] end).
      destruct (IH' child (failed ++ [fp]) h1) as (n1 & h2 & Hh2 & Hr); [lia|].
      assert (Heq : forall n f, n0 + d <= n -> n0 + d <= f ->
        try_parse_productions_loop self tokens (W n) f X p child (out :: outs) failed h =
        try_parse_productions_loop self tokens (W n) f X p child outs (failed ++ [fp]) h1).
      { intros n f Hn Hf. simpl. fold (loop f n X out child [] p h).
        replace (loop f n X out child [] p h) with (loop (d + (f - d)) n X out child [] p h) by (f_equal; lia).
        rewrite H4 by lia. reflexivity. }
      exists (n0 + d + n1), h2. split; [lia|].
      destruct r as [[[nd q] outs']| |].
      + destruct Hr as [Ht Hr]. split; auto. intros n f Hn Hf. rewrite Heq by lia. apply Hr; lia.
      + destruct Hr as [fps Hr]. exists fps. intros n f Hn Hf. rewrite Heq by lia. apply Hr; lia.
      + intros n f Hn Hf. rewrite Heq by lia. apply Hr; lia.
    - intros p X out child states h Hp Hl Hs Hk. exists 0, 0, h. split; [lia|]. exists states.
      split; auto. split; [now rewrite app_nil_r|]. split; [simpl in Hl; lia|]. reflexivity.
    - intros Xs p r k _ IH.
      set (st := {| ps_initial_token_position := p; ps_final_token_position := p; ps_prod_iter_option := None;
                    ps_node := Node [] (Token None eps) |} : parsing_state L T).
      apply (@seq_leaf eps Xs p st r k); auto.
      intros child h n. unfold inner_parse_from_tokens_production_symbol.
      rewrite (proj2 (is_non_terminal_false G eps)) by apply (GrammarFacts.eps_not_nt G).
      unfold inner_parse_terminal_symbol, get_epsilon_symbol. rewrite (go_eps G), (proj2 (eqb_iff eps eps) eq_refl).
      reflexivity.
    - intros Xs p tok r k H1 H2 H3 _ IH.
      set (st := {| ps_initial_token_position := p; ps_final_token_position := p + 1; ps_prod_iter_option := None;
                    ps_node := Node [] tok |} : parsing_state L T).
      apply (@seq_leaf (tok_type tok) Xs p st r k); auto.
      intros child h n. unfold inner_parse_from_tokens_production_symbol.
      rewrite (proj2 (is_non_terminal_false G (tok_type tok))) by exact H1.
      unfold inner_parse_terminal_symbol, get_epsilon_symbol. rewrite (go_eps G), (proj2 (eqb_ne_iff eps (tok_type tok))) by congruence.
      unfold inner_parse_non_epsilon_terminal_symbol. rewrite H3, (proj2 (eqb_iff _ _) eq_refl). reflexivity.
    - intros X Xs p H1 H2 H3 X0 out child states h Hp Hl Hs Hk.
      destruct (skipn_nth _ _ Hs) as [Hn Hs'].
      exists 0, 1, h. split; [lia|]. exists (FailedSymbol [] X), p, []. intros n f _. unfold loop. simpl.
      replace (length states <? length out) with true by (symmetry; apply Nat.ltb_lt; simpl in Hl; lia).
      rewrite Hn. simpl. unfold inner_parse_from_tokens_production_symbol.
      rewrite (proj2 (is_non_terminal_false G X)) by exact H1.
      unfold inner_parse_terminal_symbol, get_epsilon_symbol. rewrite (go_eps G), (proj2 (eqb_ne_iff eps X)) by congruence.
      unfold inner_parse_non_epsilon_terminal_symbol.
      destruct (nth_error tokens p) as [tok|] eqn:Ht; [|reflexivity].
      rewrite (proj2 (eqb_ne_iff X (tok_type tok))) by (intros ->; now apply (H3 tok)). reflexivity.
    - intros X Xs p H1 H2 X0 out child states h Hp Hl Hs Hk.
      destruct (skipn_nth _ _ Hs) as [Hn Hs'].
      exists 0, 1, h. split; [lia|]. intros n f _. unfold loop. simpl.
      replace (length states <? length out) with true by (symmetry; apply Nat.ltb_lt; simpl in Hl; lia).
      rewrite Hn. simpl. unfold inner_parse_from_tokens_production_symbol.
      rewrite (proj2 (is_non_terminal_spec G X)) by exact H1.
      unfold inner_parse_from_tokens_production_non_terminal. rewrite H2. reflexivity.
    - intros X Xs p tok r k H1 H2 _ IH X0 out child states h Hp Hl Hs Hk.
      destruct (skipn_nth _ _ Hs) as [Hn Hs'].
      eapply (IH H1 X0 out child states h (fun f n => loop f n X0 out child states p h) 1 (fun e => e) p []
                 (fun n f x => match x with (r, h') =>
                    match r with
                    | SymOk ps => loop f n X0 out child (StParsing ps :: states) (ps_final_token_position ps) h'
                    | SymErr fs => popc f n X0 out child fs p [] states h'
                    | SymFix fs => loop f n X0 out child (StFixed fs :: states) (fst_final_token_position fs) h'
                    end end)); auto.
      intros n f. unfold loop at 1. simpl.
      replace (length states <? length out) with true by (symmetry; apply Nat.ltb_lt; simpl in Hl; lia).
      rewrite Hn. simpl. unfold inner_parse_from_tokens_production_symbol.
      rewrite (proj2 (is_non_terminal_spec G X)) by exact H1.
      unfold inner_parse_from_tokens_production_non_terminal. rewrite H2. reflexivity.
    - intros X p outs Xs k _ IH HX X0 out child states h run d0 fsf cur failed K Hp Hl Hs Hk Hrun Hok Herr.
      destruct (try_call IH child h Hk) as (n0 & h1 & Hh & e & Hr).
      exists n0, d0, h1. split; auto. exists (fsf e), cur, failed. intros n f Hn. rewrite Hrun, Hr by auto. simpl. apply Herr.
    - intros X p outs Xs k _ IH HX X0 out child states h run d0 fsf cur failed K Hp Hl Hs Hk Hrun Hok Herr.
      destruct (try_call IH child h Hk) as (n0 & h1 & Hh & Hr).
      exists n0, d0, h1. split; auto. intros n f Hn. rewrite Hrun, Hr by auto. reflexivity.
    - intros X p outs Xs nd q outs' ns q' k k' _ IH _ IH' HX X0 out child states h run d0 fsf cur failed K Hp Hl Hs Hk Hrun Hok Herr.
      destruct (@try_call _ _ _ _ _ IH child h) as (n0 & h1 & Hh & Ht & Hr); [lia|].
      set (st := {| ps_initial_token_position := p; ps_final_token_position := q;
                    ps_prod_iter_option := Some outs'; ps_node := nd |}) in *.
      destruct (skipn_nth _ _ Hs) as [Hn Hs'].
      assert (Hp' : plain (StParsing st :: states)) by (constructor; eauto).
      destruct (IH' X0 out child (StParsing st :: states) h1 Hp' (pushed_length st _ _ _ Hl) Hs' ltac:(lia))
        as (n1 & d & h2 & Hh2 & states2 & H1 & H2 & H3 & H4).
      exists (n0 + n1), (d0 + d), h2. split; [lia|]. exists states2. split; auto. split.
      + rewrite H2, nodes_push, <- app_assoc. reflexivity.
      + split; auto. intros n f Hn0. rewrite <- Nat.add_assoc, Hrun, Hr by lia. simpl. rewrite Hok. apply H4. lia.
    - intros X p outs Xs nd q outs' k k' _ IH _ IH' HX X0 out child states h run d0 fsf cur failed K Hp Hl Hs Hk Hrun Hok Herr.
      destruct (@try_call _ _ _ _ _ IH child h) as (n0 & h1 & Hh & Ht & Hr); [lia|].
      set (st := {| ps_initial_token_position := p; ps_final_token_position := q;
                    ps_prod_iter_option := Some outs'; ps_node := nd |}) in *.
      destruct (skipn_nth _ _ Hs) as [Hn Hs'].
      assert (Hp' : plain (StParsing st :: states)) by (constructor; eauto).
      destruct (IH' X0 out child (StParsing st :: states) h1 Hp' (pushed_length st _ _ _ Hl) Hs' ltac:(lia))
        as (n1 & d & h2 & Hh2 & H4).
      exists (n0 + n1), (d0 + d), h2. split; [lia|].
      intros n f Hn0. rewrite <- Nat.add_assoc, Hrun, Hr by lia. simpl. rewrite Hok. apply H4. lia.
    - intros X p outs Xs nd q outs' r k k' k'' _ IH _ IH' _ IH'' HX X0 out child states h run d0 fsf cur failed K Hp Hl Hs Hk Hrun Hok Herr.
      destruct (@try_call _ _ _ _ _ IH child h) as (n0 & h1 & Hh & Ht & Hr); [lia|].
      set (st := {| ps_initial_token_position := p; ps_final_token_position := q;
                    ps_prod_iter_option := Some outs'; ps_node := nd |}) in *.
      destruct (skipn_nth _ _ Hs) as [Hn Hs'].
      assert (Hp' : plain (StParsing st :: states)) by (constructor; eauto).
      destruct (IH' X0 out child (StParsing st :: states) h1 Hp' (pushed_length st _ _ _ Hl) Hs' ltac:(lia))
        as (n1 & d & h2 & Hh2 & fs & cur' & failed' & H4).
      assert (Hrun2 : forall n f, n0 + n1 <= n -> run (d0 + (d + f)) n = popc f n X0 out child fs cur' failed' (StParsing st :: states) h2).
      { intros n f Hn0. rewrite Hrun, Hr by lia. simpl. rewrite Hok. apply H4. lia. }
      destruct (IH'' HX X0 out child states h2 (fun f n => popc f n X0 out child fs cur' failed' (StParsing st :: states) h2) 0
                 (fun _ => fs) cur' failed'
                 (fun n f x => match x with (r, h') =>
                    match r with
                    | SymOk ps => loop f n X0 out child (StParsing ps :: states) (ps_final_token_position ps) h'
                    | _ => popc f n X0 out child fs cur' failed' states h'
                    end end)) as (n2 & d2 & h3 & Hh3 & Hr3); auto; [lia| |].
      + intros n f. simpl. unfold popc at 1. simpl. rewrite Ht.
        destruct (W n X p outs' child h2) as [[[st'|e|f'] h']| |]; reflexivity.
      + exists (n0 + n1 + n2), (d0 + (d + d2)), h3. split; [lia|].
        destruct r as [[ns q']| |].
        * destruct Hr3 as (states2 & H5 & H6 & H7 & H8). exists states2. split; auto. split; auto. split; auto.
          intros n f Hn0. rewrite <- !Nat.add_assoc, Hrun2 by lia. apply H8. lia.
        * destruct Hr3 as (fs3 & cur3 & fl3 & H8). exists fs3, cur3, fl3.
          intros n f Hn0. rewrite <- !Nat.add_assoc, Hrun2 by lia. apply H8. lia.
        * intros n f Hn0. rewrite <- !Nat.add_assoc, Hrun2 by lia. apply Hr3. lia.
  Qed.

  Lemma call_code X p outs r k : ctry X p outs r k -> a_call X p outs r k.
  Proof. intros H. now apply try_call, effort_code. Qed.
End Code.
