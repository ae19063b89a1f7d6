(** * How deep the recursion goes: C55 *)

From Verif Require Import BaseFacts GrammarFacts DerivFacts.
From Verif Require Import ParserDepth ChoiceSpec Examples PropParse PropReports.

Set Implicit Arguments.

Lemma at_depth_refines (L T : Type) (E : EqDec T) (self : parser L T) tokens loops depth :
  forall n X pos prods single h, loops + depth <= n ->
  refines (inner_at_depth loops depth self tokens X pos prods single h)
          (inner_parse_from_tokens n self tokens X pos prods single h).
Proof.
  induction depth as [|depth IH]; intros n X pos prods single h Hn; [left; reflexivity|].
  destruct n as [|n]; [lia|]. simpl. apply inner_step_refines; [|lia].
  intros. apply IH. lia.
Qed.

(** ** C55: recursion is never nested deeper than (non-terminals) * (tokens) *)
Theorem C55_recursion_depth :
  forall (L T : Type) (E : EqDec T) (eps init : T) (ps : list (production T))
         (solver : option (syntax_error_solver L T)) (self : parser L T)
         (tokens : list (token L T)),
    constructed_parser eps init ps solver self -> no_left_recursion_from eps ps init ->
    progressing solver -> non_terminal ps init ->
    exists r,
      terminates_with (fun fuel => parse_from_tokens fuel self tokens) r /\
      terminates_with
        (fun loops => parse_at_depth loops (length (non_terminals ps) * length tokens) self tokens) r.
Proof.
  intros L T E eps init ps solver self tokens B Hl Hs Hi.
  destruct (C19_parsing_terminates tokens B Hl Hs) as (r & Hr & n & Hn).
  exists r. split; [split; eauto|]. split; auto. exists n. intros loops Hle.
  apply constructed_built in B.
  assert (Hs' : progress_solver self) by (unfold progress_solver; rewrite (bf_solver B); exact Hs).
  destruct (@dep_parse L T E eps init ps self (bf_of B) tokens Hs' Hl n loops Hi Hle) as [H|H];
    rewrite (Hn n (le_n _)) in H; congruence.
Qed.
Print Assumptions C55_recursion_depth.

(** the depth-bounded parse returns nothing but results of the parse *)
Theorem C55_depth_sound :
  forall (L T : Type) (E : EqDec T) (self : parser L T) (tokens : list (token L T))
         loops depth r,
    parse_at_depth loops depth self tokens = r -> r <> OutOfFuel ->
    terminates_with (fun fuel => parse_from_tokens fuel self tokens) r.
Proof.
  intros L T E self tokens loops depth r H Hr. split; auto. exists (loops + depth).
  intros fuel Hf. unfold parse_at_depth in H. unfold parse_from_tokens.
  destruct tokens as [|tok rest]; auto.
  match type of H with bind ?o ?f = _ => match goal with |- bind ?o' ?f' = _ =>
    assert (Hb : refines (bind o f) (bind o' f')) end end.
  { apply refines_bind; [now apply at_depth_refines|]. intros [x h]. apply refines_refl. }
  destruct Hb as [Hb|Hb]; congruence.
Qed.
Print Assumptions C55_depth_sound.

(** ** The bound is attained: 0 epsilon; S = 1 -> A; A = 2 -> a S | b; a = 3, b = 4.
    On a ... a b the parse succeeds, and with one nested call less than
    2 * (number of tokens) it never does. *)
Definition deep_productions : list (production nat) :=
  [Production 1 [2]; Production 2 [3; 1]; Production 2 [4]].
Definition deep_grammar : grammar nat := Eval vm_compute in
  pr_grammar (get_done (no_parser 0) (build (L := nat) 0 1 deep_productions None 100)).
Definition deep_cells : transitions nat := Eval vm_compute in
  pr_transitions (get_done (no_parser 0) (build (L := nat) 0 1 deep_productions None 100)).
Definition deep_parser : parser nat nat :=
  {| pr_grammar := deep_grammar; pr_solver := None; pr_transitions := deep_cells |}.
Definition deep_tokens (k : nat) : list (token nat nat) := repeat (nt 3) k ++ [nt 4].

Lemma deep_nth_a k p : p < k -> nth_error (deep_tokens k) p = Some (nt 3).
Proof.
  intros H. unfold deep_tokens. rewrite nth_error_app1 by (rewrite repeat_length; lia).
  now apply nth_error_repeat.
Qed.

Lemma deep_nth_b k : nth_error (deep_tokens k) k = Some (nt 4).
Proof.
  unfold deep_tokens. rewrite nth_error_app2, repeat_length, Nat.sub_diag
    by (rewrite repeat_length; lia). reflexivity.
Qed.

Lemma deep_built : built_parser 0 1 deep_productions None deep_parser.
Proof. apply build_built with (fuel := 100). vm_compute. reflexivity. Qed.

Lemma deep_no_left_recursion : no_left_recursion 0 deep_productions.
Proof.
  apply rank_check_ok with (N := fun x => Nat.eqb x 0)
    (rank := fun x => match x with 1 => 2 | 2 => 1 | _ => 0 end). reflexivity.
Qed.

Section DeepRec.
  Variable k loops : nat.
  Variable rec : nat -> nat -> list (list nat) -> bool -> history nat nat ->
                 outcome (parse_symbol_result nat nat * history nat nat).

  (** S asks for A where it stands *)
  Lemma deep_S p tok single h : nth_error (deep_tokens k) p = Some tok ->
    (forall single h, rec 2 p (candidates deep_parser 2 (tok_type tok)) single h = OutOfFuel) ->
    inner_parse_from_tokens_step deep_parser (deep_tokens k) rec loops 1 p [[2]] single h = OutOfFuel.
  Proof.
    intros Ht Hrec. unfold inner_parse_from_tokens_step, inner_parse_from_tokens_try_parse_productions.
    cbn [try_parse_productions_loop]. destruct loops as [|n]; [reflexivity|].
    cbn [inner_parse_from_tokens_production length nth_error unwrap bind Nat.ltb Nat.leb].
    unfold inner_parse_from_tokens_production_symbol, inner_parse_from_tokens_production_non_terminal.
    change (is_non_terminal (pr_grammar deep_parser) 2) with true. cbn iota. rewrite Ht.
    change (inner_get_token_productions deep_parser 2 (tok_type tok)) with
      (candidates deep_parser 2 (tok_type tok)).
    rewrite Hrec. reflexivity.
  Qed.

  (** A asks for S one token further *)
  Lemma deep_A p tok single h : p < k -> nth_error (deep_tokens k) (S p) = Some tok ->
    (forall single h, rec 1 (S p) (candidates deep_parser 1 (tok_type tok)) single h = OutOfFuel) ->
    inner_parse_from_tokens_step deep_parser (deep_tokens k) rec loops 2 p [[3; 1]] single h = OutOfFuel.
  Proof.
    intros Hp Ht Hrec. unfold inner_parse_from_tokens_step, inner_parse_from_tokens_try_parse_productions.
    cbn [try_parse_productions_loop]. destruct loops as [|[|n]]; [reflexivity| |].
    - cbn [inner_parse_from_tokens_production length nth_error unwrap bind Nat.ltb Nat.leb].
      unfold inner_parse_from_tokens_production_symbol.
      change (is_non_terminal (pr_grammar deep_parser) 3) with false. cbn iota. cbn [bind].
      unfold inner_parse_terminal_symbol. change (eqb (get_epsilon_symbol (pr_grammar deep_parser)) 3) with false.
      cbn iota. unfold inner_parse_non_epsilon_terminal_symbol. rewrite deep_nth_a by auto. reflexivity.
    - cbn [inner_parse_from_tokens_production length nth_error unwrap bind Nat.ltb Nat.leb].
      unfold inner_parse_from_tokens_production_symbol at 1.
      change (is_non_terminal (pr_grammar deep_parser) 3) with false. cbn iota. cbn [bind].
      unfold inner_parse_terminal_symbol. change (eqb (get_epsilon_symbol (pr_grammar deep_parser)) 3) with false.
      cbn iota. unfold inner_parse_non_epsilon_terminal_symbol. rewrite deep_nth_a by auto.
      change (eqb 3 (tok_type (nt 3))) with true. cbn iota.
      cbn [inner_parse_from_tokens_production length nth_error unwrap bind Nat.ltb Nat.leb
           ps_final_token_position].
      unfold inner_parse_from_tokens_production_symbol, inner_parse_from_tokens_production_non_terminal.
      change (is_non_terminal (pr_grammar deep_parser) 1) with true. cbn iota.
      replace (p + 1) with (S p) by lia. rewrite Ht.
      change (inner_get_token_productions deep_parser 1 (tok_type tok)) with
        (candidates deep_parser 1 (tok_type tok)).
      rewrite Hrec. reflexivity.
  Qed.
End DeepRec.

Lemma deep_inner k loops m : forall p tok d single h, p + m = k -> d < 2 * S m ->
  nth_error (deep_tokens k) p = Some tok ->
  inner_at_depth loops d deep_parser (deep_tokens k) 1 p (candidates deep_parser 1 (tok_type tok)) single h
    = OutOfFuel.
Proof.
  induction m as [|m IH]; intros p tok d single h Hp Hd Ht.
  - assert (Htok : tok = nt 4). { replace p with k in Ht by lia. rewrite deep_nth_b in Ht. congruence. }
    subst tok. change (candidates deep_parser 1 (tok_type (nt 4))) with [[2]].
    destruct d as [|[|d]]; [reflexivity| |lia]. cbn [inner_at_depth].
    eapply deep_S; [exact Ht|]. reflexivity.
  - assert (Htok : tok = nt 3). { rewrite deep_nth_a in Ht by lia. congruence. }
    subst tok. change (candidates deep_parser 1 (tok_type (nt 3))) with [[2]].
    destruct d as [|d]; [reflexivity|]. cbn [inner_at_depth].
    eapply deep_S; [exact Ht|]. intros single' h'.
    change (candidates deep_parser 2 (tok_type (nt 3))) with [[3; 1]].
    destruct d as [|d]; [reflexivity|]. cbn [inner_at_depth].
    assert (Hn : exists tok', nth_error (deep_tokens k) (S p) = Some tok').
    { destruct (Nat.eq_dec (S p) k) as [->|]; [exists (nt 4); apply deep_nth_b|].
      exists (nt 3). apply deep_nth_a. lia. }
    destruct Hn as [tok' Hn]. eapply deep_A; [lia|exact Hn|].
    intros single'' h''. apply IH; auto; lia.
Qed.

Lemma deep_choose k m : forall p tok, p + m = k -> nth_error (deep_tokens k) p = Some tok ->
  exists n, choose 0 deep_productions (deep_tokens k) (candidates deep_parser) 1 p
              (candidates deep_parser 1 (tok_type tok)) (Some (n, S k, [])).
Proof.
  assert (Hnt1 : non_terminal deep_productions 1) by (exists (Production 1 [2]); simpl; auto).
  assert (Hnt2 : non_terminal deep_productions 2) by (exists (Production 2 [4]); simpl; auto).
  assert (H3 : ~ non_terminal deep_productions 3) by (apply non_terminalb_false; reflexivity).
  assert (H4 : ~ non_terminal deep_productions 4) by (apply non_terminalb_false; reflexivity).
  assert (HS : forall p tok n, nth_error (deep_tokens k) p = Some tok ->
    choose 0 deep_productions (deep_tokens k) (candidates deep_parser) 2 p
           (candidates deep_parser 2 (tok_type tok)) (Some (n, S k, [])) ->
    choose 0 deep_productions (deep_tokens k) (candidates deep_parser) 1 p
           [[2]] (Some (Node [n] (Token None 1), S k, []))).
  { intros p tok n Ht Hc. apply choose_first. eapply sequence_non_terminal; eauto.
    eapply branch_ok; [exact Hc|constructor]. }
  induction m as [|m IH]; intros p tok Hp Ht.
  - assert (Htok : tok = nt 4). { replace p with k in Ht by lia. rewrite deep_nth_b in Ht. congruence. }
    subst tok. change (candidates deep_parser 1 (tok_type (nt 4))) with [[2]].
    eexists. eapply HS; [exact Ht|]. change (candidates deep_parser 2 (tok_type (nt 4))) with [[4]].
    apply choose_first. change [4] with [tok_type (nt 4)].
    apply (@sequence_token nat nat 0 deep_productions (deep_tokens k) (candidates deep_parser) [] p (nt 4)
             (Some ([], S k))); auto; [discriminate|].
    replace (S k) with (p + 1) by lia. constructor.
  - assert (Htok : tok = nt 3). { rewrite deep_nth_a in Ht by lia. congruence. }
    subst tok. change (candidates deep_parser 1 (tok_type (nt 3))) with [[2]].
    assert (Hn : exists tok', nth_error (deep_tokens k) (S p) = Some tok').
    { destruct (Nat.eq_dec (S p) k) as [->|]; [exists (nt 4); apply deep_nth_b|].
      exists (nt 3). apply deep_nth_a. lia. }
    destruct Hn as [tok' Hn]. destruct (IH (S p) tok' ltac:(lia) Hn) as [n Hc].
    eexists. eapply HS; [exact Ht|]. change (candidates deep_parser 2 (tok_type (nt 3))) with [[3; 1]].
    apply choose_first.
    apply (@sequence_token nat nat 0 deep_productions (deep_tokens k) (candidates deep_parser) [1] p (nt 3)
             (Some ([n], S k))); auto; [discriminate|].
    replace (p + 1) with (S p) by lia. eapply sequence_non_terminal; eauto.
    eapply branch_ok; [exact Hc|constructor].
Qed.

Theorem C55_bound_attained :
  built_parser 0 1 deep_productions None deep_parser /\
  no_left_recursion 0 deep_productions /\
  length (non_terminals deep_productions) = 2 /\
  forall k,
    (exists root, terminates_with (fun fuel => parse_from_tokens fuel deep_parser (deep_tokens k))
                                  (Done (ResultOk root, []))) /\
    (forall loops, parse_at_depth loops (2 * length (deep_tokens k) - 1) deep_parser (deep_tokens k)
                   = OutOfFuel).
Proof.
  split; [exact deep_built|]. split; [exact deep_no_left_recursion|]. split; [reflexivity|].
  intros k. split.
  - destruct (deep_tokens k) as [|tok rest] eqn:Hk; [destruct k; discriminate|].
    destruct (@deep_choose k k 0 tok eq_refl) as [n Hn]; [now rewrite Hk|]. rewrite Hk in Hn.
    exists n. apply (C24_ordered_choice tok rest deep_built). eauto.
  - intros loops. assert (Hlen : length (deep_tokens k) = S k).
    { unfold deep_tokens. rewrite app_length, repeat_length. simpl. lia. }
    rewrite Hlen. unfold parse_at_depth. destruct (deep_tokens k) as [|tok rest] eqn:Hk; [discriminate|].
    change (get_initial_symbol (pr_grammar deep_parser)) with 1.
    change (inner_get_token_productions deep_parser 1 (tok_type tok)) with
      (candidates deep_parser 1 (tok_type tok)).
    rewrite <- Hk. rewrite (@deep_inner k loops k 0 tok); [reflexivity|lia|lia|].
    now rewrite Hk.
Qed.
Print Assumptions C55_bound_attained.
