(** * How many calls a parse makes: C56 *)

From Verif Require Import BaseFacts GrammarFacts DerivFacts.
From Verif Require Import ParserWork WorkLog ChoiceSpec Examples PropParse PropReports MoreFacts.

Set Implicit Arguments.

(** the budgeted parse returns nothing but results of the parse *)
Theorem C56_within_sound :
  forall (L T : Type) (E : EqDec T) (self : parser L T) (tokens : list (token L T)) budget fuel r,
    pr_solver self = None ->
    parse_within budget fuel self tokens = r -> r <> OutOfFuel ->
    terminates_with (fun fuel => parse_from_tokens fuel self tokens) r.
Proof.
  intros L T E self tokens budget fuel r Hns H Hr.
  assert (Hp : parse_from_tokens fuel self tokens = r).
  { destruct tokens as [|tok rest]; [exact H|]. unfold parse_within in H.
    pose proof (@within_erase L T E self Hns (tok :: rest) budget fuel
                  (get_initial_symbol (pr_grammar self)) 0
                  (inner_get_token_productions self (get_initial_symbol (pr_grammar self)) (tok_type tok))
                  true [] []) as He.
    match type of H with bind ?o _ = _ => destruct o as [[y hy]|q|] end; simpl in H; [| |now elim Hr].
    - destruct He as [hx He].
      assert (Hp : parse_from_tokens fuel self (tok :: rest) =
                   Done (parse_symbol_result_to_parse_result y, hx))
        by (unfold parse_from_tokens; rewrite He; reflexivity).
      pose proof (@parse_no_solver_calls L T E self Hns _ _ _ _ Hp). subst hx. now rewrite Hp.
    - unfold parse_from_tokens. simpl in He. rewrite He. exact H. }
  split; auto. exists fuel. intros n Hn.
  destruct (parse_refines self tokens Hn) as [H'|H']; congruence.
Qed.
Print Assumptions C56_within_sound.

Section Facts.
  Context {L T : Type} {E : EqDec T}.
  Variables eps init : T.
  Variable ps : list (production T).
  Variable self : parser L T.
  Hypothesis B : constructed_parser eps init ps None self.
  Hypothesis Hcf : conflict_free (pr_transitions self).
  Hypothesis Hno : no_left_recursion_from eps ps init.
  Hypothesis Hi : non_terminal ps init.
  Variable tok : token L T.
  Variable rest : list (token L T).

  Lemma cf_size A a : length (inner_get_token_productions self A a) <= 1.
  Proof.
    unfold inner_get_token_productions.
    destruct (transitions_get_productions (pr_transitions self) A a) as [l|] eqn:Hl; [|simpl; lia].
    rewrite map_length. eapply Hcf; eauto.
  Qed.

  Lemma init_allowance :
    allowance ps (tok :: rest) 0 [] <= calls_per_token ps * length (tok :: rest).
  Proof.
    unfold allowance, calls_per_token. change (1 + longest_output ps + _) with (per_call ps).
    change (length (nodup eq_dec (map (@p_input T) ps))) with (nts ps).
    rewrite !Nat.sub_0_r. cbn [length]. set (R := S (length rest)).
    replace (nts ps + (2 * R - 2) * nts ps) with ((2 * R - 1) * nts ps)
      by (replace (2 * R - 1) with (S (2 * R - 2)) by (subst R; lia); lia).
    replace (2 * nts ps * per_call ps * R) with (per_call ps * (2 * R * nts ps)) by lia.
    apply Nat.mul_le_mono_l. apply Nat.mul_le_mono_r. lia.
  Qed.

  Lemma init_work budget n : calls_per_token ps * length (tok :: rest) <= budget ->
    orel (sym_work ps (tok :: rest) 0 [] [])
      (inner_parse_from_tokens n self (tok :: rest) init 0
         (inner_get_token_productions self init (tok_type tok)) true [])
      (inner_within budget n self (tok :: rest) init 0
         (inner_get_token_productions self init (tok_type tok)) true []).
  Proof.
    intros Hb. pose proof (constructed_built B) as F. pose proof init_allowance as Ha.
    apply (@sym_work_all L T E eps init ps self (bf_of F) (bf_solver F) cf_size Hno (tok :: rest) budget).
    - intros p Hp. destruct (go_ok (po_grammar (bf_of F)) _ Hp) as (_ & H & _). exact H.
    - exists [], []. apply derives_refl.
    - now apply on_path_nil.
    - simpl; lia.
    - apply (token_productions_good (bf_of F)).
    - apply cf_size.
    - rewrite Nat.add_0_l. etransitivity; [exact Ha|exact Hb].
  Qed.

  Lemma init_symbol : get_initial_symbol (pr_grammar self) = init.
  Proof. apply (go_init (po_grammar (bf_of (constructed_built B)))). Qed.
End Facts.

(** ** C56: on a conflict-free table the number of calls is linear in the number of tokens *)
Theorem C56_linear_work :
  forall (L T : Type) (E : EqDec T) (eps init : T) (ps : list (production T))
         (self : parser L T) (tokens : list (token L T)),
    constructed_parser eps init ps None self -> conflict_free (pr_transitions self) ->
    no_left_recursion_from eps ps init -> non_terminal ps init ->
    exists r,
      terminates_with (fun fuel => parse_from_tokens fuel self tokens) r /\
      terminates_with
        (fun fuel => parse_within (calls_per_token ps * length tokens) fuel self tokens) r.
Proof.
  intros L T E eps init ps self tokens B Hcf Hno Hi.
  destruct (C19_parsing_terminates tokens B Hno ltac:(intros s Hs; discriminate)) as (r & Hr & n & Hn).
  exists r. split; [split; eauto|]. specialize (Hn n (le_n _)).
  apply parse_within_terminates with (n := n); auto.
  destruct tokens as [|tok rest]; [exact Hn|].
  unfold parse_within. unfold parse_from_tokens in Hn. rewrite (init_symbol B) in *.
  pose proof (@init_work L T E eps init ps self B Hcf Hno Hi tok rest _ n (le_n _)) as H.
  match type of H with orel _ ?a ?b => destruct a as [[x hx]|q|] eqn:Ha; destruct b as [[y hy]|q'|] end;
    simpl in *; try contradiction; [|now subst|now elim Hr].
  destruct H as [Heq _]. simpl in Heq. subst.
  assert (Hh : hx = []); [|subst; reflexivity].
  apply (@parse_no_solver_calls L T E self (bf_solver (constructed_built B)) (tok :: rest) n
           (parse_symbol_result_to_parse_result x)).
  unfold parse_from_tokens. rewrite (init_symbol B), Ha. reflexivity.
Qed.
Print Assumptions C56_linear_work.

(** ** there a successful parse makes one call for every inner node of its tree *)
Theorem C56_work_of_a_tree :
  forall (L T : Type) (E : EqDec T) (eps init : T) (ps : list (production T))
         (self : parser L T) (tokens : list (token L T)) root,
    constructed_parser eps init ps None self -> conflict_free (pr_transitions self) ->
    no_left_recursion_from eps ps init -> non_terminal ps init ->
    terminates_with (fun fuel => parse_from_tokens fuel self tokens) (Done (ResultOk root, [])) ->
    forall budget,
      (inner_nodes root <= budget ->
       terminates_with (fun fuel => parse_within budget fuel self tokens) (Done (ResultOk root, []))) /\
      (budget < inner_nodes root ->
       forall fuel, parse_within budget fuel self tokens = OutOfFuel).
Proof.
  intros L T E eps init ps self tokens root B Hcf Hno Hi Ht budget.
  assert (Hns : pr_solver self = None) by exact (bf_solver (constructed_built B)).
  destruct tokens as [|tok rest]; [destruct Ht as (_ & n & Hn); specialize (Hn n (le_n _)); discriminate|].
  set (big := budget + calls_per_token ps * length (tok :: rest)).
  (* a run with plenty of calls makes exactly [inner_nodes root] *)
  assert (Hbig : forall n x h,
    inner_within big n self (tok :: rest) init 0
      (inner_get_token_productions self init (tok_type tok)) true [] = Done (x, h) ->
    exists st, x = SymOk st /\ ps_node st = root /\ length h = inner_nodes root).
  { intros n x h Hx.
    pose proof (@init_work L T E eps init ps self B Hcf Hno Hi tok rest big n ltac:(subst big; lia)) as H.
    rewrite Hx in H. match type of H with orel _ ?a ?b => destruct a as [[y hy]|q|] eqn:Ha end;
      simpl in H; try contradiction.
    destruct H as [Heq H]. simpl in *. subst x.
    assert (Hp : parse_from_tokens n self (tok :: rest) = Done (parse_symbol_result_to_parse_result y, hy)).
    { unfold parse_from_tokens. rewrite (init_symbol B), Ha. reflexivity. }
    destruct Ht as (_ & m & Hm). pose proof (parse_refines self (tok :: rest) (Nat.le_max_l n m)) as Hr.
    rewrite Hp in Hr. specialize (Hm _ (Nat.le_max_r n m)). destruct Hr as [Hr|Hr]; [discriminate|].
    assert (Hr' := eq_trans (eq_sym Hm) Hr). clear Hr. rename Hr' into Hr.
    inversion Hr as [[Hr1 Hr2]]. destruct y as [st|e|fs]; simpl in *; try discriminate.
    inversion Hr1; subst. exists st. tauto. }
  split.
  - intros Hle. destruct Ht as (Hne & n & Hn). specialize (Hn n (le_n _)).
    apply parse_within_terminates with (n := n); [|discriminate].
    pose proof (@init_work L T E eps init ps self B Hcf Hno Hi tok rest big n ltac:(subst big; lia)) as H.
    unfold parse_from_tokens in Hn. unfold parse_within. rewrite (init_symbol B) in *.
    match type of H with orel _ ?a ?b => destruct a as [[y hy]|q|]; destruct b as [[x h]|q'|] eqn:Hb end;
      simpl in *; try contradiction; try discriminate Hn.
    destruct (Hbig _ _ _ Hb) as (st & -> & Hst & Hl).
    pose proof (@within_grows L T E self Hns (tok :: rest) big budget n init 0
                  (inner_get_token_productions self init (tok_type tok)) true []) as Hg.
    rewrite Hb in Hg. destruct Hg as (_ & _ & Hg). rewrite Hg by lia. simpl. now rewrite Hst.
  - intros Hlt fuel. destruct (parse_within budget fuel self (tok :: rest)) as [[x h]|p|] eqn:Hw; auto; exfalso.
    + unfold parse_within in Hw. rewrite (init_symbol B) in Hw.
      pose proof (@within_grows L T E self Hns (tok :: rest) budget big fuel init 0
                    (inner_get_token_productions self init (tok_type tok)) true []) as Hg.
      match type of Hw with bind ?o _ = _ => destruct o as [[y hy]|q|] eqn:Hb end; simpl in Hw; try discriminate.
      destruct Hg as (_ & H2 & H3). simpl in H2. specialize (H2 ltac:(lia)). specialize (H3 ltac:(subst big; lia)).
      destruct (Hbig _ _ _ H3) as (st & _ & _ & Hl). lia.
    + pose proof (@C56_within_sound L T E self (tok :: rest) budget fuel _ Hns Hw ltac:(discriminate)) as (_ & m & Hm).
      destruct Ht as (_ & n & Hn). specialize (Hm (m + n) ltac:(lia)). specialize (Hn (m + n) ltac:(lia)). congruence.
Qed.
Print Assumptions C56_work_of_a_tree.

(** a case: the eight tokens of [Examples.expr_tokens] are parsed with as many
    calls as their tree has inner nodes *)
Example C56_case :
  built_parser Eps Prog expr_productions None expr_parser /\
  conflict_free (pr_transitions expr_parser) /\
  no_left_recursion_from Eps expr_productions Prog /\ non_terminal expr_productions Prog /\
  parse_from_tokens 100 expr_parser expr_tokens = Done (ResultOk expr_tree, []) /\
  inner_nodes expr_tree = 17 /\
  parse_within 17 100 expr_parser expr_tokens = Done (ResultOk expr_tree, []) /\
  parse_within 16 100 expr_parser expr_tokens = OutOfFuel.
Proof.
  split; [exact expr_built|]. split; [exact expr_conflict_free|].
  split; [exact (no_left_recursion_anywhere (init := Prog) expr_no_left_recursion)|].
  split; [apply expr_nt; reflexivity|]. vm_compute. auto.
Qed.

(** ** Without the table being conflict-free the work can be exponential:
    0 epsilon; A = 1 -> a A b | a A c | d; a = 2, b = 3, c = 4, d = 5, on a^k d c^k *)
Definition slow_productions : list (production nat) :=
  [Production 1 [2; 1; 3]; Production 1 [2; 1; 4]; Production 1 [5]].
Definition slow_grammar : grammar nat := Eval vm_compute in
  pr_grammar (get_done (no_parser 0) (build (L := nat) 0 1 slow_productions None 100)).
Definition slow_cells : transitions nat := Eval vm_compute in
  pr_transitions (get_done (no_parser 0) (build (L := nat) 0 1 slow_productions None 100)).
Definition slow_parser : parser nat nat :=
  {| pr_grammar := slow_grammar; pr_solver := None; pr_transitions := slow_cells |}.
Definition slow_tokens (k : nat) : list (token nat nat) := repeat (nt 2) k ++ nt 5 :: repeat (nt 4) k.

Lemma slow_built : built_parser 0 1 slow_productions None slow_parser.
Proof. apply build_built with (fuel := 100). vm_compute. reflexivity. Qed.

Lemma slow_no_left_recursion : no_left_recursion 0 slow_productions.
Proof.
  apply rank_check_ok with (N := fun x => Nat.eqb x 0)
    (rank := fun x => match x with 1 => 1 | _ => 0 end). reflexivity.
Qed.

Lemma slow_nth_a k p : p < k -> nth_error (slow_tokens k) p = Some (nt 2).
Proof.
  intros H. unfold slow_tokens. rewrite nth_error_app1 by (rewrite repeat_length; lia).
  now apply nth_error_repeat.
Qed.

Lemma slow_nth_d k : nth_error (slow_tokens k) k = Some (nt 5).
Proof.
  unfold slow_tokens. rewrite nth_error_app2, repeat_length, Nat.sub_diag
    by (rewrite repeat_length; lia). reflexivity.
Qed.

Lemma slow_nth_c k p : k < p -> p < 2 * k + 1 -> nth_error (slow_tokens k) p = Some (nt 4).
Proof.
  intros H1 H2. unfold slow_tokens. rewrite nth_error_app2, repeat_length by (rewrite repeat_length; lia).
  destruct (p - k) as [|q] eqn:Hq; [lia|]. simpl. apply nth_error_repeat. lia.
Qed.

(** [o] returns a tree ending at [p'] with no candidate left, adding at least [c] calls *)
Definition slow_result (p' c : nat) (h : history nat nat)
           (o : outcome (parse_symbol_result nat nat * history nat nat)) : Prop :=
  o = OutOfFuel \/
  exists st h', o = Done (SymOk st, h') /\ ps_final_token_position st = p' /\
    tok_type (node_token (ps_node st)) = 1 /\
    ps_prod_iter_option st = Some [] /\ length h + c <= length h'.

(** the same for one candidate, which succeeds or fails *)
Definition slow_prod_result (ok : bool) (p' c : nat) (h : history nat nat)
           (o : outcome (parse_production_result nat nat * nat * history nat nat)) : Prop :=
  o = OutOfFuel \/
  exists r pos' h', o = Done (r, pos', h') /\ length h + c <= length h' /\
    if ok then pos' = p' /\ exists ns, r = ProdOk (Node ns (Token None 1))
    else exists f, r = ProdErr f.

Section SlowRec.
  Variable k fuel : nat.
  Variable rec : nat -> nat -> list (list nat) -> bool -> history nat nat ->
                 outcome (parse_symbol_result nat nat * history nat nat).
  Hypothesis Hnil : forall p single h, rec 1 p [] single h = OutOfFuel \/
    exists e h', rec 1 p [] single h = Done (SymErr e, h') /\ length h <= length h'.

  Lemma slow_d single h :
    slow_result (S k) 0 h
      (inner_parse_from_tokens_step slow_parser (slow_tokens k) rec fuel 1 k [[5]] single h).
  Proof.
    unfold inner_parse_from_tokens_step, inner_parse_from_tokens_try_parse_productions.
    cbn [try_parse_productions_loop]. destruct fuel as [|[|n]]; [left; reflexivity| |].
    - cbn [inner_parse_from_tokens_production length nth_error unwrap bind Nat.ltb Nat.leb].
      unfold inner_parse_from_tokens_production_symbol.
      change (is_non_terminal (pr_grammar slow_parser) 5) with false. cbn iota. cbn [bind].
      unfold inner_parse_terminal_symbol. change (eqb (get_epsilon_symbol (pr_grammar slow_parser)) 5) with false.
      cbn iota. unfold inner_parse_non_epsilon_terminal_symbol. rewrite slow_nth_d. left. reflexivity.
    - cbn [inner_parse_from_tokens_production length nth_error unwrap bind Nat.ltb Nat.leb].
      unfold inner_parse_from_tokens_production_symbol.
      change (is_non_terminal (pr_grammar slow_parser) 5) with false. cbn iota. cbn [bind].
      unfold inner_parse_terminal_symbol. change (eqb (get_epsilon_symbol (pr_grammar slow_parser)) 5) with false.
      cbn iota. unfold inner_parse_non_epsilon_terminal_symbol. rewrite slow_nth_d.
      right. eexists. eexists. split; [reflexivity|]. simpl. repeat split; lia.
  Qed.

  Variable m c : nat.
  Variable p : nat.
  Hypothesis Hp : p + S m = k.
  Hypothesis Hrec : forall tok single h, nth_error (slow_tokens k) (S p) = Some tok ->
    slow_result (S p + 2 * m + 1) c h
      (rec 1 (S p) (candidates slow_parser 1 (tok_type tok)) single h).

  (** one candidate: a, then A, then the token after it compared with [x] *)
  Lemma slow_prod x n child h : x = 3 \/ x = 4 ->
    slow_prod_result (Nat.eqb x 4) (p + 2 * S m + 1) c h
      (inner_parse_from_tokens_production slow_parser (slow_tokens k) rec n 1 [2; 1; x] child [] p h).
  Proof.
    intros Hx. destruct n as [|n]; [left; reflexivity|].
    cbn [inner_parse_from_tokens_production length nth_error unwrap bind Nat.ltb Nat.leb].
    unfold inner_parse_from_tokens_production_symbol at 1.
    change (is_non_terminal (pr_grammar slow_parser) 2) with false. cbn iota. cbn [bind].
    unfold inner_parse_terminal_symbol. change (eqb (get_epsilon_symbol (pr_grammar slow_parser)) 2) with false.
    cbn iota. unfold inner_parse_non_epsilon_terminal_symbol at 1. rewrite slow_nth_a by lia.
    change (eqb 2 (tok_type (nt 2))) with true. cbn iota.
    destruct n as [|n]; [left; reflexivity|].
    cbn [inner_parse_from_tokens_production length nth_error unwrap bind Nat.ltb Nat.leb
         ps_final_token_position].
    unfold inner_parse_from_tokens_production_symbol at 1, inner_parse_from_tokens_production_non_terminal.
    change (is_non_terminal (pr_grammar slow_parser) 1) with true. cbn iota.
    replace (p + 1) with (S p) by lia.
    destruct (nth_error (slow_tokens k) (S p)) as [tok|] eqn:Ht.
    2:{ exfalso. apply nth_error_None in Ht. unfold slow_tokens in Ht. rewrite app_length in Ht. simpl in Ht.
        rewrite !repeat_length in Ht. lia. }
    change (inner_get_token_productions slow_parser 1 (tok_type tok)) with
      (candidates slow_parser 1 (tok_type tok)).
    destruct (Hrec child h eq_refl) as [->|(st & h' & -> & Hst & Hty & Hit & Hh)]; [left; reflexivity|].
    cbn [bind]. destruct n as [|n]; [left; reflexivity|].
    cbn [inner_parse_from_tokens_production length nth_error unwrap bind Nat.ltb Nat.leb
         ps_final_token_position].
    unfold inner_parse_from_tokens_production_symbol at 1.
    assert (Hnt : is_non_terminal (pr_grammar slow_parser) x = false) by (destruct Hx; subst; reflexivity).
    assert (He : eqb (get_epsilon_symbol (pr_grammar slow_parser)) x = false) by (destruct Hx; subst; reflexivity).
    rewrite Hnt. cbn [bind]. unfold inner_parse_terminal_symbol. rewrite He. rewrite Hst.
    unfold inner_parse_non_epsilon_terminal_symbol. rewrite slow_nth_c by lia.
    destruct Hx; subst x.
    - change (eqb 3 (tok_type (nt 4))) with false. cbn iota.
      cbn [inner_parse_pop_states]. rewrite Hit, Hty.
      destruct (Hnil (ps_initial_token_position st) child h') as [->|(e & h2 & -> & Hh2)]; [left; reflexivity|].
      cbn [bind ps_prod_iter_option]. right. do 3 eexists. split; [reflexivity|]. split; [lia|].
      cbn. eexists. reflexivity.
    - change (eqb 4 (tok_type (nt 4))) with true. cbn iota.
      destruct n as [|n]; [left; reflexivity|].
      cbn [inner_parse_from_tokens_production length Nat.ltb Nat.leb ps_final_token_position].
      right. do 3 eexists. split; [reflexivity|]. split; [lia|]. cbn. split; [lia|]. eexists. reflexivity.
  Qed.

  Lemma slow_a single h :
    slow_result (p + 2 * S m + 1) (2 * c) h
      (inner_parse_from_tokens_step slow_parser (slow_tokens k) rec fuel 1 p [[2; 1; 3]; [2; 1; 4]] single h).
  Proof.
    unfold inner_parse_from_tokens_step, inner_parse_from_tokens_try_parse_productions.
    cbn [try_parse_productions_loop]. set (child := is_child_single_path single _).
    destruct (@slow_prod 3 fuel child h (or_introl eq_refl)) as [->|(r & pos' & h1 & -> & H1 & f & ->)];
      [left; reflexivity|]. cbn [bind].
    destruct (@slow_prod 4 fuel child h1 (or_intror eq_refl)) as [->|(r & pos2 & h2 & -> & H2 & Hpos & ns & ->)];
      [left; reflexivity|]. cbn [bind].
    right. eexists. eexists. split; [reflexivity|]. cbn. repeat split; try lia.
  Qed.
End SlowRec.

Lemma slow_candidates_a : candidates slow_parser 1 (tok_type (nt 2)) = [[2; 1; 3]; [2; 1; 4]].
Proof. reflexivity. Qed.

Lemma slow_candidates_d : candidates slow_parser 1 (tok_type (nt 5)) = [[5]].
Proof. reflexivity. Qed.

Lemma slow_within_nil b k fuel p single h :
  inner_within b fuel slow_parser (slow_tokens k) 1 p [] single h = OutOfFuel \/
  exists e h', inner_within b fuel slow_parser (slow_tokens k) 1 p [] single h = Done (SymErr e, h') /\
               length h <= length h'.
Proof.
  destruct fuel as [|fuel]; [left; reflexivity|]. simpl. destruct (length h <? b); [|left; reflexivity].
  right. do 2 eexists. split; [reflexivity|]. rewrite app_length. lia.
Qed.

Lemma slow_within b k m : forall fuel p tok single h, p + m = k -> nth_error (slow_tokens k) p = Some tok ->
  slow_result (p + 2 * m + 1) (2 ^ m) h
    (inner_within b fuel slow_parser (slow_tokens k) 1 p (candidates slow_parser 1 (tok_type tok)) single h).
Proof.
  assert (Htick : forall p' c h p o, slow_result p' c (h ++ [tick p]) o -> slow_result p' (S c) h o).
  { intros p' c h p o [->|(st & h' & -> & H1 & H2 & H3 & H4)]; [left; reflexivity|]. right.
    exists st, h'. rewrite app_length in H4. simpl in H4. repeat split; auto. lia. }
  assert (Hweak : forall p' c c' h o, c' <= c -> slow_result p' c h o -> slow_result p' c' h o).
  { intros p' c c' h o Hc [->|(st & h' & -> & H1 & H2 & H3 & H4)]; [left; reflexivity|]. right.
    exists st, h'. repeat split; auto. lia. }
  induction m as [|m IH]; intros fuel p tok single h Hp Ht.
  - assert (p = k) by lia. subst p. rewrite slow_nth_d in Ht. inversion Ht; subst tok.
    rewrite slow_candidates_d. destruct fuel as [|fuel]; [left; reflexivity|]. simpl inner_within.
    destruct (length h <? b); [|left; reflexivity]. apply Htick with (p := k).
    replace (k + 2 * 0 + 1) with (S k) by lia. apply slow_d.
  - rewrite slow_nth_a in Ht by lia. inversion Ht; subst tok. rewrite slow_candidates_a.
    destruct fuel as [|fuel]; [left; reflexivity|]. cbn [inner_within].
    destruct (length h <? b); [|left; reflexivity].
    apply Hweak with (c := S (2 * 2 ^ m)); [simpl; lia|]. apply Htick with (p := p).
    apply slow_a; auto.
    + intros. apply slow_within_nil.
    + intros tok single' h' Ht'. apply IH; auto. lia.
Qed.

Lemma slow_inner_nil k fuel p single h :
  inner_parse_from_tokens fuel slow_parser (slow_tokens k) 1 p [] single h = OutOfFuel \/
  exists e h', inner_parse_from_tokens fuel slow_parser (slow_tokens k) 1 p [] single h = Done (SymErr e, h') /\
               length h <= length h'.
Proof.
  destruct fuel as [|fuel]; [left; reflexivity|]. simpl.
  right. do 2 eexists. split; [reflexivity|]. lia.
Qed.

Lemma slow_inner k m : forall fuel p tok single h, p + m = k -> nth_error (slow_tokens k) p = Some tok ->
  slow_result (p + 2 * m + 1) 0 h
    (inner_parse_from_tokens fuel slow_parser (slow_tokens k) 1 p (candidates slow_parser 1 (tok_type tok)) single h).
Proof.
  induction m as [|m IH]; intros fuel p tok single h Hp Ht.
  - assert (p = k) by lia. subst p. rewrite slow_nth_d in Ht. inversion Ht; subst tok.
    rewrite slow_candidates_d. destruct fuel as [|fuel]; [left; reflexivity|]. cbn [inner_parse_from_tokens].
    replace (k + 2 * 0 + 1) with (S k) by lia. apply slow_d.
  - rewrite slow_nth_a in Ht by lia. inversion Ht; subst tok. rewrite slow_candidates_a.
    destruct fuel as [|fuel]; [left; reflexivity|]. cbn [inner_parse_from_tokens].
    change (slow_result (p + 2 * S m + 1) (2 * 0) h (inner_parse_from_tokens_step slow_parser (slow_tokens k) (inner_parse_from_tokens fuel slow_parser (slow_tokens k)) fuel 1 p [[2; 1; 3]; [2; 1; 4]] single h)). apply slow_a; auto.
    + intros. apply slow_inner_nil.
    + intros tok single' h' Ht'. apply IH; auto. lia.
Qed.

(** the parse succeeds, but never with fewer than 2 ^ k calls *)
Theorem C56_backtracking_exponential :
  built_parser 0 1 slow_productions None slow_parser /\
  no_left_recursion 0 slow_productions /\
  forall k,
    length (slow_tokens k) = 2 * k + 1 /\
    (exists root, terminates_with (fun fuel => parse_from_tokens fuel slow_parser (slow_tokens k))
                                  (Done (ResultOk root, []))) /\
    (forall budget fuel, budget < 2 ^ k ->
       parse_within budget fuel slow_parser (slow_tokens k) = OutOfFuel).
Proof.
  split; [exact slow_built|]. split; [exact slow_no_left_recursion|]. intros k.
  assert (Hlen : length (slow_tokens k) = 2 * k + 1).
  { unfold slow_tokens. rewrite app_length. simpl. rewrite !repeat_length. lia. }
  assert (Htok : exists tok, nth_error (slow_tokens k) 0 = Some tok).
  { destruct (nth_error (slow_tokens k) 0) eqn:Ht; eauto. apply nth_error_None in Ht. lia. }
  destruct Htok as [tok Htok].
  split; auto. split.
  - destruct (C19_parsing_terminates (slow_tokens k) slow_built
                (no_left_recursion_anywhere (init := 1) slow_no_left_recursion)
                ltac:(intros s hh; discriminate)) as (r & Hr & n & Hn).
    assert (Hroot : exists root, r = Done (ResultOk root, [])).
    { specialize (Hn n (le_n _)). destruct r as [[x h]|q|]; [| |now elim Hr].
      - rewrite (@parse_no_solver_calls nat nat _ slow_parser eq_refl _ _ _ _ Hn) in *.
        pose proof (@slow_inner k k n 0 tok true [] ltac:(lia) Htok) as Hs.
        unfold parse_from_tokens in Hn. destruct (slow_tokens k) as [|t rest] eqn:Hk; [discriminate|].
        inversion Htok; subst t. unfold slow_result in Hs.
        change (candidates slow_parser 1 (tok_type tok)) with
          (inner_get_token_productions slow_parser 1 (tok_type tok)) in Hs.
        change (get_initial_symbol (pr_grammar slow_parser)) with 1 in Hn.
        destruct Hs as [Hs|(st & h' & Hs & _)]; rewrite Hs in Hn; simpl in Hn; [discriminate|].
        inversion Hn; subst. eauto.
      - pose proof (@slow_inner k k n 0 tok true [] ltac:(lia) Htok) as Hs.
        unfold parse_from_tokens in Hn. destruct (slow_tokens k) as [|t rest] eqn:Hk; [discriminate|].
        inversion Htok; subst t. unfold slow_result in Hs.
        change (candidates slow_parser 1 (tok_type tok)) with
          (inner_get_token_productions slow_parser 1 (tok_type tok)) in Hs.
        change (get_initial_symbol (pr_grammar slow_parser)) with 1 in Hn.
        destruct Hs as [Hs|(st & h' & Hs & _)]; rewrite Hs in Hn; simpl in Hn; discriminate. }
    destruct Hroot as [root ->]. exists root. split; eauto.
  - intros budget fuel Hb. pose proof (@slow_within budget k k fuel 0 tok true [] ltac:(lia) Htok) as Hs.
    pose proof (@within_grows nat nat _ slow_parser eq_refl (slow_tokens k) budget 0 fuel 1 0
                  (candidates slow_parser 1 (tok_type tok)) true []) as Hg.
    unfold parse_within. destruct (slow_tokens k) as [|t rest] eqn:Hk; [discriminate|].
    inversion Htok; subst t. unfold slow_result in Hs.
    change (candidates slow_parser 1 (tok_type tok)) with
      (inner_get_token_productions slow_parser 1 (tok_type tok)) in *.
    change (get_initial_symbol (pr_grammar slow_parser)) with 1.
    destruct Hs as [Hs|(st & h' & Hs & _ & _ & _ & Hl)]; rewrite Hs; [reflexivity|].
    rewrite Hs in Hg. destruct Hg as (_ & Hg & _). simpl in *. lia.
Qed.
Print Assumptions C56_backtracking_exponential.
