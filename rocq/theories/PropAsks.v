(** * How often the solver is asked: C84 *)

From Verif Require Import BaseFacts ParserRel ParserSound ParserBuild Examples PropParse PropReports PropWork
  ResumeFacts ParserAsks WorkLog.

Set Implicit Arguments.

(** ** C84: a solver that declined was asked at most as often as the parser without solver
    calls its recursive function *)
Theorem C84_asked_at_most_once_per_call :
  forall (L T : Type) (E : EqDec T) (eps init : T) (ps : list (production T))
         (s : syntax_error_solver L T) (self self' : parser L T)
         (tokens : list (token L T)) budget fuel res h,
    built_parser eps init ps (Some s) self -> built_parser eps init ps None self' ->
    parse_from_tokens fuel self tokens = Done (res, h) -> declined (Some s) h ->
    (exists r, terminates_with (fun fuel => parse_within budget fuel self' tokens) r) ->
    length h <= budget.
Proof.
  intros L T E eps init ps s self self' tokens budget fuel res h B B' H Hd [r [Hr [n Hn]]].
  pose proof (built_with_solver None B) as B2.
  set (no := (fun _ _ => Reply None) : syntax_error_solver L T).
  assert (Hself : self = with_solver self (Some s)).
  { apply built_built in B. pose proof (bf_solver B) as Hb. destruct self; simpl in *; subst. reflexivity. }
  assert (Hso : pr_solver self = Some s) by (rewrite Hself; reflexivity).
  (* the always declining solver sees the same calls *)
  assert (Hno : parse_from_tokens fuel (with_solver self (Some no)) tokens = Done (res, h)).
  { assert (Hp : forall p, parse_from_tokens fuel (with_solver self (Some p)) tokens =
                           run p (c_parse fuel self tokens) []).
    { intros p. rewrite run_parse. unfold privately. now rewrite Hso. }
    rewrite Hp. apply run_declined with (p := s); auto.
    - rewrite <- Hp, <- Hself. exact H.
    - intros h1 c h2 Hh. apply (Hd s h1 c h2); auto. }
  set (n' := Nat.max n fuel). specialize (Hn n' ltac:(lia)).
  assert (Hno' : parse_from_tokens n' (with_solver self (Some no)) tokens = Done (res, h)).
  { destruct (parse_refines (with_solver self (Some no)) tokens (fuel := fuel) (fuel' := n') ltac:(lia)) as [Hx|Hx]; congruence. }
  (* the parser without solver, of the same table *)
  destruct tokens as [|tok rest]; [discriminate|].
  unfold parse_within in Hn. cbv zeta in Hn. unfold parse_from_tokens in Hno'.
  set (W := with_solver self' (Some no)).
  assert (Hsame : parse_from_tokens n' W (tok :: rest) = Done (res, h)).
  { unfold W. rewrite (built_parse_eq (tok :: rest) n' (built_with_solver (Some no) B')
        (built_with_solver (Some no) B)). exact Hno'. }
  unfold parse_from_tokens in Hsame.
  pose proof (@inner_lighter L T E W self' eq_refl eq_refl
    (bf_solver (built_built B')) no eq_refl (fun _ _ => eq_refl) (tok :: rest) budget n'
    (get_initial_symbol (pr_grammar self')) 0
    (inner_get_token_productions self' (get_initial_symbol (pr_grammar self')) (tok_type tok)) true [] []) as Hl.
  change (inner_get_token_productions W) with (inner_get_token_productions self') in Hsame.
  change (pr_grammar W) with (pr_grammar self') in Hsame.
  pose proof (@within_grows L T E self' (bf_solver (built_built B')) (tok :: rest) budget 0 n'
    (get_initial_symbol (pr_grammar self')) 0
    (inner_get_token_productions self' (get_initial_symbol (pr_grammar self')) (tok_type tok)) true []) as Hg.
  unfold lighter in Hl.
  destruct (inner_within budget n' self' (tok :: rest) _ _ _ _ _) as [[a h1']|p|]; [| |exfalso; apply Hr; symmetry; exact Hn].
  - destruct Hl as (h1 & Hl & Hle). rewrite Hl in Hsame. simpl in Hsame. inversion Hsame; subst h1.
    destruct Hg as (_ & Hg & _). simpl in *. lia.
  - rewrite Hl in Hsame. discriminate.
Qed.
Print Assumptions C84_asked_at_most_once_per_call.

(** ** On a table without conflicts: an accepted input is never asked about, and a solver
    that declined was asked at most a constant number of times per token *)
Theorem C84_conflict_free_calls :
  forall (L T : Type) (E : EqDec T) (eps init : T) (ps : list (production T))
         (s : syntax_error_solver L T) (self : parser L T)
         (tokens : list (token L T)) fuel res h,
    built_parser eps init ps (Some s) self -> conflict_free (pr_transitions self) ->
    parse_from_tokens fuel self tokens = Done (res, h) ->
    (forall root, res = ResultOk root -> h = []) /\
    (no_left_recursion_from eps ps init -> non_terminal ps init -> declined (Some s) h ->
     length h <= calls_per_token ps * length tokens).
Proof.
  intros L T E eps init ps s self tokens fuel res h B Hcf H.
  pose proof (built_with_solver None B) as B'. split.
  - intros root ->.
    pose proof (C32_ok_agrees_partial _ _ B B' (or_introl Hcf) H) as Ht.
    destruct (C31_last_resort_partial _ B' B Ht) as [H1 _]. specialize (H1 Hcf).
    assert (H2 : terminates_with (fun fuel => parse_from_tokens fuel self tokens) (Done (ResultOk root, h))).
    { split; [discriminate|]. exists fuel. intros n Hn.
      destruct (parse_refines self tokens Hn) as [Hx|Hx]; congruence. }
    pose proof (terminates_unique H1 H2) as Heq. now inversion Heq.
  - intros Hno Hi Hd. eapply C84_asked_at_most_once_per_call; eauto.
    destruct (C56_linear_work tokens (built_constructed B') Hcf Hno Hi) as (r & _ & Hr). eauto.
Qed.
Print Assumptions C84_conflict_free_calls.

(** ** A solver that answers, always with a later position, can be asked exponentially often,
    although the table has no conflicts *)

(** 0 epsilon; X = 1 -> Y X | d; Y = 2 -> a X b; a = 3, b = 4, d = 5 *)
Definition redo_productions : list (production nat) :=
  [Production 1 [2; 1]; Production 1 [5]; Production 2 [3; 1; 4]].
Definition redo_tokens (k : nat) : list (token nat nat) := repeat (nt 3) k ++ [nt 5].
Definition redo_solver : syntax_error_solver nat nat := fun _ c =>
  Reply (Some (FixResult (S (call_position c)) (FixedProduction []))).
Definition redo_parser : parser nat nat := Eval vm_compute in
  get_done (no_parser 0) (build 0 1 redo_productions (Some redo_solver) 100).

Lemma redo_built : built_parser 0 1 redo_productions (Some redo_solver) redo_parser.
Proof. apply build_built with (fuel := 100). vm_compute. reflexivity. Qed.

Lemma redo_conflict_free : conflict_free (pr_transitions redo_parser).
Proof. apply conflict_free_check_ok. reflexivity. Qed.

Lemma redo_no_left_recursion : no_left_recursion 0 redo_productions.
Proof.
  apply rank_check_ok with (N := fun x => Nat.eqb x 0)
    (rank := fun x => match x with 1 => 2 | 2 => 1 | _ => 0 end). reflexivity.
Qed.

Lemma redo_progressing : progressing (Some redo_solver).
Proof.
  intros s h c Hs. inversion Hs; subst s. split; [discriminate|].
  intros fr Hf. inversion Hf; subst. simpl. lia.
Qed.

Lemma redo_nth_a k p : p < k -> nth_error (redo_tokens k) p = Some (nt 3).
Proof.
  intros H. unfold redo_tokens. rewrite nth_error_app1 by (rewrite repeat_length; lia).
  now apply nth_error_repeat.
Qed.
Lemma redo_nth_d k : nth_error (redo_tokens k) k = Some (nt 5).
Proof.
  unfold redo_tokens. rewrite nth_error_app2, repeat_length, Nat.sub_diag
    by (rewrite repeat_length; lia). reflexivity.
Qed.
Lemma redo_nth_end k : nth_error (redo_tokens k) (S k) = None.
Proof.
  apply nth_error_None. unfold redo_tokens. rewrite app_length, repeat_length. simpl. lia.
Qed.
Lemma redo_candidates x a : candidates redo_parser x a =
  match x, a with 1, 3 => [[2; 1]] | 1, 5 => [[5]] | 2, 3 => [[3; 1; 4]] | _, _ => [] end.
Proof.
  do 3 (destruct x as [|x]; [do 6 (destruct a as [|a]; [vm_compute; reflexivity|]); vm_compute; reflexivity|]).
  vm_compute. reflexivity.
Qed.

(** [o] is a tree or a fix of X that ends after the last token, with [c] calls or more *)
Definition redone (k c : nat) (h : history nat nat)
           (o : outcome (parse_symbol_result nat nat * history nat nat)) : Prop :=
  o = OutOfFuel \/
  exists r h', o = Done (r, h') /\ length h + c <= length h' /\
    ((exists st, r = SymOk st /\ ps_final_token_position st = S k /\
                 tok_type (node_token (ps_node st)) = 1 /\ ps_prod_iter_option st = Some []) \/
     (exists fs, r = SymFix fs /\ fst_final_token_position fs = S k)).

(** [o] is a fix that ends after position [p], with [c] calls or more *)
Definition fixed_after (p c : nat) (h : history nat nat)
           (o : outcome (parse_symbol_result nat nat * history nat nat)) : Prop :=
  o = OutOfFuel \/
  exists fs h', o = Done (SymFix fs, h') /\ fst_final_token_position fs = S p /\ length h + c <= length h'.

Lemma next_token k p : p < k -> exists tok, nth_error (redo_tokens k) (S p) = Some tok.
Proof.
  intros Hp. destruct (nth_error (redo_tokens k) (S p)) eqn:Ht; eauto. exfalso. apply nth_error_None in Ht.
  unfold redo_tokens in Ht. rewrite app_length, repeat_length in Ht. simpl in Ht. lia.
Qed.

Section RedoRec.
  Variable k fuel : nat.
  Variable rec : nat -> nat -> list (list nat) -> bool -> history nat nat ->
                 outcome (parse_symbol_result nat nat * history nat nat).

  Lemma redo_d h :
    redone k 0 h (inner_parse_from_tokens_step redo_parser (redo_tokens k) rec fuel 1 k [[5]] true h).
  Proof.
    unfold inner_parse_from_tokens_step, inner_parse_from_tokens_try_parse_productions.
    cbn [try_parse_productions_loop]. destruct fuel as [|[|n]]; [left; reflexivity| |].
    all: cbn [inner_parse_from_tokens_production length nth_error unwrap bind Nat.ltb Nat.leb].
    all: unfold inner_parse_from_tokens_production_symbol.
    all: change (is_non_terminal (pr_grammar redo_parser) 5) with false; cbn iota; cbn [bind].
    all: unfold inner_parse_terminal_symbol; change (eqb (get_epsilon_symbol (pr_grammar redo_parser)) 5) with false.
    all: cbn iota; unfold inner_parse_non_epsilon_terminal_symbol; rewrite redo_nth_d.
    1: left; reflexivity.
    right. do 2 eexists. split; [reflexivity|]. split; [simpl; lia|]. left. eexists. split; [reflexivity|].
    simpl. repeat split. lia.
  Qed.

  Hypothesis Hnil : forall p h, rec 1 p [] true h = OutOfFuel \/
    exists r h', rec 1 p [] true h = Done (r, h') /\ (forall st, r <> SymOk st) /\ length h <= length h'.
  Variables p c : nat.
  Hypothesis Hp : p < k.
  Hypothesis Hrec : forall tok h, nth_error (redo_tokens k) (S p) = Some tok ->
    redone k c h (rec 1 (S p) (candidates redo_parser 1 (tok_type tok)) true h).

  (** Y: a, then X to the end of the input, then no b: the solver is asked *)
  Lemma redo_Y h :
    fixed_after p (c + 1) h
      (inner_parse_from_tokens_step redo_parser (redo_tokens k) rec fuel 2 p [[3; 1; 4]] true h).
  Proof.
    unfold inner_parse_from_tokens_step, inner_parse_from_tokens_try_parse_productions.
    cbn [try_parse_productions_loop]. change (is_child_single_path true [[3; 1; 4]]) with true.
    generalize fuel as n. intros n. destruct n as [|n]; [left; reflexivity|].
    cbn [inner_parse_from_tokens_production length nth_error unwrap bind Nat.ltb Nat.leb].
    unfold inner_parse_from_tokens_production_symbol at 1.
    change (is_non_terminal (pr_grammar redo_parser) 3) with false. cbn iota. cbn [bind].
    unfold inner_parse_terminal_symbol. change (eqb (get_epsilon_symbol (pr_grammar redo_parser)) 3) with false.
    cbn iota. unfold inner_parse_non_epsilon_terminal_symbol. rewrite redo_nth_a by lia.
    change (eqb 3 (tok_type (nt 3))) with true. cbn iota.
    destruct n as [|n]; [left; reflexivity|].
    cbn [inner_parse_from_tokens_production length nth_error unwrap bind Nat.ltb Nat.leb ps_final_token_position].
    unfold inner_parse_from_tokens_production_symbol at 1, inner_parse_from_tokens_production_non_terminal.
    change (is_non_terminal (pr_grammar redo_parser) 1) with true. cbn iota.
    replace (p + 1) with (S p) by lia. destruct (next_token Hp) as [tok Htok]. rewrite Htok.
    change (inner_get_token_productions redo_parser 1 (tok_type tok)) with
      (candidates redo_parser 1 (tok_type tok)).
    destruct (Hrec h Htok) as [->|(r & h' & -> & Hl & Hr)]; [left; reflexivity|]. cbn [bind].
    assert (Hend : forall h, inner_parse_from_tokens_production_symbol redo_parser (redo_tokens k) rec 4 (S k) true h =
                   Done (build_token_failed_symbol 4, h)).
    { intros h0. unfold inner_parse_from_tokens_production_symbol.
      change (is_non_terminal (pr_grammar redo_parser) 4) with false. cbn iota.
      unfold inner_parse_terminal_symbol. change (eqb (get_epsilon_symbol (pr_grammar redo_parser)) 4) with false.
      cbn iota. unfold inner_parse_non_epsilon_terminal_symbol. now rewrite redo_nth_end. }
    destruct Hr as [(st & -> & Hf & Hty & Hit)|(fs & -> & Hf)]; rewrite Hf.
    - destruct n as [|n]; [left; reflexivity|].
      cbn [inner_parse_from_tokens_production length nth_error unwrap bind Nat.ltb Nat.leb].
      rewrite Hend. cbn [bind build_token_failed_symbol inner_parse_pop_states]. rewrite Hit, Hty.
      destruct (Hnil (ps_initial_token_position st) h') as [->|(r2 & h2 & -> & Hr2 & Hl2)]; [left; reflexivity|].
      destruct r2 as [st2|e2|f2]; [now elim (Hr2 st2)| |].
      all: cbn [bind inner_parse_pop_states ps_prod_iter_option inner_parse_from_tokens_production_build_failed_symbol].
      all: right; do 2 eexists; split; [reflexivity|]; split; [reflexivity|]; rewrite app_length; simpl; lia.
    - destruct n as [|n]; [left; reflexivity|].
      cbn [inner_parse_from_tokens_production length nth_error unwrap bind Nat.ltb Nat.leb].
      rewrite Hend. cbn [bind build_token_failed_symbol inner_parse_pop_states ps_prod_iter_option
                         inner_parse_from_tokens_production_build_failed_symbol].
      right; do 2 eexists; split; [reflexivity|]; split; [reflexivity|]; rewrite app_length; simpl; lia.
  Qed.
End RedoRec.

Section RedoX.
  Variable k fuel : nat.
  Variable rec : nat -> nat -> list (list nat) -> bool -> history nat nat ->
                 outcome (parse_symbol_result nat nat * history nat nat).
  Variables p c : nat.
  Hypothesis Hp : p < k.
  Hypothesis Hrec : forall tok h, nth_error (redo_tokens k) (S p) = Some tok ->
    redone k c h (rec 1 (S p) (candidates redo_parser 1 (tok_type tok)) true h).
  Hypothesis HY : forall h, fixed_after p (c + 1) h (rec 2 p [[3; 1; 4]] true h).

  (** X: Y is fixed at the next token, and what follows is parsed once more *)
  Lemma redo_X h :
    redone k (2 * c + 1) h (inner_parse_from_tokens_step redo_parser (redo_tokens k) rec fuel 1 p [[2; 1]] true h).
  Proof.
    unfold inner_parse_from_tokens_step, inner_parse_from_tokens_try_parse_productions.
    cbn [try_parse_productions_loop]. change (is_child_single_path true [[2; 1]]) with true.
    generalize fuel as n. intros n. destruct n as [|n]; [left; reflexivity|].
    cbn [inner_parse_from_tokens_production length nth_error unwrap bind Nat.ltb Nat.leb].
    unfold inner_parse_from_tokens_production_symbol at 1, inner_parse_from_tokens_production_non_terminal.
    change (is_non_terminal (pr_grammar redo_parser) 2) with true. cbn iota. rewrite redo_nth_a by lia.
    change (inner_get_token_productions redo_parser 2 (tok_type (nt 3))) with [[3; 1; 4]].
    destruct (HY h) as [->|(fs & h1 & -> & Hf & Hl1)]; [left; reflexivity|]. cbn [bind]. rewrite Hf.
    destruct n as [|n]; [left; reflexivity|].
    cbn [inner_parse_from_tokens_production length nth_error unwrap bind Nat.ltb Nat.leb].
    unfold inner_parse_from_tokens_production_symbol at 1, inner_parse_from_tokens_production_non_terminal.
    change (is_non_terminal (pr_grammar redo_parser) 1) with true. cbn iota.
    destruct (next_token Hp) as [tok Htok]. rewrite Htok.
    change (inner_get_token_productions redo_parser 1 (tok_type tok)) with
      (candidates redo_parser 1 (tok_type tok)).
    destruct (Hrec h1 Htok) as [->|(r & h2 & -> & Hl & Hr)]; [left; reflexivity|]. cbn [bind].
    destruct Hr as [(st & -> & Hf2 & _)|(fs2 & -> & Hf2)]; rewrite Hf2.
    all: destruct n as [|n]; [left; reflexivity|].
    all: cbn [inner_parse_from_tokens_production length Nat.ltb Nat.leb].
    all: right; do 2 eexists; split; [reflexivity|]; split; [lia|]; right; eexists; split; [reflexivity|reflexivity].
  Qed.
End RedoX.

Lemma redo_nil k fuel p h :
  inner_parse_from_tokens fuel redo_parser (redo_tokens k) 1 p [] true h = OutOfFuel \/
  exists r h', inner_parse_from_tokens fuel redo_parser (redo_tokens k) 1 p [] true h = Done (r, h') /\
    (forall st, r <> SymOk st) /\ length h <= length h'.
Proof.
  destruct fuel as [|fuel]; [left; reflexivity|]. right. do 2 eexists. split; [reflexivity|].
  split; [intros; discriminate|]. rewrite app_length. lia.
Qed.

Lemma redo_inner k m : forall fuel p tok h, p + m = k -> nth_error (redo_tokens k) p = Some tok ->
  redone k (2 ^ m - 1) h
    (inner_parse_from_tokens fuel redo_parser (redo_tokens k) 1 p (candidates redo_parser 1 (tok_type tok)) true h).
Proof.
  induction m as [|m IH]; intros fuel p tok h Hp Ht.
  - assert (p = k) by lia. subst p. rewrite redo_nth_d in Ht. inversion Ht; subst tok.
    rewrite redo_candidates. destruct fuel as [|fuel]; [left; reflexivity|]. cbn [inner_parse_from_tokens].
    apply redo_d.
  - rewrite redo_nth_a in Ht by lia. inversion Ht; subst tok. rewrite redo_candidates.
    destruct fuel as [|fuel]; [left; reflexivity|]. cbn [inner_parse_from_tokens].
    replace (2 ^ S m - 1) with (2 * (2 ^ m - 1) + 1)
      by (simpl; assert (2 ^ m <> 0) by (apply Nat.pow_nonzero; lia); lia).
    apply redo_X; [lia| |].
    + intros tok' h' Ht'. apply IH; [lia|exact Ht'].
    + intros h'. destruct fuel as [|fuel]; [left; reflexivity|]. cbn [inner_parse_from_tokens].
      apply redo_Y; [intros; apply redo_nil|lia|].
      intros tok' h2 Ht'. apply IH; [lia|exact Ht'].
Qed.

Theorem C84_answering_can_be_exponential :
  built_parser 0 1 redo_productions (Some redo_solver) redo_parser /\
  conflict_free (pr_transitions redo_parser) /\
  no_left_recursion 0 redo_productions /\ progressing (Some redo_solver) /\
  forall k, length (redo_tokens k) = k + 1 /\
    exists res h, terminates_with (fun fuel => parse_from_tokens fuel redo_parser (redo_tokens k)) (Done (res, h)) /\
      2 ^ k - 1 <= length h.
Proof.
  split; [exact redo_built|]. split; [exact redo_conflict_free|]. split; [exact redo_no_left_recursion|].
  split; [exact redo_progressing|]. intros k.
  assert (Hlen : length (redo_tokens k) = k + 1).
  { unfold redo_tokens. rewrite app_length, repeat_length. reflexivity. }
  split; [exact Hlen|].
  destruct (C19_parsing_terminates (redo_tokens k) (built_constructed redo_built)
              (no_left_recursion_anywhere (init := 1) redo_no_left_recursion) redo_progressing)
    as (r & Hr & n & Hn).
  assert (Htok : exists tok, nth_error (redo_tokens k) 0 = Some tok).
  { destruct (nth_error (redo_tokens k) 0) eqn:Ht; eauto. apply nth_error_None in Ht. lia. }
  destruct Htok as [tok Htok].
  pose proof (@redo_inner k k n 0 tok [] ltac:(lia) Htok) as Hs.
  pose proof (Hn n (le_n _)) as Hn'. unfold parse_from_tokens in Hn'.
  destruct (redo_tokens k) as [|t rest] eqn:Hk; [discriminate|]. inversion Htok; subst t.
  change (candidates redo_parser 1 (tok_type tok)) with
    (inner_get_token_productions redo_parser 1 (tok_type tok)) in Hs.
  change (get_initial_symbol (pr_grammar redo_parser)) with 1 in Hn'.
  destruct Hs as [Hs|(r' & h' & Hs & Hl & _)]; rewrite Hs in Hn'; simpl in Hn'; [congruence|].
  exists (parse_symbol_result_to_parse_result r'), h'. split; [|simpl in Hl; lia].
  rewrite Hn'. split; eauto.
Qed.
Print Assumptions C84_answering_can_be_exponential.

(** cases of the first two theorems: a solver that declines is asked five times about four tokens *)
Example C84_case : exists f h,
  parse_from_tokens 100 (expr_parser_with (fun _ _ => Reply None)) [tk 1 Id; tk 2 Plus; tk 3 Star; tk 4 Eof] =
  Done (ResultErr f, h) /\ declined (Some (fun _ _ => Reply None)) h /\
  conflict_free (pr_transitions (expr_parser_with (fun _ _ => Reply None))) /\ length h = 5.
Proof.
  do 2 eexists. split; [vm_compute; reflexivity|]. split; [|split; [exact expr_conflict_free|reflexivity]].
  intros s h1 c h2 Hs _. now inversion Hs.
Qed.
