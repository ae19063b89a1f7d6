(** * How deep a parse that returns has nested, whatever the grammar: C87 *)

From Verif Require Import BaseFacts GrammarFacts DerivFacts.
From Verif Require Import ParserHang ParserDepth SessionSpec ChoiceSpec ParserBuild Examples PropParse PropReports PropDepth PropLast PropForever.

Set Implicit Arguments.

Section Facts.
  Context {L T : Type} {E : EqDec T}.
  Variable eps init : T.
  Variable ps : list (production T).
  Variable solver : option (syntax_error_solver L T).
  Variable self : parser L T.
  Hypothesis B : constructed_parser eps init ps solver self.
  Hypothesis Hi : non_terminal ps init.
  Variable tokens : list (token L T).
  Notation N := (length (non_terminals ps)).
  Notation keys := (all_keys self tokens (non_terminals ps)).

  Lemma keys_length : length keys <= (length ps + N) * length tokens.
  Proof.
    apply all_keys_length. intros a.
    apply cells_count with (f := fun X => inner_get_token_productions self X a); [apply NoDup_nodup|].
    intros X _. unfold inner_get_token_productions.
    destruct (transitions_get_productions (pr_transitions self) X a) as [l|] eqn:Hl; [|simpl; lia].
    destruct (constructed_cells B _ _ Hl) as [keep ->]. rewrite map_length. clear.
    induction (productions_of ps X) as [|p m IH]; simpl; [lia|]. destruct (keep p); simpl; lia.
  Qed.

  Lemma nts_listed X : is_non_terminal (pr_grammar self) X = true -> In X (non_terminals ps).
  Proof.
    intros H. apply (is_non_terminal_spec (po_grammar (bf_of (constructed_built B)))) in H as (p & Hp & <-).
    apply nodup_In. now apply in_map.
  Qed.

  Lemma initial_nt : is_non_terminal (pr_grammar self) (get_initial_symbol (pr_grammar self)) = true.
  Proof.
    apply (is_non_terminal_spec (po_grammar (bf_of (constructed_built B)))).
    unfold get_initial_symbol. now rewrite (go_init (po_grammar (bf_of (constructed_built B)))).
  Qed.

  Lemma deeper loops d d' X p prods single h : d <= d' ->
    refines (inner_at_depth loops d self tokens X p prods single h)
            (inner_at_depth loops d' self tokens X p prods single h).
  Proof.
    revert d' X p prods single h. induction d as [|d IH]; intros d' X p prods single h Hd; [left; reflexivity|].
    destruct d' as [|d']; [lia|]. simpl. apply inner_step_refines; auto. intros. apply IH. lia.
  Qed.

  Lemma parse_deeper loops d d' : d <= d' ->
    refines (parse_at_depth loops d self tokens) (parse_at_depth loops d' self tokens).
  Proof.
    intros Hd. unfold parse_at_depth.
    assert (H := fun X p prods single h => @deeper loops d d' X p prods single h Hd).
    destruct tokens; [apply refines_refl|]. apply refines_bind; [apply H|].
    intros [r h]. apply refines_refl.
  Qed.

  Lemma within bound r :
    (forall n loops, n <= loops ->
       refines (parse_from_tokens n self tokens) (parse_at_depth loops bound self tokens)) ->
    (terminates_with (fun fuel => parse_from_tokens fuel self tokens) r <->
     terminates_with (fun loops => parse_at_depth loops bound self tokens) r).
  Proof.
    intros H. split.
    - intros [Hr [n Hn]]. split; auto. exists n. intros loops Hle.
      destruct (H n loops Hle) as [Hx|Hx]; rewrite (Hn n (le_n _)) in Hx; congruence.
    - intros [Hr [n Hn]]. eapply C55_depth_sound; [apply (Hn n (le_n _))|exact Hr].
  Qed.
End Facts.

(** ** C87: a parse that returns has never nested deeper than
    (productions + non-terminals) * (tokens), left recursion or not. *)
Theorem C87_depth_of_returning_parses :
  forall (L T : Type) (E : EqDec T) (eps init : T) (ps : list (production T))
         (self : parser L T) (tokens : list (token L T))
         (r : outcome (parse_result L T * list (solver_call L T))),
    constructed_parser eps init ps None self -> non_terminal ps init ->
    let bound := (length ps + length (non_terminals ps)) * length tokens in
    (terminates_with (fun fuel => parse_from_tokens fuel self tokens) r <->
     terminates_with (fun loops => parse_at_depth loops bound self tokens) r).
Proof.
  intros L T E eps init ps self tokens r B Hi bound. apply within.
  intros n loops Hle.
  pose proof (bf_solver (constructed_built B)) as Hs. 
  destruct (@hang_parse L T E self tokens (T * nat * list (list T)) (fun X p prods _ => (X, p, prods))
              (all_keys self tokens (non_terminals ps))) with (loops := loops) (n := n) as [H|H]; auto.
  - intros X p prods _ Hl. apply legal_key; auto. now apply (nts_listed B).
  - intros m X p prods single h X' p' prods' single' h' Hk. inversion Hk; subst.
    now apply same_none.
  - now apply (initial_nt B).
  - now left.
  - destruct (@parse_deeper L T E self tokens loops _ bound (keys_length B tokens)) as [Hd|Hd];
      rewrite H in Hd; [now left|now right].
Qed.
Print Assumptions C87_depth_of_returning_parses.

(** With a solver whose answers depend on the call only: twice that, as a call may be made on
    the single path or off it. *)
Theorem C87_depth_with_stateless_solver :
  forall (L T : Type) (E : EqDec T) (eps init : T) (ps : list (production T))
         (solver : option (syntax_error_solver L T)) (self : parser L T)
         (tokens : list (token L T)) (r : outcome (parse_result L T * list (solver_call L T))),
    constructed_parser eps init ps solver self -> stateless solver -> non_terminal ps init ->
    let bound := 2 * ((length ps + length (non_terminals ps)) * length tokens) in
    (terminates_with (fun fuel => parse_from_tokens fuel self tokens) r <->
     terminates_with (fun loops => parse_at_depth loops bound self tokens) r).
Proof.
  intros L T E eps init ps solver self tokens r B Hst Hi bound. apply within.
  intros n loops Hle.
  pose proof (bf_solver (constructed_built B)) as Hs.
  set (ks := all_keys self tokens (non_terminals ps)).
  destruct (@hang_parse L T E self tokens (T * nat * list (list T) * bool)
              (fun X p prods b => (X, p, prods, b))
              (map (fun k => (k, true)) ks ++ map (fun k => (k, false)) ks)) with (loops := loops) (n := n) as [H|H]; auto.
  - intros X p prods b Hl.
    assert (Hin : In (X, p, prods) ks) by (apply legal_key; auto; now apply (nts_listed B)).
    apply in_or_app. destruct b; [left|right]; apply in_map_iff; eauto.
  - intros m X p prods single h X' p' prods' single' h' Hk. inversion Hk; subst.
    now apply same_stateless.
  - now apply (initial_nt B).
  - now left.
  - pose proof (keys_length B tokens) as Hk. fold ks in Hk.
    assert (Hlen : length (map (fun k => (k, true)) ks ++ map (fun k => (k, false)) ks) <= bound)
      by (rewrite app_length, !map_length; unfold bound; lia).
    destruct (@parse_deeper L T E self tokens loops _ bound Hlen) as [Hd|Hd];
      rewrite H in Hd; [now left|now right].
Qed.
Print Assumptions C87_depth_with_stateless_solver.


(** A left-recursive grammar whose parses may return: 1 -> b 2; 2 -> a | 2 a (a = 3, b = 4). *)
Definition leftrec_productions : list (production nat) :=
  [Production 1 [4; 2]; Production 2 [3]; Production 2 [2; 3]].
Definition leftrec_parser : parser nat nat :=
  get_done (no_parser 0) (build 0 1 leftrec_productions None 100).

Example C87_case :
  built_parser 0 1 leftrec_productions None leftrec_parser /\ non_terminal leftrec_productions 1 /\
  ~ no_left_recursion_from 0 leftrec_productions 1 /\
  exists root h, terminates_with (fun fuel => parse_from_tokens fuel leftrec_parser [nt 4; nt 3]) (Done (ResultOk root, h)).
Proof.
  split; [|split; [|split]].
  - apply build_built with (fuel := 100). reflexivity.
  - exists (Production 1 [4; 2]). simpl. auto.
  - intros H. apply (H 2).
    + exists (Production 2 [3]). simpl. auto.
    + exists [4], []. eapply Relation_Operators.rt1n_trans; [|constructor].
      apply (@derive1_production _ _ leftrec_productions [] [] (Production 1 [4; 2])). simpl. auto.
    + exists [2; 3], [3]. split; [|constructor].
      apply (@derive1_production _ _ leftrec_productions [] [] (Production 2 [2; 3])). simpl. auto.
  - do 2 eexists. split; [discriminate|]. exists 10. intros fuel Hf.
    apply parse_mono with (fuel := 10); [vm_compute; reflexivity|discriminate|exact Hf].
Qed.

(** A solver that remembers: no bound holds, even when every fix advances.
    X = 1 -> f | N Z X, N = 2 -> a | epsilon, Z = 6 -> c | epsilon (a = 3, c = 4, f = 5) on
    a b f (b = 7).  N takes a, Z fails on b, the solver declines; N is empty, so is Z, and X
    starts again at a.  After declining [k] times the solver fixes Z. *)
Definition patient_productions : list (production nat) :=
  [Production 1 [5]; Production 1 [2; 6; 1]; Production 2 [3]; Production 2 [0]; Production 6 [4]; Production 6 [0]].
Definition patient (k : nat) : syntax_error_solver nat nat := fun h c =>
  if length h <? k then Reply None else
  match c with
  | FixFailedProduction _ p _ | FixFailedProductions _ p _ => Reply (Some (FixResult (S p) (FixedProduction [])))
  end.
Definition patient_grammar : grammar nat := Eval vm_compute in
  pr_grammar (get_done (no_parser 0) (build (L := nat) 0 1 patient_productions None 100)).
Definition patient_cells : transitions nat := Eval vm_compute in
  pr_transitions (get_done (no_parser 0) (build (L := nat) 0 1 patient_productions None 100)).
Definition patient_parser (k : nat) : parser nat nat :=
  {| pr_grammar := patient_grammar; pr_solver := Some (patient k); pr_transitions := patient_cells |}.
Definition patient_tokens : list (token nat nat) := [nt 3; nt 7; nt 5].

Lemma patient_built k : built_parser 0 1 patient_productions (Some (patient k)) (patient_parser k).
Proof. apply build_built with (fuel := 100). vm_compute. reflexivity. Qed.

Lemma patient_progressing k : progressing (Some (patient k)).
Proof.
  intros s h c Hs. inversion Hs; subst s. unfold patient.
  destruct (length h <? k); [split; [discriminate|intros fr Hfr; discriminate]|].
  destruct c; split; try discriminate; intros fr Hfr; inversion Hfr; simpl; lia.
Qed.

(** the call about Z at b *)
Definition patient_call : solver_call nat nat := FixFailedProductions patient_tokens 1 [].

(** what X does at a, until X starts again *)
Definition again (nodeN nodeZ : node nat nat) (rec : nat -> nat -> list (list nat) -> bool -> history nat nat ->
    outcome (parse_symbol_result nat nat * history nat nat)) (h h1 : history nat nat) : Prop :=
  rec 2 0 [[3]; [0]] true h = Done (SymOk {| ps_initial_token_position := 0; ps_final_token_position := 1;
    ps_prod_iter_option := Some [[0]]; ps_node := Node [Node [] (nt 3)] (Token None 2) |}, h) /\
  rec 6 1 [] true h = Done (SymErr (FailedSymbol [] 6), h1) /\
  rec 2 0 [[0]] true h1 = Done (SymOk {| ps_initial_token_position := 0; ps_final_token_position := 0;
    ps_prod_iter_option := Some []; ps_node := nodeN |}, h1) /\
  rec 6 0 [[0]] true h1 = Done (SymOk {| ps_initial_token_position := 0; ps_final_token_position := 0;
    ps_prod_iter_option := Some []; ps_node := nodeZ |}, h1).

Ltac patient_run :=
  unfold inner_parse_from_tokens_step, inner_parse_from_tokens_try_parse_productions; simpl;
  repeat (unfold inner_parse_from_tokens_production_symbol, inner_parse_from_tokens_production_non_terminal;
          simpl; unfold inner_get_token_productions; simpl;
          repeat match goal with H : ?rec _ _ _ _ _ = _ |- _ => rewrite H; simpl end).

Lemma patient_again k nodeN nodeZ rec fuel h h1 :
  again nodeN nodeZ rec h h1 -> rec 1 0 [[2; 6; 1]] true h1 = OutOfFuel ->
  inner_parse_from_tokens_step (patient_parser k) patient_tokens rec fuel 1 0 [[2; 6; 1]] true h = OutOfFuel.
Proof.
  intros (H1 & H2 & H3 & H4) H5.
  destruct fuel as [|[|[|[|fuel]]]]; patient_run; reflexivity.
Qed.

Lemma patient_fixed k nodeN nodeZ rec fuel h h1 h2 fs :
  again nodeN nodeZ rec h h1 -> rec 1 0 [[2; 6; 1]] true h1 = Done (SymFix fs, h2) ->
  exists fs', inner_parse_from_tokens_step (patient_parser k) patient_tokens rec (5 + fuel) 1 0 [[2; 6; 1]] true h =
    Done (SymFix fs', h2).
Proof.
  intros (H1 & H2 & H3 & H4) H5. patient_run. eauto.
Qed.

Lemma patient_leaf k rec fuel h : length h < k ->
  again (Node [Node [] (Token None 0)] (Token None 2)) (Node [Node [] (Token None 0)] (Token None 6))
    (inner_parse_from_tokens_step (patient_parser k) patient_tokens rec (2 + fuel)) h (h ++ [patient_call]).
Proof.
  intros Hk. repeat split.
  unfold inner_parse_from_tokens_step, inner_parse_from_tokens_try_parse_productions. simpl.
  unfold inner_parse_from_tokens_try_fix_productions. simpl. unfold patient.
  apply Nat.ltb_lt in Hk. rewrite Hk. reflexivity.
Qed.

Lemma patient_deep k loops d : forall h, length h + d <= k ->
  inner_at_depth (2 + loops) d (patient_parser k) patient_tokens 1 0 [[2; 6; 1]] true h = OutOfFuel.
Proof.
  induction d as [|d IH]; intros h Hd; [reflexivity|].
  change (inner_parse_from_tokens_step (patient_parser k) patient_tokens
            (inner_at_depth (2 + loops) d (patient_parser k) patient_tokens) (2 + loops) 1 0 [[2; 6; 1]] true h = OutOfFuel).
  destruct d as [|d]; [patient_run; reflexivity|].
  eapply patient_again; [apply patient_leaf; lia|].
  apply IH. rewrite app_length. simpl. lia.
Qed.

Lemma patient_base k h : length h = k ->
  exists fs h', inner_parse_from_tokens 7 (patient_parser k) patient_tokens 1 0 [[2; 6; 1]] true h = Done (SymFix fs, h').
Proof.
  intros Hk.
  change (inner_parse_from_tokens 7 (patient_parser k) patient_tokens 1 0 [[2; 6; 1]] true h) with
    (inner_parse_from_tokens_step (patient_parser k) patient_tokens
       (inner_parse_from_tokens 6 (patient_parser k) patient_tokens) 6 1 0 [[2; 6; 1]] true h).
  set (rec := inner_parse_from_tokens 6 (patient_parser k) patient_tokens).
  assert (H1 : rec 2 0 [[3]; [0]] true h = Done (SymOk {| ps_initial_token_position := 0; ps_final_token_position := 1;
    ps_prod_iter_option := Some [[0]]; ps_node := Node [Node [] (nt 3)] (Token None 2) |}, h)) by reflexivity.
  assert (H2 : rec 6 1 [] true h = Done (SymFix {| fst_final_token_position := 2;
    fst_fixed_symbol := FixedSymbol (FixedProduction []) 6 |}, h ++ [patient_call])).
  { unfold rec. cbn [inner_parse_from_tokens]. unfold inner_parse_from_tokens_step, inner_parse_from_tokens_try_parse_productions. simpl.
    unfold inner_parse_from_tokens_try_fix_productions. simpl. unfold patient.
    rewrite Hk, Nat.ltb_irrefl. reflexivity. }
  assert (H3 : rec 1 2 [[5]; [2; 6; 1]] true (h ++ [patient_call]) = Done (SymOk {| ps_initial_token_position := 2;
    ps_final_token_position := 3; ps_prod_iter_option := Some [[2; 6; 1]];
    ps_node := Node [Node [] (nt 5)] (Token None 1) |}, h ++ [patient_call])) by reflexivity.
  clearbody rec. patient_run. eauto.
Qed.

Lemma patient_returns k m : forall h, length h + m = k ->
  exists fs h', inner_parse_from_tokens (7 + m) (patient_parser k) patient_tokens 1 0 [[2; 6; 1]] true h = Done (SymFix fs, h').
Proof.
  induction m as [|m IH]; intros h Hk; [apply patient_base; lia|].
  destruct (IH (h ++ [patient_call])) as (fs & h' & Hx); [rewrite app_length; simpl; lia|].
  replace (7 + S m) with (S (5 + (2 + m))) by lia.
  change (inner_parse_from_tokens (S (5 + (2 + m))) (patient_parser k) patient_tokens 1 0 [[2; 6; 1]] true h) with
    (inner_parse_from_tokens_step (patient_parser k) patient_tokens
       (inner_parse_from_tokens (5 + (2 + m)) (patient_parser k) patient_tokens) (5 + (2 + m)) 1 0 [[2; 6; 1]] true h).
  assert (Hl : length h < k) by lia.
  destruct (@patient_fixed k _ _ (inner_parse_from_tokens (5 + (2 + m)) (patient_parser k) patient_tokens) (2 + m) h _ h' fs
              (@patient_leaf k (inner_parse_from_tokens (6 + m) (patient_parser k) patient_tokens) (4 + m) h Hl) Hx) as [fs' Hf].
  eauto.
Qed.

Lemma more_loops {L T : Type} {E : EqDec T} (self : parser L T) tokens loops loops' d :
  loops <= loops' -> forall X p prods single h,
  refines (inner_at_depth loops d self tokens X p prods single h)
          (inner_at_depth loops' d self tokens X p prods single h).
Proof.
  intros Hl. induction d as [|d IH]; intros X p prods single h; [left; reflexivity|].
  simpl. apply inner_step_refines; auto.
Qed.

Theorem C87_remembering_solver_nests_deeper :
  forall k, exists (solver : syntax_error_solver nat nat) (self : parser nat nat) fs h,
    built_parser 0 1 patient_productions (Some solver) self /\
    progressing (Some solver) /\
    terminates_with (fun fuel => parse_from_tokens fuel self patient_tokens) (Done (ResultFix fs, h)) /\
    forall loops, parse_at_depth loops k self patient_tokens = OutOfFuel.
Proof.
  intros k. destruct (@patient_returns k k [] eq_refl) as (fs & h & Hr).
  exists (patient k), (patient_parser k), (fst_fixed_symbol fs), h.
  split; [apply patient_built|]. split; [apply patient_progressing|]. split.
  - split; [discriminate|]. exists (7 + k). intros fuel Hf.
    apply parse_mono with (fuel := 7 + k); [|discriminate|exact Hf].
    change (parse_from_tokens (7 + k) (patient_parser k) patient_tokens) with
      ('(r, h) <- inner_parse_from_tokens (7 + k) (patient_parser k) patient_tokens 1 0 [[2; 6; 1]] true [] ;;
       Done (parse_symbol_result_to_parse_result r, h)).
    rewrite Hr. reflexivity.
  - intros loops.
    change (parse_at_depth loops k (patient_parser k) patient_tokens) with
      ('(r, h) <- inner_at_depth loops k (patient_parser k) patient_tokens 1 0 [[2; 6; 1]] true [] ;;
       Done (parse_symbol_result_to_parse_result r, h)).
    assert (H : inner_at_depth loops k (patient_parser k) patient_tokens 1 0 [[2; 6; 1]] true [] = OutOfFuel).
    { destruct (@more_loops nat nat _ (patient_parser k) patient_tokens loops (2 + loops) k ltac:(lia)
                  1 0 [[2; 6; 1]] true []) as [Hx|Hx]; auto.
      rewrite <- Hx. apply patient_deep. simpl. lia. }
    rewrite H. reflexivity.
Qed.
Print Assumptions C87_remembering_solver_nests_deeper.
