(** * Truncated inputs and the place of an error: C48, C49 *)

From Verif Require Import BaseFacts GrammarFacts DerivFacts FirstFacts FollowFacts FollowRepeat TransitionsFacts.
From Verif Require Import ParserErrPos Examples PropParse.

Set Implicit Arguments.

(** ** C48: "index out of range" means that the input stops too early *)
Theorem C48_out_of_range_is_truncated :
  forall (L T : Type) (E : EqDec T) (eps init : T) (ps : list (production T))
         (solver : option (syntax_error_solver L T)) (self : parser L T)
         (tokens : list (token L T)) (fuel : nat),
    constructed_parser eps init ps solver self ->
    (forall s h c fr, solver = Some s -> s h c <> Reply (Some fr)) ->
    parse_from_tokens fuel self tokens = Panicked PanicTokenOutOfRange ->
    Forall (fun t => real_terminal eps ps (tok_type t)) tokens /\
    (exists A v, non_terminal ps A /\
       derives eps ps [init] (map (@tok_type L T) tokens ++ A :: v)) /\
    (productive eps ps -> viable_prefix eps ps init (map (@tok_type L T) tokens)).
Proof.
  intros L T E eps init ps solver self tokens fuel B Hno H. apply constructed_built in B.
  assert (Hno' : forall s h c fr, pr_solver self = Some s -> s h c <> Reply (Some fr))
    by (rewrite (bf_solver B); exact Hno).
  destruct (@parse_trunc _ _ _ _ _ _ _ (bf_of B) tokens Hno' _ H) as (A & v & HA & Hd & Hr). simpl in Hd, Hr.
  split; auto. split; [exists A, v; auto|]. intros Hp.
  destruct (productive_form (A :: v) Hp) as (w & Hw & Hdw). exists w. split.
  - apply Forall_app. split; auto. apply Forall_map. exact Hr.
  - eapply derives_trans; [exact Hd|]. exact (derives_app (derives_refl _ _ _) Hdw).
Qed.
Print Assumptions C48_out_of_range_is_truncated.

(** ** productive grammars: a rank that decreases in one production of every
    non-terminal *)
Definition productive_check {T : Type} {E : EqDec T} (eps : T) (ps : list (production T))
           (rank : T -> nat) : bool :=
  forallb (fun p => existsb (fun q => eqb (p_input q) (p_input p) &&
     forallb (fun X => negb (non_terminalb ps X) || (rank X <? rank (p_input p))) (p_output q)) ps) ps.

Lemma productive_check_ok {T : Type} {E : EqDec T} (eps : T) ps rank :
  productive_check eps ps rank = true -> productive eps ps.
Proof.
  intros H A. unfold productive_check in H. rewrite forallb_forall in H.
  remember (rank A) as n eqn:Hn. revert A Hn. induction n as [n IH] using lt_wf_ind.
  intros A -> (p & Hp & Hi). specialize (H p Hp). apply existsb_exists in H as (q & Hq & H).
  apply andb_true_iff in H as [Hqi Ho]. apply eqb_iff in Hqi. rewrite Hi in Hqi, Ho.
  assert (Hf : forall out, (forall X, In X out -> negb (non_terminalb ps X) || (rank X <? rank A) = true) ->
            exists v, Forall (real_terminal eps ps) v /\ derives eps ps out v).
  { induction out as [|X out IHo]; intros Hall.
    - exists []. split; auto. apply derives_refl.
    - destruct IHo as (v & Hv & Hd); [intros; apply Hall; simpl; auto|].
      destruct (non_terminalb ps X) eqn:HX.
      + assert (Hr : rank X < rank A).
        { specialize (Hall X (or_introl eq_refl)). rewrite HX in Hall. simpl in Hall.
          now apply Nat.ltb_lt. }
        destruct (IH _ Hr X eq_refl) as (u & Hu & Hdu); [now apply non_terminalb_spec|].
        exists (u ++ v). split; [apply Forall_app; auto|]. exact (derives_app Hdu Hd).
      + destruct (eq_dec X eps) as [->|Hne].
        * exists v. split; auto. exact (derives_app (derives_eps eps ps) Hd).
        * exists (X :: v). split.
          -- constructor; auto. split; auto. now apply non_terminalb_false.
          -- exact (derives_app (derives_refl eps ps [X]) Hd). }
  rewrite forallb_forall in Ho. destruct (Hf (p_output q) Ho) as (v & Hv & Hd).
  exists v. split; auto. eapply derives_trans; [|exact Hd]. rewrite <- Hqi.
  now apply derives_production.
Qed.

Lemma expr_productive : productive Eps expr_productions.
Proof. apply productive_check_ok with (rank := expr_rank). reflexivity. Qed.

Example C48_case :
  parse_from_tokens 100 expr_parser [tk 1 Id; tk 2 Plus] = Panicked PanicTokenOutOfRange /\
  productive Eps expr_productions.
Proof. split; [vm_compute; reflexivity|exact expr_productive]. Qed.

(** ** C49: without conflicts the error is at the first token that no sentence
    has after the tokens before it *)
(** the same for any table with the candidates needed, see [covering] *)
Lemma covering_first_offending :
  forall (L T : Type) (E : EqDec T) (eps init : T) (ps : list (production T))
         (self : parser L T) (tokens : list (token L T)) (fuel : nat)
         (f : failed_symbol L T) (h : list (solver_call L T)),
    constructed_parser eps init ps None self -> conflict_free (pr_transitions self) ->
    covering eps init ps (candidates self) -> initial_ends_in_terminal eps ps init -> non_terminal ps init ->
    parse_from_tokens fuel self tokens = Done (ResultErr f, h) ->
    exists p, p <= length tokens /\
      Forall (fun t => real_terminal eps ps (tok_type t)) (firstn p tokens) /\
      (* the tokens before [p] are read, and then the innermost failed symbol is expected *)
      (exists v, derives eps ps [init] (map (@tok_type L T) (firstn p tokens) ++ innermost f :: v)) /\
      (productive eps ps -> viable_prefix eps ps init (map (@tok_type L T) (firstn p tokens))) /\
      (* and token [p] is wrong: nothing that starts like this is a sentence *)
      (p < length tokens ->
         ~ viable_prefix eps ps init (map (@tok_type L T) (firstn (S p) tokens))) /\
      (p = length tokens -> ~ sentence eps ps init (map (@tok_type L T) tokens)).
Proof.
  intros L T E eps init ps self tokens fuel f h B Hcf Hrep Hend Hn H.
  pose proof (constructed_built B) as BF. pose proof (bf_of BF) as P.
  assert (Hlen : forall A a, length (inner_get_token_productions self A a) <= 1).
  { intros A a. unfold inner_get_token_productions.
    destruct (transitions_get_productions (pr_transitions self) A a) eqn:Hc; simpl; [|lia].
    rewrite map_length. eapply Hcf; eauto. }
  apply parse_run in H as (tok & rest & r & Ht & Hr & HR).
  destruct r as [st|f'|fs]; simpl in Hr; inversion Hr; subst f'. clear Hr.
  assert (Hi : get_initial_symbol (pr_grammar self) = init) by apply (go_init (po_grammar P)).
  pose proof (proj1 (local_run P (bf_solver BF) Hlen tokens) _ _ _ _ _ _ _ HR (Hlen _ _)
               (token_productions_good P _ _)) as HL.
  destruct HL as (p & _ & (w & v & Hd & [Hp [tl Htl]] & Hw) & Hag);
    [subst tokens; simpl; lia|].
  rewrite Hi in *. simpl in Hp, Htl.
  assert (Hfn : firstn p tokens = w).
  { rewrite Htl, Hp, firstn_app, Nat.sub_diag, firstn_all. simpl. now rewrite app_nil_r. }
  assert (Hple : p <= length tokens) by (rewrite Htl, app_length; lia).
  exists p. rewrite Hfn.
  assert (Hno : forall ts', agree tokens p ts' ->
             Forall (fun t => real_terminal eps ps (tok_type t)) ts' ->
             ~ derives eps ps [init] (map (@tok_type L T) ts')).
  { intros ts' Ha Hreal Hder.
    destruct (covering_sentences B Hcf Hrep Hend Hn Hder Hreal)
      as (root & _ & _ & Hacc).
    pose proof (Hag ts' Ha) as HR'.
    assert (H0 : nth_error ts' 0 = Some tok) by (rewrite Ha by lia; subst tokens; reflexivity).
    destruct ts' as [|tok' ts']; [discriminate|]. simpl in H0. inversion H0; subst tok'.
    rewrite <- Hi in HR'. apply run_parse in HR' as [n Hn'].
    assert (Ht' : terminates_with (fun fuel => parse_from_tokens fuel self (tok :: ts'))
                    (Done (ResultErr f, h))).
    { split; [discriminate|]. exists n. exact Hn'. }
    pose proof (terminates_unique Hacc Ht') as Heq. discriminate Heq. }
  splits; auto.
  - exists v. exact Hd.
  - intros Hprod. destruct (productive_form (innermost f :: v) Hprod) as (u & Hu & Hdu).
    exists u. split.
    + apply Forall_app. split; auto. apply Forall_map. exact Hw.
    + eapply derives_trans; [exact Hd|]. exact (derives_app (derives_refl _ _ _) Hdu).
  - intros Hlt (u & Hreal & Hder).
    apply (Hno (firstn (S p) tokens ++ map (Token None) u)).
    + intros i Hile.
      assert (Hl : length (firstn (S p) tokens) = S p) by (rewrite firstn_length; lia).
      rewrite nth_error_app1 by lia.
      rewrite <- (firstn_skipn (S p) tokens) at 2. rewrite nth_error_app1 by lia. reflexivity.
    + apply Forall_app in Hreal as [H1 H2]. apply Forall_app. split.
      * exact (proj1 (Forall_map _ _ _) H1).
      * apply Forall_map. exact H2.
    + rewrite map_app, map_map. simpl. rewrite map_id. exact Hder.
  - intros _ (Hreal & Hder). apply (Hno tokens); auto.
    + intros i _. reflexivity.
    + exact (proj1 (Forall_map _ _ _) Hreal).
Qed.

Theorem C49_first_offending_token :
  forall (L T : Type) (E : EqDec T) (eps init : T) (ps : list (production T))
         (self : parser L T) (tokens : list (token L T)) (fuel : nat)
         (f : failed_symbol L T) (h : list (solver_call L T)),
    built_parser eps init ps None self -> conflict_free (pr_transitions self) ->
    repeats_harmless eps ps init -> initial_ends_in_terminal eps ps init -> non_terminal ps init ->
    parse_from_tokens fuel self tokens = Done (ResultErr f, h) ->
    exists p, p <= length tokens /\
      Forall (fun t => real_terminal eps ps (tok_type t)) (firstn p tokens) /\
      (* the tokens before [p] are read, and then the innermost failed symbol is expected *)
      (exists v, derives eps ps [init] (map (@tok_type L T) (firstn p tokens) ++ innermost f :: v)) /\
      (productive eps ps -> viable_prefix eps ps init (map (@tok_type L T) (firstn p tokens))) /\
      (* and token [p] is wrong: nothing that starts like this is a sentence *)
      (p < length tokens ->
         ~ viable_prefix eps ps init (map (@tok_type L T) (firstn (S p) tokens))) /\
      (p = length tokens -> ~ sentence eps ps init (map (@tok_type L T) tokens)).
Proof.
  intros L T E eps init ps self tokens fuel f h B Hcf Hrep Hend Hn.
  apply (covering_first_offending _ _ B Hcf (harmless_covering (built_built B) Hrep Hn) Hend Hn).
Qed.
Print Assumptions C49_first_offending_token.

(** [id + )]: the error is at position 2, where the report's innermost symbol [Term] is expected *)
Example C49_case : exists f,
  parse_from_tokens 100 expr_parser [tk 1 Id; tk 2 Plus; tk 3 RParen] = Done (ResultErr f, []) /\
  conflict_free (pr_transitions expr_parser) /\ repeats_harmless Eps expr_productions Prog /\
  initial_ends_in_terminal Eps expr_productions Prog /\ non_terminal expr_productions Prog /\
  productive Eps expr_productions /\ innermost f = Term.
Proof.
  eexists. split; [vm_compute; reflexivity|]. split; [exact expr_conflict_free|].
  split; [exact expr_harmless|]. split; [exact expr_ends|].
  split; [apply expr_nt; reflexivity|]. split; [exact expr_productive|reflexivity].
Qed.
