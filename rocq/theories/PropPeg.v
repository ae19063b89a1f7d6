(** * Where extents are fixed the parser is a parsing expression grammar: C106 *)

From Verif Require Import BaseFacts GrammarFacts DerivFacts.
From Verif Require Import FollowRepeat Examples ExampleTools MoreFacts PropParse PropReports PropLimits PropPrefix
  GuidedSpec ParserGuided PropGuided ProductiveSpec PropQuiet PegFacts.
From Verif Require Export PegSpec.

Set Implicit Arguments.

(** ** One result for each symbol and position *)
Theorem C106_one_result :
  forall (L T : Type) (E : EqDec T) (eps init : T) (ps : list (production T))
         (solver : option (syntax_error_solver L T)) (self : parser L T) (tokens : list (token L T)) X p r r',
    constructed_parser eps init ps solver self ->
    peg eps ps tokens (candidates self) X p r -> peg eps ps tokens (candidates self) X p r' -> r = r'.
Proof.
  intros L T E eps init ps solver self tokens X p r r' B H H'.
  assert (Heps : ~ non_terminal ps eps) by apply (eps_not_nt (po_grammar (bf_of (constructed_built B)))).
  symmetry. exact (proj1 (peg_unique tokens (candidates self) Heps) _ _ _ H _ H').
Qed.
Print Assumptions C106_one_result.

(** ** that depends only on the tokens from that position on *)
Theorem C106_local :
  forall (L T : Type) (eps : T) (ps : list (production T)) (cands : T -> T -> list (list T))
         (b b' rest : list (token L T)) X r,
    (peg eps ps (b ++ rest) cands X (length b) None <-> peg eps ps (b' ++ rest) cands X (length b') None) /\
    (forall n k, peg eps ps (b ++ rest) cands X (length b) (Some (n, length b + k)) <->
                 peg eps ps (b' ++ rest) cands X (length b') (Some (n, length b' + k))) /\
    (peg eps ps (b ++ rest) cands X (length b) r -> forall n q, r = Some (n, q) -> length b <= q).
Proof.
  intros L T eps ps cands.
  assert (Hone : forall (b b' rest : list (token L T)) X r,
    peg eps ps (b ++ rest) cands X (length b) r ->
    exists r', moved (length b) (length b') r r' /\ peg eps ps (b' ++ rest) cands X (length b') r').
  { intros b b' rest X r H.
    destruct (proj1 (@peg_move _ _ eps ps (b ++ rest) (b' ++ rest) cands (length b) (length b')
      ltac:(intros i; rewrite !nth_error_app2 by lia; f_equal; lia)) _ _ _ H 0) as (r' & Hm & Hr); [lia|].
    exists r'. split; auto. now rewrite Nat.add_0_r in Hr. }
  assert (Hhalf : forall (b b' rest : list (token L T)) X,
    (peg eps ps (b ++ rest) cands X (length b) None -> peg eps ps (b' ++ rest) cands X (length b') None) /\
    (forall n k, peg eps ps (b ++ rest) cands X (length b) (Some (n, length b + k)) ->
                 peg eps ps (b' ++ rest) cands X (length b') (Some (n, length b' + k)))).
  { intros b b' rest X. split.
    - intros H. destruct (Hone b b' rest X _ H) as ([[n q]|] & Hm & Hr); [destruct Hm|exact Hr].
    - intros n k H. destruct (Hone b b' rest X _ H) as ([[n' q]|] & Hm & Hr); [|destruct Hm].
      destruct Hm as (<- & j & Hj & ->). replace k with j by lia. exact Hr. }
  intros b b' rest X r. split; [split; apply Hhalf|]. split; [intros n k; split; apply Hhalf|].
  intros H n q ->. destruct (Hone b b rest X _ H) as ([[n' q']|] & Hm & _); [|destruct Hm].
  destruct Hm as (_ & j & -> & _). lia.
Qed.
Print Assumptions C106_local.

Lemma conflict_free_one {L T : Type} {E : EqDec T} (self : parser L T) : conflict_free (pr_transitions self) ->
  forall A a, length (candidates self A a) <= 1.
Proof.
  intros H A a. unfold candidates. specialize (H A a).
  destruct (transitions_get_productions (pr_transitions self) A a) as [l|]; [|simpl; lia].
  rewrite map_length. now apply H.
Qed.

(** ** The parser gives the result of the initial symbol at the start *)
Theorem C106_agrees :
  forall (L T : Type) (E : EqDec T) (eps init : T) (ps : list (production T))
         (self : parser L T) (tokens : list (token L T)) (fuel : nat) res h,
    constructed_parser eps init ps None self -> non_terminal ps init ->
    prefix_free_symbols eps ps \/ fixed_extents eps ps tokens (candidates self) \/
      conflict_free (pr_transitions self) ->
    parse_from_tokens fuel self tokens = Done (res, h) ->
    h = [] /\
    ((exists root q, res = ResultOk root /\ peg eps ps tokens (candidates self) init 0 (Some (root, q))) \/
     (exists f, res = ResultErr f /\ peg eps ps tokens (candidates self) init 0 None)).
Proof.
  intros L T E eps init ps self tokens fuel res h B Hinit Hfix H.
  pose proof (constructed_built B) as F.
  assert (Heps : ~ non_terminal ps eps) by apply (eps_not_nt (po_grammar (bf_of F))).
  assert (Hone : fixed_extents eps ps tokens (candidates self) \/ forall A a, length (candidates self A a) <= 1).
  { destruct Hfix as [Hpf|[Hfx|Hc]]; [left|now left|right; now apply conflict_free_one].
    apply prefix_free_fixed; auto. apply (candidates_declared F). }
  destruct tokens as [|tok rest]; [discriminate|].
  pose proof (parse_terminates _ _ _ H ltac:(discriminate)) as Ht.
  destruct (C24_ordered_choice tok rest B) as (Hok & Herr & _ & Hall).
  assert (Hpeg : forall r, choose eps ps (tok :: rest) (candidates self) init 0 (candidates self init (tok_type tok)) r ->
    peg eps ps (tok :: rest) (candidates self) init 0 (match r with Some (n, q, _) => Some (n, q) | None => None end)).
  { intros r Hr. eapply peg_non_terminal; [exact Hinit|reflexivity|].
    apply (proj1 (choice_peg Heps (candidates_declared F) Hone) _ _ _ _ Hr tok eq_refl). now exists []. }
  destruct (Hall _ Ht) as [[root Hr]|[[f Hr]|Hr]]; inversion Hr; subst; split; auto.
  - left. destruct (proj1 (Hok root) Ht) as (q & outs & Hc). exists root, q. split; auto. exact (Hpeg _ Hc).
  - right. exists f. split; auto. exact (Hpeg _ (proj1 Herr (ex_intro _ f Ht))).
Qed.
Print Assumptions C106_agrees.

(** ** Without conflicts, exactly *)
Theorem C106_single_candidates :
  forall (L T : Type) (E : EqDec T) (eps init : T) (ps : list (production T))
         (self : parser L T) (tokens : list (token L T)),
    constructed_parser eps init ps None self -> non_terminal ps init -> tokens <> [] ->
    conflict_free (pr_transitions self) ->
    (forall root, terminates_with (fun fuel => parse_from_tokens fuel self tokens) (Done (ResultOk root, [])) <->
       exists q, peg eps ps tokens (candidates self) init 0 (Some (root, q))) /\
    ((exists f, terminates_with (fun fuel => parse_from_tokens fuel self tokens) (Done (ResultErr f, []))) <->
       peg eps ps tokens (candidates self) init 0 None).
Proof.
  intros L T E eps init ps self tokens B Hinit Hne Hc.
  pose proof (constructed_built B) as F.
  assert (Hfrom : forall res, terminates_with (fun fuel => parse_from_tokens fuel self tokens) (Done (res, [])) ->
    (exists root q, res = ResultOk root /\ peg eps ps tokens (candidates self) init 0 (Some (root, q))) \/
    (exists f, res = ResultErr f /\ peg eps ps tokens (candidates self) init 0 None)).
  { intros res [_ [n Hn]].
    exact (proj2 (@C106_agrees _ _ _ _ _ _ _ _ n _ _ B Hinit (or_intror (or_intror Hc)) (Hn n (le_n n)))). }
  destruct tokens as [|tok rest]; [contradiction|].
  destruct (C24_ordered_choice tok rest B) as (Hok & Herr & _).
  assert (Heps : ~ non_terminal ps eps) by apply (eps_not_nt (po_grammar (bf_of F))).
  assert (Hto : forall r, peg eps ps (tok :: rest) (candidates self) init 0 r ->
    match r with
    | None => choose eps ps (tok :: rest) (candidates self) init 0 (candidates self init (tok_type tok)) None
    | Some (n, q) => exists left,
        choose eps ps (tok :: rest) (candidates self) init 0 (candidates self init (tok_type tok)) (Some (n, q, left))
    end).
  { intros r H. inversion H as [|? ? Hn|? ? Hn|? ? tok' ? _ Hn Hp]; subst; try contradiction.
    simpl in Hn. inversion Hn; subst tok'.
    pose proof (proj1 (proj2 (@peg_choose _ _ eps ps (tok :: rest) (candidates self) (@conflict_free_one _ _ _ _ Hc))) _ _ _ _ Hp) as Hx.
    destruct r as [[n q]|]; auto. destruct Hx as (left & Hx & _). eauto. }
  split.
  - intros root. split.
    + intros H. destruct (Hfrom _ H) as [(root' & q & Hr & Hp)|(f & Hr & _)]; inversion Hr; subst; eauto.
    + intros [q Hp]. apply Hok. destruct (Hto _ Hp) as [left Hx]. eauto.
  - split.
    + intros [f H]. destruct (Hfrom _ H) as [(root' & q & Hr & Hp)|(f' & Hr & Hp)]; inversion Hr; subst; auto.
    + intros Hp. apply Herr. exact (Hto _ Hp).
Qed.
Print Assumptions C106_single_candidates.

(** ** With an end marker the parser computes the result, whatever the solver when it is a tree *)
Theorem C106_decides :
  forall (L T : Type) (E : EqDec T) (eps init eof : T) (ps : list (production T))
         (solver : option (syntax_error_solver L T)) (self : parser L T)
         (tokens before : list (token L T)) (t : token L T),
    built_parser eps init ps solver self ->
    no_left_recursion_from eps ps init -> eof_discipline eps ps init eof -> non_terminal ps init ->
    prefix_free_symbols eps ps \/ fixed_extents eps ps tokens (candidates self) ->
    tokens = before ++ [t] -> tok_type t = eof ->
    (exists r, peg eps ps tokens (candidates self) init 0 r) /\
    (forall root q, peg eps ps tokens (candidates self) init 0 (Some (root, q)) ->
       terminates_with (fun fuel => parse_from_tokens fuel self tokens) (Done (ResultOk root, []))) /\
    (peg eps ps tokens (candidates self) init 0 None ->
       solver = None ->
       exists f, terminates_with (fun fuel => parse_from_tokens fuel self tokens) (Done (ResultErr f, []))).
Proof.
  intros L T E eps init eof ps solver self tokens before t B Hlr He Hinit Hfix Htok Ht.
  pose proof (built_with_solver None B) as B0. set (self0 := with_solver self None) in *.
  change (candidates self) with (candidates self0) in *.
  assert (Hne : tokens <> []) by (rewrite Htok; destruct before; discriminate).
  assert (Hpr : progressing (None : option (syntax_error_solver L T))) by (intros s h c fr; discriminate).
  destruct (C19_parsing_terminates tokens B0 Hlr Hpr) as [r Hr].
  destruct r as [[res h]|q|].
  2:{ exfalso. destruct Hr as [_ [n Hr]]. specialize (Hr n (le_n _)).
      destruct (C17_no_panic_partial _ B0 Hne Hr) as [(_ & s & h & c & Hs & _)|[_ Hno]]; [discriminate Hs|].
      apply Hno. exists eof. split; auto. split; [exists before, t; auto|]. intros s h c fr; discriminate. }
  2:{ exfalso. now destruct Hr. }
  pose proof Hr as [_ [n Hr']]. pose proof (Hr' n (le_n _)) as Hn. clear Hr'.
  assert (Hfix3 : prefix_free_symbols eps ps \/ fixed_extents eps ps tokens (candidates self0) \/
      conflict_free (pr_transitions self0)) by tauto.
  destruct (@C106_agrees _ _ _ _ _ _ _ _ n _ _ (built_constructed B0) Hinit Hfix3 Hn) as (-> & Hres).
  destruct Hres as [(root & q & -> & Hp)|(f & -> & Hp)].
  - split; [eauto|]. split.
    + intros root' q' Hp'. pose proof (C106_one_result (built_constructed B0) Hp Hp') as Heq. inversion Heq; subst root' q'.
      apply (C99_fixed_extents_not_asked B B0); auto.
    + intros Hp'. pose proof (C106_one_result (built_constructed B0) Hp Hp') as Heq. discriminate.
  - split; [eauto|]. split.
    2:{ intros _ ->. exists f. destruct Hr as [G1 [m G2]]. split; auto. exists m. intros fuel Hf. cbv beta. pose proof (G2 fuel Hf) as G3. cbv beta in G3. etransitivity; [|exact G3].
        now apply built_parse_eq with (eps := eps) (init := init) (ps := ps) (solver := None). }
    intros root' q' Hp'. pose proof (C106_one_result (built_constructed B0) Hp Hp') as Heq. discriminate.
Qed.
Print Assumptions C106_decides.

(** ** Without the condition the parser goes beyond *)

(** S = 1 -> X b ; X = 2 -> a | a b ... on [a b b]: the first alternative of X succeeds, so no
    parsing expression grammar tries the second. *)
Definition beyond_productions : list (production nat) :=
  [Production 1 [2; 5]; Production 2 [3]; Production 2 [3; 4]].
Definition beyond_parser : parser nat nat :=
  get_done (no_parser 0) (build 0 1 beyond_productions None 100).
Lemma beyond_built : built_parser 0 1 beyond_productions None beyond_parser.
Proof. apply build_built with (fuel := 100). vm_compute. reflexivity. Qed.

Theorem C106_full_statement_refuted :
  exists (self : parser nat nat) (tokens : list (token nat nat)),
    built_parser 0 1 beyond_productions None self /\ non_terminal beyond_productions 1 /\
    eof_discipline 0 beyond_productions 1 5 /\ no_left_recursion_from 0 beyond_productions 1 /\
    (exists before t, tokens = before ++ [t] /\ tok_type t = 5) /\
    (exists root, terminates_with (fun fuel => parse_from_tokens fuel self tokens) (Done (ResultOk root, []))) /\
    peg 0 beyond_productions tokens (candidates self) 1 0 None.
Proof.
  exists beyond_parser, [nt 3; nt 4; nt 5]. splits.
  - exact beyond_built.
  - apply non_terminalb_spec. reflexivity.
  - split; [discriminate|]. split; [apply non_terminalb_false; reflexivity|].
    split; [|split]; intros p Hp; simpl in Hp.
    + intros Hin. decompose [or] Hp; subst; simpl in Hin; intuition discriminate.
    + intros Hi. decompose [or] Hp; subst; try discriminate; try contradiction.
      exists [2]. split; [reflexivity|simpl; intuition discriminate].
    + intros Hi Hin. decompose [or] Hp; subst; simpl in Hin, Hi; intuition discriminate.
  - apply no_left_recursion_anywhere, rank_check_ok with (N := fun x => Nat.eqb x 0)
      (rank := fun x => match x with 1 => 3 | 2 => 2 | 0 => 0 | _ => 1 end). reflexivity.
  - exists [nt 3; nt 4], (nt 5). auto.
  - eexists. apply parse_terminates with (k := 50); [vm_compute; reflexivity|discriminate].
  - eapply peg_non_terminal; [apply non_terminalb_spec; reflexivity|reflexivity|].
    change (candidates beyond_parser 1 _) with [[2; 5]]. apply peg_next; [|constructor].
    eapply peg_fails_later.
    + eapply peg_non_terminal; [apply non_terminalb_spec; reflexivity|reflexivity|].
      change (candidates beyond_parser 2 _) with [[3]; [3; 4]]. apply peg_first.
      eapply peg_cons; [|constructor].
      apply (@peg_token _ _ 0 beyond_productions _ _ (nt 3) 0); [apply non_terminalb_false; reflexivity|discriminate|reflexivity].
    + apply peg_fails. apply peg_mismatch; [apply non_terminalb_false; reflexivity|discriminate|].
      intros tok H. inversion H. discriminate.
Qed.
Print Assumptions C106_full_statement_refuted.

(** ** Cases *)
Example C106_case :
  let tokens := [Token (Some 6) 3; Token (Some 7) 5; Token None 9] in
  built_parser 0 1 pair_productions None (pair_parser None) /\
  built_parser 0 1 pair_productions (Some meddling_solver) (pair_parser (Some meddling_solver)) /\
  non_terminal pair_productions 1 /\
  prefix_free_symbols 0 pair_productions /\ ~ conflict_free (pr_transitions (pair_parser None)) /\
  no_left_recursion_from 0 pair_productions 1 /\ eof_discipline 0 pair_productions 1 9 /\
  (exists root q, peg 0 pair_productions tokens (candidates (pair_parser None)) 1 0 (Some (root, q))) /\
  peg 0 pair_productions [Token (Some 6) 3; Token None 9] (candidates (pair_parser None)) 1 0 None.
Proof.
  intros tokens. destruct C99_prefix_free_case as (H1 & _ & H3 & H4 & H5 & _).
  destruct C99_fixed_extents_case as (_ & _ & _ & H6 & _).
  splits; auto.
  - apply pair_built.
  - apply pair_built.
  - destruct (@C106_agrees _ _ _ _ _ _ _ tokens 50 _ _ (built_constructed (pair_built None)) H5 (or_introl H1)
      ltac:(vm_compute; reflexivity)) as (_ & [(root & q & _ & H)|(f & Hf & _)]); [eauto|discriminate].
  - destruct (@C106_agrees _ _ _ _ _ _ _ [Token (Some 6) 3; Token None 9] 50 _ _ (built_constructed (pair_built None)) H5 (or_introl H1)
      ltac:(vm_compute; reflexivity)) as (_ & [(root & q & Hf & _)|(f & _ & H)]); [discriminate|auto].
Qed.

(** a table without conflicts: the grammar S -> A $ ; A -> a b | c *)
Definition peg_single_productions : list (production nat) :=
  [Production 1 [2; 9]; Production 2 [3; 4]; Production 2 [5]].
Definition peg_single_parser : parser nat nat :=
  get_done (no_parser 0) (build 0 1 peg_single_productions None 100).
Example C106_single_case :
  built_parser 0 1 peg_single_productions None peg_single_parser /\
  non_terminal peg_single_productions 1 /\ conflict_free (pr_transitions peg_single_parser) /\
  (exists root, parse_from_tokens 50 peg_single_parser [nt 3; nt 4; nt 9] = Done (ResultOk root, [])) /\
  (exists f, parse_from_tokens 50 peg_single_parser [nt 3; nt 5; nt 9] = Done (ResultErr f, [])).
Proof.
  splits.
  - apply build_built with (fuel := 100). vm_compute. reflexivity.
  - apply non_terminalb_spec. reflexivity.
  - apply conflict_free_check_ok. vm_compute. reflexivity.
  - eexists. vm_compute. reflexivity.
  - eexists. vm_compute. reflexivity.
Qed.
