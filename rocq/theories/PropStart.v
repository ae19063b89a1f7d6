(** * The initial symbol only says where parsing starts (C74), and the parts of a parse
      are parses (C75) *)

From Verif Require Import TransitionsFacts BaseFacts GrammarFacts DerivFacts ParserSound ParserSim ParserBuild.
From Verif Require Import StartFacts SuppliedFacts PropGrammar PropFirstFollow PropFollow PropParse PropReports.
From Verif Require Import PropGuided PropSupplied Examples.
From Verif Require Export StartSpec SuppliedSpec.

Set Implicit Arguments.

(** ** C74 *)
Lemma extends_refl {T : Type} (ps : list (production T)) : extends_grammar ps ps.
Proof. split; [apply sublist_refl|]. intros x [_ Hn]. exact Hn. Qed.

Theorem C74_initial_symbol_only_starts :
  forall (T : Type) (E : EqDec T) (ho1 ho2 ho3 ho1' ho2' ho3' : hash_order T) (eps init init' : T)
         (ps : list (production T)) (g : grammar T) (fuel : nat) (ffs : first_follow_symbols T) (t : transitions T),
    cfg_new ho1 eps init ps = Done g -> ffs_from ho2 fuel g = Done ffs -> transitions_from ho3 g ffs = Done t ->
    (* the same productions are accepted with any other initial symbol *)
    exists g', cfg_new ho1' eps init' ps = Done g' /\
    (forall x, is_terminal g' x = is_terminal g x) /\
    (forall x, is_non_terminal g' x = is_non_terminal g x) /\
    (forall x, get_productions g' x = get_productions g x) /\
    (* and have the same FIRST and FOLLOW sets *)
    (forall fuel' ffs', ffs_from ho2' fuel' g' = Done ffs' -> sets_within ffs ffs' /\ sets_within ffs' ffs) /\
    (* and the same table, computed from either sets *)
    (forall fuel' ffs' ffs'' t', ffs_from ho2' fuel' g' = Done ffs' -> ffs'' = ffs' \/ ffs'' = ffs ->
       transitions_from ho3' g' ffs'' = Done t' ->
       forall A a, transitions_get_productions t' A a = transitions_get_productions t A a).
Proof.
  intros T E ho1 ho2 ho3 ho1' ho2' ho3' eps init init' ps g fuel ffs t Hg Hf Ht.
  apply cfg_new_grammar_of in Hg as G.
  destruct (cfg_new_ok ho1' init' (go_ok G)) as [g' Hg']. exists g'. split; auto.
  apply cfg_new_grammar_of in Hg' as G'.
  splits.
  - intros x. apply eq_true_iff_eq. rewrite (is_terminal_spec G), (is_terminal_spec G'). tauto.
  - intros x. apply eq_true_iff_eq. rewrite (is_non_terminal_spec G), (is_non_terminal_spec G'). tauto.
  - intros x. now rewrite (go_productions G), (go_productions G').
  - intros fuel' ffs' Hf'.
    destruct (ffs_from_exact G _ _ Hf) as [[Hk1 Hx1] [Hk2 Hx2]].
    destruct (ffs_from_exact G' _ _ Hf') as [[Hk1' Hx1'] [Hk2' Hx2']].
    split; split; intros X s Hs.
    + destruct (proj2 (Hk1' X) (proj1 (Hk1 X) (ex_intro _ s Hs))) as [s' Hs']. exists s'. split; auto.
      intros a Ha. apply (proj2 (Hx1' X s' Hs')), (proj2 (Hx1 X s Hs)), Ha.
    + destruct (proj2 (Hk2' X) (proj1 (Hk2 X) (ex_intro _ s Hs))) as [s' Hs']. exists s'. split; auto.
      intros a Ha. apply (proj2 (Hx2' X s' Hs')), (proj2 (Hx2 X s Hs)), Ha.
    + destruct (proj2 (Hk1 X) (proj1 (Hk1' X) (ex_intro _ s Hs))) as [s' Hs']. exists s'. split; auto.
      intros a Ha. apply (proj2 (Hx1 X s' Hs')), (proj2 (Hx1' X s Hs)), Ha.
    + destruct (proj2 (Hk2 X) (proj1 (Hk2' X) (ex_intro _ s Hs))) as [s' Hs']. exists s'. split; auto.
      intros a Ha. apply (proj2 (Hx2 X s' Hs')), (proj2 (Hx2' X s Hs)), Ha.
  - intros fuel' ffs' ffs'' t' Hf' Hff Ht' A a.
    destruct (ffs_from_exact G _ _ Hf) as [Hx1 Hx2].
    destruct (ffs_from_exact G' _ _ Hf') as [Hx1' Hx2'].
    rewrite (transitions_cells G _ _ Ht), (transitions_cells G' _ _ Ht').
    assert (Hn : is_non_terminal g' A = is_non_terminal g A).
    { apply eq_true_iff_eq. rewrite (is_non_terminal_spec G), (is_non_terminal_spec G'). tauto. }
    assert (Hta : is_terminal g' a = is_terminal g a).
    { apply eq_true_iff_eq. rewrite (is_terminal_spec G), (is_terminal_spec G'). tauto. }
    rewrite Hn, Hta. destruct (is_non_terminal g A && is_terminal g a); auto. f_equal.
    apply filter_ext_in. intros p Hp. apply productions_of_In in Hp as [Hp _]. apply eq_true_iff_eq.
    rewrite (@selectsb_spec _ _ _ _ _ _ G ho3 ffs Hx1 Hx2 p a Hp).
    destruct Hff as [-> | ->].
    + rewrite (@selectsb_spec _ _ _ _ _ _ G' ho3' ffs' Hx1' Hx2' p a Hp). tauto.
    + rewrite (@selectsb_spec _ _ _ _ _ _ G' ho3' ffs Hx1 Hx2 p a Hp). tauto.
Qed.
Print Assumptions C74_initial_symbol_only_starts.

(** ** C75 *)
Lemma parts_run {L T : Type} {E : EqDec T} (eps init X : T) (ps : list (production T))
      (self selfX : parser L T) (tokens : list (token L T)) (root n : node L T) (k : nat) :
  constructed_parser eps init ps None self -> constructed_parser eps X ps None selfX ->
  (forall A a, candidates selfX A a = candidates self A a) ->
  terminates_with (fun fuel => parse_from_tokens fuel self tokens) (Done (ResultOk root, [])) ->
  part_of eps root k n -> tok_type (node_token n) = X -> non_terminal ps X ->
  exists n', terminates_with (fun fuel => parse_from_tokens fuel selfX (skipn k tokens)) (Done (ResultOk n', [])) /\
    ((forall A a, length (candidates self A a) <= 1) -> n' = n).
Proof.
  intros B BX Hc Hok Hp HX Hn.
  destruct tokens as [|tok rest]; [destruct Hok as [_ [m Hm]]; specialize (Hm m (le_n _)); discriminate|].
  apply (C24_ordered_choice tok rest B) in Hok as (q & outs & Hch).
  pose proof (constructed_built B) as F.
  assert (Hne : forall A a out, In out (candidates self A a) -> out <> []).
  { intros A a out Hin. apply (candidates_declared F) in Hin as (p & Hpp & _ & <-).
    apply (constructed_ok B p Hpp). }
  assert (Hat : exists tk n' q' o', nth_error (tok :: rest) k = Some tk /\
            choose eps ps (tok :: rest) (candidates self) X k (candidates self X (tok_type tk)) (Some (n', q', o')) /\
            ((forall A a, length (candidates self A a) <= 1) -> n' = n)).
  { destruct (proj1 (@parts_all L T E eps ps (tok :: rest) (candidates self) (ok_eps_not_nt (constructed_ok B)) Hne)
                _ _ _ _ Hch (proj2 (Forall_forall _ _) (Hne _ _)) _ _ _ eq_refl) as (_ & _ & _ & HXr & Hi).
    destruct (Hi k n Hp) as [[-> ->]|Hat].
    - exists tok, root, q, outs. rewrite <- HX, HXr. auto.
    - unfold parsed_at in Hat. rewrite HX in Hat. simpl in Hat. apply Hat. exact Hn. }
  destruct Hat as (tk & n' & q' & o' & Htk & Hch' & Hcf). exists n'. split; auto.
  destruct (proj1 (@shift_all L T eps ps (tok :: rest) (candidates self) k) _ _ _ _ Hch' 0)
    as ([[[n2 q2] o2]|] & Hs & Hr); [lia| |discriminate]. simpl in Hr. inversion Hr; subst.
  assert (Hsk : exists rest', skipn k (tok :: rest) = tk :: rest').
  { rewrite <- (Nat.add_0_r k) in Htk. rewrite <- nth_error_skipn' in Htk.
    destruct (skipn k (tok :: rest)); [discriminate|]. simpl in Htk. inversion Htk. eauto. }
  destruct Hsk as [rest' Hsk]. rewrite Hsk in *.
  apply (C24_ordered_choice tk rest' BX). exists q2, o2.
  simpl in Hs. rewrite Hc.
  exact (proj1 (@choose_same L T eps ps (tk :: rest') (candidates self) (candidates selfX) (fun A a => eq_sym (Hc A a))) _ _ _ _ Hs).
Qed.

Lemma built_same_cells {L T : Type} {E : EqDec T} (eps init X : T) (ps : list (production T)) sol sol' (self selfX : parser L T) :
  built_parser eps init ps sol self -> built_parser eps X ps sol' selfX ->
  forall A a, transitions_get_productions (pr_transitions selfX) A a =
              transitions_get_productions (pr_transitions self) A a.
Proof.
  intros B BX A a.
  apply built_inv in B as (ho1 & ho2 & fuel & g & ffs & Hg & Hf & Hs).
  apply built_inv in BX as (ho1' & ho2' & fuel' & g' & ffs' & Hg' & Hf' & Hs').
  destruct (rdp_from_inv _ _ _ _ Hs) as (_ & _ & Ht). destruct (rdp_from_inv _ _ _ _ Hs') as (_ & _ & Ht').
  destruct (@C74_initial_symbol_only_starts T E ho1 ho2 ho2 ho1' ho2' ho2' eps init X ps g fuel ffs _ Hg Hf Ht)
    as (g2 & Hg2 & _ & _ & _ & _ & Hcells).
  rewrite Hg' in Hg2. inversion Hg2; subst g2. eauto.
Qed.

(** The sets computed for one initial symbol can be supplied for every other one: parsing
    is as if the sets were computed for it. *)
Theorem C74_sets_can_be_shared :
  forall (L T : Type) (E : EqDec T) (ho1 ho2 ho3 ho1' : hash_order T) (eps init init' : T)
         (ps : list (production T)) (g g' : grammar T) (fuel : nat) (ffs : first_follow_symbols T)
         (self : parser L T),
    cfg_new ho1 eps init ps = Done g -> ffs_from ho2 fuel g = Done ffs ->
    cfg_new ho1' eps init' ps = Done g' -> built_parser eps init' ps None self ->
    exists shared, from_grammar_and_first_follow_symbols ho3 g' ffs = Done shared /\
    forall fuel' tokens, parse_from_tokens fuel' shared tokens = parse_from_tokens fuel' self tokens.
Proof.
  intros L T E ho1 ho2 ho3 ho1' eps init init' ps g g' fuel ffs self Hg Hf Hg' B.
  apply built_inv in B as (ho1'' & ho2'' & fuel'' & g'' & ffs'' & Hg'' & Hf'' & Hs).
  destruct (rdp_from_inv _ _ _ _ Hs) as (Hgr & Hsol & Ht).
  apply cfg_new_grammar_of in Hg as G. apply cfg_new_grammar_of in Hg' as G'. apply cfg_new_grammar_of in Hg'' as G''.
  destruct (ffs_from_exact G _ _ Hf) as [Hx1 Hx2].
  destruct (@transitions_exact_total _ _ _ _ _ _ G' ho3 ffs Hx1 Hx2) as [t Ht'].
  destruct (@transitions_exact_total _ _ _ _ _ _ G ho3 ffs Hx1 Hx2) as [t1 Ht1].
  assert (Hsh : from_grammar_and_first_follow_symbols ho3 g' ffs = Done (Parser g' (None : option (syntax_error_solver L T)) t)).
  { unfold from_grammar_and_first_follow_symbols, rdp_from. now rewrite Ht'. }
  eexists. split; [exact Hsh|].
  destruct (@C10_construction_total L T E ho1' ho2 eps init' ps g' Hg') as (n & ffs0 & t0 & Hn & _).
  destruct (Hn n (le_n _)) as (Hf0 & _).
  destruct (@C74_initial_symbol_only_starts T E ho1 ho2 ho3 ho1' ho2 ho3 eps init init' ps g fuel ffs t1 Hg Hf Ht1)
    as (g2 & Hg2 & _ & _ & _ & _ & Hc1).
  rewrite Hg' in Hg2. inversion Hg2; subst g2.
  destruct (@C74_initial_symbol_only_starts T E ho1 ho2 ho3 ho1'' ho2'' ho2'' eps init init' ps g fuel ffs t1 Hg Hf Ht1)
    as (g2 & Hg2' & _ & _ & _ & _ & Hc2).
  rewrite Hg'' in Hg2'. inversion Hg2'; subst g2.
  intros fuel' tokens. apply parse_ext; unfold get_epsilon_symbol, get_initial_symbol; simpl; rewrite ?Hgr.
  - intros x. apply eq_true_iff_eq. rewrite (is_non_terminal_spec G'), (is_non_terminal_spec G''). tauto.
  - now rewrite (go_eps G'), (go_eps G'').
  - now rewrite (go_init G'), (go_init G'').
  - intros A a. unfold inner_get_token_productions; simpl.
    rewrite (Hc1 n ffs0 ffs t Hf0 (or_intror eq_refl) Ht' A a), (Hc2 fuel'' ffs'' ffs'' _ Hf'' (or_introl eq_refl) Ht A a).
    reflexivity.
  - symmetry. exact Hsol.
Qed.
Print Assumptions C74_sets_can_be_shared.

(** ** C75 *)
Lemma candidates_cells {L T : Type} {E : EqDec T} (p p' : parser L T) :
  (forall A a, transitions_get_productions (pr_transitions p') A a =
               transitions_get_productions (pr_transitions p) A a) ->
  forall A a, candidates p' A a = candidates p A a.
Proof. intros H A a. unfold candidates, inner_get_token_productions. now rewrite H. Qed.

(** What holds for every table: the parser for the symbol of a part accepts the tokens
    from that part on. *)
Theorem C75_parts_accepted :
  forall (L T : Type) (E : EqDec T) (eps init : T) (ps : list (production T))
         (self selfX : parser L T) (tokens : list (token L T)) (root n : node L T) (k : nat),
    built_parser eps init ps None self ->
    terminates_with (fun fuel => parse_from_tokens fuel self tokens) (Done (ResultOk root, [])) ->
    part_of eps root k n -> non_terminal ps (tok_type (node_token n)) ->
    built_parser eps (tok_type (node_token n)) ps None selfX ->
    exists n', terminates_with (fun fuel => parse_from_tokens fuel selfX (skipn k tokens)) (Done (ResultOk n', [])).
Proof.
  intros L T E eps init ps self selfX tokens root n k B Hok Hp Hn BX.
  destruct (@parts_run L T E eps init _ ps self selfX tokens root n k B BX
              (candidates_cells _ _ (built_same_cells B BX)) Hok Hp eq_refl Hn) as (n' & Hn' & _). eauto.
Qed.
Print Assumptions C75_parts_accepted.

(** With at most one candidate per cell the part itself is returned, whatever the solvers. *)
Theorem C75_parts_are_parses_partial :
  forall (L T : Type) (E : EqDec T) (eps init : T) (ps : list (production T))
         (solver solverX : option (syntax_error_solver L T))
         (self selfX : parser L T) (tokens : list (token L T)) (fuel : nat) (root n : node L T) (k : nat)
         (h : list (solver_call L T)),
    built_parser eps init ps solver self -> conflict_free (pr_transitions self) ->
    parse_from_tokens fuel self tokens = Done (ResultOk root, h) ->
    part_of eps root k n -> non_terminal ps (tok_type (node_token n)) ->
    built_parser eps (tok_type (node_token n)) ps solverX selfX ->
    terminates_with (fun fuel => parse_from_tokens fuel selfX (skipn k tokens)) (Done (ResultOk n, [])).
Proof.
  intros L T E eps init ps solver solverX self selfX tokens fuel root n k h B Hcf H Hp Hn BX.
  pose proof (built_with_solver None B) as B0. pose proof (built_with_solver None BX) as BX0.
  pose proof (@cf_solvers L T E eps init ps solver None self _ tokens root fuel h B B0 Hcf H) as Hok.
  assert (Hlen : forall A a, length (candidates (with_solver self None) A a) <= 1).
  { intros A a. unfold candidates, inner_get_token_productions. simpl.
    destruct (transitions_get_productions (pr_transitions self) A a) as [l|] eqn:Hl; simpl; auto.
    rewrite map_length. eauto. }
  destruct (@parts_run L T E eps init _ ps _ _ tokens root n k B0 BX0
              (candidates_cells _ _ (built_same_cells B0 BX0)) Hok Hp eq_refl Hn) as (n' & Hn' & Heq).
  rewrite (Heq Hlen) in Hn'. destruct Hn' as [_ [m Hm]].
  apply (@cf_solvers L T E eps (tok_type (node_token n)) ps None solverX (with_solver selfX None) selfX (skipn k tokens) n m []); auto.
  intros A a l Hl. rewrite (built_same_cells B BX0) in Hl. eauto.
Qed.
Print Assumptions C75_parts_are_parses_partial.

(** The full statement (any table, no solver) is false: the part may be a later choice than
    the one the parser for its symbol settles for. *)
Definition C75_full_statement : Prop :=
  forall (L T : Type) (E : EqDec T) (eps init : T) (ps : list (production T))
         (self selfX : parser L T) (tokens : list (token L T)) (root n : node L T) (k : nat),
    built_parser eps init ps None self ->
    terminates_with (fun fuel => parse_from_tokens fuel self tokens) (Done (ResultOk root, [])) ->
    part_of eps root k n -> non_terminal ps (tok_type (node_token n)) ->
    built_parser eps (tok_type (node_token n)) ps None selfX ->
    terminates_with (fun fuel => parse_from_tokens fuel selfX (skipn k tokens)) (Done (ResultOk n, [])).

(** 1 -> 2 5; 2 -> 3 | 3 4 *)
Definition short_first : list (production nat) :=
  [Production 1 [2; 5]; Production 2 [3]; Production 2 [3; 4]].
Definition parser_at (ps : list (production nat)) (init : nat) : parser nat nat :=
  get_done (no_parser 0) (build 0 init ps None 200).

Lemma terminates_by {L T : Type} {E : EqDec T} (self : parser L T) tokens fuel r :
  parse_from_tokens fuel self tokens = r -> r <> OutOfFuel ->
  terminates_with (fun fuel => parse_from_tokens fuel self tokens) r.
Proof.
  intros H Hr. split; auto. exists fuel. intros fuel' Hle. apply parse_mono with (fuel := fuel); auto.
Qed.

Theorem C75_full_statement_refuted : ~ C75_full_statement.
Proof.
  intros H.
  pose (tokens := [Token (Some 7) 3; Token (Some 8) 4; Token (Some 9) 5]).
  pose (part := Node [Node [] (Token (Some 7) 3); Node [] (Token (Some 8) 4)] (Token None 2)).
  pose (root := Node ([] ++ part :: [Node [] (Token (Some 9) 5)]) (Token None 1)).
  assert (Hf : terminates_with (fun fuel => parse_from_tokens fuel (parser_at short_first 2) (skipn 0 tokens)) (Done (ResultOk part, []))).
  { apply (H nat nat _ 0 1 short_first (parser_at short_first 1) (parser_at short_first 2) tokens root part 0).
    - apply build_built with (fuel := 200). vm_compute. reflexivity.
    - apply terminates_by with (fuel := 50); [vm_compute; reflexivity|discriminate].
    - exact (@part_child nat nat _ 0 [] part [Node [] (Token (Some 9) 5)] (Token None 1) 0 part (part_whole 0 part)).
    - exists (Production 2 [3]). simpl. auto.
    - apply build_built with (fuel := 200). vm_compute. reflexivity. }
  destruct Hf as [_ [m Hm]].
  assert (Hg : terminates_with (fun fuel => parse_from_tokens fuel (parser_at short_first 2) (skipn 0 tokens))
                 (Done (ResultOk (Node [Node [] (Token (Some 7) 3)] (Token None 2)), []))).
  { apply terminates_by with (fuel := 50); [vm_compute; reflexivity|discriminate]. }
  destruct Hg as [_ [m' Hm']]. specialize (Hm (m + m')). specialize (Hm' (m + m')).
  rewrite Hm in Hm' by lia. assert (Hle : m' <= m + m') by lia. apply Hm' in Hle. discriminate.
Qed.
Print Assumptions C75_full_statement_refuted.

(** ** cases *)
(** [a * ( b )] : the parenthesis is a factor that starts at the third token; the same
    productions with initial symbol Factor parse it *)
Definition parts_tokens : list (token nat sym) :=
  [Token (Some 1) Id; Token (Some 2) Star; Token (Some 3) LParen; Token (Some 4) Id; Token (Some 5) RParen; Token None Eof].
Definition factor_parser : parser nat sym :=
  get_done (no_parser Eps) (build Eps Factor expr_productions None 200).

Lemma part_at (eps : sym) before c after t j k (n : node nat sym) :
  part_of eps c k n -> list_sum (map (tokens_of eps) before) + k = j ->
  part_of eps (Node (before ++ c :: after) t) j n.
Proof. intros H <-. now constructor. Qed.

Example C75_case : exists root n,
  built_parser Eps Prog expr_productions None expr_parser /\
  conflict_free (pr_transitions expr_parser) /\
  parse_from_tokens 200 expr_parser parts_tokens = Done (ResultOk root, []) /\
  part_of Eps root 2 n /\ tok_type (node_token n) = Factor /\
  built_parser Eps Factor expr_productions None factor_parser /\
  parse_from_tokens 200 factor_parser (skipn 2 parts_tokens) = Done (ResultOk n, []).
Proof.
  eexists. eexists. splits.
  - exact expr_built.
  - exact expr_conflict_free.
  - vm_compute. reflexivity.
  - (* Prog / Expr / Term / TermTail / Factor *)
    eapply (@part_at Eps [] _ [_]); [|reflexivity].
    eapply (@part_at Eps [] _ [_]); [|reflexivity].
    eapply (@part_at Eps [_] _ []); [|reflexivity].
    eapply (@part_at Eps [_] _ [_]); [|reflexivity].
    apply part_whole.
  - reflexivity.
  - apply build_built with (fuel := 200). vm_compute. reflexivity.
  - vm_compute. reflexivity.
Qed.

(** the sets of the expression grammar, supplied to the same productions started at Factor *)
Example C74_case : exists g' shared,
  cfg_new (insertion_order sym) Eps Prog expr_productions = Done expr_grammar /\
  ffs_from (insertion_order sym) 200 expr_grammar = Done expr_ffs /\
  transitions_from (insertion_order sym) expr_grammar expr_ffs = Done expr_transitions /\
  cfg_new (reversed_order sym) Eps Factor expr_productions = Done g' /\ g' <> expr_grammar /\
  from_grammar_and_first_follow_symbols (reversed_order sym) g' expr_ffs = Done shared /\
  parse_from_tokens 200 shared (skipn 2 parts_tokens) =
  parse_from_tokens 200 factor_parser (skipn 2 parts_tokens).
Proof.
  eexists. eexists. splits.
  - exact expr_grammar_new.
  - exact expr_ffs_from.
  - exact expr_transitions_from.
  - vm_compute. reflexivity.
  - vm_compute. discriminate.
  - vm_compute. reflexivity.
  - vm_compute. reflexivity.
Qed.
