(** * LL(1) grammars with the textbook production before what vanishes (C22_in_order): what
      C38, C75, C76 and C77 say of tables without conflicts holds whatever conflicts the table has *)

From Verif Require Import BaseFacts GrammarFacts DerivFacts ParserSound ParserComplete.
From Verif Require Import FollowSpec ProductiveSpec CutFacts CoverFacts PrefixSpec ChoiceSpec
  FollowRepeat Examples ExampleTools MoreFacts PropParse PropReports
  GuidedSpec ParserGuided PropGuided SuppliedSpec PropEnd LastSpec LastFacts PropLast PropStart PropLocal PropQuiet
  PropEarly EarlySpec StartFacts PropInOrder.
From Verif Require Export StartSpec LastSpec.

Set Implicit Arguments.

Section Parts.
  Context {L T : Type} {E : EqDec T}.
  Variable eps init : T.
  Variable ps : list (production T).
  Variable cands : T -> T -> list (list T).
  Variable tokens : list (token L T).
  Hypothesis Hok : productions_ok eps ps.
  Hypothesis Heps : ~ non_terminal ps eps.
  Hypothesis Hcov : covering eps init ps cands.
  Hypothesis Hll : reachable_ll1 eps ps init.
  Hypothesis Hord : nothing_vanishes_early eps ps init cands.

  Notation placed := (placed eps init ps tokens).
  Notation set_out := (set_out eps init ps tokens).
  Notation types := (map (@tok_type L T)).

  (** going right over the first trees of a forest *)
  Lemma set_out_skip before : forall Xs ns w u rest1 pos,
    set_out Xs (before ++ ns) w u rest1 pos ->
    exists Xs2 w2 u2, set_out Xs2 ns w2 u2 rest1 (pos + list_sum (map (tokens_of eps) before)).
  Proof.
    induction before as [|b before IH]; intros Xs ns w u rest1 pos Hs; simpl in *.
    - rewrite Nat.add_0_r. eauto.
    - destruct Hs as (Hf & Hctx & Hl & He & Hpos).
      inversion Hf as [|X Xs' b' ns' w1 w2 Ht Hf2]; subst.
      pose proof (set_out_tail _ Ht Hf2 Hctx Hl He Hpos) as Hs.
      apply IH in Hs as (Xs2 & w3 & u2 & Hs). exists Xs2, w3, u2.
      now rewrite (proj1 (tree_tokens_of (L := L) Hok) _ _ _ Ht), Nat.add_assoc.
  Qed.

  Definition placed_node (n : node L T) (pos : nat) : Prop :=
    exists out ns w u rest1 tok v, n = Node ns (Token None (tok_type (node_token n))) /\
      placed (tok_type (node_token n)) out ns w u rest1 pos /\ w ++ rest1 = tok :: v /\
      nth_error tokens pos = Some tok /\ In out (cands (tok_type (node_token n)) (tok_type tok)).

  Lemma part_placed n0 k n : part_of eps n0 k n -> non_terminal ps (tok_type (node_token n)) ->
    forall pos, placed_node n0 pos -> placed_node n (pos + k).
  Proof.
    intros Hp Hn. induction Hp as [n|before c after t k n Hp IH]; intros pos Hpl; [now rewrite Nat.add_0_r|].
    specialize (IH Hn). rewrite Nat.add_assoc. apply IH. clear IH.
    destruct Hpl as (out & ns & w & u & rest1 & tok & v & Heq & Hpl & _). assert (Hns0 : before ++ c :: after = ns) by congruence. clear Heq. subst ns.
    apply placed_set_out, set_out_skip in Hpl as (Xs2 & w2 & u2 & Hs).
    set (pos' := pos + list_sum (map (tokens_of eps) before)) in *.
    assert (HX : exists X Xs, Xs2 = X :: Xs /\ X = tok_type (node_token c)).
    { destruct Hs as (Hf & _). inversion Hf as [|X Xs c' ns' w1 w3 Ht Hf2]; subst.
      exists X, Xs. split; auto. symmetry. eapply tree_symbol; eauto. }
    destruct HX as (X & Xs & -> & ->).
    assert (Hc : non_terminal ps (tok_type (node_token c))).
    { inversion Hp as [|before' c' after' t' k' n' Hp']; subst; auto.
      destruct Hs as (Hf & _). inversion Hf as [|X Xs' c'' ns' w1 w3 Ht Hf2]; subst.
      inversion Ht as [tok' H1 H2 Hx|H1|p ch w' Hpp Hfp Hx]; subst.
      - destruct before'; discriminate.
      - destruct before'; discriminate.
      - simpl. exists p; auto. }
    apply (set_out_head Heps Hcov Hc) in Hs as (out' & ns1 & ns2 & w1 & w3 & tok' & v' & Hns & -> & Hpl & Hw & Hn' & Hin & _).
    inversion Hns as [Hc']. subst ns2. exists out', ns1, w1, u2, (w3 ++ rest1), tok', v'. splits; auto.
  Qed.
End Parts.

Lemma placed_shift {L T : Type} (eps init : T) ps (tokens : list (token L T)) X out ns w u rest1 k :
  placed eps init ps tokens X out ns w u rest1 k -> placed eps init ps (skipn k tokens) X out ns w u rest1 0.
Proof.
  intros (Hp & Hf & Hctx & Hl & He & pre & post & Ht & Hk). unfold placed. splits4; auto.
  exists [], post. split; auto. subst tokens k. rewrite skipn_app, skipn_all, Nat.sub_diag. reflexivity.
Qed.

(** ** C75: parts of a parse are parses *)
Theorem C75_in_order_partial :
  forall (L T : Type) (E : EqDec T) (eps init : T) (ps : list (production T))
         (solver solverX : option (syntax_error_solver L T))
         (self selfX : parser L T) (tokens : list (token L T)) (fuel : nat) (root n : node L T) (k : nat)
         (h : list (solver_call L T)),
    built_parser eps init ps solver self ->
    ll1 eps ps init -> nothing_vanishes_early eps ps init (candidates self) -> repeats_harmless eps ps init ->
    no_left_recursion_from eps ps init -> initial_ends_in_terminal eps ps init -> non_terminal ps init ->
    parse_from_tokens fuel self tokens = Done (ResultOk root, h) ->
    part_of eps root k n -> non_terminal ps (tok_type (node_token n)) ->
    built_parser eps (tok_type (node_token n)) ps solverX selfX ->
    terminates_with (fun fuel => parse_from_tokens fuel selfX (skipn k tokens)) (Done (ResultOk n, [])).
Proof.
  intros L T E eps init ps solver solverX self selfX tokens fuel root n k h B Hll Hlast Hrep Hlr Hend Hinit H Hp Hn BX.
  pose proof (built_with_solver None B) as B0. pose proof (built_with_solver None BX) as BX0.
  destruct (C99_in_order_any_solver tokens B Hll Hlast Hrep Hlr Hend Hinit) as [_ HO].
  destruct (HO _ _ _ H) as (_ & w & Hw & Hpre).
  destruct (C99_in_order_any_solver tokens B0 Hll Hlast Hrep Hlr Hend Hinit) as [HI _].
  pose proof (HI _ _ Hw Hpre) as Hok.
  pose proof (constructed_built B) as F.
  assert (Heps : ~ non_terminal ps eps) by apply (eps_not_nt (po_grammar (bf_of F))).
  pose proof (ll1_reachable Hll) as Hll'.
  pose proof Hlast as Hord.
  pose proof (harmless_covering (built_built B) Hrep Hinit) as Hcov.
  assert (Hroot : placed_node eps init ps (candidates self) tokens root 0).
  { destruct (root_placed Heps Hcov Hend Hinit Hw Hpre) as (out & ns & tok & v & -> & Hpl & Hw' & Hn' & Hin).
    exists out, ns, w, [], [], tok, v. simpl. rewrite app_nil_r. splits; auto. }
  destruct (part_placed (constructed_ok B) Heps Hcov Hll' Hord Hp Hn Hroot) as (out & ns & wn & u & rest1 & tok & v & Heq & Hpl & Hwn & Htok & Hin).
  simpl in *. apply placed_shift in Hpl.
  destruct (@C75_parts_accepted L T E eps init ps _ _ tokens root n k B0 Hok Hp Hn BX0) as [n' Hn'].
  pose proof (candidates_cells _ _ (built_same_cells B BX)) as Hc.
  assert (Hsk : exists rest', skipn k tokens = tok :: rest').
  { rewrite <- (Nat.add_0_r k) in Htok. rewrite <- nth_error_skipn' in Htok.
    destruct (skipn k tokens); [discriminate|]. simpl in Htok. inversion Htok. eauto. }
  destruct Hsk as [rest' Hsk]. rewrite Hsk in *.
  apply (C24_ordered_choice tok rest' BX0) in Hn' as (q & outs & Hch).
  set (X := tok_type (node_token n)) in *.
  change (candidates (with_solver selfX None)) with (candidates selfX) in Hch.
  assert (HcovX : covering eps init ps (candidates selfX)).
  { intros p u0 z a Hpp Hd Hst. rewrite Hc. exact (Hcov p u0 z a Hpp Hd Hst). }
  assert (Hsame : forall A a, candidates selfX A a = candidates self A a) by (intros A a; apply Hc).
  assert (HordX : nothing_vanishes_early eps ps init (candidates selfX)).
  { intros A a l1 o l2 p HA Hca Ho Hne Htb Hv. rewrite Hsame in Hca. apply (Hord A a l1 o l2 p HA Hca Ho Hne Htb).
    clear - Hv Hsame. induction Hv as [|Xs _ IH|X0 o Xs H1 H2 _ IH1 _ IH2]; [constructor|now constructor|].
    rewrite Hsame in H2. exact (vanishes_symbol H1 H2 IH1 IH2). }
  rewrite <- Hc in Hin.
  pose proof (proj1 (@placed_settled L T E eps init ps (candidates selfX) (tok :: rest') Heps HcovX
               (@order_others_fail L T eps init ps (candidates selfX) (tok :: rest')
                  (candidates_declared (constructed_built (built_constructed BX))) Hll' HordX))
             _ _ _ _ Hch out ns wn u rest1 tok v Hpl Hwn eq_refl eq_refl Hin) as Hset.
  rewrite <- Heq in Hset.
  eapply C99_settled_not_asked; [exact (built_constructed BX)|exact Hn|exact Hset].
Qed.
Print Assumptions C75_in_order_partial.

(** ** C38, C76: what comes after the tokens of the tree does not matter *)
Theorem C76_in_order :
  forall (L T : Type) (E : EqDec T) (eps init : T) (ps : list (production T))
         (solver : option (syntax_error_solver L T)) (self : parser L T)
         (fuel : nat) (tokens : list (token L T)) (root : node L T) (h : list (solver_call L T)),
    built_parser eps init ps solver self ->
    ll1 eps ps init -> nothing_vanishes_early eps ps init (candidates self) -> repeats_harmless eps ps init ->
    no_left_recursion_from eps ps init -> initial_ends_in_terminal eps ps init -> non_terminal ps init ->
    parse_from_tokens fuel self tokens = Done (ResultOk root, h) ->
    exists k, k <= length tokens /\ tree_for eps ps init root (firstn k tokens) /\
      forall more, terminates_with (fun fuel => parse_from_tokens fuel self (firstn k tokens ++ more))
                                   (Done (ResultOk root, [])).
Proof.
  intros L T E eps init ps solver self fuel tokens root h B Hll Hlast Hrep Hlr Hend Hinit H.
  destruct (C99_in_order_any_solver tokens B Hll Hlast Hrep Hlr Hend Hinit) as [_ HO].
  destruct (HO _ _ _ H) as (_ & w & Hw & rest & ->).
  exists (length w). rewrite firstn_app, Nat.sub_diag, firstn_all. simpl. rewrite app_nil_r, app_length.
  split; [lia|]. split; auto. intros more.
  apply (proj1 (C99_in_order_any_solver (w ++ more) B Hll Hlast Hrep Hlr Hend Hinit) root w Hw).
  exists more. reflexivity.
Qed.
Print Assumptions C76_in_order.

Theorem C38_in_order_partial :
  forall (L T : Type) (E : EqDec T) (eps init : T) (ps : list (production T))
         (solver : option (syntax_error_solver L T)) (self : parser L T)
         (tokens more : list (token L T)) (root : node L T) (fuel : nat) h,
    built_parser eps init ps solver self ->
    ll1 eps ps init -> nothing_vanishes_early eps ps init (candidates self) -> repeats_harmless eps ps init ->
    no_left_recursion_from eps ps init -> initial_ends_in_terminal eps ps init -> non_terminal ps init ->
    parse_from_tokens fuel self tokens = Done (ResultOk root, h) ->
    terminates_with (fun fuel => parse_from_tokens fuel self (tokens ++ more)) (Done (ResultOk root, [])).
Proof.
  intros L T E eps init ps solver self tokens more root fuel h B Hll Hlast Hrep Hlr Hend Hinit H.
  destruct (C76_in_order _ _ B Hll Hlast Hrep Hlr Hend Hinit H) as (k & _ & _ & Hm).
  rewrite <- (firstn_skipn k tokens), <- app_assoc. apply Hm.
Qed.
Print Assumptions C38_in_order_partial.

(** ** C77: replacing a part of the input *)
Theorem C77_in_order :
  forall (L T : Type) (E : EqDec T) (eps init : T) (ps : list (production T))
         (solver : option (syntax_error_solver L T)) (self : parser L T)
         (fuel k : nat) (tokens v' : list (token L T)) (root root' n n' : node L T) (h : list (solver_call L T)),
    built_parser eps init ps solver self ->
    ll1 eps ps init -> nothing_vanishes_early eps ps init (candidates self) -> repeats_harmless eps ps init ->
    no_left_recursion_from eps ps init -> initial_ends_in_terminal eps ps init -> non_terminal ps init ->
    parse_from_tokens fuel self tokens = Done (ResultOk root, h) ->
    replaced_at eps n n' root k root' ->
    (tree_for eps ps (tok_type (node_token n)) n' v' \/
     (* the other tree may come from the parser for the part's symbol *)
     exists solverX selfX fuelX after hX, built_parser eps (tok_type (node_token n)) ps solverX selfX /\
       parse_from_tokens fuelX selfX (v' ++ after) = Done (ResultOk n', hX) /\
       tokens_of eps n' = length v') ->
    exists u v rest,
      tokens = u ++ v ++ rest /\ length u = k /\ tree_for eps ps (tok_type (node_token n)) n v /\
      terminates_with (fun fuel => parse_from_tokens fuel self (u ++ v' ++ rest)) (Done (ResultOk root', [])).
Proof.
  intros L T E eps init ps solver self fuel k tokens v' root root' n n' h B Hll Hlast Hrep Hlr Hend Hinit H Hat Hv.
  assert (Hv' : tree_for eps ps (tok_type (node_token n)) n' v').
  { destruct Hv as [Hv|(sX & selfX & fX & after & hX & BX & HX & Hlen)]; auto.
    destruct (C14_parse_trees_valid _ _ (built_constructed BX) HX) as (_ & _ & w & Hw & after' & Heq).
    rewrite (proj1 (tree_tokens_of (L := L) (constructed_ok B)) _ _ _ Hw) in Hlen.
    assert (w = v'); [|subst; auto].
    apply (f_equal (firstn (length w))) in Heq. rewrite Hlen in Heq at 1.
    rewrite !firstn_app, !Nat.sub_diag, !firstn_all in Heq. simpl in Heq. rewrite !app_nil_r in Heq. auto. }
  clear Hv.
  destruct (C99_in_order_any_solver tokens B Hll Hlast Hrep Hlr Hend Hinit) as [_ HO].
  destruct (HO _ _ _ H) as (_ & w & Hw & rest & ->).
  destruct (replaced_tree (constructed_ok B) Hat Hw) as (u & v & rest' & -> & <- & Htv & Hr).
  exists u, v, (rest' ++ rest). split; [now rewrite <- !app_assoc|]. split; auto. split; auto.
  apply (proj1 (C99_in_order_any_solver (u ++ v' ++ rest' ++ rest) B Hll Hlast Hrep Hlr Hend Hinit) root' (u ++ v' ++ rest')); auto.
  exists rest. now rewrite <- !app_assoc.
Qed.
Print Assumptions C77_in_order.

(** the grammar of C69_case, whose table has a conflict: on [5 6 8] every part that is a
    non-terminal is found by the parser for its own symbol *)
Example C75_in_order_case :
  let tokens := [Token (Some 9) 5; Token None 6; Token None 8] : list (token nat nat) in
  built_parser 0 1 ll1_reordered None reordered_parser /\
  ll1 0 ll1_reordered 1 /\ nothing_vanishes_early 0 ll1_reordered 1 (candidates reordered_parser) /\ repeats_harmless 0 ll1_reordered 1 /\
  no_left_recursion_from 0 ll1_reordered 1 /\ initial_ends_in_terminal 0 ll1_reordered 1 /\
  non_terminal ll1_reordered 1 /\ ~ conflict_free (pr_transitions reordered_parser) /\
  exists root n (selfX : parser nat nat),
    parse_from_tokens 80 reordered_parser tokens = Done (ResultOk root, []) /\
    part_of 0 root 0 n /\ non_terminal ll1_reordered (tok_type (node_token n)) /\ n <> root /\
    built_parser 0 (tok_type (node_token n)) ll1_reordered None selfX /\
    replaced_at 0 n n root 0 root.
Proof.
  intros tokens. destruct C69_case as (H1 & H2 & H3 & H4 & H5 & H6 & H7 & H8 & H9 & _ & H10).
  splits; auto.
  - exact (C22_in_order_covers H1 (or_intror H3)).
  - eapply eof_ends; eauto.
  - do 3 eexists. splits.
    + vm_compute. reflexivity.
    + apply (@part_child nat nat _ 0 [] _ _ _ 0 _ (part_whole _ _)).
    + apply non_terminalb_spec. reflexivity.
    + discriminate.
    + apply build_built with (fuel := 50). vm_compute. reflexivity.
    + apply (@replaced_child nat nat _ 0 _ _ [] _ _ _ _ 0 (replaced_whole _ _ _)).
Qed.
