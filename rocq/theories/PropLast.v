(** * LL(1) grammars whose nullable alternatives are declared last: C69 *)

From Verif Require Import LeftRecFacts BaseFacts GrammarFacts DerivFacts FirstFacts FollowFacts FollowRepeat TransitionsFacts.
From Verif Require Import ProductiveSpec LastSpec LastFacts ParserBuild Examples LL1Check PropParse PropReports PropGuided PropLeftRec.

Set Implicit Arguments.

(** the candidates are in the order of declaration *)
Lemma constructed_cells {L T : Type} {E : EqDec T} (eps init : T) ps sol (self : parser L T) :
  constructed_parser eps init ps sol self ->
  forall A a l, transitions_get_productions (pr_transitions self) A a = Some l ->
  exists keep, l = filter keep (productions_of ps A).
Proof.
  intros (ho1 & ho2 & g & Hg & H) A a l Hl. apply cfg_new_grammar_of in Hg as G.
  assert (Ht : exists ffs, transitions_from ho2 g ffs = Done (pr_transitions self)).
  { destruct sol as [s|].
    - destruct H as [fuel H]. unfold from_grammar_and_solver in H. apply bind_done in H as (ffs & _ & H2).
      exists ffs. eapply rdp_from_inv; eauto.
    - destruct H as [ffs H]. exists ffs. eapply rdp_from_inv; eauto. }
  destruct Ht as [ffs Ht]. rewrite (transitions_cells G _ _ Ht) in Hl.
  destruct (is_non_terminal g A && is_terminal g a); inversion Hl. eauto.
Qed.

Lemma filter_mid (A : Type) (f : A -> bool) l l1 x l2 : filter f l = l1 ++ x :: l2 ->
  exists m1 m2, l = m1 ++ x :: m2 /\ l2 = filter f m2.
Proof.
  revert l1. induction l as [|y l IH]; intros l1 H; simpl in H.
  - now destruct l1.
  - destruct (f y).
    + destruct l1 as [|z l1]; simpl in H; inversion H; subst.
      * exists [], l. auto.
      * destruct (IH _ H2) as (m1 & m2 & -> & ->). exists (z :: m1), m2. auto.
    + destruct (IH _ H) as (m1 & m2 & -> & ->). exists (y :: m1), m2. auto.
Qed.

(** the conditions of C69 where the initial symbol reaches *)
Definition reachable_ll1 {T : Type} (eps : T) (ps : list (production T)) (init : T) : Prop :=
  forall A a p q, reachable_from eps ps init A ->
    textbook_cell eps ps init A a p -> textbook_cell eps ps init A a q -> p = q.
Definition reachable_nullable_last {T : Type} (eps : T) (ps : list (production T)) (init : T) : Prop :=
  forall before p after q,
    ps = before ++ p :: after -> reachable_from eps ps init (p_input p) ->
    In q after -> p_input q = p_input p -> q <> p -> ~ nullable eps ps (p_output p).

Lemma ll1_reachable {T : Type} (eps : T) ps init : ll1 eps ps init -> reachable_ll1 eps ps init.
Proof. intros H A a p q _. apply H. Qed.
Lemma nullable_last_reachable {T : Type} (eps : T) ps init : nullable_last eps ps -> reachable_nullable_last eps ps init.
Proof. intros H b p a q Hps _. now apply (H b p a q). Qed.

Lemma nullable_last_order {L T : Type} {E : EqDec T} (eps init : T) ps sol (self : parser L T) :
  constructed_parser eps init ps sol self -> reachable_nullable_last eps ps init ->
  nothing_vanishes_early eps ps init (candidates self).
Proof.
  intros B Hlast A a l1 out l2 p0 HA Hc Hin Hne _ Hv.
  apply (vanishes_nullable (candidates_declared (constructed_built B))) in Hv. revert Hv. unfold candidates in Hc.
  revert Hin Hne. generalize (p_output p0). clear p0. intros out' Hin Hne.
  destruct (transitions_get_productions (pr_transitions self) A a) as [l|] eqn:Hl; [|now destruct l1].
  destruct (constructed_cells B _ _ Hl) as [keep ->].
  apply map_eq_app in Hc as (k1 & k2 & Hk & _ & Hc).
  apply map_eq_cons in Hc as (p & k3 & -> & <- & <-).
  unfold productions_of in Hk.
  apply filter_mid in Hk as (m1 & m2 & Hm & ->). apply filter_mid in Hm as Hm2.
  destruct Hm2 as (n1 & n2 & Hps & ->).
  apply in_map_iff in Hin as (q & <- & Hq).
  apply filter_In in Hq as [Hq _]. apply filter_In in Hq as [Hq Hqi].
  assert (Hp : In p (productions_of ps A)).
  { unfold productions_of. rewrite Hm. apply in_or_app. right. now left. }
  apply productions_of_In in Hp as [_ Hpi].
  assert (Hq' : In q (productions_of ps A)).
  { unfold productions_of. apply filter_In. split; auto. rewrite Hps. apply in_or_app. right. now right. }
  apply productions_of_In in Hq' as [_ Hqi'].
  apply (Hlast n1 p n2 q Hps); [congruence|exact Hq|congruence|]. intros ->. auto.
Qed.

Lemma conflict_free_order {L T : Type} {E : EqDec T} (eps init : T) ps (self : parser L T) :
  conflict_free (pr_transitions self) -> nothing_vanishes_early eps ps init (candidates self).
Proof.
  intros Hcf A a l1 out l2 p _ Hc Hin _ _ _. unfold candidates in Hc.
  destruct (transitions_get_productions (pr_transitions self) A a) as [l|] eqn:Hl; [|now destruct l1].
  apply Hcf in Hl. apply (f_equal (@length _)) in Hc. rewrite map_length, app_length in Hc. simpl in Hc.
  destruct l2; [destruct Hin|]. simpl in Hc. lia.
Qed.

(** the same for any table with the candidates needed, see [covering] *)
Lemma covering_order_exact :
  forall (L T : Type) (E : EqDec T) (eps init : T) (ps : list (production T))
         (self : parser L T) (tokens w : list (token L T)) (root : node L T),
    constructed_parser eps init ps None self -> covering eps init ps (candidates self) ->
    reachable_ll1 eps ps init -> nothing_vanishes_early eps ps init (candidates self) ->
    no_left_recursion_from eps ps init -> initial_ends_in_terminal eps ps init ->
    non_terminal ps init -> tree_for eps ps init root w -> prefix w tokens ->
    terminates_with (fun fuel => parse_from_tokens fuel self tokens) (Done (ResultOk root, [])).
Proof.
  intros L T E eps init ps self tokens w root B Hcov Hll Hord Hlr Hend Hinit Ht Hpre.
  pose proof (constructed_built B) as F.
  assert (Heps : ~ non_terminal ps eps) by apply (eps_not_nt (po_grammar (bf_of F))).
  destruct (root_placed Heps Hcov Hend Hinit Ht Hpre) as (out & ns & tok & v & -> & Hpl & Hw & Hn & Hin).
  assert (Htok : exists rest, tokens = tok :: rest).
  { destruct tokens as [|t ts]; simpl in Hn; inversion Hn. eauto. }
  destruct Htok as [rest ->].
  assert (Hpr : progressing (None : option (syntax_error_solver L T))) by (intros s h c fr; discriminate).
  destruct (C19_parsing_terminates (tok :: rest) B Hlr Hpr) as [r Hr].
  assert (Hwt : w ++ [] = tok :: v) by now rewrite app_nil_r.
  pose proof Hr as [Hne [n Hrun]]. specialize (Hrun n (le_n _)).
  destruct r as [[res h]|pn|]; [| |congruence].
  - apply (parse_choice_sound (bf_of F) (bf_solver F)) in Hrun as (tok' & rest' & Htok & -> & Hc).
    inversion Htok; subst tok' rest'.
    assert (Hwin : forall r, choose eps ps (tok :: rest) (candidates self) init 0
        (candidates self init (tok_type tok)) r ->
      exists outs', r = Some (Node ns (Token None init), length w, outs')).
    { intros r Hch. exact (proj1 (right_candidate_wins (tok :: rest) Heps (candidates_declared F) Hcov Hll Hord)
        _ _ _ _ Hch out ns w [] [] tok v [] Hpl Hwt Hn eq_refl Hin). }
    destruct res as [root|f|f].
    + destruct Hc as (q & outs & Hc). destruct (Hwin _ Hc) as [o Heq]. inversion Heq; subst. exact Hr.
    + destruct (Hwin _ Hc) as [o Heq]. discriminate.
    + destruct Hc.
  - exfalso. assert (Hpn : pn = PanicTokenOutOfRange).
    { assert (Hne' : tok :: rest <> []) by discriminate.
      destruct (C17_no_panic_partial _ B Hne' Hrun) as [(_ & s & h & c & Hs & _)|[Hp _]]; [discriminate Hs|auto]. }
    subst pn. apply (parse_past_sound (bf_of F) (bf_solver F)) in Hrun.
    exact (proj1 (right_candidate_not_past (tok :: rest) Heps (candidates_declared F) Hcov Hll Hord)
        _ _ _ Hrun out ns w [] [] tok v [] Hpl Hwt Hn eq_refl Hin).
Qed.

Lemma covering_last_exact :
  forall (L T : Type) (E : EqDec T) (eps init : T) (ps : list (production T))
         (self : parser L T) (tokens w : list (token L T)) (root : node L T),
    constructed_parser eps init ps None self -> covering eps init ps (candidates self) ->
    reachable_ll1 eps ps init -> reachable_nullable_last eps ps init ->
    no_left_recursion_from eps ps init -> initial_ends_in_terminal eps ps init ->
    non_terminal ps init -> tree_for eps ps init root w -> prefix w tokens ->
    terminates_with (fun fuel => parse_from_tokens fuel self tokens) (Done (ResultOk root, [])).
Proof.
  intros L T E eps init ps self tokens w root B Hcov Hll Hlast.
  exact (covering_order_exact B Hcov Hll (nullable_last_order B Hlast)).
Qed.

(** ** Whatever conflicts the table has: a tree over a prefix of the input is the answer *)
Theorem C69_nullable_last_exact :
  forall (L T : Type) (E : EqDec T) (eps init : T) (ps : list (production T))
         (self : parser L T) (tokens w : list (token L T)) (root : node L T),
    built_parser eps init ps None self ->
    ll1 eps ps init -> nullable_last eps ps ->
    repeats_harmless eps ps init -> no_left_recursion_from eps ps init ->
    initial_ends_in_terminal eps ps init -> non_terminal ps init ->
    tree_for eps ps init root w -> prefix w tokens ->
    terminates_with (fun fuel => parse_from_tokens fuel self tokens) (Done (ResultOk root, [])).
Proof.
  intros L T E eps init ps self tokens w root B Hll Hlast Hrep Hlr Hend Hinit.
  exact (covering_last_exact B (harmless_covering (built_built B) Hrep Hinit) (ll1_reachable Hll) (nullable_last_reachable Hlast) Hlr Hend Hinit).
Qed.
Print Assumptions C69_nullable_last_exact.

(** ** C22 holds for these grammars *)
Theorem C69_ll1_sentences_accepted :
  forall (L T : Type) (E : EqDec T) (eps init : T) (ps : list (production T))
         (self : parser L T) (tokens : list (token L T)),
    built_parser eps init ps None self ->
    ll1 eps ps init -> nullable_last eps ps -> repeats_harmless eps ps init ->
    all_productive eps ps init -> initial_ends_in_terminal eps ps init -> non_terminal ps init ->
    derives eps ps [init] (map (@tok_type L T) tokens) ->
    Forall (fun t => tok_type t <> eps /\ ~ non_terminal ps (tok_type t)) tokens ->
    exists root, tree_for eps ps init root tokens /\
      (forall root', tree_for eps ps init root' tokens -> root' = root) /\
      terminates_with (fun fuel => parse_from_tokens fuel self tokens) (Done (ResultOk root, [])).
Proof.
  intros L T E eps init ps self tokens B Hll Hlast Hrep Hprod Hend Hinit Hd Hl.
  assert (Hlr : no_left_recursion_from eps ps init).
  { apply ll1_no_left_recursion; auto. apply (go_ok (po_grammar (bf_of (built_built B)))). }
  destruct (derives_tree Hd Hl) as [root Ht]. exists root. split; auto.
  assert (Hpre : prefix tokens tokens) by (exists []; now rewrite app_nil_r).
  pose proof (C69_nullable_last_exact B Hll Hlast Hrep Hlr Hend Hinit Ht Hpre) as H1.
  split; auto. intros root' Ht'.
  pose proof (C69_nullable_last_exact B Hll Hlast Hrep Hlr Hend Hinit Ht' Hpre) as H2.
  pose proof (terminates_unique H2 H1) as Heq. now inversion Heq.
Qed.
Print Assumptions C69_ll1_sentences_accepted.

(** ** With an end marker: every token list is decided *)
Theorem C69_decides :
  forall (L T : Type) (E : EqDec T) (eps init eof : T) (ps : list (production T))
         (self : parser L T) (before : list (token L T)) (t : token L T),
    built_parser eps init ps None self ->
    ll1 eps ps init -> nullable_last eps ps -> repeats_harmless eps ps init ->
    no_left_recursion_from eps ps init -> eof_discipline eps ps init eof -> non_terminal ps init ->
    tok_type t = eof -> Forall (fun x => tok_type x <> eof) before ->
    exists res,
      terminates_with (fun fuel => parse_from_tokens fuel self (before ++ [t])) (Done (res, [])) /\
      (forall root, res = ResultOk root <-> tree_for eps ps init root (before ++ [t])) /\
      ((exists f, res = ResultErr f) <-> forall root, ~ tree_for eps ps init root (before ++ [t])).
Proof.
  intros L T E eps init eof ps self before t B Hll Hlast Hrep Hlr He Hinit Ht Hb.
  set (tokens := before ++ [t]).
  assert (Hne : tokens <> []) by (unfold tokens; destruct before; discriminate).
  assert (Hpr : progressing (None : option (syntax_error_solver L T))) by (intros s h c fr; discriminate).
  destruct (C19_parsing_terminates tokens B Hlr Hpr) as [r Hr].
  destruct r as [[res h]|q|].
  2:{ exfalso. destruct Hr as [_ [n Hr]]. specialize (Hr n (le_n _)).
      destruct (C17_no_panic_partial _ B Hne Hr) as [(_ & s & h & c & Hs & _)|[_ Hno]]; [discriminate Hs|].
      apply Hno. exists eof. split; auto. split; [exists before, t; auto|]. intros s h c fr; discriminate. }
  2:{ exfalso. now destruct Hr. }
  pose proof Hr as [_ [n Hr']]. pose proof (Hr' n (le_n _)) as Hn. clear Hr'.
  destruct (C29_fix_needs_answer _ _ B Hn) as [Hnone _]. destruct (Hnone eq_refl) as [-> Hfix].
  assert (Hl : forall b x a, tokens = b ++ x :: a -> tok_type x = eof -> a = []).
  { intros b x a Hx Hxe. unfold tokens in Hx.
    destruct a as [|y a]; auto. exfalso.
    destruct (app_eq_mid _ _ _ _ Hx) as [(m & H1 & H2)|(m & H1 & H2)].
    - destruct m as [|z m]; simpl in H2; [discriminate|]. inversion H2; subst.
      rewrite Forall_forall in Hb. apply (Hb z); auto. apply in_or_app. right. now left.
    - destruct m as [|z m]; simpl in H2; inversion H2. now destruct m. }
  assert (Hok : forall root, res = ResultOk root -> tree_for eps ps init root tokens).
  { intros root ->. exact (C16_whole_input_partial _ B He Hl Hn). }
  assert (Hcomplete : forall root, tree_for eps ps init root tokens -> res = ResultOk root).
  { intros root Htr. assert (Hpre : prefix tokens tokens) by (exists []; now rewrite app_nil_r).
    pose proof (C69_nullable_last_exact B Hll Hlast Hrep Hlr (eof_ends He) Hinit Htr Hpre) as H1.
    pose proof (terminates_unique Hr H1) as Heq. now inversion Heq. }
  exists res. split; [exact Hr|]. split; [split; auto|]. split.
  - intros [f ->] root Htr. specialize (Hcomplete _ Htr). discriminate.
  - intros Hno. destruct res as [root|f|f]; [|eauto|].
    + exfalso. apply (Hno root). auto.
    + exfalso. eapply Hfix; eauto.
Qed.
Print Assumptions C69_decides.

(** ** A case: the grammar that refutes C22, with the nullable alternative moved last.
    0 epsilon; S = 1 -> Z c $ | d B b $; Z = 2 -> A; A = 3 -> b | B; B = 4 -> epsilon;
    b = 5, c = 6, d = 7, $ = 8.  The cell of (A, b) still holds both alternatives of A. *)
Definition ll1_reordered : list (production nat) :=
  [Production 1 [2; 6; 8]; Production 1 [7; 4; 5; 8]; Production 2 [3];
   Production 3 [5]; Production 3 [4]; Production 4 [0]].
Definition reordered_parser : parser nat nat := Eval vm_compute in
  get_done (no_parser 0) (build (L := nat) 0 1 ll1_reordered None 200).

Lemma reordered_built : built_parser 0 1 ll1_reordered None reordered_parser.
Proof. apply build_built with (fuel := 200). vm_compute. reflexivity. Qed.

Lemma reordered_ll1 : ll1 0 ll1_reordered 1.
Proof.
  destruct (cfg_new (insertion_order nat) 0 1 ll1_reordered) as [g| |] eqn:Hg; try discriminate.
  assert (Hg2 := Hg). vm_compute in Hg. inversion Hg as [Hg'].
  destruct (ffs_from (insertion_order nat) 200 g) as [ffs| |] eqn:Hf;
    [|subst g; vm_compute in Hf; discriminate..].
  apply (ll1_check_ok _ _ _ Hg2 Hf).
  - apply no_repeated_neighbours_check. reflexivity.
  - apply non_terminalb_spec. reflexivity.
  - subst g. vm_compute in Hf. inversion Hf; subst ffs. vm_compute. reflexivity.
Qed.

Lemma reordered_not_nullable w : existsb (fun x => negb (existsb (Nat.eqb x) [0; 2; 3; 4])) w = true ->
  ~ nullable 0 ll1_reordered w.
Proof.
  intros Hw H.
  apply nullable_check_ok with (N := fun x => existsb (Nat.eqb x) [0; 2; 3; 4]) in H; [|reflexivity|].
  - apply existsb_exists in Hw as (x & Hin & Hx). rewrite forallb_forall in H. rewrite (H x Hin) in Hx. discriminate.
  - simpl. intros q Hq. decompose [or] Hq; subst; try reflexivity; try contradiction; discriminate.
Qed.

Lemma reordered_last : nullable_last 0 ll1_reordered.
Proof.
  intros before p after q Hps Hq Hi Hne.
  do 6 (destruct before as [|? before];
    [inversion Hps; subst p after; simpl in Hq; decompose [or] Hq; subst; try discriminate; try contradiction;
     apply reordered_not_nullable; reflexivity|
     apply (f_equal (@tl _)) in Hps; cbn [tl ll1_reordered app] in Hps]).
  destruct before; discriminate.
Qed.

Lemma reordered_productive : all_productive 0 ll1_reordered 1.
Proof.
  assert (Hf : forall x, fin ll1_reordered x).
  { assert (Ht : forall x, non_terminalb ll1_reordered x = false -> fin ll1_reordered x).
    { intros x Hx. apply fin_terminal. now apply non_terminalb_false. }
    assert (Hp : forall X out, In (Production X out) ll1_reordered ->
                               (forall y, In y out -> fin ll1_reordered y) -> fin ll1_reordered X).
    { intros X out Hin Hout. exact (fin_production (Production X out) Hin (fins_forall _ Hout)). }
    assert (H4 : fin ll1_reordered 4) by (apply Hp with [0]; [simpl; tauto|intros y [<-|[]]; now apply Ht]).
    assert (H3 : fin ll1_reordered 3) by (apply Hp with [5]; [simpl; tauto|intros y [<-|[]]; now apply Ht]).
    assert (H2 : fin ll1_reordered 2) by (apply Hp with [3]; [simpl; tauto|intros y [<-|[]]; auto]).
    assert (H1 : fin ll1_reordered 1)
      by (apply Hp with [2; 6; 8]; [simpl; tauto|intros y [<-|[<-|[<-|[]]]]; auto; now apply Ht]).
    intros x. destruct x as [|[|[|[|[|x]]]]]; auto; apply Ht; reflexivity. }
  intros X _ _. exact (proj1 (fin_yield 0 ll1_reordered) X (Hf X)).
Qed.

Lemma reordered_eof : eof_discipline 0 ll1_reordered 1 8.
Proof.
  split; [discriminate|]. split; [apply non_terminalb_false; reflexivity|].
  split; [|split].
  - intros p Hp. simpl in Hp. intros Hin.
    decompose [or] Hp; subst; simpl in Hin; intuition discriminate.
  - intros p Hp Hi. simpl in Hp.
    decompose [or] Hp; subst; try discriminate; try contradiction.
    + exists [2; 6]. split; [reflexivity|simpl; intuition discriminate].
    + exists [7; 4; 5]. split; [reflexivity|simpl; intuition discriminate].
  - intros p Hp Hi. simpl in Hp. intros Hin.
    decompose [or] Hp; subst; simpl in Hin, Hi; intuition discriminate.
Qed.

Example C69_case :
  built_parser 0 1 ll1_reordered None reordered_parser /\
  ll1 0 ll1_reordered 1 /\ nullable_last 0 ll1_reordered /\ repeats_harmless 0 ll1_reordered 1 /\
  no_left_recursion_from 0 ll1_reordered 1 /\ eof_discipline 0 ll1_reordered 1 8 /\
  all_productive 0 ll1_reordered 1 /\
  non_terminal ll1_reordered 1 /\
  ~ conflict_free (pr_transitions reordered_parser) /\
  (forall p, In p ll1_reordered <-> In p ll1_rejecting) /\
  exists root, tree_for 0 ll1_reordered 1 root [Token (Some 9) 5; Token None 6; Token None 8].
Proof.
  splits.
  - exact reordered_built.
  - exact reordered_ll1.
  - exact reordered_last.
  - apply no_repeated_neighbours_harmless. apply no_repeated_neighbours_check. reflexivity.
  - apply no_left_recursion_anywhere. apply rank_check_ok with (N := fun x => existsb (Nat.eqb x) [0; 2; 3; 4])
      (rank := fun x => match x with 1 => 4 | 2 => 3 | 3 => 2 | 4 => 1 | _ => 0 end). reflexivity.
  - exact reordered_eof.
  - exact reordered_productive.
  - apply non_terminalb_spec. reflexivity.
  - intros H. specialize (H 3 5 [Production 3 [5]; Production 3 [4]] eq_refl). simpl in H. lia.
  - intros p. simpl. tauto.
  - exists (Node [Node [Node [Node [] (Token (Some 9) 5)] (Token None 3)] (Token None 2);
                  Node [] (Token None 6); Node [] (Token None 8)] (Token None 1)).
    assert (Ht : forall t : token nat nat, existsb (Nat.eqb (tok_type t)) [5; 6; 8] = true ->
      tree_for 0 ll1_reordered (tok_type t) (Node [] t) [t]).
    { intros t Hx. apply existsb_exists in Hx as (x & Hin & Hx). apply Nat.eqb_eq in Hx.
      apply tree_token; rewrite Hx; clear Hx; simpl in Hin; decompose [or] Hin; subst; try discriminate; try contradiction;
        apply non_terminalb_false; reflexivity. }
    apply (@tree_production _ _ 0 ll1_reordered (Production 1 [2; 6; 8])); [simpl; auto|].
    change [Token (Some 9) 5; Token None 6; Token None 8]
      with ([Token (Some 9) 5] ++ [Token None 6] ++ [Token (L := nat) None 8] ++ []).
    constructor; [|constructor; [exact (Ht (Token None 6) eq_refl)|constructor; [exact (Ht (Token None 8) eq_refl)|constructor]]].
    apply (@tree_production _ _ 0 ll1_reordered (Production 2 [3])); [simpl; auto 10|].
    change [Token (Some 9) 5] with ([Token (Some 9) 5] ++ []). constructor; [|constructor].
    apply (@tree_production _ _ 0 ll1_reordered (Production 3 [5])); [simpl; auto 10|].
    change [Token (Some 9) 5] with ([Token (Some 9) 5] ++ []). constructor; [|constructor].
    exact (Ht (Token (Some 9) 5) eq_refl).
Qed.
