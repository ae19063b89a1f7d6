(** * Working around the FOLLOW of repeated neighbours with aliases: C88 *)

From Verif Require Import BaseFacts GrammarFacts DerivFacts FollowRepeat ParserSound ParserBuild MoreFacts.
From Verif Require Import Examples LL1Check PropParse PropReports PropGuided PropLeftRec PropLast.
From Verif Require Export SplitSpec.
From Verif Require Import SplitFacts.

Set Implicit Arguments.

(** ** The grammar with aliases is accepted by the constructors, repeats no non-terminal, and
    has the same trees once the alias nodes are taken out *)
Theorem C88_same_language :
  forall (L T : Type) (E : EqDec T) (eps init : T) (ps : list (production T)) (alias : T -> T),
    productions_ok eps ps -> fresh_aliases alias eps ps -> non_terminal ps init ->
    (forall solver, exists self, built_parser (L := L) eps init (split_repeats alias ps) solver self) /\
    no_repeated_neighbours (split_repeats alias ps) /\
    (ll1 eps (split_repeats alias ps) init <-> ll1 eps ps init) /\
    (forall root w, tree_for (L := L) eps (split_repeats alias ps) init root w ->
       tree_for eps ps init (merge_aliases alias ps root) w) /\
    (forall root w, tree_for (L := L) eps ps init root w ->
       exists root', tree_for eps (split_repeats alias ps) init root' w /\
                     merge_aliases alias ps root' = root).
Proof.
  intros L T E eps init ps alias Hok Hf Hinit.
  assert (Hu : unalias ps alias init = init) by (eapply unalias_nt; eauto).
  split; [|split; [|split; [|split]]].
  - intros solver.
    destruct (@built_exists L T E eps init (split_repeats alias ps)
                (insertion_order T) (insertion_order T) solver (split_ok Hok Hf)) as (fuel & g & self & _ & _ & B).
    now exists self.
  - exact (split_no_repeated Hf).
  - split; [apply (split_ll1_inv Hok Hf Hinit)|apply (split_ll1 Hf Hinit)].
  - intros root w Ht. apply (proj1 (merge_tree Hf)) in Ht. now rewrite Hu in Ht.
  - intros root w Ht. exact (proj1 (split_tree Hok Hf) _ _ _ Ht _ Hu).
Qed.
Print Assumptions C88_same_language.

(** ** The parser built from it finds the tree of the original grammar *)
Theorem C88_split_exact :
  forall (L T : Type) (E : EqDec T) (eps init : T) (ps : list (production T)) (alias : T -> T)
         (self : parser L T) (tokens w : list (token L T)) (root : node L T),
    productions_ok eps ps -> fresh_aliases alias eps ps ->
    built_parser eps init (split_repeats alias ps) None self ->
    ll1 eps ps init -> nullable_last eps ps -> no_left_recursion_from eps ps init ->
    initial_ends_in_terminal eps ps init -> non_terminal ps init ->
    tree_for eps ps init root w -> prefix w tokens ->
    exists root', merge_aliases alias ps root' = root /\
      terminates_with (fun fuel => parse_from_tokens fuel self tokens) (Done (ResultOk root', [])).
Proof.
  intros L T E eps init ps alias self tokens w root Hok Hf B Hll Hlast Hlr Hend Hinit Ht Hpre.
  destruct (@C88_same_language L T E eps init ps alias Hok Hf Hinit) as (_ & Hrep & _ & _ & Hlift).
  destruct (Hlift _ _ Ht) as (root' & Ht' & Hm). exists root'. split; auto.
  assert (Hinit' : non_terminal (split_repeats alias ps) init) by (eapply split_nt; eauto).
  exact (C69_nullable_last_exact B (split_ll1 Hf Hinit Hll) (split_nullable_last Hf Hlast)
    (@no_repeated_neighbours_harmless T eps (split_repeats alias ps) init Hrep) (split_no_left_recursion Hok Hf Hinit Hlr)
    (split_initial_ends Hf Hinit Hend) Hinit' Ht' Hpre).
Qed.
Print Assumptions C88_split_exact.

(** ** With an end marker: every token list is decided, by the original grammar *)
Theorem C88_split_decides :
  forall (L T : Type) (E : EqDec T) (eps init eof : T) (ps : list (production T)) (alias : T -> T)
         (self : parser L T) (before : list (token L T)) (t : token L T),
    productions_ok eps ps -> fresh_aliases alias eps ps ->
    built_parser eps init (split_repeats alias ps) None self ->
    ll1 eps ps init -> nullable_last eps ps -> no_left_recursion_from eps ps init ->
    eof_discipline eps ps init eof -> non_terminal ps init ->
    tok_type t = eof -> Forall (fun x => tok_type x <> eof) before ->
    exists res,
      terminates_with (fun fuel => parse_from_tokens fuel self (before ++ [t])) (Done (res, [])) /\
      (forall root, (exists root', res = ResultOk root' /\ merge_aliases alias ps root' = root) <->
                    tree_for eps ps init root (before ++ [t])) /\
      ((exists f, res = ResultErr f) <-> forall root, ~ tree_for eps ps init root (before ++ [t])).
Proof.
  intros L T E eps init eof ps alias self before t Hok Hf B Hll Hlast Hlr He Hinit Ht Hb.
  destruct (@C88_same_language L T E eps init ps alias Hok Hf Hinit) as (_ & Hrep & _ & Hmerge & Hlift).
  assert (Hinit' : non_terminal (split_repeats alias ps) init) by (eapply split_nt; eauto).
  destruct (@C69_decides L T E eps init eof (split_repeats alias ps) self before t B (split_ll1 Hf Hinit Hll) (split_nullable_last Hf Hlast)
    (@no_repeated_neighbours_harmless T eps (split_repeats alias ps) init Hrep) (split_no_left_recursion Hok Hf Hinit Hlr)
    (split_eof Hf Hinit He) Hinit' Ht Hb) as (res & H1 & H2 & H3).
  exists res. split; [auto|]. split.
  - intros root. split.
    + intros (root' & Hres & <-). apply Hmerge. now apply H2.
    + intros Htr. destruct (Hlift _ _ Htr) as (root' & Htr' & Hm). exists root'. split; auto. now apply H2.
  - rewrite H3. split; intros H root Htr.
    + destruct (Hlift _ _ Htr) as (root' & Htr' & _). now apply (H root').
    + apply (H (merge_aliases alias ps root)). auto.
Qed.
Print Assumptions C88_split_decides.

(** ** A case.  0 epsilon; 1 -> 2 2 9; 2 -> 3 5; 5 -> 4 | epsilon; the alias of x is x + 10.
    The parser of the grammar as it stands rejects 3 3 9; that of the split grammar accepts it. *)
Definition twice_productions : list (production nat) :=
  [Production 1 [2; 2; 9]; Production 2 [3; 5]; Production 5 [4]; Production 5 [0]].
Definition twice_alias (x : nat) : nat := x + 10.
Definition twice_parser : parser nat nat := Eval vm_compute in
  get_done (no_parser 0) (build (L := nat) 0 1 twice_productions None 200).
Definition split_parser : parser nat nat := Eval vm_compute in
  get_done (no_parser 0) (build (L := nat) 0 1 (split_repeats twice_alias twice_productions) None 200).

Definition twice_tokens : list (token nat nat) :=
  [Token (Some 7) 3; Token (Some 8) 3; Token None 9].

Definition twice_tree : node nat nat :=
  Node [Node [Node [] (Token (Some 7) 3); Node [Node [] (Token None 0)] (Token None 5)] (Token None 2);
        Node [Node [] (Token (Some 8) 3); Node [Node [] (Token None 0)] (Token None 5)] (Token None 2);
        Node [] (Token None 9)] (Token None 1).

Lemma split_example : split_repeats twice_alias twice_productions =
  [Production 1 [2; 12; 9]; Production 2 [3; 5]; Production 5 [4]; Production 5 [0]; Production 12 [2]].
Proof. vm_compute. reflexivity. Qed.

Lemma twice_not_nullable w : existsb (fun x => negb (existsb (Nat.eqb x) [0; 5])) w = true ->
  ~ nullable 0 twice_productions w.
Proof.
  intros Hw H.
  apply nullable_check_ok with (N := fun x => existsb (Nat.eqb x) [0; 5]) in H; [|reflexivity|].
  - apply existsb_exists in Hw as (x & Hin & Hx). rewrite forallb_forall in H. rewrite (H x Hin) in Hx. discriminate.
  - simpl. intros q Hq. decompose [or] Hq; subst; try reflexivity; try contradiction; discriminate.
Qed.

Lemma twice_rejected : exists f, terminates_with
  (fun fuel => parse_from_tokens fuel twice_parser twice_tokens) (Done (ResultErr f, [])).
Proof.
  eexists. split; [discriminate|]. exists 50. intros fuel Hf. apply parse_mono with (fuel := 50); [vm_compute; reflexivity|discriminate|exact Hf].
Qed.

Lemma twice_split_ll1 : ll1 0 (split_repeats twice_alias twice_productions) 1.
Proof.
  rewrite split_example. set (sp := [_; _; _; _; _]).
  destruct (cfg_new (insertion_order nat) 0 1 sp) as [g| |] eqn:Hg; try discriminate.
  assert (Hg2 := Hg). vm_compute in Hg. inversion Hg as [Hg'].
  destruct (ffs_from (insertion_order nat) 200 g) as [ffs| |] eqn:Hf;
    [|subst g; vm_compute in Hf; discriminate..].
  apply (ll1_check_ok _ _ _ Hg2 Hf).
  - apply no_repeated_neighbours_check. reflexivity.
  - apply non_terminalb_spec. reflexivity.
  - subst g. vm_compute in Hf. inversion Hf; subst ffs. vm_compute. reflexivity.
Qed.

Lemma twice_ok : productions_ok 0 twice_productions.
Proof.
  intros p Hp. simpl in Hp. decompose [or] Hp; subst; try contradiction;
    (split; [discriminate|split; [discriminate|simpl; intuition discriminate]]).
Qed.

Lemma twice_fresh : fresh_aliases twice_alias 0 twice_productions.
Proof.
  split.
  - intros A B _ _ H. unfold twice_alias in H. lia.
  - intros A HA. change (repeated twice_productions) with [2] in HA. destruct HA as [<-|[]].
    split; [discriminate|]. split.
    + apply non_terminalb_false. reflexivity.
    + intros (p & Hp & Hin). simpl in Hp. decompose [or] Hp; subst; simpl in Hin; intuition discriminate.
Qed.

Lemma twice_last : nullable_last 0 twice_productions.
Proof.
  intros before p after q Hps Hq Hi Hne.
  do 4 (destruct before as [|? before];
    [inversion Hps; subst p after; simpl in Hq; decompose [or] Hq; subst; try discriminate; try contradiction;
     apply twice_not_nullable; reflexivity|
     apply (f_equal (@tl _)) in Hps; cbn [tl twice_productions app] in Hps]).
  destruct before; discriminate.
Qed.

Lemma twice_eof : eof_discipline 0 twice_productions 1 9.
Proof.
  split; [discriminate|]. split; [apply non_terminalb_false; reflexivity|].
  split; [|split].
  - intros p Hp. simpl in Hp. intros Hin.
    decompose [or] Hp; subst; simpl in Hin; intuition discriminate.
  - intros p Hp Hi. simpl in Hp.
    decompose [or] Hp; subst; try discriminate; try contradiction.
    exists [2; 2]. split; [reflexivity|simpl; intuition discriminate].
  - intros p Hp Hi. simpl in Hp. intros Hin.
    decompose [or] Hp; subst; simpl in Hin, Hi; intuition discriminate.
Qed.

Example C88_case :
  productions_ok 0 twice_productions /\ fresh_aliases twice_alias 0 twice_productions /\
  built_parser 0 1 (split_repeats twice_alias twice_productions) None split_parser /\
  ll1 0 twice_productions 1 /\ nullable_last 0 twice_productions /\
  no_left_recursion_from 0 twice_productions 1 /\ eof_discipline 0 twice_productions 1 9 /\
  non_terminal twice_productions 1 /\
  tree_for 0 twice_productions 1 twice_tree twice_tokens /\
  built_parser 0 1 twice_productions None twice_parser /\
  (exists f, terminates_with (fun fuel => parse_from_tokens fuel twice_parser twice_tokens)
               (Done (ResultErr f, []))) /\
  exists root', terminates_with (fun fuel => parse_from_tokens fuel split_parser twice_tokens)
               (Done (ResultOk root', [])) /\
    merge_aliases twice_alias twice_productions root' = twice_tree.
Proof.
  assert (Hinit : non_terminal twice_productions 1) by (apply non_terminalb_spec; reflexivity).
  assert (Hs : exists root', terminates_with (fun fuel => parse_from_tokens fuel split_parser twice_tokens)
               (Done (ResultOk root', [])) /\
    merge_aliases twice_alias twice_productions root' = twice_tree).
  { eexists. split; [split; [discriminate|]|].
    - exists 50. intros fuel Hf. apply parse_mono with (fuel := 50); [vm_compute; reflexivity|discriminate|exact Hf].
    - vm_compute. reflexivity. }
  assert (Bs : built_parser 0 1 (split_repeats twice_alias twice_productions) None split_parser).
  { apply build_built with (fuel := 200). vm_compute. reflexivity. }
  splits; auto.
  - exact twice_ok.
  - exact twice_fresh.
  - apply (split_ll1_inv twice_ok twice_fresh Hinit twice_split_ll1).
  - exact twice_last.
  - apply no_left_recursion_anywhere. apply rank_check_ok with (N := fun x => existsb (Nat.eqb x) [0; 5])
      (rank := fun x => match x with 1 => 4 | 2 => 3 | 5 => 1 | _ => 0 end). reflexivity.
  - exact twice_eof.
  - destruct Hs as (root' & [_ [n Hn]] & <-). specialize (Hn n (le_n _)).
    assert (Heof : eof_discipline 0 (split_repeats twice_alias twice_productions) 1 9)
      by exact (split_eof twice_fresh Hinit twice_eof).
    assert (Ht : tree_for 0 (split_repeats twice_alias twice_productions) 1 root' twice_tokens).
    { refine (C16_whole_input_partial _ Bs Heof _ Hn).
      intros b t a Hx Hxe. do 3 (destruct b as [|? b]; [inversion Hx; subst; simpl in Hxe; try discriminate; auto|
        apply (f_equal (@tl _)) in Hx; cbn [tl app] in Hx; try discriminate]). now destruct b. }
    now apply (@C88_same_language nat nat _ 0 1 twice_productions twice_alias twice_ok twice_fresh Hinit).
  - apply build_built with (fuel := 200). vm_compute. reflexivity.
  - exact twice_rejected.
Qed.
