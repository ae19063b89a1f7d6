(** * Whether a grammar is LL(1), and whether it is parsed exactly, can be computed: C104 *)

From Verif Require Import PropPrefix PrefixSpec PropEnd.
From Verif Require Import BaseFacts GrammarFacts DerivFacts ProductiveSpec FollowSpec ParserBuild Examples ExampleTools.
From Verif Require Import LL1Check PropParse PropReports PropGuided PropLeftRec PropLast PropInOrder PropEnding EndingFacts.
From Verif Require Import RecipeSpec ExactFacts.
From Verif Require Export ExactSpec.

Set Implicit Arguments.

(** The FIRST and FOLLOW sets the crate computes tell whether the grammar is LL(1). *)
Theorem C104_ll1_is_computed :
  forall (T : Type) (E : EqDec T) (ho ho' : hash_order T) (fuel : nat) (eps init : T)
         (ps : list (production T)) (g : grammar T) (ffs : first_follow_symbols T),
    cfg_new ho eps init ps = Done g -> ffs_from ho' fuel g = Done ffs ->
    non_terminal ps init -> repeats_harmless eps ps init ->
    (is_ll1 eps ps (first_set ffs) (follow_set ffs) = true -> ll1 eps ps init) /\
    ((forall A, non_terminal ps A -> reachable_from eps ps init A) ->
     ll1 eps ps init -> is_ll1 eps ps (first_set ffs) (follow_set ffs) = true).
Proof.
  intros T E ho ho' fuel eps init ps g ffs Hg Hf Hinit Hrep.
  pose proof (@selects_complete T E eps init ps ho ho' g fuel ffs Hg Hf Hinit Hrep) as Hcomp. split.
  - intros H. exact (is_ll1_sound _ _ Hcomp H).
  - intros Hr Hll. exact (is_ll1_complete _ _ (@selects_sound T E eps init ps ho ho' g fuel ffs Hg Hf Hr) Hll).
Qed.
Print Assumptions C104_ll1_is_computed.

(** The sets and the table the crate computes tell whether every sentence of an LL(1) grammar is
    parsed to its tree. *)
Theorem C104_exactness_is_computed :
  forall (L T : Type) (E : EqDec T) (ho ho' : hash_order T) (fuel : nat) (eps init : T)
         (ps : list (production T)) (g : grammar T) (ffs : first_follow_symbols T) (self : parser L T),
    cfg_new ho eps init ps = Done g -> ffs_from ho' fuel g = Done ffs ->
    built_parser eps init ps None self ->
    ll1 eps ps init -> reduced eps ps init -> initial_ends_in_terminal eps ps init ->
    non_terminal ps init -> repeats_harmless eps ps init ->
    (is_exact eps ps (first_set ffs) (follow_set ffs) (candidates self) = true <->
     forall root tokens, tree_for eps ps init root tokens ->
       terminates_with (fun fuel => parse_from_tokens fuel self tokens) (Done (ResultOk root, []))).
Proof.
  intros L T E ho ho' fuel eps init ps g ffs self Hg Hf B Hll Hred Hend Hinit Hrep.
  assert (Hprod : all_productive eps ps init) by (intros X HX _; exact (proj2 (Hred X HX))).
  assert (Hr : forall A, non_terminal ps A -> reachable_from eps ps init A) by (intros A HA; exact (proj1 (Hred A HA))).
  pose proof (@selects_complete T E eps init ps ho ho' g fuel ffs Hg Hf Hinit Hrep) as Hcomp.
  rewrite (C103_computed_sets B Hll Hprod Hend Hinit Hrep).
  assert (Hfill : textbook_cells_filled eps ps init (candidates self)).
  { exact (proj1 (filled_covering _ _ _ _) (harmless_covering (built_built B) Hrep Hinit)). }
  split.
  - exact (is_exact_sound _ _ Hfill Hcomp).
  - intros H. exact (is_exact_complete _ _ Hfill (@selects_sound T E eps init ps ho ho' g fuel ffs Hg Hf Hr) Hr H).
Qed.
Print Assumptions C104_exactness_is_computed.

(** Two positive answers are enough also when some symbols are not reachable. *)
Theorem C104_positive_answers_suffice :
  forall (L T : Type) (E : EqDec T) (ho ho' : hash_order T) (fuel : nat) (eps init : T)
         (ps : list (production T)) (g : grammar T) (ffs : first_follow_symbols T) (self : parser L T),
    cfg_new ho eps init ps = Done g -> ffs_from ho' fuel g = Done ffs ->
    built_parser eps init ps None self ->
    all_productive eps ps init -> initial_ends_in_terminal eps ps init ->
    non_terminal ps init -> repeats_harmless eps ps init ->
    is_ll1 eps ps (first_set ffs) (follow_set ffs) = true ->
    is_exact eps ps (first_set ffs) (follow_set ffs) (candidates self) = true ->
    forall root tokens, tree_for eps ps init root tokens -> forall more,
      terminates_with (fun fuel => parse_from_tokens fuel self (tokens ++ more)) (Done (ResultOk root, [])).
Proof.
  intros L T E ho ho' fuel eps init ps g ffs self Hg Hf B Hprod Hend Hinit Hrep Hll He.
  pose proof (@selects_complete T E eps init ps ho ho' g fuel ffs Hg Hf Hinit Hrep) as Hcomp.
  assert (Hfill : textbook_cells_filled eps ps init (candidates self)).
  { exact (proj1 (filled_covering _ _ _ _) (harmless_covering (built_built B) Hrep Hinit)). }
  intros root tokens Ht more.
  apply (C103_whatever_follows (built_constructed B)); auto.
  - exact (is_ll1_sound _ _ Hcomp Hll).
  - exact (is_exact_sound _ _ Hfill Hcomp He).
Qed.
Print Assumptions C104_positive_answers_suffice.

(** the answers on three grammars: the one of C103, with an early ending that is noticed; the one that
    refutes C22, where it is not; and one with two alternatives that start alike *)
Definition checks (ps : list (production nat)) (self : parser nat nat) : option (bool * bool) :=
  match cfg_new (insertion_order nat) 0 1 ps with
  | Done g =>
      match ffs_from (insertion_order nat) 200 g with
      | Done ffs => Some (is_ll1 0 ps (first_set ffs) (follow_set ffs),
                          is_exact 0 ps (first_set ffs) (follow_set ffs) (candidates self))
      | _ => None
      end
  | _ => None
  end.

Example C104_case :
  checks ll1_noticed noticed_parser = Some (true, true) /\
  checks ll1_rejecting rejecting_parser = Some (true, false) /\
  checks retry_productions (retry_parser None) = Some (false, true) /\
  reduced 0 ll1_noticed 1 /\ reduced 0 ll1_rejecting 1.
Proof.
  split; [vm_compute; reflexivity|]. split; [vm_compute; reflexivity|]. split; [vm_compute; reflexivity|].
  split.
  - assert (Hp : PrefixSpec.productive 0 ll1_noticed)
      by (apply productive_check_ok with (rank := fun x => match x with 1 => 3 | 2 => 2 | 4 => 1 | _ => 0 end); reflexivity).
    intros A (p & Hq & <-). split.
    2:{ destruct (Hp (p_input p)) as (w & Hw & Hr); [now exists p|]. exists w. auto. }
    simpl in Hq. decompose [or] Hq; subst; try contradiction; simpl;
      (exists [], []; apply derives_refl) ||
      (exists [], [6; 8]; apply (@derives_production _ 0 ll1_noticed (Production 1 [2; 6; 8])); simpl; auto 10) ||
      (exists [7], [5; 8]; apply (@derives_production _ 0 ll1_noticed (Production 1 [7; 4; 5; 8])); simpl; auto 10).
  - assert (Hp : PrefixSpec.productive 0 ll1_rejecting)
      by (apply productive_check_ok with (rank := fun x => match x with 1 => 4 | 2 => 3 | 3 => 2 | 4 => 1 | _ => 0 end); reflexivity).
    intros A (p & Hq & <-). split.
    2:{ destruct (Hp (p_input p)) as (w & Hw & Hr); [now exists p|]. exists w. auto. }
    assert (H2 : derives 0 ll1_rejecting [1] ([] ++ 2 :: [6; 8]))
      by (apply (@derives_production _ 0 ll1_rejecting (Production 1 [2; 6; 8])); simpl; auto 10).
    assert (H3 : derives 0 ll1_rejecting [1] ([] ++ 3 :: [6; 8])).
    { eapply derives_trans; [exact H2|].
      apply (@derives_ctx _ 0 ll1_rejecting [] [6; 8] [2] [3]).
      apply (@derives_production _ 0 ll1_rejecting (Production 2 [3])); simpl; auto 10. }
    simpl in Hq. decompose [or] Hq; subst; try contradiction; simpl;
      (exists [], []; apply derives_refl) || (exists [], [6; 8]; exact H2) || (exists [], [6; 8]; exact H3) ||
      (exists [7], [5; 8]; apply (@derives_production _ 0 ll1_rejecting (Production 1 [7; 4; 5; 8])); simpl; auto 10).
Qed.
