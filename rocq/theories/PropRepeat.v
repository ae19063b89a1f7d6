(** * Declaring a production again changes nothing: C54 *)

From Verif Require Import BaseFacts GrammarFacts DerivFacts FirstFacts FollowFacts TransitionsFacts.
From Verif Require Import RepeatFacts ParserChoice ParserBuild MoreFacts ExampleTools PropReports Examples.

Set Implicit Arguments.

Lemma same_up_to_repeats_sym (T : Type) (E : EqDec T) (ps ps' : list (production T)) :
  same_up_to_repeats ps ps' -> same_up_to_repeats ps' ps.
Proof. intros H A. destruct (H A) as (l & H1 & H2). exists l. auto. Qed.

Lemma repeats_choose (L T : Type) (E : EqDec T) (eps init : T) (ps ps' : list (production T))
      (self self' : parser L T) (tokens : list (token L T)) A a p :
  same_up_to_repeats ps ps' ->
  built_parser eps init ps None self -> built_parser eps init ps' None self' ->
  (forall n q, (exists outs, choose eps ps tokens (candidates self) A p
                               (candidates self A a) (Some (n, q, outs))) ->
               exists outs, choose eps ps' tokens (candidates self') A p
                               (candidates self' A a) (Some (n, q, outs))) /\
  (choose eps ps tokens (candidates self) A p (candidates self A a) None ->
   choose eps ps' tokens (candidates self') A p (candidates self' A a) None) /\
  (choose_past eps ps tokens (candidates self) A p (candidates self A a) ->
   choose_past eps ps' tokens (candidates self') A p (candidates self' A a)).
Proof.
  intros Hs B B'.
  assert (Heps : ~ non_terminal ps' eps) by apply (eps_not_nt (po_grammar (bf_of (built_built B')))).
  assert (Hnt : forall X, non_terminal ps' X <-> non_terminal ps X).
  { intros X. unfold non_terminal. split; intros (q & Hq & Hi); exists q; split; auto;
      now apply (same_In Hs). }
  pose proof (repeat_candidates Hs B B') as Hc.
  split; [|split].
  - intros n q H. eapply choose_transfer; eauto.
  - intros H. eapply choose_transfer_none; eauto.
  - intros H. eapply choose_transfer_past; eauto.
Qed.

(** ** C54: a production declared again is as if it were not there *)
Theorem C54_repeats_irrelevant :
  forall (L T : Type) (E : EqDec T) (eps init : T) (ps ps' : list (production T))
         (self self' : parser L T) (tokens : list (token L T)),
    same_up_to_repeats ps ps' ->
    built_parser eps init ps None self -> built_parser eps init ps' None self' ->
    (forall root,
       terminates_with (fun fuel => parse_from_tokens fuel self tokens) (Done (ResultOk root, [])) <->
       terminates_with (fun fuel => parse_from_tokens fuel self' tokens) (Done (ResultOk root, []))) /\
    ((exists f, terminates_with (fun fuel => parse_from_tokens fuel self tokens)
                                (Done (ResultErr f, []))) <->
     (exists f, terminates_with (fun fuel => parse_from_tokens fuel self' tokens)
                                (Done (ResultErr f, [])))) /\
    (forall q,
       terminates_with (fun fuel => parse_from_tokens fuel self tokens) (Panicked q) <->
       terminates_with (fun fuel => parse_from_tokens fuel self' tokens) (Panicked q)).
Proof.
  intros L T E eps init ps ps' self self' [|tok rest] Hs B B'.
  - split; [|split].
    + intros root. split; intros [_ [n H]]; specialize (H n (le_n _)); discriminate.
    + split; intros (f & _ & n & H); specialize (H n (le_n _)); discriminate.
    + intros q. split; intros H; exact H.
  - destruct (C24_ordered_choice tok rest B) as (H1 & H2 & H3 & H4).
    destruct (C24_ordered_choice tok rest B') as (H1' & H2' & H3' & H4').
    pose proof (repeats_choose (tok :: rest) init (tok_type tok) 0 Hs B B') as (Hok & Herr & Hp).
    pose proof (repeats_choose (tok :: rest) init (tok_type tok) 0
                  (same_up_to_repeats_sym Hs) B' B) as (Hok' & Herr' & Hp').
    split; [|split].
    + intros root. rewrite H1, H1'. split; intros (q & Hq); exists q; auto.
    + rewrite H2, H2'. split; auto.
    + assert (Hq : forall q, q = PanicTokenOutOfRange ->
        (terminates_with (fun fuel => parse_from_tokens fuel self (tok :: rest)) (Panicked q) <->
         terminates_with (fun fuel => parse_from_tokens fuel self' (tok :: rest)) (Panicked q))).
      { intros q ->. rewrite H3, H3'. split; auto. }
      intros q. split; intros H; apply Hq; auto.
      * destruct (H4 _ H) as [[? ?]|[[? ?]|?]]; congruence.
      * destruct (H4' _ H) as [[? ?]|[[? ?]|?]]; congruence.
Qed.
Print Assumptions C54_repeats_irrelevant.

(** the grammar of C24 with productions of X and Y declared again; the
    repeated candidates are in the table *)
Definition repeat_productions : list (production nat) :=
  [Production 1 [2; 3; 7]; Production 2 [4]; Production 3 [6]; Production 2 [4];
   Production 2 [4; 5]; Production 3 [6]; Production 2 [4]].

Example C54_case :
  same_up_to_repeats repeat_productions retry_productions /\
  match build (L := nat) 0 1 repeat_productions None 100 with
  | Done self => candidates self 2 4 = [[4]; [4]; [4; 5]; [4]] /\
                 parse_from_tokens 50 self retry_tokens = Done (ResultOk retry_tree, [])
  | _ => False
  end.
Proof.
  split.
  - assert (Hw : forall x y : list (production nat), x = y ->
              forall l, without_repeats [] x l -> without_repeats [] y l) by (intros x y ->; auto).
    intros A. destruct (Nat.eq_dec A 1) as [->|H1]; [|destruct (Nat.eq_dec A 2) as [->|H2];
      [|destruct (Nat.eq_dec A 3) as [->|H3]]].
    + exists [Production 1 [2; 3; 7]]. split; repeat constructor; intros [].
    + exists [Production 2 [4]; Production 2 [4; 5]]. simpl. split.
      * apply wr_keep; [intros []|]. apply wr_drop; [simpl; auto|]. apply wr_keep.
        { intros [H|[]]; discriminate H. } apply wr_drop; [simpl; auto|]. constructor.
      * apply wr_keep; [intros []|]. apply wr_keep; [intros [H|[]]; discriminate H|]. constructor.
    + exists [Production 3 [6]]. simpl. split.
      * apply wr_keep; [intros []|]. apply wr_drop; [simpl; auto|]. constructor.
      * apply wr_keep; [intros []|]. constructor.
    + exists []. split; (eapply Hw; [|apply wr_nil]); unfold declared_for; simpl;
        repeat (match goal with |- context [eq_dec ?a ?b] => destruct (eq_dec a b) end; try congruence);
        reflexivity.
  - vm_compute. split; reflexivity.
Qed.
