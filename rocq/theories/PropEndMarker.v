(** * Nothing after the end marker is read: C102 *)

From Verif Require Import BaseFacts GrammarFacts DerivFacts ParserSound ParserComplete.
From Verif Require Import FollowSpec ProductiveSpec CutFacts CoverFacts PrefixSpec ChoiceSpec RecoverSpec ParserRecover
  Examples ExampleTools MoreFacts PropParse PropReports PropPrefix PropRecover PropCut ExpectFacts
  GuidedSpec ParserGuided PropGuided SuppliedSpec PropEnd PropOffending.

Set Implicit Arguments.

(** what a sentential form looks like when [eof] is an end marker *)
Definition ends_once {T : Type} (init eof : T) (form : list T) : Prop :=
  form = [init] \/ form = [] \/ exists x, form = x ++ [eof] /\ ~ In eof x /\ ~ In init x.

Lemma ends_once_step {T : Type} (eps init eof : T) ps u v :
  eof_discipline eps ps init eof -> derive1 eps ps u v -> ends_once init eof u -> ends_once init eof v.
Proof.
  intros (He & Hn & Hi & Hend & Ho) Hd HP. destruct Hd as [u v p Hp|u v].
  - destruct HP as [H|[H|(x & H & Hx & Hix)]].
    + destruct u as [|a u]; [|inversion H as [[Ha Hb]]; destruct u; discriminate Hb]. inversion H as [[H1 H2]]. subst v. simpl.
      rewrite app_nil_r. destruct (Hend p Hp H1) as (y & Hy & Hey). right. right. exists y. split; [exact Hy|]. split; [exact Hey|].
      intros Hin. apply (Hi p Hp). rewrite Hy. apply in_or_app. left. rewrite <- H1. exact Hin.
    + destruct u; discriminate.
    + destruct v as [|a v _] using rev_ind.
      * apply app_inj_tail in H as [_ H]. elim Hn. exists p. auto.
      * rewrite app_comm_cons, app_assoc in H. apply app_inj_tail in H as [<- ->]. right. right.
        exists (u ++ p_output p ++ v). splits.
        -- now rewrite !app_assoc.
        -- rewrite !in_app_iff in *. simpl in *. intros [G|[G|G]]; [tauto| |tauto].
           revert G. apply (Ho p Hp). intros Heq. apply Hix. rewrite <- Heq. auto.
        -- rewrite !in_app_iff in *. simpl in *. intros [G|[G|G]]; [tauto| |tauto]. exact (Hi p Hp G).
  - destruct HP as [H|[H|(x & H & Hx & Hix)]].
    + destruct u as [|a u]; [|inversion H as [[Ha Hb]]; destruct u; discriminate Hb]. inversion H; subst. right. now left.
    + destruct u; discriminate.
    + destruct v as [|a v _] using rev_ind.
      * apply app_inj_tail in H as [_ H]. congruence.
      * rewrite app_comm_cons, app_assoc in H. apply app_inj_tail in H as [<- ->]. right. right.
        exists (u ++ v). splits; [now rewrite app_assoc| |]; rewrite !in_app_iff in *; simpl in *; tauto.
Qed.

Lemma ends_once_derived {T : Type} (eps init eof : T) ps form :
  eof_discipline eps ps init eof -> derives eps ps [init] form -> ends_once init eof form.
Proof.
  intros He Hd.
  enough (G : forall u v, derives eps ps u v -> ends_once init eof u -> ends_once init eof v)
    by (apply (G _ _ Hd); now left).
  clear form Hd. intros u v Hd. induction Hd as [|u w v Hs _ IH]; auto. intros H. apply IH. eapply ends_once_step; eauto.
Qed.

(** at a position where something is still expected, the end marker is not read *)
Lemma expecting_before_eof {L T : Type} {E : EqDec T} (eps init eof : T) ps (u : list (token L T)) t rest p X form :
  eof_discipline eps ps init eof -> tok_type t = eof ->
  expecting eps init ps (u ++ t :: rest) p (X :: form) -> p <= length u.
Proof.
  intros He Ht (_ & _ & Hd). destruct (Nat.le_gt_cases p (length u)) as [H|H]; auto. exfalso.
  apply (ends_once_derived He) in Hd.
  replace (u ++ t :: rest) with ((u ++ [t]) ++ rest) in Hd by now rewrite <- app_assoc.
  rewrite firstn_app, firstn_all2 in Hd by (rewrite app_length; simpl; lia).
  rewrite !map_app, <- !app_assoc in Hd. simpl in Hd. rewrite Ht in Hd.
  destruct Hd as [Hd|[Hd|(x & Hd & Hx & _)]].
  - apply (f_equal (@length T)) in Hd. rewrite !app_length in Hd. simpl in Hd. rewrite app_length in Hd. simpl in Hd. lia.
  - destruct u; discriminate.
  - apply Hx. destruct (@exists_last _ (X :: form)) as (form' & y & Hf); [discriminate|].
    rewrite Hf, app_comm_cons, !app_assoc in Hd. apply app_inj_tail in Hd as [<- _].
    rewrite !in_app_iff. simpl. tauto.
Qed.

(** Nothing after the end marker is read: whatever follows it, the outcome is the same *)
Theorem C102_nothing_after_the_end_marker :
  forall (L T : Type) (E : EqDec T) (eps init eof : T) (ps : list (production T))
         (self : parser L T) (u : list (token L T)) (t : token L T) (rest rest' : list (token L T)),
    constructed_parser eps init ps None self -> eof_discipline eps ps init eof -> tok_type t = eof ->
    forall r, terminates_with (fun fuel => parse_from_tokens fuel self (u ++ t :: rest)) r <->
              terminates_with (fun fuel => parse_from_tokens fuel self (u ++ t :: rest')) r.
Proof.
  intros L T E eps init eof ps self u t rest rest' B He Ht.
  enough (one : forall rest rest' r, terminates_with (fun fuel => parse_from_tokens fuel self (u ++ t :: rest)) r ->
            terminates_with (fun fuel => parse_from_tokens fuel self (u ++ t :: rest')) r) by (intros r; split; apply one).
  clear rest rest'. intros rest rest' r H.
  assert (Hhd : exists tok more more', u ++ t :: rest = tok :: more /\ u ++ t :: rest' = tok :: more')
    by (destruct u; simpl; eauto).
  destruct Hhd as (tok & more & more' & H1 & H2).
  destruct r as [[res h]|q|].
  - rewrite H1 in H. apply (C59_exact_semantics tok more _ _ B) in H as (d & Hd & ->).
    rewrite H2. apply (C59_exact_semantics tok more' _ _ B). exists d. split; auto.
    assert (Hsame : forall p X form, expecting eps init ps (tok :: more) p (X :: form) ->
              nth_error (tok :: more') p = nth_error (tok :: more) p).
    { intros p X form Hx. rewrite <- H1 in Hx |- *. rewrite <- H2.
      apply (expecting_before_eof u t rest He Ht) in Hx.
      replace (u ++ t :: rest) with ((u ++ [t]) ++ rest) by now rewrite <- app_assoc.
      replace (u ++ t :: rest') with ((u ++ [t]) ++ rest') by now rewrite <- app_assoc.
      assert (Hp : p < length (u ++ [t])) by (rewrite app_length; simpl; lia).
      rewrite !(nth_error_app1 (u ++ [t])) by exact Hp. reflexivity. }
    refine (proj1 (proj1 (@transfer L T eps init ps (tok :: more) (tok :: more') (candidates self)
      (candidates_declared (constructed_built B)) Hsame) _ _ _ _ _ _ _ Hd [] _ _)).
    + split; [simpl; lia|]. split; [constructor|apply derives_refl].
    + intros out Hin. exact (candidates_declared (constructed_built B) _ _ _ Hin).
  - exfalso. destruct H as [_ [fuel H]].
    destruct (C17_end_marker_anywhere_partial fuel B (fun Hnil => app_cons_not_nil _ _ _ (eq_sym Hnil)) (H fuel (le_n _)))
      as [(_ & s & h & c & Hs & _)|[_ Hno]]; [discriminate|].
    apply Hno. exists eof, u, t, rest. splits; auto. intros s h c fr Hs. discriminate Hs.
  - destruct H as [H _]. contradiction.
Qed.
Print Assumptions C102_nothing_after_the_end_marker.

(** ... so what follows the end marker can be left out, and a tree is for the tokens up to it *)
Theorem C102_cut_at_the_end_marker :
  forall (L T : Type) (E : EqDec T) (eps init eof : T) (ps : list (production T))
         (self : parser L T) (u : list (token L T)) (t : token L T) (rest : list (token L T)),
    constructed_parser eps init ps None self -> eof_discipline eps ps init eof -> tok_type t = eof ->
    Forall (fun x => tok_type x <> eof) u ->
    forall r, terminates_with (fun fuel => parse_from_tokens fuel self (u ++ t :: rest)) r ->
      terminates_with (fun fuel => parse_from_tokens fuel self (u ++ [t])) r /\
      ((exists root, r = Done (ResultOk root, []) /\ tree_for eps ps init root (u ++ [t])) \/
       (exists f, r = Done (ResultErr f, []))).
Proof.
  intros L T E eps init eof ps self u t rest B He Ht Hu r H.
  apply (C102_nothing_after_the_end_marker u t rest [] B He Ht) in H. split; auto.
  assert (Hhd : exists tok more, u ++ [t] = tok :: more) by (destruct u; simpl; eauto).
  destruct Hhd as (tok & more & H1). pose proof H as H'. rewrite H1 in H'.
  destruct (C24_ordered_choice tok more B) as (_ & _ & _ & C4).
  destruct (C4 _ H') as [[root ->]|[[f ->]|Hr]]; [left|right|exfalso]; eauto.
  - exists root. split; auto. destruct H as [_ [fuel H]]. specialize (H fuel (le_n _)).
    eapply C16_whole_input_partial; eauto.
    intros before x after Hx Hxe. destruct after as [|y after _] using rev_ind; auto. exfalso.
    rewrite app_comm_cons, app_assoc in Hx. apply app_inj_tail in Hx as [-> _].
    apply Forall_app in Hu as [_ Hu]. inversion Hu. auto.
  - subst r. destruct H as [_ [fuel H]].
    assert (Hne : u ++ [t] <> []) by (destruct u; discriminate).
    destruct (C17_end_marker_anywhere_partial fuel B Hne (H fuel (le_n _)))
      as [(_ & s & h & c & Hs & _)|[_ Hno]]; [discriminate|].
    apply Hno. exists eof, u, t, []. splits; auto. intros s h c fr Hs. discriminate Hs.
Qed.
Print Assumptions C102_cut_at_the_end_marker.

(** C38 for any table and whatever conflicts *)
Theorem C38_end_marker_partial :
  forall (L T : Type) (E : EqDec T) (eps init eof : T) (ps : list (production T))
         (self : parser L T) (tokens more : list (token L T)) (root : node L T) (fuel : nat) h,
    constructed_parser eps init ps None self -> eof_discipline eps ps init eof ->
    parse_from_tokens fuel self tokens = Done (ResultOk root, h) ->
    terminates_with (fun fuel => parse_from_tokens fuel self (tokens ++ more)) (Done (ResultOk root, h)).
Proof.
  intros L T E eps init eof ps self tokens more root fuel h B He H.
  destruct (C14_parse_trees_valid _ _ B H) as (_ & Hn & w & Hw & rest & ->).
  destruct (sentence_ends_in_eof He (ok_eps_not_nt (constructed_ok B)) Hn Hw) as (b & t & -> & Ht).
  rewrite <- !app_assoc in *. simpl in *.
  apply (C102_nothing_after_the_end_marker b t rest (rest ++ more) B He Ht).
  eapply parse_terminates; [exact H|discriminate].
Qed.
Print Assumptions C38_end_marker_partial.

(** C16 when something follows the end marker, with any solver *)
Theorem C16_up_to_the_marker_partial :
  forall (L T : Type) (E : EqDec T) (eps init eof : T) (ps : list (production T))
         (solver : option (syntax_error_solver L T)) (self : parser L T)
         (fuel : nat) (u : list (token L T)) (t : token L T) (rest : list (token L T)) (root : node L T) h,
    constructed_parser eps init ps solver self ->
    eof_discipline eps ps init eof -> tok_type t = eof -> Forall (fun x => tok_type x <> eof) u ->
    parse_from_tokens fuel self (u ++ t :: rest) = Done (ResultOk root, h) ->
    tree_for eps ps init root (u ++ [t]).
Proof.
  intros L T E eps init eof ps solver self fuel u t rest root h B He Ht Hu H.
  destruct (C14_parse_trees_valid _ _ B H) as (_ & Hn & w & Hw & rest1 & Heq).
  destruct (sentence_ends_in_eof He (ok_eps_not_nt (constructed_ok B)) Hn Hw) as (b & t' & -> & Ht').
  assert (Hl : ~ In eof (map (@tok_type L T) b)).
  { pose proof (ends_once_derived He (tree_derives Hw)) as Hx. rewrite map_app in Hx. simpl in Hx. rewrite Ht' in Hx.
    destruct Hx as [Hx|[Hx|(x & Hx & Hno & _)]].
    - destruct b as [|y b]; [intros []|destruct b; discriminate].
    - destruct b; discriminate.
    - apply app_inj_tail in Hx as [-> _]. exact Hno. }
  assert (Hb : Forall (fun x => tok_type x <> eof) b).
  { apply Forall_forall. intros x Hx Hxe. apply Hl. rewrite <- Hxe. now apply in_map. }
  replace ((b ++ [t']) ++ rest1) with (b ++ t' :: rest1) in Heq by now rewrite <- app_assoc.
  enough (G : u = b /\ t = t') by (destruct G; subst; exact Hw).
  clear - Heq Hu Hb Ht Ht'. revert b Heq Hb. induction Hu as [|x u Hx Hu IH]; intros b Heq Hb.
  - destruct b as [|y b]; inversion Heq; subst; auto. inversion Hb. contradiction.
  - destruct b as [|y b]; inversion Heq; subst; [contradiction|]. inversion Hb; subst.
    destruct (IH b) as [-> ->]; auto.
Qed.
Print Assumptions C16_up_to_the_marker_partial.

(** [X $] with [X -> a b | a X b], whose table has a conflict *)
Example C102_case :
  let t := fun x => Token None x : token nat nat in
  constructed_parser 0 1 nested_productions None nested_parser /\ ~ conflict_free (pr_transitions nested_parser) /\
  eof_discipline 0 nested_productions 1 5 /\
  exists root f, forall rest,
    terminates_with (fun fuel => parse_from_tokens fuel nested_parser ([t 3; t 3; t 4; t 4] ++ t 5 :: rest))
      (Done (ResultOk root, [])) /\
    terminates_with (fun fuel => parse_from_tokens fuel nested_parser ([t 3; t 3; t 4] ++ t 5 :: rest))
      (Done (ResultErr f, [])).
Proof.
  intros t. splits.
  - exact (built_constructed nested_built).
  - intros H. destruct (transitions_get_productions (pr_transitions nested_parser) 2 3) as [l|] eqn:Hl; [|discriminate].
    specialize (H _ _ _ Hl). vm_compute in Hl. inversion Hl; subst. simpl in H. lia.
  - exact nested_eof.
  - do 2 eexists. intros rest. split.
    + apply (C102_nothing_after_the_end_marker [t 3; t 3; t 4; t 4] (t 5) [] rest (built_constructed nested_built) nested_eof eq_refl).
      apply (@parse_terminates _ _ _ nested_parser _ 60); [vm_compute; reflexivity|discriminate].
    + apply (C102_nothing_after_the_end_marker [t 3; t 3; t 4] (t 5) [] rest (built_constructed nested_built) nested_eof eq_refl).
      apply (@parse_terminates _ _ _ nested_parser _ 60); [vm_compute; reflexivity|discriminate].
Qed.
