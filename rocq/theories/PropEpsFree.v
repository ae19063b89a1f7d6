(** * Grammars without epsilon productions: C93 *)

From Verif Require Import BaseFacts GrammarFacts DerivFacts ParserSound ParserComplete.
From Verif Require Import EpsFreeSpec EpsFreeFacts PrefixSpec Examples ExampleTools MoreFacts PropFirstFollow PropTable PropParse
  PropReports PropPrefix.

Set Implicit Arguments.

(** Without epsilon productions the transition table is the textbook one: the cell of [A] and
    [a] has the productions of [A] that can start with [a]. *)
Theorem C93_table_is_textbook :
  forall (L T : Type) (E : EqDec T) (eps init : T) (ps : list (production T))
         (solver : option (syntax_error_solver L T)) (self : parser L T),
    built_parser eps init ps solver self -> epsilon_free eps ps ->
    forall A a p,
      (in_set (transitions_get_productions (pr_transitions self) A a) p <->
       In p ps /\ p_input p = A /\ can_start eps ps (p_output p) a) /\
      (in_set (transitions_get_productions (pr_transitions self) A a) p <-> textbook_cell eps ps init A a p).
Proof.
  intros L T E eps init ps solver self B Hfree A a p.
  pose proof (go_ok (po_grammar (bf_of (built_built B)))) as Hok.
  assert (Hcell : in_set (transitions_get_productions (pr_transitions self) A a) p <->
                  In p ps /\ p_input p = A /\ can_start eps ps (p_output p) a).
  { apply built_inv in B as (ho1 & ho2 & fuel & g & ffs & Hg & Hf & Hs).
    destruct (rdp_from_inv _ _ _ _ Hs) as (_ & _ & Ht).
    destruct (@C11_table_contents _ _ _ _ _ _ _ _ _ _ _ _ A a Hg Hf Ht) as [HN Hk].
    destruct (@C06_first_follow_hygiene _ _ _ _ _ _ _ _ _ _ Hg Hf) as (Hfi & _ & Hterm & _).
    split.
    - intros (l & Hl & Hp). destruct (Hk l Hl) as (keep & -> & Hkeep).
      apply filter_In in Hp as [Hp Hkp]. apply filter_In in Hp as [Hp HA].
      destruct (eq_dec (p_input p) A) as [HA'|]; [|discriminate]. split; auto. split; auto.
      apply (Hkeep p Hp HA') in Hkp as (X & rest & Ho & [[(s & Hs1 & Ha) Hne]|[(s & Hs1 & He) _]]).
      + destruct (@C05_first_exact _ _ _ _ _ _ _ _ _ _ _ _ Hg Hf Hs1) as [H1 _].
        apply H1 in Ha as [H2 [v Hv]]; auto. split; auto. split; auto. exists (v ++ rest).
        rewrite Ho. apply (@derives_app _ eps ps [X] (a :: v) rest rest); auto. apply derives_refl.
      + destruct (@C05_first_exact _ _ _ _ _ _ _ _ _ _ _ _ Hg Hf Hs1) as [_ H1].
        apply H1 in He. exfalso. apply (@not_nullable _ eps ps Hok Hfree X); auto.
        intros ->. apply (Hfree p Hp). rewrite Ho. now left.
    - intros (Hp & HA & Hne & Hnt & v & Hd). destruct (Hok p Hp) as (_ & Hnil & _).
      destruct (p_output p) as [|X rest] eqn:Ho; [contradiction|]. clear Hnil.
      assert (HX : X <> eps) by (intros ->; apply (Hfree p Hp); rewrite Ho; now left).
      destruct (@derives_app_inv _ eps ps [X] rest _ Hd) as (u' & v' & Heq & H1 & _).
      destruct u' as [|a' u']; [elim (@not_nullable _ eps ps Hok Hfree X HX H1)|].
      simpl in Heq. inversion Heq; subst a'.
      assert (Hs1 : exists s, get_first_symbols ffs X = Some s).
      { apply Hfi. exists p. split; auto. right. rewrite Ho. now left. }
      destruct Hs1 as [s Hs1].
      destruct (@C05_first_exact _ _ _ _ _ _ _ _ _ _ _ _ Hg Hf Hs1) as [Hfx _].
      assert (Ha : In a s) by (apply Hfx; eauto).
      destruct (Hterm X s Hs1) as [_ Hte].
      destruct (transitions_get_productions (pr_transitions self) A a) as [l|] eqn:Hl.
      + exists l. split; auto. destruct (Hk l eq_refl) as (keep & -> & Hkeep).
        apply filter_In. split.
        * apply filter_In. split; auto. destruct (eq_dec (p_input p) A); auto.
        * apply Hkeep; auto. exists X, rest. split; auto. left. split; [exists s; auto|auto].
      + exfalso. apply (proj1 HN eq_refl). split; [exists p; auto|auto]. }
  split; auto. rewrite Hcell. split.
  - intros (H1 & H2 & H3). split; auto.
  - intros (H1 & H2 & [H3|[H3 _]]); auto. elim (output_not_nullable Hok Hfree _ H1 H3).
Qed.
Print Assumptions C93_table_is_textbook.

(** and without a production declared twice it has no conflicts exactly if the grammar is LL(1) *)
Theorem C93_conflict_free_exactly_ll1 :
  forall (L T : Type) (E : EqDec T) (eps init : T) (ps : list (production T))
         (solver : option (syntax_error_solver L T)) (self : parser L T),
    built_parser eps init ps solver self -> epsilon_free eps ps -> NoDup ps ->
    (conflict_free (pr_transitions self) <-> ll1 eps ps init).
Proof.
  intros L T E eps init ps solver self B Hfree Hnd.
  pose proof (C93_table_is_textbook B Hfree) as Hcell. split.
  - intros Hcf A a p q Hp Hq. apply Hcell in Hp as (l & Hl & Hp). apply Hcell in Hq as (l' & Hl' & Hq).
    rewrite Hl in Hl'. inversion Hl'; subst l'. pose proof (Hcf _ _ _ Hl) as Hlen.
    destruct l as [|x [|y l]]; simpl in *; [contradiction| |lia]. destruct Hp as [<-|[]], Hq as [<-|[]]. reflexivity.
  - intros Hll A a l Hl.
    assert (Hndl : NoDup l).
    { apply built_inv in B as (ho1 & ho2 & fuel & g & ffs & Hg & Hf & Hs).
      destruct (rdp_from_inv _ _ _ _ Hs) as (_ & _ & Ht).
      destruct (@C11_table_contents _ _ _ _ _ _ _ _ _ _ _ _ A a Hg Hf Ht) as [_ Hk].
      destruct (Hk l Hl) as (keep & -> & _). now apply NoDup_filter, NoDup_filter. }
    destruct l as [|p [|q l]]; simpl; auto. exfalso.
    assert (p = q).
    { apply (Hll A a); apply Hcell; eexists; (split; [exact Hl|simpl; auto]). }
    subst q. inversion Hndl; subst. simpl in *. tauto.
Qed.
Print Assumptions C93_conflict_free_exactly_ll1.

(** What parse_from_tokens does on every non-empty input, with a conflict-free table and
    without epsilon productions; no end marker is needed. *)
Theorem C93_epsilon_free_exact :
  forall (L T : Type) (E : EqDec T) (eps init : T) (ps : list (production T))
         (self : parser L T) (tokens : list (token L T)),
    built_parser eps init ps None self -> epsilon_free eps ps -> conflict_free (pr_transitions self) ->
    non_terminal ps init -> tokens <> [] ->
    let sentence_first := fun root => exists w, prefix w tokens /\ tree_for eps ps init root w in
    let cut_short := Forall (fun t => real_terminal eps ps (tok_type t)) tokens /\
                     exists A v, non_terminal ps A /\ derives eps ps [init] (map (@tok_type L T) tokens ++ A :: v) in
    (forall root, terminates_with (fun fuel => parse_from_tokens fuel self tokens) (Done (ResultOk root, [])) <->
                  sentence_first root) /\
    (terminates_with (fun fuel => parse_from_tokens fuel self tokens) (Panicked PanicTokenOutOfRange) <->
     cut_short) /\
    (no_left_recursion_from eps ps init ->
     ((exists f, terminates_with (fun fuel => parse_from_tokens fuel self tokens) (Done (ResultErr f, []))) <->
      (forall root, ~ sentence_first root) /\ ~ cut_short)).
Proof.
  intros L T E eps init ps self tokens B Hfree Hcf Hn Hne sentence_first cut_short.
  pose proof (built_constructed B) as B'. pose proof (po_grammar (bf_of (built_built B))) as G.
  pose proof (go_ok G) as Hok.
  assert (Hcell : forall p a, In p ps -> can_start eps ps (p_output p) a ->
            candidates self (p_input p) a = [p_output p]).
  { intros p a Hp Ha. destruct (proj1 (C93_table_is_textbook B Hfree (p_input p) a p)) as [_ H].
    destruct H as (l & Hl & Hin); [auto|]. unfold candidates. rewrite Hl. pose proof (Hcf _ _ _ Hl).
    destruct l as [|x [|y l]]; simpl in *; [contradiction| |lia]. destruct Hin as [->|[]]. reflexivity. }
  assert (Hi : init <> eps) by (destruct Hn as (p & Hp & <-); apply (Hok p Hp)).
  destruct tokens as [|tok rest]; [contradiction|].
  destruct (C24_ordered_choice tok rest B') as (C1 & C2 & C3 & C4).
  assert (Hall : Forall (fun t => real_terminal eps ps (tok_type t)) (tok :: rest) ->
     forall Xs v A, derives eps ps Xs (map (@tok_type L T) (tok :: rest) ++ A :: v) -> non_terminal ps A ->
       cut eps ps Xs (tok :: rest)).
  { intros Hr Xs v A Hd HA. eapply derives_cut; eauto. }
  assert (HOk : forall root, terminates_with (fun fuel => parse_from_tokens fuel self (tok :: rest)) (Done (ResultOk root, [])) <->
                  sentence_first root).
  { intros root. split.
    - intros [_ [fuel H]]. destruct (C14_parse_trees_valid _ _ B' (H fuel (le_n _))) as (_ & _ & w & Hw & Hp).
      exists w. auto.
    - intros (w & [v Hw] & Ht). apply C1.
      destruct (proj1 (trees_chosen Hok Hfree (tok :: rest) (candidates self) Hcell) _ _ _ Ht 0 v Hw Hi) as
        [(t & _ & Hx & _ & _ & H)|(_ & t & w' & -> & Hc)].
      + rewrite Hx in H. contradiction.
      + simpl in Hw. inversion Hw; subst. eexists. eexists. exact Hc. }
  assert (HPast : terminates_with (fun fuel => parse_from_tokens fuel self (tok :: rest)) (Panicked PanicTokenOutOfRange) <->
     cut_short).
  { split.
    - intros [_ [fuel H]]. destruct (C48_out_of_range_is_truncated _ _ B' (fun s h c fr Hs => ltac:(discriminate Hs)) (H fuel (le_n _)))
        as (H1 & (A & v & HA & Hd) & _). split; eauto.
    - intros [Hr (A & v & HA & Hd)]. apply C3.
      pose proof (Hall Hr _ _ _ Hd HA) as Hc.
      pose proof (@cut_past L T eps ps Hok Hfree (tok :: rest) (candidates self) Hcell _ _ Hc 0 eq_refl) as Hp.
      assert (Hin : ~ In eps [init]) by (simpl; intros [H|[]]; auto). specialize (Hp Hin).
      inversion Hp as [X Xs p HX Hnth|Xs p Hp'|Xs p t Hnt|X Xs p t HX Hnth Hb]; subst.
      + discriminate.
      + congruence.
      + contradiction.
      + simpl in Hnth. inversion Hnth; subst t.
        inversion Hb as [? ? ? ? Hcp|? ? ? ? ? ? ? _ Hsp|? ? ? ? n q outs' Hch Hsn]; subst; auto.
        * inversion Hsp.
        * inversion Hsn. }
  split; [exact HOk|]. split; [exact HPast|].
  intros Hlr. split.
  - intros [f Hf]. split.
    + intros root Hr. apply HOk in Hr. pose proof (terminates_unique Hf Hr). discriminate.
    + intros Hc. apply HPast in Hc. pose proof (terminates_unique Hf Hc). discriminate.
  - intros [H1 H2].
    destruct (@C19_parsing_terminates _ _ _ _ _ _ _ _ (tok :: rest) B' Hlr) as [r Hr]; [intros s h c Hs; discriminate|].
    destruct (C4 r Hr) as [[root ->]|[[f ->]| ->]].
    + elim (H1 root). now apply HOk.
    + now exists f.
    + elim H2. now apply HPast.
Qed.
Print Assumptions C93_epsilon_free_exact.

(** ** simple grammars: a criterion that can be read off the productions *)

Lemma derives_terminal {T : Type} (eps : T) (ps : list (production T)) a : a <> eps -> ~ non_terminal ps a ->
  forall u, derives eps ps [a] u -> u = [a].
Proof.
  intros Ha Hn u H. remember [a] as s eqn:Hs. destruct H as [|y z H1 _]; auto. subst s. exfalso.
  inversion H1 as [x v p Hp Heq|x v Heq]; destruct x as [|b [|c x]]; simpl in *; inversion Heq; subst; auto.
  apply Hn. exists p. auto.
Qed.

Lemma simple_starts {T : Type} (eps : T) (ps : list (production T)) a rest w b v :
  a <> eps -> ~ non_terminal ps a -> w = b :: v -> derives eps ps (a :: rest) w -> b = a.
Proof.
  intros Ha Hn -> Hd. destruct (@derives_app_inv _ eps ps [a] rest _ Hd) as (u' & v' & Heq & H1 & _).
  rewrite (derives_terminal Ha Hn H1) in Heq. simpl in Heq. now inversion Heq.
Qed.

(** A simple grammar has no left recursion and is LL(1), its table is conflict-free and has in
    the cell of [A] and [a] the production of [A] that starts with [a]; so parse_from_tokens
    returns on every input and does what [C93_epsilon_free_exact] says. *)
Theorem C93_simple_grammars :
  forall (L T : Type) (E : EqDec T) (eps init : T) (ps : list (production T)) (self : parser L T),
    built_parser eps init ps None self -> simple_grammar eps ps -> non_terminal ps init ->
    epsilon_free eps ps /\ no_left_recursion_from eps ps init /\ ll1 eps ps init /\
    conflict_free (pr_transitions self) /\
    (forall A a l, transitions_get_productions (pr_transitions self) A a = Some l ->
       forall p, In p l <-> In p ps /\ p_input p = A /\ exists rest, p_output p = a :: rest) /\
    (forall tokens, tokens <> [] -> exists r,
       terminates_with (fun fuel => parse_from_tokens fuel self tokens) r /\
       (forall root, r = Done (ResultOk root, []) <-> exists w, prefix w tokens /\ tree_for eps ps init root w) /\
       (r = Panicked PanicTokenOutOfRange <->
        Forall (fun t => real_terminal eps ps (tok_type t)) tokens /\
        exists A v, non_terminal ps A /\ derives eps ps [init] (map (@tok_type L T) tokens ++ A :: v)) /\
       (r = Panicked PanicTokenOutOfRange \/ (exists root, r = Done (ResultOk root, [])) \/
        exists f, r = Done (ResultErr f, []))).
Proof.
  intros L T E eps init ps self B (Hfree & Hnd & Hst & Hun) Hn.
  pose proof (C93_table_is_textbook B Hfree) as Hcell.
  assert (Hstart : forall p, In p ps -> exists a rest, p_output p = a :: rest /\ a <> eps /\ ~ non_terminal ps a).
  { intros p Hp. destruct (Hst p Hp) as (a & rest & Ho & Hnt). exists a, rest. split; auto. split; auto.
    intros ->. apply (Hfree p Hp). rewrite Ho. now left. }
  assert (Hcan : forall p a, In p ps -> (can_start eps ps (p_output p) a <-> exists rest, p_output p = a :: rest)).
  { intros p a Hp. destruct (Hstart p Hp) as (b & rest & Ho & Hb & Hnt). rewrite Ho. split.
    - intros (H1 & H2 & v & Hd). rewrite (simple_starts Hb Hnt eq_refl Hd). eauto.
    - intros [rest' Heq]. inversion Heq; subst. split; auto. split; auto. exists rest'. apply derives_refl. }
  assert (Hlr : no_left_recursion_from eps ps init).
  { intros A (p0 & Hp0 & HA) _ (w & v & H1 & H2).
    inversion H1 as [x y p Hp Heq|x y Heq]; destruct x as [|c [|d x]]; simpl in *; inversion Heq; subst.
    - destruct (Hstart p Hp) as (b & rest & Ho & Hb & Hnt). rewrite Ho in H2. simpl in H2.
      pose proof (simple_starts Hb Hnt eq_refl H2) as Hx. apply Hnt. rewrite <- Hx. exists p0. auto.
    - destruct (go_ok (po_grammar (bf_of (built_built B))) p0 Hp0) as (Hx & _). congruence. }
  assert (Hll : ll1 eps ps init).
  { intros A a p q Hp Hq. apply (proj2 (proj2 (Hcell A a p))) in Hp. apply (proj1 (proj1 (Hcell A a p))) in Hp as (Hp & HA & Hs).
    apply (proj2 (proj2 (Hcell A a q))) in Hq. apply (proj1 (proj1 (Hcell A a q))) in Hq as (Hq & HA' & Hs').
    apply Hcan in Hs as [r Hr]; auto. apply Hcan in Hs' as [r' Hr']; auto.
    apply (Hun p q a r r'); auto. congruence. }
  assert (Hcf : conflict_free (pr_transitions self)) by (apply (C93_conflict_free_exactly_ll1 B Hfree Hnd); auto).
  split; auto. split; auto. split; auto. split; auto. split.
  - intros A a l Hl p. split.
    + intros Hp. destruct (proj1 (Hcell A a p)) as [H _]. destruct H as (H1 & H2 & H3); [exists l; auto|].
      split; auto. split; auto. now apply Hcan.
    + intros (H1 & H2 & H3). destruct (proj1 (Hcell A a p)) as [_ H]. destruct H as (l' & Hl' & Hin).
      * split; auto. split; auto. now apply Hcan.
      * rewrite Hl in Hl'. inversion Hl'; subst. exact Hin.
  - intros tokens Hne.
    destruct (@C93_epsilon_free_exact _ _ _ _ _ _ _ tokens B Hfree Hcf Hn Hne) as (H1 & H2 & _).
    destruct (@C19_parsing_terminates _ _ _ _ _ _ _ _ tokens (built_constructed B) Hlr) as [r Hr];
      [intros s h c Hs; discriminate|].
    exists r. split; auto. split; [|split].
    + intros root. rewrite <- H1. split; [intros ->; auto|]. intros H. exact (terminates_unique Hr H).
    + rewrite <- H2. split; [intros ->; auto|]. intros H. exact (terminates_unique Hr H).
    + destruct tokens as [|tok rest]; [contradiction|].
      destruct (C24_ordered_choice tok rest (built_constructed B)) as (_ & _ & _ & C4).
      destruct (C4 r Hr) as [H|[H|H]]; auto.
Qed.
Print Assumptions C93_simple_grammars.

(** S = 1 -> 4 S 5 | 6 S S | 7 (lists in brackets, pairs and atoms), no end marker *)
Definition nested_productions : list (production nat) :=
  [Production 1 [4; 1; 5]; Production 1 [6; 1; 1]; Production 1 [7]].
Definition nested_parser : parser nat nat := Eval vm_compute in
  get_done (no_parser 0) (build 0 1 nested_productions None 100).

Lemma nested_built : built_parser 0 1 nested_productions None nested_parser.
Proof. apply build_built with (fuel := 100). vm_compute. reflexivity. Qed.

Lemma nested_simple : simple_grammar 0 nested_productions.
Proof.
  assert (Hnt : forall x, non_terminal nested_productions x -> x = 1).
  { intros x (p & Hp & <-). simpl in Hp. repeat destruct Hp as [<-|Hp]; auto. destruct Hp. }
  split; [|split; [|split]].
  - intros p Hp H. simpl in Hp. repeat destruct Hp as [<-|Hp]; simpl in *; intuition discriminate.
  - repeat constructor; simpl; intuition discriminate.
  - intros p Hp. simpl in Hp. repeat destruct Hp as [<-|Hp]; [..|destruct Hp];
      (eexists; eexists; split; [reflexivity|]; intros H; apply Hnt in H; discriminate).
  - intros p q a r r' Hp Hq _ H1 H2. simpl in Hp, Hq.
    repeat destruct Hp as [<-|Hp]; try contradiction; repeat destruct Hq as [<-|Hq]; try contradiction;
      simpl in *; congruence.
Qed.

(** a sentence followed by anything, a sentence cut short, and an error *)
Example C93_case :
  parse_from_tokens 50 nested_parser [nt 4; nt 6; nt 7; nt 7; nt 5; nt 4] =
    Done (ResultOk (ni 1 [nl 4; ni 1 [nl 6; ni 1 [nl 7]; ni 1 [nl 7]]; nl 5]), []) /\
  parse_from_tokens 50 nested_parser [nt 4; nt 6; nt 7] = Panicked PanicTokenOutOfRange /\
  (exists f, parse_from_tokens 50 nested_parser [nt 4; nt 6; nt 5] = Done (ResultErr f, [])) /\
  (exists f, parse_from_tokens 50 nested_parser [nt 4; nt 7] = Done (ResultErr f, [])).
Proof. repeat split; try eexists; vm_compute; reflexivity. Qed.
