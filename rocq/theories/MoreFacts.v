(** * Consequences used by the property files (proofs) *)

From Verif Require Import BaseFacts GrammarFacts DerivFacts FirstFacts FollowFacts FollowRepeat TransitionsFacts.
From Verif Require Export CoverFacts ParserBuild ParserSound ParserReport ParserChoice ParserCF
  ParserPanic ParserSim ParserTerm ParserComplete.

Set Implicit Arguments.

(** ** Construction *)
Section Construct.
  Context {L T : Type} {E : EqDec T}.
  Variables eps init : T.
  Variable ps : list (production T).

  Lemma construct_total ho1 ho2 g : cfg_new ho1 eps init ps = Done g ->
    exists n, forall fuel, n <= fuel ->
      exists ffs t, ffs_from ho2 fuel g = Done ffs /\ ffs_exact (eps := eps) (ps := ps) ffs /\
        transitions_from ho2 g ffs = Done t /\
        from_grammar ho2 fuel g = Done {| pr_grammar := g; pr_solver := None (A := syntax_error_solver L T); pr_transitions := t |} /\
        forall s : syntax_error_solver L T,
          from_grammar_and_solver ho2 fuel g s = Done {| pr_grammar := g; pr_solver := Some s; pr_transitions := t |}.
  Proof.
    intros Hg. apply cfg_new_grammar_of in Hg as G.
    exists (first_fuel (g := g)). intros fuel Hf.
    destruct (ffs_from_total G ho2 Hf) as (ffs & Hffs & [Hx1 Hx2]).
    destruct (@transitions_exact_total _ _ _ _ _ _ G ho2 ffs Hx1 Hx2) as [t Ht].
    exists ffs, t. split; auto. split; [split; auto|]. split; auto.
    unfold from_grammar, from_grammar_and_solver, from_grammar_and_first_follow_symbols, rdp_from.
    rewrite Hffs. simpl. rewrite Ht. simpl. auto.
  Qed.

  Lemma built_exists ho1 ho2 solver : productions_ok eps ps ->
    exists fuel g self, cfg_new ho1 eps init ps = Done g /\
      match solver with
      | None => from_grammar ho2 fuel g
      | Some s => from_grammar_and_solver ho2 fuel g s
      end = Done self /\ built_parser (L := L) eps init ps solver self.
  Proof.
    intros Hok. destruct (cfg_new_ok ho1 init Hok) as [g Hg].
    destruct (@construct_total ho1 ho2 g Hg) as [n Hn].
    destruct (Hn n (le_n _)) as (ffs & t & _ & _ & _ & H1 & H2).
    exists n, g. destruct solver as [s|].
    - eexists. split; [exact Hg|]. split; [apply H2|].
      exists ho1, ho2, n, g. split; auto.
    - eexists. split; [exact Hg|]. split; [exact H1|].
      exists ho1, ho2, n, g. split; auto.
  Qed.

  Lemma built_ok solver self : built_parser (L := L) eps init ps solver self -> productions_ok eps ps.
  Proof.
    intros (ho1 & ho2 & fuel & g & Hg & _). apply cfg_new_grammar_of in Hg. exact (go_ok Hg).
  Qed.

  (** cells do not depend on iteration orders *)
  Lemma built_cells_eq solver solver' (self self' : parser L T) :
    built_parser eps init ps solver self -> built_parser eps init ps solver' self' ->
    forall A a, transitions_get_productions (pr_transitions self) A a =
                transitions_get_productions (pr_transitions self') A a.
  Proof.
    intros H H' A a.
    apply built_inv in H as (ho1 & ho2 & fuel & g & ffs & Hg & Hf & Hs).
    apply built_inv in H' as (ho1' & ho2' & fuel' & g' & ffs' & Hg' & Hf' & Hs').
    apply cfg_new_grammar_of in Hg as G. apply cfg_new_grammar_of in Hg' as G'.
    destruct (ffs_from_exact G _ _ Hf) as [Hx1 Hx2].
    destruct (ffs_from_exact G' _ _ Hf') as [Hx1' Hx2'].
    destruct (rdp_from_inv _ _ _ _ Hs) as (_ & _ & Ht).
    destruct (rdp_from_inv _ _ _ _ Hs') as (_ & _ & Ht').
    rewrite (transitions_cells G _ _ Ht), (transitions_cells G' _ _ Ht').
    assert (H1 : is_non_terminal g A = is_non_terminal g' A).
    { apply eq_true_iff_eq. rewrite (is_non_terminal_spec G), (is_non_terminal_spec G'). tauto. }
    assert (H2 : is_terminal g a = is_terminal g' a).
    { apply eq_true_iff_eq. rewrite (is_terminal_spec G), (is_terminal_spec G'). tauto. }
    rewrite H1, H2. destruct (is_non_terminal g' A && is_terminal g' a); auto.
    f_equal. apply filter_ext_in. intros p Hp. apply productions_of_In in Hp as [Hp _].
    apply eq_true_iff_eq.
    rewrite (@selectsb_spec _ _ _ _ _ _ G ho2 ffs Hx1 Hx2 p a Hp).
    rewrite (@selectsb_spec _ _ _ _ _ _ G' ho2' ffs' Hx1' Hx2' p a Hp). tauto.
  Qed.

  Lemma built_parse_eq solver (self self' : parser L T) tokens fuel :
    built_parser eps init ps solver self -> built_parser eps init ps solver self' ->
    parse_from_tokens fuel self tokens = parse_from_tokens fuel self' tokens.
  Proof.
    intros H H'. pose proof (built_cells_eq H H') as Hc.
    apply built_built in H. apply built_built in H'.
    pose proof (po_grammar (bf_of H)) as G. pose proof (po_grammar (bf_of H')) as G'.
    apply parse_ext.
    - intros x. apply eq_true_iff_eq. rewrite (is_non_terminal_spec G), (is_non_terminal_spec G'). tauto.
    - unfold get_epsilon_symbol. now rewrite (go_eps G), (go_eps G').
    - unfold get_initial_symbol. now rewrite (go_init G), (go_init G').
    - intros A a. unfold inner_get_token_productions. now rewrite Hc.
    - now rewrite (bf_solver H), (bf_solver H').
  Qed.
End Construct.

(** ** FOLLOW *)
Section FollowMore.
  Context {T : Type} {E : EqDec T}.
  Variables eps init : T.
  Variable ps : list (production T).

  Lemma follow_everywhere_iff :
    (forall A a, non_terminal ps A -> can_follow_somewhere eps ps A a ->
       follow_rules (eps := eps) (ps := ps) A a) <->
    repeated_ok (eps := eps) (ps := ps).
  Proof.
    split.
    - intros H p u A v Hp Ho HA a Ha. apply H; auto.
      destruct Ha as (He & Hn & w & Hw).
      exists (p_input p). split; [exists p; auto|]. split; auto. split; auto.
      exists (u ++ []), (w ++ v). rewrite app_nil_r.
      eapply derives_trans; [now apply derives_production|]. rewrite Ho.
      change (A :: A :: v) with ([A] ++ [A] ++ v).
      change (A :: a :: w ++ v) with ([A] ++ (a :: w) ++ v).
      apply derives_app; [apply derives_refl|]. apply derives_app; [apply derives_refl|].
      apply derives_app; [exact Hw|apply derives_refl].
    - intros H A a HA Hf. now apply follow_rules_complete.
  Qed.

  Lemma can_follow_reachable A a : (forall B, non_terminal ps B -> reachable_from eps ps init B) ->
    can_follow_somewhere eps ps A a -> can_follow eps ps init A a.
  Proof.
    intros Hr (X & HX & He & Hn & u & v & Hd). destruct (Hr X HX) as (u' & v' & Hd').
    split; auto. split; auto. exists (u' ++ u), (v ++ v').
    eapply derives_trans; [exact Hd'|].
    change (X :: v') with ([X] ++ v').
    replace ((u' ++ u) ++ A :: a :: v ++ v') with (u' ++ (u ++ A :: a :: v) ++ v')
      by (rewrite <- !app_assoc; reflexivity).
    now apply derives_ctx.
  Qed.
End FollowMore.

(** ** Transition table against Algorithm 4.31 *)
Section Textbook.
  Context {T : Type} {E : EqDec T}.
  Variables eps init : T.
  Variable ps : list (production T).
  Hypothesis Hok : productions_ok eps ps.
  Notation selects_sem := (selects_sem (eps := eps) (ps := ps)).

  Lemma textbook_selects S A a p : repeats_harmless eps ps S ->
    textbook_cell eps ps S A a p -> selects_sem p a.
  Proof.
    intros Hrep (Hp & Hi & [Ha|[Hn Hf]]); [now apply first_selects|].
    apply end_selects; auto.
    destruct Hf as (He & Hna & u & v & Hd).
    destruct (non_terminal_dec ps S) as [HS|HS].
    2:{ exfalso. assert (Hlen : forall w, derives eps ps [S] w -> w = [S] \/ w = []).
        { intros w Hw. inversion Hw as [|? ? H1 H2]; subst; auto.
          apply derive1_single in H1 as [(q & Hq & Hqi & _)|[H3 H4]].
          - exfalso. apply HS. exists q; auto.
          - subst. apply derives_nil_inv in H2. auto. }
        destruct (Hlen _ Hd) as [H|H]; destruct u; try discriminate.
        destruct u; discriminate. }
    rewrite Hi. eapply follow_rules_complete_nullable with (S := S); eauto.
    - exists p; auto.
    - rewrite <- Hi. eapply derives_trans; [now apply derives_production|exact Hn].
    - repeat split; auto. exists v. apply derives_refl.
  Qed.

  (** no production starts with a nullable non-terminal *)
  Definition no_leading_nullable : Prop :=
    forall p X rest, In p ps -> p_output p = X :: rest -> non_terminal ps X -> ~ nullable eps ps [X].

  Lemma selects_textbook S p a : no_leading_nullable ->
    (forall B, non_terminal ps B -> reachable_from eps ps S B) ->
    In p ps -> selects_sem p a -> textbook_cell eps ps S (p_input p) a p.
  Proof.
    intros Hl Hr Hp (X & rest & Ho & Hc). split; auto. split; auto.
    destruct Hc as [Ha|[Hn Hf]].
    - left. rewrite Ho. apply can_start_cons. auto.
    - destruct (eqb eps X) eqn:HeX.
      + apply eqb_iff in HeX. subst X. right.
        destruct (Hok p Hp) as (_ & _ & Ha). rewrite Ho in Ha.
        specialize (Ha (or_introl eq_refl)). inversion Ha; subst rest. rewrite Ho. split; auto.
        apply can_follow_reachable; auto. now apply follow_rules_sound.
      + apply eqb_ne_iff in HeX. exfalso. apply (Hl p X rest Hp Ho); auto.
        destruct (non_terminal_dec ps X); auto.
        exfalso. apply HeX. symmetry. eapply nullable_terminal; eauto.
  Qed.
End Textbook.

(** ** Divergence on left recursion *)
Section Diverge.
  Context {L T : Type} {E : EqDec T}.
  Variable self : parser L T.
  Variable tok : token L T.
  Variable rest : list (token L T).
  Variable Q : T -> Prop.
  Hypothesis HQ : forall X, Q X -> exists Y out outs,
    Q Y /\ is_non_terminal (pr_grammar self) Y = true /\
    inner_get_token_productions self X (tok_type tok) = (Y :: out) :: outs.

  Lemma diverge_inner fuel : forall X single h, Q X ->
    inner_parse_from_tokens fuel self (tok :: rest) X 0
      (inner_get_token_productions self X (tok_type tok)) single h = OutOfFuel.
  Proof.
    induction fuel as [|fuel IH]; intros X single h HX; [reflexivity|]. simpl.
    destruct (HQ HX) as (Y & out & outs & HY & Hnt & ->).
    unfold inner_parse_from_tokens_step, inner_parse_from_tokens_try_parse_productions. simpl.
    destruct fuel as [|fuel]; [reflexivity|].
    remember (S fuel) as fuel1.
    assert (Hp : inner_parse_from_tokens_production self (tok :: rest)
              (inner_parse_from_tokens fuel1 self (tok :: rest)) fuel1 X (Y :: out)
              (is_child_single_path single ((Y :: out) :: outs)) [] 0 h = OutOfFuel).
    { rewrite Heqfuel1 at 2. simpl.
      unfold inner_parse_from_tokens_production_symbol, inner_parse_from_tokens_production_non_terminal.
      rewrite Hnt. simpl. rewrite IH by auto. reflexivity. }
    rewrite Hp. reflexivity.
  Qed.

  Lemma diverge_parse fuel : Q (get_initial_symbol (pr_grammar self)) ->
    parse_from_tokens fuel self (tok :: rest) = OutOfFuel.
  Proof. intros H. unfold parse_from_tokens. now rewrite diverge_inner. Qed.
End Diverge.

(** ** Fixes need an answered solver call *)
Section FixNeeds.
  Context {L T : Type}.
  Variable eps : T.
  Variable ps : list (production T).
  Variable tokens : list (token L T).
  Variable candidates : T -> T -> list (list T).
  Variable answer : T -> nat -> fixed_production L T -> nat -> Prop.

  Scheme fixed_for_mut := Minimality for fixed_for Sort Prop
  with fixed_parts_mut := Minimality for fixed_parts Sort Prop.
  Combined Scheme fixed_mutind from fixed_for_mut, fixed_parts_mut.

  Lemma fixed_needs_answer :
    (forall X p fs q, fixed_for eps ps tokens candidates answer X p fs q ->
       exists X' p' fp q', answer X' p' fp q') /\
    (forall Xs p parts q, fixed_parts eps ps tokens candidates answer Xs p parts q ->
       (exists fs, In (FPartFixed fs) parts) -> exists X' p' fp q', answer X' p' fp q').
  Proof.
    apply fixed_mutind; eauto.
    - intros p [fs []].
    - intros X Xs n w p q parts r _ _ _ IH [fs [H|H]]; [discriminate|eauto].
  Qed.
End FixNeeds.

Section SolverFree.
  Context {L T : Type} {E : EqDec T}.
  Variable self : parser L T.
  Hypothesis Hns : pr_solver self = None.
  Variable tokens : list (token L T).

  Lemma parse_no_solver_calls fuel res h :
    parse_from_tokens fuel self tokens = Done (res, h) -> h = [].
  Proof.
    assert (Hh :
      (forall X pos prods single h r h', RSym self tokens X pos prods single h r h' -> h' = h) /\
      (forall X pos child prods failed h r h', RTry self tokens X pos child prods failed h r h' -> h' = h) /\
      (forall X out child states pos h pr pos' h', RProd self tokens X out child states pos h pr pos' h' -> h' = h) /\
      (forall Y pos child h r h', RStep self tokens Y pos child h r h' -> h' = h) /\
      (forall states child failed h states' popped h', RPop self tokens states child failed h states' popped h' -> h' = h)).
    { apply run_mutind; intros; subst; auto.
      match goal with H : inner_parse_from_tokens_try_fix_productions _ _ _ _ _ _ _ = _ |- _ =>
        unfold inner_parse_from_tokens_try_fix_productions in H; rewrite Hns in H; inversion H; auto end. }
    intros H. apply parse_run in H as (tok & rest & r & _ & _ & HR). now apply Hh in HR.
  Qed.
End SolverFree.

(** ** End-of-input discipline *)
Section Eof.
  Context {L T : Type} {E : EqDec T}.
  Variables eps init eof : T.
  Variable ps : list (production T).

  Lemma eof_whole (root : node L T) w tokens :
    eof_discipline eps ps init eof -> non_terminal ps init -> ~ non_terminal ps eps ->
    tree_for eps ps init root w -> prefix w tokens ->
    (forall pre tok post, tokens = pre ++ tok :: post -> tok_type tok = eof -> post = []) ->
    w = tokens.
  Proof.
    intros (He & Hn & Hi & Hend & Ho) Hinit Hne Ht [post Htok] Honly.
    assert (Hroot : exists p children, In p ps /\ p_input p = init /\
              forest_for eps ps (p_output p) children w).
    { inversion Ht as [tok H1 H2 Hx|H1|p children w' Hp Hf Hx].
      - exfalso. apply H2. now rewrite Hx.
      - exfalso. apply Hne. now rewrite H1.
      - exists p, children. auto. }
    destruct Hroot as (p & children & Hp & Hpi & Hf).
    destruct (Hend p Hp Hpi) as (u & Hu & _). rewrite Hu in Hf.
    apply forest_split in Hf as (n1 & n2 & w1 & w2 & -> & -> & Hf1 & Hf2).
    inversion Hf2 as [|X Xs n ns wt ws Htt Hf3 HX Hns Hws]; subst. inversion Hf3; subst.
    assert (Hx : exists tok, wt = [tok] /\ tok_type tok = eof).
    { inversion Htt as [tok H1 H2 H3|H1|q ? ? Hq _ Hqi]; subst.
      - eauto.
      - congruence.
      - exfalso. apply Hn. exists q; auto. }
    destruct Hx as (tok & -> & Htt'). simpl.
    rewrite (Honly w1 tok post); auto.
    - now rewrite app_nil_r.
    - simpl. rewrite <- app_assoc. reflexivity.
  Qed.

  Lemma eof_ends : eof_discipline eps ps init eof -> initial_ends_in_terminal eps ps init.
  Proof.
    intros (He & Hn & _ & Hend & _) p Hp Hi. destruct (Hend p Hp Hi) as (u & Hu & _).
    exists u, eof. auto.
  Qed.
End Eof.

(** a derivation of tokens has a tree *)
Section DerivTree.
  Context {L T : Type} {E : EqDec T}.
  Variable eps : T.
  Variable ps : list (production T).
  Hypothesis Hne : ~ non_terminal ps eps.

  Lemma derives_forest w ts :
    derives eps ps w (map (@tok_type L T) ts) ->
    Forall (fun t => tok_type t <> eps /\ ~ non_terminal ps (tok_type t)) ts ->
    exists ns, forest_for eps ps w ns ts.
  Proof.
    intros Hd Hl. remember (map (@tok_type L T) ts) as v eqn:Hv.
    induction Hd as [w|w w1 v Hstep Hd IH].
    - subst w. clear -Hl. induction Hl as [|t ts [H1 H2] Hl IH]; simpl.
      + exists []. constructor.
      + destruct IH as [ns IH]. exists (Node [] t :: ns).
        change (t :: ts) with ([t] ++ ts). constructor; auto. constructor; auto.
    - destruct (IH Hv) as [ns Hf]. destruct Hstep as [u v' p Hp|u v'].
      + apply forest_split in Hf as (n1 & n2 & w2 & w3 & -> & -> & Hf1 & Hf2).
        apply forest_split in Hf2 as (n3 & n4 & w4 & w5 & -> & -> & Hf3 & Hf4).
        exists (n1 ++ Node n3 (Token None (p_input p)) :: n4).
        apply forest_app; auto. constructor; auto. constructor; auto.
      + apply forest_split in Hf as (n1 & n2 & w2 & w3 & -> & -> & Hf1 & Hf2).
        exists (n1 ++ Node [] (Token None eps) :: n2).
        apply forest_app; auto. change w3 with ([] ++ w3). constructor; auto. constructor.
  Qed.

  Lemma derives_tree X ts :
    derives eps ps [X] (map (@tok_type L T) ts) ->
    Forall (fun t => tok_type t <> eps /\ ~ non_terminal ps (tok_type t)) ts ->
    exists n, tree_for eps ps X n ts.
  Proof.
    intros Hd Hl. destruct (derives_forest Hd Hl) as [ns Hf].
    inversion Hf as [|? ? n ? w ? Ht Hf']; subst. inversion Hf'; subst. rewrite app_nil_r. eauto.
  Qed.
End DerivTree.
