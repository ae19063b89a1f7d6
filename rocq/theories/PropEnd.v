(** * The end of the input without an end marker: C97 *)

From Verif Require Import BaseFacts GrammarFacts DerivFacts ParserSound ParserComplete.
From Verif Require Import FollowSpec ProductiveSpec CutFacts CoverFacts PrefixSpec ChoiceSpec RecoverSpec ParserRecover
  Examples ExampleTools MoreFacts PropParse PropReports PropPrefix PropRecover PropCut
  GuidedSpec ParserGuided PropGuided SuppliedSpec PropFirstChoice EpsFreeSpec PropEpsFree.
From Verif Require Export EndSpec.

Set Implicit Arguments.

(** ** returned trees have a token to look at wherever a non-terminal starts *)
Section Guided.
  Context {L T : Type} {E : EqDec T}.
  Variable eps : T.
  Variable ps : list (production T).
  Variable tokens : list (token L T).
  Variable cands : T -> T -> list (list T).
  Variable solver : option (syntax_error_solver L T).

  Notation gforest := (guided_forest eps ps tokens cands).

  Lemma trees_cons n parts ns : trees (L := L) (T := T) (FPartOk n :: parts) = Some ns ->
    exists ns', ns = n :: ns' /\ trees parts = Some ns'.
  Proof. simpl. destruct (trees parts) as [l|]; [|discriminate]. intros H. inversion H. eauto. Qed.

  Lemma derived_guided :
    (forall single X p outs h r h', derive eps ps tokens cands solver single X p outs h r h' ->
       forall n q left, r = DTree n q left -> incl left outs /\
         exists out ns, In out outs /\ n = Node ns (Token None X) /\ gforest out p ns q) /\
    (forall single X p outs fps h r h', attempt eps ps tokens cands solver single X p outs fps h r h' ->
       forall n q left, r = inl (DTree n q left) -> incl left outs /\
         exists out ns, In out outs /\ n = Node ns (Token None X) /\ gforest out p ns q) /\
    (forall single Xs p h r h', RecoverSpec.parse eps ps tokens cands solver single Xs p h r h' ->
       forall parts q ns, r = PParts parts q -> trees parts = Some ns -> gforest Xs p ns q) /\
    (forall single X p outs Xs h r h', RecoverSpec.branch eps ps tokens cands solver single X p outs Xs h r h' ->
       forall parts q ns tok, r = PParts parts q -> trees parts = Some ns ->
         non_terminal ps X -> nth_error tokens p = Some tok -> incl outs (cands X (tok_type tok)) ->
         gforest (X :: Xs) p ns q) /\
    (forall single X p outs Xs f before h r h', retry eps ps tokens cands solver single X p outs Xs f before h r h' ->
       forall parts q ns tok, r = PParts parts q -> trees parts = Some ns ->
         non_terminal ps X -> nth_error tokens p = Some tok -> incl outs (cands X (tok_type tok)) ->
         gforest (X :: Xs) p ns q).
  Proof.
    apply recover_mutind.
    - intros single X p outs h r h' _ IH n q left ->. eauto.
    - intros; discriminate.
    - intros; discriminate.
    - intros; discriminate.
    - intros; discriminate.
    - intros single X p out outs fps h parts q h' _ IH n q' left Heq. unfold built in Heq.
      destruct (trees parts) as [ns|] eqn:Ht; inversion Heq; subst. split; [now apply incl_tl, incl_refl|].
      exists out, ns. split; [now left|]. split; eauto.
    - intros single X p out outs fps h f before h' r h'' _ _ _ IH n q left Heq.
      destruct (IH _ _ _ Heq) as (Hi & out' & ns & Ho & Hn & Hf). split; [now apply incl_tl|].
      exists out', ns. split; [now right|]. auto.
    - intros single p h parts q ns Heq Ht. inversion Heq; subst. inversion Ht; subst. constructor.
    - intros single Xs p h r h' _ IH parts q ns Heq Ht. destruct r as [parts'|]; [|discriminate]. inversion Heq; subst.
      apply trees_cons in Ht as (ns' & -> & Ht). econstructor; [constructor|eauto].
    - intros single Xs p tok h r h' Hn He Hnth _ IH parts q ns Heq Ht. destruct r as [parts'|]; [|discriminate].
      inversion Heq; subst. apply trees_cons in Ht as (ns' & -> & Ht). econstructor; [now constructor|eauto].
    - intros; discriminate.
    - intros single X Xs p tok h r h' HX Hn _ IH parts q ns Heq Ht. eapply IH; eauto. apply incl_refl.
    - intros; discriminate.
    - intros single X p outs Xs h fs q h' r h'' _ _ _ _ parts q' ns tok Heq Ht.
      destruct r; [|discriminate]. inversion Heq; subst. discriminate.
    - intros single X p outs Xs h n q left h' parts q' h'' _ IHd _ IHp parts' q'' ns tok Heq Ht HX Hn Hi.
      inversion Heq; subst. apply trees_cons in Ht as (ns' & -> & Ht).
      destruct (IHd _ _ _ eq_refl) as (_ & out & ms & Ho & -> & Hf).
      econstructor; [|eauto]. eapply guided_production; eauto.
    - intros single X p outs Xs h n q left h' f before h'' r h''' _ IHd _ _ _ IHr parts' q'' ns tok Heq Ht HX Hn Hi.
      destruct (IHd _ _ _ eq_refl) as (Hl & _). eapply IHr; eauto. eapply incl_tran; eauto.
    - intros; discriminate.
    - intros single X p outs Xs f before h n q left h' parts q' h'' _ IHd _ IHp parts' q'' ns tok Heq Ht HX Hn Hi.
      inversion Heq; subst. apply trees_cons in Ht as (ns' & -> & Ht).
      destruct (IHd _ _ _ eq_refl) as (_ & out & ms & Ho & -> & Hf).
      econstructor; [|eauto]. eapply guided_production; eauto.
    - intros single X p outs Xs f before h n q left h' f' before' h'' r h''' _ IHd _ _ _ IHr parts' q'' ns tok Heq Ht HX Hn Hi.
      destruct (IHd _ _ _ eq_refl) as (Hl & _). eapply IHr; eauto. eapply incl_tran; eauto.
  Qed.

  (** ** tokenless trees *)
  Hypothesis outputs : forall p, In p ps -> p_output p <> [].

  Lemma forest_children Xs (ns : list (node L T)) w : forest_for eps ps Xs ns w -> Xs <> [] -> ns <> [].
  Proof. intros H. inversion H; subst; auto. discriminate. Qed.

  Lemma tokenless_spec :
    (forall X (n : node L T) w, tree_for eps ps X n w -> (tokenless eps n <-> w = [])) /\
    (forall Xs (ns : list (node L T)) w, forest_for eps ps Xs ns w -> (Forall (tokenless eps) ns <-> w = [])).
  Proof.
    apply tree_forest_ind.
    - intros tok He Hn. split; [|discriminate]. intros H. inversion H; subst; [now simpl in He|contradiction].
    - split; auto. intros _. constructor.
    - intros p children w Hp Hf IH. pose proof (forest_children Hf (outputs _ Hp)) as Hne. split.
      + intros H. inversion H; subst; [contradiction|]. now apply IH.
      + intros ->. constructor; auto. now apply IH.
    - split; auto.
    - intros X Xs n ns w ws _ IHt _ IHf. split.
      + intros H. inversion H; subst. rewrite (proj1 IHt), (proj1 IHf) by assumption. reflexivity.
      + intros H. apply app_eq_nil in H as [-> ->]. constructor; [now apply IHt|now apply IHf].
  Qed.
End Guided.

Section End.
  Context {L T : Type} {E : EqDec T}.
  Variable eps init : T.
  Variable ps : list (production T).
  Hypothesis outputs : forall p, In p ps -> p_output p <> [].
  Notation types := (map (@tok_type L T)).
  Notation real := (fun t : token L T => tok_type t <> eps /\ ~ non_terminal ps (tok_type t)).

  Lemma guided_split tokens cands Xs before : forall p (n : node L T) after q,
    guided_forest eps ps tokens cands Xs p (before ++ n :: after) q ->
    exists Y Ys q1 q2, guided eps ps tokens cands Y q1 n q2 /\ guided_forest eps ps tokens cands Ys q2 after q.
  Proof.
    revert Xs. induction before as [|m before IH]; intros Xs p n after q H; simpl in H; inversion H; subst; eauto 8.
  Qed.

  Lemma forest_split Xs before : forall (n : node L T) after w,
    forest_for eps ps Xs (before ++ n :: after) w ->
    exists Xb Y Xa wb wn wa, Xs = Xb ++ Y :: Xa /\ w = wb ++ wn ++ wa /\
      forest_for eps ps Xb before wb /\ tree_for eps ps Y n wn /\ forest_for eps ps Xa after wa.
  Proof.
    revert Xs. induction before as [|m before IH]; intros Xs n after w H; simpl in H;
      inversion H as [|X Xs0 ? ? w0 ws G1 G2]; subst; clear H.
    - exists [], X, Xs0, [], w0, ws. repeat split; auto. constructor.
    - destruct (IH _ _ _ _ G2) as (Xb & Y & Xa & wb & wn & wa & -> & -> & H1 & H2 & H3).
      exists (X :: Xb), Y, Xa, (w0 ++ wb), wn, wa. rewrite <- app_assoc. repeat split; auto. now constructor.
  Qed.

  Lemma tree_tokens_unique :
    (forall X (n : node L T) w, tree_for eps ps X n w -> forall Y w', tree_for eps ps Y n w' -> w' = w) /\
    (forall Xs (ns : list (node L T)) w, forest_for eps ps Xs ns w -> forall Ys w', forest_for eps ps Ys ns w' -> w' = w).
  Proof.
    apply tree_forest_ind.
    - intros tok He Hn Y w' H. inversion H as [| |p children ? Hp Hf]; subst; auto.
      + now simpl in He.
      + elim (outputs _ Hp). inversion Hf. auto.
    - intros Y w' H. inversion H as [? G| |p children ? Hp Hf]; subst; auto; [now simpl in G|].
      elim (outputs _ Hp). inversion Hf. auto.
    - intros p children w Hp Hf IH Y w' H. assert (Hne : children <> []) by exact (forest_children Hf (outputs _ Hp)).
      inversion H; subst; try contradiction. eauto.
    - intros Ys w' H. inversion H; auto.
    - intros X Xs n ns w ws _ IHt _ IHf Ys w' H. inversion H; subst. f_equal; eauto.
  Qed.

  Lemma guided_ends tokens cands (declared : forall A a out, In out (cands A a) ->
      exists p, In p ps /\ p_input p = A /\ p_output p = out) (n : node L T) :
    ends_empty eps n -> forall X p q, guided eps ps tokens cands X p n q -> q < length tokens.
  Proof.
    induction 1 as [children tok Hne Ht|before n after tok Hn IH Ha]; intros X p q H.
    - destruct (proj1 (@guided_trees _ _ eps ps tokens cands declared) _ _ _ _ H) as (w & v & Hw & -> & _).
      rewrite (proj1 (proj1 (tokenless_spec eps ps outputs) _ _ _ Hw) Ht), Nat.add_0_r.
      inversion H; subst; try contradiction. apply nth_error_Some. congruence.
    - inversion H as [? ? ? ? ? Hnil|? Hnil|? ? ? ? ? ? HA Hnth Hin Hf]; subst.
      + destruct before; discriminate.
      + destruct before; discriminate.
      + destruct (guided_split _ _ _ Hf) as (Y & Ys & q1 & q2 & Hg & Hg').
        destruct (proj2 (@guided_trees _ _ eps ps tokens cands declared) _ _ _ _ Hg') as (w & v & Hw & -> & _).
        rewrite (proj1 (proj2 (tokenless_spec eps ps outputs) _ _ _ Hw) Ha), Nat.add_0_r. eauto.
  Qed.

  Lemma ends_cut (n : node L T) : ends_empty eps n -> forall X w, tree_for eps ps X n w ->
    exists A v, non_terminal ps A /\ derives eps ps [X] (types w ++ A :: v).
  Proof.
    induction 1 as [children tok Hne Ht|before n after tok Hn IH Ha]; intros X w H.
    - rewrite (proj1 (proj1 (tokenless_spec eps ps outputs) _ _ _ H) Ht).
      inversion H; subst; try contradiction. exists (p_input p), []. split; [exists p; auto|apply derives_refl].
    - inversion H as [? ? ? Hx Hnil|Hx Hnil|p children w' Hp Hf]; subst; try (destruct before; discriminate).
      destruct (forest_split _ _ _ Hf) as (Xb & Y & Xa & wb & wn & wa & Ho & -> & H1 & H2 & H3).
      rewrite (proj1 (proj2 (tokenless_spec eps ps outputs) _ _ _ H3) Ha), app_nil_r.
      destruct (IH _ _ H2) as (A & v & HA & Hd). exists A, (v ++ Xa). split; auto.
      eapply derives_trans; [now apply derives_production|]. rewrite Ho, map_app, <- app_assoc.
      apply derives_app; [apply (proj2 (@tree_derives_all L T eps ps) _ _ _ H1)|].
      change (derives eps ps ([Y] ++ Xa) (types wn ++ (A :: v) ++ Xa)). rewrite app_assoc.
      apply derives_app; [exact Hd|apply derives_refl].
  Qed.

  Variable tokens : list (token L T).
  Variable cands : T -> T -> list (list T).
  Hypothesis Hcov : covering eps init ps cands.
  Hypothesis Hone : forall A a out, In out (cands A a) -> cands A a = [out].
  Hypothesis Heps : ~ non_terminal ps eps.

  Lemma closed_first :
    (forall Y n w, tree_for eps ps Y n w -> forall u rest more pos,
       derives eps ps [init] (u ++ Y :: types rest) -> Forall real rest -> skipn pos tokens = w ++ rest ++ more ->
       (rest <> [] \/ ~ ends_empty eps n) ->
       first_tree eps ps tokens cands Y n pos (pos + length w)) /\
    (forall Xs ns w, forest_for eps ps Xs ns w -> forall u rest more pos,
       derives eps ps [init] (u ++ Xs ++ types rest) -> Forall real rest -> skipn pos tokens = w ++ rest ++ more ->
       (rest <> [] \/ forall before n after, ns = before ++ n :: after -> Forall (tokenless eps) after -> ~ ends_empty eps n) ->
       first_forest eps ps tokens cands Xs ns pos (pos + length w)).
  Proof.
    apply tree_forest_ind.
    - intros tok He Hn u rest more pos _ _ Hs _. simpl in Hs. apply skipn_next in Hs as [Hnth _]. now constructor.
    - intros u rest more pos _ _ _ _. simpl. rewrite Nat.add_0_r. now constructor.
    - intros p children w Hp Hf IH u rest more pos Hctx Hr Hs Hc.
      assert (Hlw : Forall real (w ++ rest)).
      { apply Forall_app. split; auto. exact (proj2 (@tree_leaves_all L T eps ps) _ _ _ Hf). }
      destruct (w ++ rest) as [|t l] eqn:Hl.
      { exfalso. apply app_eq_nil in Hl as [-> ->]. destruct Hc as [Hc|Hc]; [congruence|]. apply Hc.
        assert (Hne : children <> []) by exact (forest_children Hf (outputs _ Hp)).
        apply ends_empty_here; auto. constructor; auto. now apply (proj2 (tokenless_spec eps ps outputs) _ _ _ Hf). }
      assert (Hs' := Hs). rewrite app_assoc, Hl in Hs'. simpl in Hs'. apply skipn_next in Hs' as [Hn _].
      eapply first_candidate with (tok := t) (out := p_output p) (others := []).
      + exists p; auto.
      + exact Hn.
      + apply (@the_candidate L T eps init ps cands Hcov Hone p u (types rest) t l []); auto.
        * rewrite <- Hl, app_nil_r, map_app. apply derives_app; [|apply derives_refl].
          apply (proj2 (@tree_derives_all L T eps ps) _ _ _ Hf).
        * now inversion Hlw.
      + apply (IH u rest more pos); auto.
        * now apply inside.
        * destruct Hc as [Hc|Hc]; auto. right. intros before n after -> Ha Hn'. apply Hc. now apply ends_empty_below.
    - intros u rest more pos _ _ _ _. simpl. rewrite Nat.add_0_r. constructor.
    - intros X Xs n ns w ws Ht IHt Hf IHf u rest more pos Hctx Hr Hs Hc.
      assert (Hlws : Forall real ws) by exact (proj2 (@tree_leaves_all L T eps ps) _ _ _ Hf).
      rewrite <- app_assoc in Hs. rewrite app_length, Nat.add_assoc.
      apply first_cons with (pos + length w).
      + apply (IHt u (ws ++ rest) more pos); auto.
        * eapply derives_trans; [exact Hctx|]. apply derives_app; [apply derives_refl|].
          change (X :: types (ws ++ rest)) with ([X] ++ types (ws ++ rest)).
          simpl. apply (@derives_app _ eps ps [X] [X]); [apply derives_refl|]. rewrite map_app.
          apply derives_app; [|apply derives_refl]. apply (proj2 (@tree_derives_all L T eps ps) _ _ _ Hf).
        * apply Forall_app. auto.
        * now rewrite <- app_assoc.
        * destruct Hc as [Hc|Hc]; [left; intros H; apply app_eq_nil in H as [_ H]; contradiction|].
          destruct ws as [|t ws]; [|left; discriminate]. right. apply (Hc [] n ns eq_refl).
          now apply (proj2 (tokenless_spec eps ps outputs) _ _ _ Hf).
      + apply (IHf (u ++ types w) rest more (pos + length w)); auto.
        * eapply derives_trans; [exact Hctx|]. rewrite <- app_assoc. apply derives_app; [apply derives_refl|].
          apply (@derives_app _ eps ps [X] (types w)); [exact (tree_derives Ht)|apply derives_refl].
        * exact (skipn_after tokens _ _ _ Hs).
        * destruct Hc as [Hc|Hc]; auto. right. intros before m after ->. apply (Hc (n :: before) m after eq_refl).
  Qed.
End End.

Lemma declared_outputs {L T : Type} {E : EqDec T} (eps init : T) ps solver (self : parser L T) :
  constructed_parser eps init ps solver self -> forall p, In p ps -> p_output p <> [].
Proof. intros B p Hp. now apply (go_ok (po_grammar (bf_of (constructed_built B)))). Qed.

(** Every node of a returned tree uses a candidate for the token it starts at, whatever the solver *)
Theorem C97_candidates_at_every_node :
  forall (L T : Type) (E : EqDec T) (eps init : T) (ps : list (production T))
         (solver : option (syntax_error_solver L T)) (self : parser L T)
         (tokens : list (token L T)) (root : node L T) (fuel : nat) h,
    constructed_parser eps init ps solver self -> non_terminal ps init ->
    parse_from_tokens fuel self tokens = Done (ResultOk root, h) ->
    exists q, guided eps ps tokens (candidates self) init 0 root q.
Proof.
  intros L T E eps init ps solver self tokens root fuel h B Hn H.
  destruct tokens as [|tok rest]; [discriminate|].
  assert (Ht : terminates_with (fun fuel => parse_from_tokens fuel self (tok :: rest)) (Done (ResultOk root, h)))
    by (eapply parse_terminates; [exact H|discriminate]).
  apply (C59_exact_semantics tok rest _ _ B) in Ht as (r & Hd & Hr). destruct r as [n q left| |]; try discriminate.
  inversion Hr; subst n.
  destruct (proj1 (derived_guided eps ps (tok :: rest) (candidates self) solver) _ _ _ _ _ _ _ Hd _ _ _ eq_refl)
    as (_ & out & ns & Ho & -> & Hf).
  exists q. eapply guided_production; eauto. reflexivity.
Qed.
Print Assumptions C97_candidates_at_every_node.

(** So a tree of the whole input does not end in a node with children but without tokens *)
Theorem C97_whole_inputs_end_in_tokens :
  forall (L T : Type) (E : EqDec T) (eps init : T) (ps : list (production T))
         (solver : option (syntax_error_solver L T)) (self : parser L T)
         (tokens : list (token L T)) (root : node L T) (fuel : nat) h,
    constructed_parser eps init ps solver self -> non_terminal ps init ->
    parse_from_tokens fuel self tokens = Done (ResultOk root, h) ->
    tree_for eps ps init root tokens -> ~ ends_empty eps root.
Proof.
  intros L T E eps init ps solver self tokens root fuel h B Hn H Ht He.
  destruct (C97_candidates_at_every_node _ _ B Hn H) as [q Hg].
  pose proof (guided_ends (declared_outputs B) (candidates_declared (constructed_built B)) He Hg) as Hlt.
  destruct (proj1 (@guided_trees _ _ eps ps tokens (candidates self) (candidates_declared (constructed_built B))) _ _ _ _ Hg)
    as (w & v & Hw & -> & Hs).
  assert (w = tokens) by exact (proj1 (tree_tokens_unique eps ps (declared_outputs B)) _ _ _ Ht _ _ Hw). subst w. simpl in Hlt. lia.
Qed.
Print Assumptions C97_whole_inputs_end_in_tokens.

(** for any table with the candidates needed, see [covering] *)
Lemma covering_closed :
  forall (L T : Type) (E : EqDec T) (eps init : T) (ps : list (production T))
         (solver : option (syntax_error_solver L T)) (self : parser L T)
         (tokens w : list (token L T)) (root : node L T),
    constructed_parser eps init ps solver self -> conflict_free (pr_transitions self) ->
    covering eps init ps (candidates self) -> non_terminal ps init ->
    tree_for eps ps init root w -> prefix w tokens -> ~ ends_empty eps root ->
    terminates_with (fun fuel => parse_from_tokens fuel self tokens) (Done (ResultOk root, [])).
Proof.
  intros L T E eps init ps solver self tokens w root B Hcf Hcov Hn Ht [more Hw] Hc.
  assert (Heps : ~ non_terminal ps eps) by apply (eps_not_nt (po_grammar (bf_of (constructed_built B)))).
  assert (Hone : forall A a out, In out (candidates self A a) -> candidates self A a = [out]).
  { intros A0 a out. unfold candidates.
    destruct (transitions_get_productions (pr_transitions self) A0 a) as [l|] eqn:Hl; [|intros []].
    pose proof (Hcf _ _ _ Hl). destruct l as [|x [|y l]]; simpl in *; [intros []| |lia]. intros [->|[]]. reflexivity. }
  eapply (C96_first_choices_returned B Hn (q := 0 + length w)).
  apply (proj1 (closed_first (declared_outputs B) tokens Hcov Hone Heps) _ _ _ Ht [] [] more 0); auto.
  apply derives_refl.
Qed.

(** Without conflicts every other tree of a prefix is returned: no end marker is needed for it *)
Theorem C97_other_trees_returned :
  forall (L T : Type) (E : EqDec T) (eps init : T) (ps : list (production T))
         (solver : option (syntax_error_solver L T)) (self : parser L T)
         (tokens w : list (token L T)) (root : node L T),
    built_parser eps init ps solver self -> conflict_free (pr_transitions self) ->
    repeats_harmless eps ps init -> non_terminal ps init ->
    tree_for eps ps init root w -> prefix w tokens -> ~ ends_empty eps root ->
    terminates_with (fun fuel => parse_from_tokens fuel self tokens) (Done (ResultOk root, [])).
Proof.
  intros L T E eps init ps solver self tokens w root B Hcf Hrep Hn Ht Hw Hc.
  exact (covering_closed B Hcf (harmless_covering (built_built B) Hrep Hn) Hn Ht Hw Hc).
Qed.
Print Assumptions C97_other_trees_returned.

(** ... and a sentence whose tree does end that way makes the parser panic *)
Theorem C97_sentences_that_panic :
  forall (L T : Type) (E : EqDec T) (eps init : T) (ps : list (production T))
         (solver : option (syntax_error_solver L T)) (self : parser L T)
         (tokens : list (token L T)) (root : node L T),
    built_parser eps init ps solver self -> conflict_free (pr_transitions self) ->
    repeats_harmless eps ps init -> non_terminal ps init -> tokens <> [] ->
    tree_for eps ps init root tokens -> ends_empty eps root ->
    terminates_with (fun fuel => parse_from_tokens fuel self tokens) (Panicked PanicTokenOutOfRange).
Proof.
  intros L T E eps init ps solver self tokens root B Hcf Hrep Hn Hne Ht He.
  destruct (ends_cut (declared_outputs B) He Ht) as (A & v & HA & Hd).
  apply (C94_cut_short_panics (A := A) v B Hcf Hrep Hn Hne); auto. exact (proj1 (@tree_leaves_all L T eps ps) _ _ _ Ht).
Qed.
Print Assumptions C97_sentences_that_panic.

(** End markers and grammars without epsilon productions rule such trees out *)
Theorem C97_when_trees_end_in_tokens :
  forall (L T : Type) (E : EqDec T) (eps init : T) (ps : list (production T))
         (solver : option (syntax_error_solver L T)) (self : parser L T) (root : node L T) (w : list (token L T)),
    constructed_parser eps init ps solver self -> non_terminal ps init -> tree_for eps ps init root w ->
    initial_ends_in_terminal eps ps init \/ epsilon_free eps ps -> ~ ends_empty eps root.
Proof.
  intros L T E eps init ps solver self root w B Hn Ht Hor He.
  pose proof (declared_outputs B) as outputs.
  assert (Heps : ~ non_terminal ps eps) by apply (eps_not_nt (po_grammar (bf_of (constructed_built B)))).
  destruct Hor as [Hend|Hfree].
  - inversion Ht as [? ? Hx|Hx|p children w' Hp Hf Hx]; subst; try contradiction.
    destruct (Hend p Hp eq_refl) as (u & t & Ho & Hte & Htn). rewrite Ho in Hf.
    assert (Hlast : exists ns m, children = ns ++ [m] /\ exists v, tree_for eps ps t m v).
    { clear - Hf. revert children w Hf. induction u as [|x u IH]; intros children w Hf; inversion Hf as [|X Xs n ns w0 ws G1 G2]; subst.
      - inversion G2; subst. exists [], n. eauto.
      - destruct (IH _ _ G2) as (ns' & m & -> & Hv). exists (n :: ns'), m. auto. }
    destruct Hlast as (ns & m & -> & v & Hm).
    assert (Hm' : exists tok, m = Node [] tok /\ ~ tokenless eps m).
    { inversion Hm as [tok H1 H2| |p' ? ? Hp' _]; subst; try contradiction; [|elim Htn; exists p'; auto].
      exists tok. split; auto. intros H. inversion H; subst; [now simpl in H1|contradiction]. }
    destruct Hm' as (tok & -> & Hnot).
    inversion He as [? ? _ Hl Hx|before n after ? Hn' Ha Hx]; subst.
    + inversion Hl as [? G|? ? ? G]; subst; [destruct ns; discriminate|]. apply Forall_app in G as [_ G]. now inversion G.
    + destruct after as [|a after] using rev_ind.
      * apply app_inj_tail in Hx as [_ ->]. inversion Hn'; subst; [contradiction|destruct before0; discriminate].
      * change (n :: after ++ [a]) with ((n :: after) ++ [a]) in Hx. rewrite app_assoc in Hx.
        apply app_inj_tail in Hx as [_ ->]. apply Forall_app in Ha as [_ G]. now inversion G.
  - assert (Hne : (forall X (n : node L T) w, tree_for eps ps X n w -> X <> eps -> w <> []) /\
                  (forall Xs (ns : list (node L T)) w, forest_for eps ps Xs ns w -> ~ In eps Xs -> Xs <> [] -> w <> [])).
    { apply tree_forest_ind.
      - discriminate.
      - contradiction.
      - intros p children w' Hp _ IH _. apply IH; auto.
      - contradiction.
      - intros X Xs n ns w' ws _ IH _ _ Hi _ Hnil. apply app_eq_nil in Hnil as [Hnil _]. revert Hnil. apply IH.
        intros ->. apply Hi. now left. }
    clear Hn B self solver. revert init w Ht. induction He as [children tok Hc Hl|before n after tok Hn IH Ha]; intros init w Ht.
    + pose proof (proj1 (proj1 (tokenless_spec eps ps outputs) _ _ _ Ht) Hl) as ->.
      apply (proj1 Hne _ _ _ Ht); auto. intros ->. inversion Ht; subst; try contradiction.
      apply Heps. exists p. auto.
    + inversion Ht as [? ? ? Hx Hnil|Hx Hnil|p children w' Hp Hf]; subst; try (destruct before; discriminate).
      destruct (forest_split _ _ _ Hf) as (Xb & Y & Xa & wb & wn & wa & Ho & -> & H1 & H2 & H3).
      eauto.
Qed.
Print Assumptions C97_when_trees_end_in_tokens.

(** 0 epsilon; [S -> a B], [B -> b | epsilon] with S = 1, B = 2, a = 3, b = 4. The sentence [a b] is returned, also
    with more tokens after it; the sentence [a] panics, and is not returned with anything after it *)
Definition optional_b : list (production nat) := [Production 1 [3; 2]; Production 2 [4]; Production 2 [0]].
Definition optional_parser : parser nat nat := Eval vm_compute in
  get_done (no_parser 0) (build 0 1 optional_b None 100).

Example C97_case :
  let t := fun x => Token None x : token nat nat in
  let leaf := fun x => Node [] (t x) in
  let with_b := Node [leaf 3; Node [leaf 4] (t 2)] (t 1) in
  let without_b := Node [leaf 3; Node [leaf 0] (t 2)] (t 1) in
  built_parser 0 1 optional_b None optional_parser /\ conflict_free (pr_transitions optional_parser) /\
  repeats_harmless 0 optional_b 1 /\ non_terminal optional_b 1 /\
  tree_for 0 optional_b 1 with_b [t 3; t 4] /\ ~ ends_empty 0 with_b /\
  tree_for 0 optional_b 1 without_b [t 3] /\ ends_empty 0 without_b /\
  parse_from_tokens 50 optional_parser [t 3; t 4; t 4] = Done (ResultOk with_b, []) /\
  parse_from_tokens 50 optional_parser [t 3] = Panicked PanicTokenOutOfRange /\
  exists f, parse_from_tokens 50 optional_parser [t 3; t 3] = Done (ResultErr f, []).
Proof.
  intros t leaf with_b without_b.
  assert (B : built_parser 0 1 optional_b None optional_parser) by (apply build_built with (fuel := 100); reflexivity).
  assert (H34 : tree_for 0 optional_b 1 with_b [t 3; t 4]).
  { apply (@tree_production _ _ 0 optional_b (Production 1 [3; 2])); [simpl; tauto|].
    apply (@forest_cons _ _ 0 optional_b 3 _ (leaf 3) _ [t 3] [t 4]); [apply (@tree_token _ _ 0 optional_b (t 3)); [discriminate|apply non_terminalb_false; reflexivity]|].
    apply (@forest_cons _ _ 0 optional_b 2 _ _ _ [t 4] []); [|constructor].
    apply (@tree_production _ _ 0 optional_b (Production 2 [4])); [simpl; tauto|].
    apply (@forest_cons _ _ 0 optional_b 4 _ (leaf 4) _ [t 4] []); [apply (@tree_token _ _ 0 optional_b (t 4)); [discriminate|apply non_terminalb_false; reflexivity]|constructor]. }
  assert (H1 : non_terminal optional_b 1) by (apply non_terminalb_spec; reflexivity).
  split; [exact B|]. split; [apply conflict_free_check_ok; reflexivity|]. split.
  { apply FollowRepeat.no_repeated_neighbours_harmless, no_repeated_neighbours_check. reflexivity. }
  split; [exact H1|].
  split; [exact H34|]. split.
  { refine (@C97_whole_inputs_end_in_tokens _ _ _ 0 1 optional_b None optional_parser [t 3; t 4] with_b 50 [] B H1 _ H34). vm_compute. reflexivity. }
  split; [|split].
  - apply (@tree_production _ _ 0 optional_b (Production 1 [3; 2])); [simpl; tauto|].
    apply (@forest_cons _ _ 0 optional_b 3 _ (leaf 3) _ [t 3] []); [apply (@tree_token _ _ 0 optional_b (t 3)); [discriminate|apply non_terminalb_false; reflexivity]|].
    apply (@forest_cons _ _ 0 optional_b 2 _ _ _ [] []); [|constructor].
    apply (@tree_production _ _ 0 optional_b (Production 2 [0])); [simpl; tauto|].
    apply (@forest_cons _ _ 0 optional_b 0 _ (leaf 0) _ [] []); constructor.
  - apply (@ends_empty_below _ _ 0 [leaf 3] (Node [leaf 0] (t 2)) []); [|constructor].
    apply ends_empty_here; [discriminate|]. constructor; [discriminate|]. repeat constructor.
  - split; [vm_compute; reflexivity|]. split; [vm_compute; reflexivity|]. eexists. vm_compute. reflexivity.
Qed.
