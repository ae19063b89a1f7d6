(** * Trees that follow the first candidate everywhere: C96 *)

From Verif Require Import BaseFacts GrammarFacts DerivFacts ParserSound ParserComplete.
From Verif Require Import ChoiceSpec RecoverSpec WorkSpec ParserEffort CutFacts CoverFacts Examples ExampleTools MoreFacts
  PropParse PropReports PropRecover PropWork PropEffort
  GuidedSpec ParserGuided PropGuided RepeatFacts.
From Verif Require Export FirstChoiceSpec.

Set Implicit Arguments.

Scheme first_tree_mut := Minimality for first_tree Sort Prop
  with first_forest_mut := Minimality for first_forest Sort Prop.
Combined Scheme first_ind from first_tree_mut, first_forest_mut.

Section Facts.
  Context {L T : Type} {E : EqDec T}.
  Variable eps : T.
  Variable ps : list (production T).
  Variable tokens : list (token L T).
  Variable cands : T -> T -> list (list T).

  Notation first_tree := (first_tree eps ps tokens cands).
  Notation first_forest := (first_forest eps ps tokens cands).

  Lemma first_derives (solver : option (syntax_error_solver L T)) :
    (forall X n p q, first_tree X n p q -> non_terminal ps X -> ~ non_terminal ps eps ->
       exists tok others, nth_error tokens p = Some tok /\
       forall single h, derive eps ps tokens cands solver single X p (cands X (tok_type tok)) h (DTree n q others) h) /\
    (forall Xs ns p q, first_forest Xs ns p q -> ~ non_terminal ps eps ->
       forall single h, parse eps ps tokens cands solver single Xs p h (PParts (map FPartOk ns) q) h).
  Proof.
    apply first_ind.
    - intros tok p _ H _ H'. contradiction.
    - intros p _ H H'. contradiction.
    - intros X tok out others children p q HX Hn Hc _ IH _ He. exists tok, others. split; auto.
      intros single h. rewrite Hc. apply derive_done.
      replace (DTree (Node children (Token None X)) q others)
        with (built X (map FPartOk children) q others) by (unfold built; now rewrite trees_parts).
      apply attempt_first. apply IH; auto.
    - intros p _ single h. constructor.
    - intros X Xs n ns p q q' Ht IHt Hf IHf He single h. specialize (IHf He).
      destruct (non_terminal_dec ps X) as [HX|HX].
      + destruct (IHt HX He) as (tok & others & Hn & Hd).
        eapply parse_non_terminal; eauto. simpl. eapply branch_tree; [apply Hd|apply IHf].
      + inversion Ht as [tok p0 H1 H2 H3|p0 H1|X0 tok out others children p0 q0 HX0]; subst; [| |contradiction].
        * exact (@parse_token _ _ eps ps tokens cands solver single Xs p tok h _ h H2 H1 H3 (IHf single h)).
        * exact (parse_epsilon (IHf single h)).
  Qed.

  Lemma first_effort :
    (forall X n p q, first_tree X n p q -> non_terminal ps X -> ~ non_terminal ps eps -> 
       (forall A a out, In out (cands A a) -> out <> []) ->
       exists tok others k, nth_error tokens p = Some tok /\ inner_nodes n = S k /\
         ctry eps ps tokens cands X p (cands X (tok_type tok)) (ROk (n, q, others)) k) /\
    (forall Xs ns p q, first_forest Xs ns p q -> ~ non_terminal ps eps ->
       (forall A a out, In out (cands A a) -> out <> []) ->
       cseq eps ps tokens cands Xs p (ROk (ns, q)) (list_sum (map inner_nodes ns))).
  Proof.
    apply first_ind.
    - intros tok p _ H _ H'. contradiction.
    - intros p _ H H'. contradiction.
    - intros X tok out others children p q HX Hn Hc Hf IH _ He Hne.
      exists tok, others, (list_sum (map inner_nodes children)). split; auto. split.
      + destruct children; [|reflexivity]. exfalso. inversion Hf; subst.
        apply (Hne X (tok_type tok) []); [rewrite Hc; now left|reflexivity].
      + rewrite Hc. apply ctry_first. auto.
    - intros p _ _. constructor.
    - intros X Xs n ns p q q' Ht IHt Hf IHf He Hne. specialize (IHf He Hne).
      destruct (non_terminal_dec ps X) as [HX|HX].
      + destruct (IHt HX He Hne) as (tok & others & k & Hn & Hk & Hd).
        eapply cseq_non_terminal; eauto. simpl map. simpl list_sum. rewrite Hk.
        eapply cbranch_ok; eauto.
      + inversion Ht as [tok p0 H1 H2 H3|p0 H1|X0 tok out others children p0 q0 HX0]; subst; [| |contradiction].
        * exact (@cseq_token _ _ eps ps tokens cands Xs p tok _ _ H2 H1 H3 IHf).
        * exact (cseq_epsilon IHf).
  Qed.

  Lemma first_unique :
    (forall X n p q, first_tree X n p q -> forall n' q', first_tree X n' p q' -> n' = n /\ q' = q) /\
    (forall Xs ns p q, first_forest Xs ns p q -> forall ns' q', first_forest Xs ns' p q' -> ns' = ns /\ q' = q).
  Proof.
    apply first_ind.
    - intros tok p H1 H2 H3 n' q' H.
      inversion H as [tok' p0 G1 G2 G3|p0 G1|X0 tok' out others children p0 q0 HX0]; subst; try contradiction.
      split; congruence.
    - intros p H1 n' q' H.
      inversion H as [tok' p0 G1 G2 G3|p0 G1|X0 tok' out others children p0 q0 HX0]; subst; try contradiction. auto.
    - intros X tok out others children p q HX Hn Hc _ IH n' q' H.
      inversion H as [tok' p0 G1 G2 G3|p0 G1|X0 tok' out' others' children' p0 q0 HX0 Hn0 Hc0 Hf0]; subst; try contradiction.
      assert (tok' = tok) by congruence. subst tok'. assert (out' = out) by congruence. subst out'.
      destruct (IH _ _ Hf0) as [-> ->]. auto.
    - intros p ns' q' H. inversion H; auto.
    - intros X Xs n ns p q q' _ IHt _ IHf ns' q'' H. inversion H as [|? ? n1 ns1 ? q1 ? Ht1 Hf1]; subst.
      destruct (IHt _ _ Ht1) as [-> ->]. destruct (IHf _ _ Hf1) as [-> ->]. auto.
  Qed.

  Lemma firstn_nth (l l' : list (token L T)) m p : firstn m l = firstn m l' -> p < m -> nth_error l p = nth_error l' p.
  Proof.
    intros H Hp. rewrite <- (firstn_skipn m l), <- (firstn_skipn m l'), H.
    destruct (Nat.lt_ge_cases p (length (firstn m l'))) as [Hl|Hl].
    - rewrite !nth_error_app1; auto.
    - rewrite <- H in Hl at 1. rewrite firstn_length in Hl. rewrite <- H, (nth_error_app2 _ _ (n := p)) by (rewrite firstn_length; lia).
      rewrite (nth_error_app2 (firstn m l)) by (rewrite firstn_length; lia).
      assert (Hs : length l <= p) by lia. rewrite skipn_all2 by lia.
      assert (Hl' : length l' <= m).
      { assert (Hlen : length (firstn m l) = length (firstn m l')) by now rewrite H.
        rewrite !firstn_length in Hlen. lia. }
      rewrite (skipn_all2 l') by lia. reflexivity.
  Qed.

  Lemma first_advances :
    (forall X n p q, first_tree X n p q -> p <= q) /\ (forall Xs ns p q, first_forest Xs ns p q -> p <= q).
  Proof. apply first_ind; intros; lia. Qed.
End Facts.

Lemma first_lookahead {L T : Type} {E : EqDec T} (eps : T) ps (tokens tokens' : list (token L T)) cands m :
  firstn m tokens = firstn m tokens' ->
  (forall X n p q, first_tree eps ps tokens cands X n p q -> q < m -> first_tree eps ps tokens' cands X n p q) /\
  (forall Xs ns p q, first_forest eps ps tokens cands Xs ns p q -> q < m -> first_forest eps ps tokens' cands Xs ns p q).
Proof.
  intros Hm. apply first_ind.
  - intros tok p H1 H2 H3 Hq. constructor; auto. rewrite <- H3. symmetry. apply firstn_nth with (m := m); auto. lia.
  - intros p H1 Hq. now constructor.
  - intros X tok out others children p q HX Hn Hc Hf IH Hq. econstructor; eauto.
    rewrite <- Hn. symmetry. apply firstn_nth with (m := m); auto.
    pose proof (proj2 (first_advances eps ps tokens cands) _ _ _ _ Hf). lia.
  - intros p _. constructor.
  - intros X Xs n ns p q q' Ht IHt Hf IHf Hq.
    pose proof (proj2 (first_advances eps ps tokens cands) _ _ _ _ Hf). econstructor; eauto. apply IHt. lia.
Qed.

Lemma first_guided {L T : Type} (eps : T) ps (tokens : list (token L T)) cands :
  (forall X n p q, first_tree eps ps tokens cands X n p q -> guided eps ps tokens cands X p n q) /\
  (forall Xs ns p q, first_forest eps ps tokens cands Xs ns p q -> guided_forest eps ps tokens cands Xs p ns q).
Proof.
  apply first_ind; intros; try (econstructor; eauto; fail).
  econstructor; eauto. match goal with H : cands _ _ = _ |- _ => rewrite H end. now left.
Qed.

Lemma choice_first {L T : Type} {E : EqDec T} (eps : T) ps (tokens : list (token L T)) cands :
  ~ non_terminal ps eps -> (forall A a, length (cands A a) <= 1) ->
  (forall X p outs r, choose eps ps tokens cands X p outs r -> length outs <= 1 ->
     (outs = [] -> r = None) /\
     forall n q left, r = Some (n, q, left) -> exists out, outs = [out] /\ exists ns, n = Node ns (Token None X) /\
       first_forest eps ps tokens cands out ns p q) /\
  (forall Xs p r, sequence eps ps tokens cands Xs p r -> forall ns q, r = Some (ns, q) ->
     first_forest eps ps tokens cands Xs ns p q) /\
  (forall X p outs Xs r, ChoiceSpec.branch eps ps tokens cands X p outs Xs r -> length outs <= 1 -> forall tok ns q,
     (outs = [] -> r = None) /\
     (nth_error tokens p = Some tok -> outs = cands X (tok_type tok) -> non_terminal ps X -> r = Some (ns, q) ->
        first_forest eps ps tokens cands (X :: Xs) ns p q)).
Proof.
  intros Heps Hlen. apply RepeatFacts.choice_mutind.
  - intros X p _. split; auto. intros; discriminate.
  - intros X p out outs ns q _ IH Hl. split; [discriminate|]. intros n q' left H. inversion H; subst.
    destruct left as [|? ?]; [|simpl in Hl; lia]. exists out. split; auto. exists ns. split; auto.
  - intros X p out outs r _ _ _ IH Hl. split; [discriminate|]. intros n q' left ->.
    destruct outs as [|? ?]; [|simpl in Hl; lia].
    destruct (IH (Nat.le_0_l _)) as [H _]. specialize (H eq_refl). discriminate.
  - intros p ns q H. inversion H; subst. constructor.
  - intros Xs p r _ IH ns q H. destruct r as [[ns' q']|]; inversion H; subst.
    econstructor; [now constructor|]. auto.
  - intros Xs p tok r Hn He Hnth _ IH ns q H. destruct r as [[ns' q']|]; inversion H; subst.
    econstructor; [now constructor|]. auto.
  - intros; discriminate.
  - intros X Xs p tok r HX Hn _ IH ns q H. destruct (IH (Hlen _ _) tok ns q) as [_ IH']. auto.
  - intros X p outs Xs _ _ _ tok ns q. split; auto. intros; discriminate.
  - intros X p outs Xs n q outs' ns q' _ IHc _ IHs Hl tok ns' q''. destruct (IHc Hl) as [H1 H2]. split.
    + intros Ho. specialize (H1 Ho). discriminate.
    + intros Hn Ho HX H. inversion H; subst.
      destruct (H2 _ _ _ eq_refl) as (out & Hout & ms & -> & Hf).
      econstructor; [|now apply IHs]. eapply first_candidate with (others := []); eauto.
  - intros X p outs Xs n q outs' r Hc IHc _ _ _ IHb Hl tok ns' q''. destruct (IHc Hl) as [H1 H2]. split.
    + intros Ho. specialize (H1 Ho). discriminate.
    + intros Hn Ho HX ->. destruct (H2 _ _ _ eq_refl) as (out & Hout & _).
      assert (Hnil : outs' = []).
      { rewrite Hout in Hc. clear - Hc. inversion Hc as [| |? ? ? ? ? _ Hc']; subst; auto. inversion Hc'. }
      destruct (IHb ltac:(subst; simpl; lia) tok ns' q'') as [H3 _]. specialize (H3 Hnil). discriminate.
Qed.

(** A tree that follows the first candidate everywhere is returned, whatever the solver, which is not asked *)
Theorem C96_first_choices_returned :
  forall (L T : Type) (E : EqDec T) (eps init : T) (ps : list (production T))
         (solver : option (syntax_error_solver L T)) (self : parser L T)
         (tokens : list (token L T)) (root : node L T) (q : nat),
    constructed_parser eps init ps solver self -> non_terminal ps init ->
    first_tree eps ps tokens (candidates self) init root 0 q ->
    terminates_with (fun fuel => parse_from_tokens fuel self tokens) (Done (ResultOk root, [])) /\
    q <= length tokens /\ tree_for eps ps init root (firstn q tokens).
Proof.
  intros L T E eps init ps solver self tokens root q B Hinit Ht.
  pose proof (po_grammar (bf_of (constructed_built B))) as G.
  assert (Heps : ~ non_terminal ps eps) by apply (eps_not_nt G).
  destruct (proj1 (first_derives eps ps tokens (candidates self) solver) _ _ _ _ Ht Hinit Heps)
    as (tok & others & Hn & Hd).
  destruct tokens as [|t rest]; [discriminate|]. inversion Hn; subst t.
  split.
  - apply (C59_exact_semantics tok rest _ _ B). eexists. split; [apply Hd|reflexivity].
  - clear Hn Hd. set (tokens := tok :: rest) in *.
    assert (Hg : guided eps ps tokens (candidates self) init 0 root q) by exact (proj1 (first_guided _ _ _ _) _ _ _ _ Ht).
    destruct (proj1 (@guided_trees _ _ eps ps tokens (candidates self) (candidates_declared (constructed_built B))) _ _ _ _ Hg)
      as (w & v & Hw & -> & Hs). simpl in Hs |- *.
    assert (Htok : tokens = w ++ v) by exact Hs.
    assert (Hl : length w <= length tokens) by (rewrite Htok, app_length; lia).
    assert (Hfw : firstn (length w) tokens = w) by (rewrite Htok, firstn_app, Nat.sub_diag, firstn_all; apply app_nil_r).
    rewrite Hfw. split; [exact Hl|exact Hw].
Qed.
Print Assumptions C96_first_choices_returned.

(** There is at most one such tree *)
Theorem C96_at_most_one :
  forall (L T : Type) (E : EqDec T) (eps : T) (ps : list (production T)) (self : parser L T)
         (tokens : list (token L T)) (X : T) (n n' : node L T) (p q q' : nat),
    first_tree eps ps tokens (candidates self) X n p q -> first_tree eps ps tokens (candidates self) X n' p q' ->
    n = n' /\ q = q'.
Proof.
  intros L T E eps ps self tokens X n n' p q q' H H'.
  exact (proj1 (first_unique eps ps tokens (candidates self)) _ _ _ _ H' _ _ H).
Qed.
Print Assumptions C96_at_most_one.

(** Finding it takes one call of the recursive function per inner node, no more and no less *)
Theorem C96_one_call_per_node :
  forall (L T : Type) (E : EqDec T) (eps init : T) (ps : list (production T))
         (self : parser L T) (tokens : list (token L T)) (root : node L T) (q : nat),
    constructed_parser eps init ps None self -> non_terminal ps init ->
    first_tree eps ps tokens (candidates self) init root 0 q ->
    forall budget,
      (inner_nodes root <= budget -> exists fuel, parse_within budget fuel self tokens = Done (ResultOk root, [])) /\
      (budget < inner_nodes root -> forall fuel, parse_within budget fuel self tokens = OutOfFuel).
Proof.
  intros L T E eps init ps self tokens root q B Hinit Ht budget.
  pose proof (C96_first_choices_returned B Hinit Ht) as [Hok _].
  pose proof (constructed_built B) as F. pose proof (po_grammar (bf_of F)) as G.
  assert (Heps : ~ non_terminal ps eps) by apply (eps_not_nt G).
  assert (Hne : forall A a out, In out (candidates self A a) -> out <> []).
  { intros A a out Hin. destruct (candidates_declared (constructed_built B) _ _ _ Hin) as (p & Hp & _ & <-). now apply (go_ok G). }
  destruct (proj1 (first_effort eps ps tokens (candidates self)) _ _ _ _ Ht Hinit Heps Hne)
    as (tok & others & k & Hn & -> & Hc).
  destruct tokens as [|t rest]; [discriminate|]. inversion Hn; subst t. split; intros Hb.
  - destruct (effort_enough B Hc Hb) as [fuel Hf]. exists fuel.
    assert (Hp : exists r, parse_within budget fuel self (tok :: rest) = r /\ r <> OutOfFuel) by eauto.
    destruct Hp as (r & Hp & Hr). rewrite Hp.
    exact (terminates_unique (@C56_within_sound L T E self (tok :: rest) budget fuel r (bf_solver F) Hp Hr) Hok).
  - apply (effort_exact B Hc); [discriminate|lia].
Qed.
Print Assumptions C96_one_call_per_node.

(** One token of lookahead: what comes after token [q] does not matter, whatever conflicts there are *)
Theorem C96_one_token_of_lookahead :
  forall (L T : Type) (E : EqDec T) (eps init : T) (ps : list (production T))
         (solver : option (syntax_error_solver L T)) (self : parser L T)
         (tokens tokens' : list (token L T)) (root : node L T) (q : nat),
    constructed_parser eps init ps solver self -> non_terminal ps init ->
    first_tree eps ps tokens (candidates self) init root 0 q ->
    firstn (S q) tokens' = firstn (S q) tokens ->
    terminates_with (fun fuel => parse_from_tokens fuel self tokens') (Done (ResultOk root, [])).
Proof.
  intros L T E eps init ps solver self tokens tokens' root q B Hinit Ht Hf.
  apply (@C96_first_choices_returned L T E eps init ps solver self tokens' root q B Hinit).
  exact (proj1 (first_lookahead eps ps tokens tokens' (candidates self) (S q) (eq_sym Hf)) _ _ _ _ Ht (le_n _)).
Qed.
Print Assumptions C96_one_token_of_lookahead.

(** With at most one candidate per cell nothing else is ever returned *)
Theorem C96_conflict_free_exactly :
  forall (L T : Type) (E : EqDec T) (eps init : T) (ps : list (production T))
         (self : parser L T) (tokens : list (token L T)) (root : node L T),
    constructed_parser eps init ps None self -> conflict_free (pr_transitions self) -> non_terminal ps init ->
    (terminates_with (fun fuel => parse_from_tokens fuel self tokens) (Done (ResultOk root, [])) <->
     exists q, first_tree eps ps tokens (candidates self) init root 0 q).
Proof.
  intros L T E eps init ps self tokens root B Hcf Hinit. split.
  - intros H. destruct tokens as [|tok rest].
    { destruct H as [_ [n Hn]]. specialize (Hn n (le_n _)). discriminate. }
    apply (proj1 (C24_ordered_choice tok rest B)) in H as (q & outs & Hc). exists q.
    assert (Heps : ~ non_terminal ps eps) by apply (eps_not_nt (po_grammar (bf_of (constructed_built B)))).
    assert (Hlen : forall A a, length (candidates self A a) <= 1).
    { intros A a. unfold candidates. destruct (transitions_get_productions (pr_transitions self) A a) eqn:Hl; simpl; [|lia].
      rewrite map_length. eapply Hcf; eauto. }
    destruct (proj1 (@choice_first L T E eps ps (tok :: rest) (candidates self) Heps Hlen) _ _ _ _ Hc (Hlen _ _)) as [_ Hfirst].
    destruct (Hfirst _ _ _ eq_refl) as (out & Ho & ns & -> & Hf).
    eapply first_candidate with (tok := tok); eauto.
  - intros [q H]. exact (proj1 (C96_first_choices_returned B Hinit H)).
Qed.
Print Assumptions C96_conflict_free_exactly.

(** the dangling else, [S' -> S $], [S -> if S E | x], [E -> else S | epsilon]: the cell of [E] for
    [else] has two candidates, and the first one ties an [else] to the nearest [if] *)
Inductive dsym : Type := DEps | DGoal | DStmt | DElse | Tif | Telse | Tx | Tend.
#[local] Instance dsym_eq_dec : EqDec dsym.
Proof. unfold EqDec. decide equality. Defined.

Definition dangling : list (production dsym) :=
  [Production DGoal [DStmt; Tend]; Production DStmt [Tif; DStmt; DElse]; Production DStmt [Tx];
   Production DElse [Telse; DStmt]; Production DElse [DEps]].
Definition dangling_parser : parser nat dsym := Eval vm_compute in
  get_done (no_parser DEps) (build DEps DGoal dangling None 100).

Example C96_case :
  constructed_parser DEps DGoal dangling None dangling_parser /\ non_terminal dangling DGoal /\
  ~ conflict_free (pr_transitions dangling_parser) /\
  let t := fun x => Token None x in
  let leaf := fun x => Node [] (t x) in
  let x := Node [leaf Tx] (t DStmt) in
  let no_else := Node [leaf DEps] (t DElse) in
  let inner := Node [leaf Tif; x; Node [leaf Telse; x] (t DElse)] (t DStmt) in
  let root := Node [Node [leaf Tif; inner; no_else] (t DStmt); leaf Tend] (t DGoal) in
  let tokens := [t Tif; t Tif; t Tx; t Telse; t Tx; t Tend] : list (token nat dsym) in
  first_tree DEps dangling tokens (candidates dangling_parser) DGoal root 0 6 /\
  inner_nodes root = 7 /\
  (* the other tree of these tokens ties the else to the first if *)
  let outer := Node [leaf Tif; Node [leaf Tif; x; no_else] (t DStmt); Node [leaf Telse; x] (t DElse)] (t DStmt) in
  tree_for DEps dangling DGoal (Node [outer; leaf Tend] (t DGoal)) tokens.
Proof.
  split; [apply built_constructed, build_built with (fuel := 100); reflexivity|].
  split; [apply non_terminalb_spec; reflexivity|]. split.
  { intros H. destruct (transitions_get_productions (pr_transitions dangling_parser) DElse Telse) as [l|] eqn:Hl; [|discriminate].
    specialize (H _ _ _ Hl). vm_compute in Hl. inversion Hl; subst. simpl in H. lia. }
  intros t leaf x no_else inner root tokens.
  assert (term : forall a p, nth_error tokens p = Some (t a) -> a <> DEps -> ~ non_terminal dangling a ->
            first_tree DEps dangling tokens (candidates dangling_parser) a (leaf a) p (p + 1)).
  { intros a p H1 H2 H3. exact (@first_token _ _ DEps dangling tokens (candidates dangling_parser) (t a) p H2 H3 H1). }
  assert (Hx : forall p, nth_error tokens p = Some (t Tx) ->
            first_tree DEps dangling tokens (candidates dangling_parser) DStmt x p (p + 1)).
  { intros p Hp. eapply first_candidate; [apply non_terminalb_spec; reflexivity|exact Hp|reflexivity|].
    econstructor; [|constructor]. apply term; [exact Hp|discriminate|apply non_terminalb_false; reflexivity]. }
  Ltac nt := apply non_terminalb_spec; reflexivity.
  Ltac tm := first [discriminate|reflexivity|apply non_terminalb_false; reflexivity].
  split; [|split; [reflexivity|]].
  - eapply first_candidate; [nt|reflexivity|reflexivity|].
    econstructor; [|econstructor; [apply (term Tend 5); tm|constructor]].
    eapply first_candidate; [nt|reflexivity|reflexivity|].
    econstructor; [apply (term Tif 0); tm|].
    econstructor; [|econstructor; [|constructor]].
    + eapply first_candidate; [nt|reflexivity|reflexivity|].
      econstructor; [apply (term Tif 1); tm|]. econstructor; [apply (Hx 2); reflexivity|].
      econstructor; [|constructor]. eapply first_candidate; [nt|reflexivity|reflexivity|].
      econstructor; [apply (term Telse 3); tm|]. econstructor; [apply (Hx 4); reflexivity|constructor].
    + eapply first_candidate; [nt|reflexivity|reflexivity|].
      econstructor; [|constructor]. constructor. apply non_terminalb_false; reflexivity.
  - intros outer.
    assert (tl : forall a, a <> DEps -> ~ non_terminal dangling a -> tree_for DEps dangling a (leaf a) [t a]).
    { intros a H1 H2. exact (@tree_token _ _ DEps dangling (t a) H1 H2). }
    assert (tx : tree_for DEps dangling DStmt x [t Tx]).
    { apply (@tree_production _ _ DEps dangling (Production DStmt [Tx]) [leaf Tx] [t Tx]); [simpl; tauto|].
      apply (@forest_cons _ _ DEps dangling Tx [] (leaf Tx) [] [t Tx] []); [apply tl; tm|constructor]. }
    assert (te : tree_for DEps dangling DElse (Node [leaf Telse; x] (t DElse)) [t Telse; t Tx]).
    { apply (@tree_production _ _ DEps dangling (Production DElse [Telse; DStmt])); [simpl; tauto|].
      apply (@forest_cons _ _ DEps dangling Telse [DStmt] (leaf Telse) [x] [t Telse] [t Tx]); [apply tl; tm|].
      apply (@forest_cons _ _ DEps dangling DStmt [] x [] [t Tx] []); [exact tx|constructor]. }
    assert (tn : tree_for DEps dangling DElse no_else []).
    { apply (@tree_production _ _ DEps dangling (Production DElse [DEps])); [simpl; tauto|].
      apply (@forest_cons _ _ DEps dangling DEps [] (leaf DEps) [] [] []); [constructor|constructor]. }
    assert (ti : tree_for DEps dangling DStmt (Node [leaf Tif; x; no_else] (t DStmt)) [t Tif; t Tx]).
    { apply (@tree_production _ _ DEps dangling (Production DStmt [Tif; DStmt; DElse])); [simpl; tauto|].
      apply (@forest_cons _ _ DEps dangling Tif _ (leaf Tif) _ [t Tif] [t Tx]); [apply tl; tm|].
      apply (@forest_cons _ _ DEps dangling DStmt _ x _ [t Tx] []); [exact tx|].
      apply (@forest_cons _ _ DEps dangling DElse _ no_else _ [] []); [exact tn|constructor]. }
    apply (@tree_production _ _ DEps dangling (Production DGoal [DStmt; Tend])); [simpl; tauto|].
    apply (@forest_cons _ _ DEps dangling DStmt _ outer _ [t Tif; t Tif; t Tx; t Telse; t Tx] [t Tend]).
    + apply (@tree_production _ _ DEps dangling (Production DStmt [Tif; DStmt; DElse])); [simpl; tauto|].
      apply (@forest_cons _ _ DEps dangling Tif _ (leaf Tif) _ [t Tif] _); [apply tl; tm|].
      apply (@forest_cons _ _ DEps dangling DStmt _ _ _ [t Tif; t Tx] [t Telse; t Tx]); [exact ti|].
      apply (@forest_cons _ _ DEps dangling DElse _ _ _ [t Telse; t Tx] []); [exact te|constructor].
    + apply (@forest_cons _ _ DEps dangling Tend _ (leaf Tend) _ [t Tend] []); [apply tl; tm|constructor].
Qed.

(** Not factored, [S -> if S else S | if S | x], no tree follows the first candidates, and the
    [else] goes to the first [if] *)
Definition unfactored : list (production dsym) :=
  [Production DGoal [DStmt; Tend]; Production DStmt [Tif; DStmt; Telse; DStmt]; Production DStmt [Tif; DStmt];
   Production DStmt [Tx]].
Definition unfactored_parser : parser nat dsym := Eval vm_compute in
  get_done (no_parser DEps) (build DEps DGoal unfactored None 100).

Example C96_unfactored :
  constructed_parser DEps DGoal unfactored None unfactored_parser /\ non_terminal unfactored DGoal /\
  let t := fun x => Token None x in
  let leaf := fun x => Node [] (t x) in
  let x := Node [leaf Tx] (t DStmt) in
  let inner := Node [leaf Tif; x] (t DStmt) in
  let outer := Node [leaf Tif; inner; leaf Telse; x] (t DStmt) in
  let tokens := [t Tif; t Tif; t Tx; t Telse; t Tx; t Tend] : list (token nat dsym) in
  terminates_with (fun fuel => parse_from_tokens fuel unfactored_parser tokens)
    (Done (ResultOk (Node [outer; leaf Tend] (t DGoal)), [])) /\
  forall root q, ~ first_tree DEps unfactored tokens (candidates unfactored_parser) DGoal root 0 q.
Proof.
  assert (B : constructed_parser DEps DGoal unfactored None unfactored_parser)
    by (apply built_constructed, build_built with (fuel := 100); reflexivity).
  assert (Hi : non_terminal unfactored DGoal) by (apply non_terminalb_spec; reflexivity).
  split; [exact B|]. split; [exact Hi|]. intros t leaf x inner outer tokens.
  assert (Hret : terminates_with (fun fuel => parse_from_tokens fuel unfactored_parser tokens)
                   (Done (ResultOk (Node [outer; leaf Tend] (t DGoal)), []))).
  { apply (@parse_terminates _ _ _ unfactored_parser tokens 100); [vm_compute; reflexivity|discriminate]. }
  split; [exact Hret|]. intros root q H.
  pose proof (terminates_unique (proj1 (C96_first_choices_returned B Hi H)) Hret) as Heq.
  inversion Heq; subst root. clear Heq Hret.
  assert (inv : forall X children p q' a out others, non_terminal unfactored X -> nth_error tokens p = Some (t a) ->
            candidates unfactored_parser X a = out :: others ->
            first_tree DEps unfactored tokens (candidates unfactored_parser) X (Node children (t X)) p q' ->
            first_forest DEps unfactored tokens (candidates unfactored_parser) out children p q').
  { intros X children p q' a out others HX Hn Hc Ht.
    inversion Ht as [|? ?|? tok out' ? ? ? ? ? Hn' Hc' Hf]; subst; try contradiction.
    assert (tok = t a) by congruence. subst tok. simpl in Hc'. assert (out' = out) by congruence. subst. exact Hf. }
  pose proof (inv DGoal _ 0 q Tif [DStmt; Tend] [] Hi eq_refl eq_refl H) as Hf.
  inversion Hf as [|? ? ? ? ? ? ? Ht _]; subst. clear Hf H.
  pose proof (inv DStmt _ 0 _ Tif [Tif; DStmt; Telse; DStmt] [[Tif; DStmt]]
    ltac:(apply non_terminalb_spec; reflexivity) eq_refl eq_refl Ht) as Hf.
  inversion Hf as [|? ? ? ? ? q1 ? Hif Hf']; subst. clear Hf Ht.
  assert (q1 = 1).
  { inversion Hif as [|?|? ? ? ? ? ? ? HX]; subst; try reflexivity. apply non_terminalb_spec in HX. discriminate HX. }
  subst q1.
  inversion Hf' as [|? ? ? ? ? ? ? Ht _]; subst. clear Hf' Hif.
  pose proof (inv DStmt _ 1 _ Tif [Tif; DStmt; Telse; DStmt] [[Tif; DStmt]]
    ltac:(apply non_terminalb_spec; reflexivity) eq_refl eq_refl Ht) as Hf.
  inversion Hf as [|? ? ? ? ? ? ? _ Hf1]; subst. inversion Hf1 as [|? ? ? ? ? ? ? _ Hf2]; subst. inversion Hf2.
Qed.
