(** * Among several parses: C78 *)

From Verif Require Import BaseFacts GrammarFacts DerivFacts FirstFacts FollowFacts FollowRepeat TransitionsFacts.
From Verif Require Import ChoiceSpec GuidedSpec ParserGuided Examples PropTable PropParse PropReports PropLimits PropGuided PropStart.
From Verif Require Import EarlySpec EarlyFacts.

Set Implicit Arguments.

(** [earlier] is a strict order *)
Theorem C78_strict_order :
  forall (L T : Type) (ps : list (production T)) (n n' : node L T),
    (earlier ps n n' -> n <> n' /\ ~ earlier ps n' n).
Proof. intros L T ps n n' H. split; [exact (earlier_neq H)|exact (earlier_asym H)]. Qed.
Print Assumptions C78_strict_order.

Lemma map_filter_split {A B : Type} (f : A -> B) (keep : A -> bool) : forall l b x c,
  map f (filter keep l) = b ++ x :: c ->
  exists l1 y l2, l = l1 ++ y :: l2 /\ keep y = true /\ f y = x /\ b = map f (filter keep l1).
Proof.
  induction l as [|a l IH]; intros b x c H; simpl in H.
  - destruct b; discriminate.
  - destruct (keep a) eqn:Ha.
    + destruct b as [|b0 b]; simpl in H; inversion H; subst.
      * exists [], a, l. auto.
      * destruct (IH _ _ _ H2) as (l1 & y & l2 & -> & Hy & Hx & ->).
        exists (a :: l1), y, l2. simpl. rewrite Ha. auto.
    + destruct (IH _ _ _ H) as (l1 & y & l2 & -> & Hy & Hx & ->).
      exists (a :: l1), y, l2. simpl. rewrite Ha. auto.
Qed.

Lemma filter_filter {A : Type} (f g : A -> bool) l : filter f (filter g l) = filter (fun x => g x && f x) l.
Proof. induction l as [|a l IH]; simpl; auto. destruct (g a); simpl; now rewrite IH. Qed.

(** the candidates of a cell come in the order of declaration *)
Lemma candidates_in_order {L T : Type} {E : EqDec T} (eps init : T) (ps : list (production T)) sol (self : parser L T) :
  built_parser eps init ps sol self ->
  forall A a b out c out', candidates self A a = b ++ out :: c -> In out' (candidates self A a) ->
    ~ In out' b -> out' <> out -> declared_before ps A out out'.
Proof.
  intros B A a b out c out' Hc Hin Hnb Hne.
  apply built_inv in B as (ho1 & ho2 & fuel & g & ffs & Hg & Hf & Hs).
  destruct (rdp_from_inv _ _ _ _ Hs) as (_ & _ & Ht).
  destruct (@C11_table_contents T E _ _ _ _ _ _ _ _ _ _ A a Hg Hf Ht) as [_ Hcell].
  unfold candidates in Hc, Hin.
  destruct (transitions_get_productions (pr_transitions self) A a) as [l|] eqn:Hl; [|destruct Hin].
  destruct (Hcell l eq_refl) as (keep & -> & _). rewrite filter_filter in Hc, Hin.
  apply map_filter_split in Hc as (ps1 & [i o] & ps2 & -> & Hk & Ho & ->). simpl in Ho. subst o.
  apply in_map_iff in Hin as ([i' o'] & Ho' & Hin). simpl in Ho'. subst o'.
  apply filter_In in Hin as [_ Hk']. simpl in Hk, Hk'.
  destruct (eq_dec i A) as [-> |]; [|discriminate]. destruct (eq_dec i' A) as [-> |]; [|discriminate].
  exists ps1, ps2. split; auto. split; auto. intros Hin. apply Hnb.
  apply in_map_iff. exists (Production A out'). split; auto. apply filter_In. split; auto. simpl.
  destruct (eq_dec A A); [auto|contradiction].
Qed.

(** Where a production starts determines where it ends (GuidedSpec): of all the parse trees
    the table guides to, and (harmless repeats, initial productions ending in a terminal) of
    all parse trees of prefixes of the input, the parser returns the first one: at the first
    place, top down and from left to right, where another tree uses another production, the
    parser used the one declared before. *)
Theorem C78_earliest_tree_partial :
  forall (L T : Type) (E : EqDec T) (eps init : T) (ps : list (production T))
         (self : parser L T) (fuel : nat) (tokens : list (token L T)) (root : node L T) h,
    built_parser eps init ps None self -> non_terminal ps init ->
    prefix_free_productions eps ps \/ determined_extents eps ps tokens (candidates self) ->
    parse_from_tokens fuel self tokens = Done (ResultOk root, h) ->
    (forall root' q, guided eps ps tokens (candidates self) init 0 root' q ->
       root' = root \/ earlier ps root root') /\
    (repeats_harmless eps ps init -> initial_ends_in_terminal eps ps init ->
     forall root' w rest, tokens = w ++ rest -> tree_for eps ps init root' w ->
       root' = root \/ earlier ps root root').
Proof.
  intros L T E eps init ps self fuel tokens root h B0 Hinit Hpd H. pose proof (built_built B0) as B.
  pose proof (constructed_built (built_constructed B0)) as B1.
  assert (Heps : ~ non_terminal ps eps) by apply (eps_not_nt (po_grammar (bf_of B))).
  assert (Hdet : determined_extents eps ps tokens (candidates self)).
  { destruct Hpd as [Hpf|Hdet]; auto. apply prefix_free_determined; auto. exact (candidates_declared B1). }
  assert (HG : forall root' q, guided eps ps tokens (candidates self) init 0 root' q ->
             root' = root \/ earlier ps root root').
  { apply (parse_choice_sound (bf_of B) (bf_solver B)) in H as (tok & rest & Htok & _ & q0 & outs & Hc).
    intros root' q Hg.
    pose proof (early_all Heps (candidates_declared B1) Hdet (candidates_in_order B0)) as (Ec & _ & _).
    assert (Hnth : nth_error tokens 0 = Some tok) by now rewrite Htok.
    destruct (Ec _ _ _ _ Hc tok Hnth (fun o Hin => Hin) root q0 outs eq_refl) as (before & out & ns & Ho & -> & Hg0 & Hb & Hm).
    inversion Hg as [? ? ? Hx|? Hx|? ? tok' out' ns' ? HA Hn' Hin' Hf']; subst; [contradiction|contradiction|].
    rewrite Hnth in Hn'. inversion Hn'; subst tok'.
    destruct (list_eq_dec eq_dec out' out) as [-> |Hne].
    - destruct (Hm _ _ Hf') as [-> |He]; auto. right. now apply earlier_list_node.
    - right. apply earlier_production. simpl. rewrite (gforest_symbols Hf'), (gforest_symbols Hg0).
      apply (candidates_in_order B0 init (tok_type tok) before outs); auto.
      intros Hin. eapply Hb; eauto. }
  split; auto.
  intros Hrep Hend root' w rest Htok Ht. apply (HG root' (length w)).
  pose proof (harmless_covering B Hrep Hinit) as Hcov.
  eapply (root_guided (bf_of B)); eauto. exists rest. auto.
Qed.
Print Assumptions C78_earliest_tree_partial.

(** The full statement (nothing assumed about extents) is false: an earlier alternative is
    given up for a choice inside it that is never tried again. *)
Definition C78_full_statement : Prop :=
  forall (L T : Type) (E : EqDec T) (eps init eof : T) (ps : list (production T))
         (self : parser L T) (fuel : nat) (tokens : list (token L T)) (root root' : node L T) h,
    built_parser eps init ps None self -> no_left_recursion_from eps ps init ->
    eof_discipline eps ps init eof -> repeats_harmless eps ps init -> non_terminal ps init ->
    parse_from_tokens fuel self tokens = Done (ResultOk root, h) ->
    tree_for eps ps init root' tokens -> root' = root \/ earlier ps root root'.

(** 0 epsilon; S = 1 -> X c $ | a b c $; X = 2 -> Y; Y = 3 -> a | a b; a = 4, b = 5, c = 6,
    $ = 7.  For [a b c $] the parser returns the tree of S -> a b c $, although
    S -> X c $ is declared first and has a tree. *)
Definition lost_choice : list (production nat) :=
  [Production 1 [2; 6; 7]; Production 1 [4; 5; 6; 7]; Production 2 [3]; Production 3 [4]; Production 3 [4; 5]].
Definition lost_tokens : list (token nat nat) := [nt 4; nt 5; nt 6; nt 7].
Definition leaf_of (x : nat) : node nat nat := Node [] (nt x).
Definition lost_tree : node nat nat :=
  Node [Node [Node [leaf_of 4; leaf_of 5] (Token None 3)] (Token None 2); leaf_of 6; leaf_of 7] (Token None 1).

Lemma leaf_tree ps x : x <> 0 -> ~ non_terminal ps x -> tree_for 0 ps x (leaf_of x) [nt x].
Proof. intros. now apply (@tree_token nat nat 0 ps (nt x)). Qed.

Lemma lost_eof : eof_discipline 0 lost_choice 1 7.
Proof.
  split; [discriminate|]. split; [apply non_terminalb_false; reflexivity|].
  split; [|split]; intros p Hp'; simpl in Hp'.
  + intros Hin. decompose [or] Hp'; subst; simpl in Hin; intuition discriminate.
  + intros Hi. decompose [or] Hp'; subst; try discriminate; try contradiction.
    * exists [2; 6]. split; [reflexivity|simpl; intuition discriminate].
    * exists [4; 5; 6]. split; [reflexivity|simpl; intuition discriminate].
  + intros Hi Hin. decompose [or] Hp'; subst; simpl in Hin, Hi; intuition discriminate.
Qed.

Lemma lost_parse : tree_for 0 lost_choice 1 lost_tree lost_tokens.
Proof.
  assert (Hl : forall x, In x [4; 5; 6; 7] -> tree_for 0 lost_choice x (leaf_of x) [nt x]).
  { intros x Hx. apply leaf_tree; simpl in Hx; decompose [or] Hx; subst; try discriminate; try contradiction;
      apply non_terminalb_false; reflexivity. }
  apply (@tree_production nat nat 0 lost_choice (Production 1 [2; 6; 7])); [simpl; auto|].
  apply (@forest_cons nat nat 0 lost_choice 2 [6; 7] _ _ [nt 4; nt 5] [nt 6; nt 7]).
  + apply (@tree_production nat nat 0 lost_choice (Production 2 [3])); [simpl; auto|].
    apply (@forest_cons nat nat 0 lost_choice 3 [] _ _ [nt 4; nt 5] []); [|constructor].
    apply (@tree_production nat nat 0 lost_choice (Production 3 [4; 5])); [simpl; auto 10|].
    apply (@forest_cons nat nat 0 lost_choice 4 [5] _ _ [nt 4] [nt 5]); [apply Hl; simpl; auto|].
    apply (@forest_cons nat nat 0 lost_choice 5 [] _ _ [nt 5] []); [apply Hl; simpl; auto|constructor].
  + apply (@forest_cons nat nat 0 lost_choice 6 [7] _ _ [nt 6] [nt 7]); [apply Hl; simpl; auto|].
    apply (@forest_cons nat nat 0 lost_choice 7 [] _ _ [nt 7] []); [apply Hl; simpl; auto|constructor].
Qed.

Theorem C78_full_statement_refuted : ~ C78_full_statement.
Proof.
  intros H.
  destruct (parse_from_tokens 50 (parser_at lost_choice 1) lost_tokens) as [[r h]| |] eqn:Hp;
    [|vm_compute in Hp; discriminate..].
  destruct r as [root|f|f]; [|vm_compute in Hp; discriminate..].
  destruct (H nat nat _ 0 1 7 lost_choice (parser_at lost_choice 1) 50 lost_tokens root lost_tree h) as [Heq|He].
  - apply build_built with (fuel := 200). vm_compute. reflexivity.
  - apply no_left_recursion_anywhere, rank_check_ok with (N := fun x => Nat.eqb x 0)
      (rank := fun x => match x with 1 => 3 | 2 => 2 | 3 => 1 | _ => 0 end). reflexivity.
  - exact lost_eof.
  - apply no_repeated_neighbours_harmless, no_repeated_neighbours_check. reflexivity.
  - apply non_terminalb_spec. reflexivity.
  - exact Hp.
  - exact lost_parse.
  - vm_compute in Hp. injection Hp as <- _. discriminate Heq.
  - vm_compute in Hp. inversion Hp; subst root h. clear Hp.
    assert (Hn : forall ns, symbols ns = [2; 6; 7] -> ~ declared_before lost_choice 1 [4; 5; 6; 7] (@symbols nat nat ns)).
    { intros ns Hns (l1 & l2 & Heq & Hno & _). rewrite Hns in Hno.
      destruct l1 as [|x l1]; simpl in Heq; inversion Heq. subst x. apply Hno. now left. }
    inversion He as [ns ns' t Hd Hx Hy|before c c' after after' t Hc Hs Hx Hy]; subst.
    + refine (Hn _ _ Hd). reflexivity.
    + assert (Hlen : length (before ++ c :: after) = length (before ++ c' :: after')).
      { rewrite !app_length. f_equal. unfold symbols in Hs. apply (f_equal (@length nat)) in Hs.
        now rewrite !map_length in Hs. }
      rewrite Hx in Hlen. rewrite Hy in Hlen. discriminate.
Qed.
Print Assumptions C78_full_statement_refuted.

(** ** case *)
(** S = 1 -> X $; X = 2 -> A X | B X | c; A = 3 -> a; B = 4 -> a; a = 5, c = 6, $ = 7: an input with
    n times [a] has 2^n parse trees, the parser returns the one with A everywhere. *)
Definition two_names : list (production nat) :=
  [Production 1 [2; 7]; Production 2 [3; 2]; Production 2 [4; 2]; Production 2 [6]; Production 3 [5]; Production 4 [5]].

Lemma two_names_words :
  (forall X (n : node nat nat) w, tree_for 0 two_names X n w ->
     (X = 2 -> exists k, map (@tok_type nat nat) w = repeat 5 k ++ [6]) /\
     (X = 3 \/ X = 4 \/ X = 5 -> map (@tok_type nat nat) w = [5]) /\ (X = 6 -> map (@tok_type nat nat) w = [6])) /\
  (forall Xs (ns : list (node nat nat)) w, forest_for 0 two_names Xs ns w ->
     (Xs = [] -> w = []) /\
     (Xs = [5] -> map (@tok_type nat nat) w = [5]) /\ (Xs = [6] -> map (@tok_type nat nat) w = [6]) /\
     (Xs = [2] \/ Xs = [3; 2] \/ Xs = [4; 2] -> exists k, map (@tok_type nat nat) w = repeat 5 k ++ [6])).
Proof.
  apply tree_forest_ind.
  - intros tok _ Hn. splits.
    + intros Heq. exfalso. apply Hn. rewrite Heq. exists (Production 2 [6]). split; [simpl; tauto|reflexivity].
    + intros [H|[H|H]]; simpl; rewrite H; auto.
      * exfalso. apply Hn. rewrite H. exists (Production 3 [5]). split; [simpl; tauto|reflexivity].
      * exfalso. apply Hn. rewrite H. exists (Production 4 [5]). split; [simpl; tauto|reflexivity].
    + intros H. simpl. now rewrite H.
  - splits; intuition discriminate.
  - intros p ch w Hp Hf (_ & I5 & I6 & I2). simpl in Hp.
    destruct Hp as [<-|[<-|[<-|[<-|[<-|[<-|[]]]]]]]; cbn [p_input p_output] in *; splits; try (intuition discriminate).
    intros _. exists 0. apply I6. auto.
  - splits; try (intuition discriminate).
  - intros X Xs n ns w ws _ (I2 & I5 & I6) _ (In & J5 & J6 & J2). rewrite map_app.
    splits.
    + discriminate.
    + intros H; inversion H; subst. rewrite I5 by auto. rewrite In; auto.
    + intros H; inversion H; subst. rewrite I6 by auto. rewrite In; auto.
    + intros [H|[H|H]]; inversion H; subst.
      * rewrite In by auto. rewrite app_nil_r. auto.
      * destruct (J2 (or_introl eq_refl)) as [k ->]. rewrite I5 by auto. exists (S k). reflexivity.
      * destruct (J2 (or_introl eq_refl)) as [k ->]. rewrite I5 by auto. exists (S k). reflexivity.
Qed.

Lemma repeat_six k m v : (repeat 5 k ++ [6]) ++ v = repeat 5 m ++ [6] -> v = [].
Proof.
  revert m. induction k as [|k IH]; intros [|m] H; simpl in H; inversion H; eauto.
Qed.

Lemma two_names_prefix_free : prefix_free_productions 0 two_names.
Proof.
  intros p u v Hp Hrs Hl H1 H2.
  assert (Hw : forall w, Forall (fun x => x <> 0 /\ ~ non_terminal two_names x) w ->
            derives 0 two_names (p_output p) w -> exists n : node nat nat,
              tree_for 0 two_names (p_input p) n (map (fun x => Token None x) w)).
  { intros w Hlw Hd. apply derives_tree.
    - rewrite map_map. simpl. rewrite map_id. eapply derives_trans; [now apply derives_production|exact Hd].
    - rewrite Forall_forall in *. intros t Hin. apply in_map_iff in Hin as (x & <- & Hx). simpl. auto. }
  apply Forall_app in Hl as Hl'. destruct Hl' as [Hlu _].
  destruct (Hw u Hlu H1) as [n1 T1]. destruct (Hw _ Hl H2) as [n2 T2].
  apply (proj1 two_names_words) in T1 as (A2 & A5 & _). apply (proj1 two_names_words) in T2 as (B2 & B5 & _).
  rewrite map_map in A2, A5, B2, B5. simpl in A2, A5, B2, B5. rewrite map_id in A2, A5, B2, B5.
  assert (Hi : p_input p = 2 \/ p_input p = 3 \/ p_input p = 4).
  { destruct Hrs as (p' & x & Y & y & Hp' & Ho). simpl in Hp, Hp'.
    destruct Hp as [<-|Hp]; [|decompose [or] Hp; subst; try contradiction; auto]. exfalso. simpl in Ho.
    decompose [or] Hp'; subst; try contradiction; simpl in Ho;
      destruct x as [|x1 [|x2 [|x3 [|? ?]]]]; inversion Ho. }
  destruct Hi as [Hi|Hi].
  - destruct (A2 Hi) as [k ->]. destruct (B2 Hi) as [m Hm]. eapply repeat_six; eauto.
  - rewrite A5 in B5 by tauto. specialize (B5 ltac:(tauto)). simpl in B5. now inversion B5.
Qed.

Definition names_tokens : list (token nat nat) := [nt 5; nt 5; nt 6; nt 7].
Definition names_tree (x y : nat) : node nat nat :=
  Node [Node [Node [leaf_of 5] (Token None x);
              Node [Node [leaf_of 5] (Token None y); Node [leaf_of 6] (Token None 2)] (Token None 2)] (Token None 2);
        leaf_of 7] (Token None 1).

Lemma names_trees x y : In x [3; 4] -> In y [3; 4] ->
  tree_for 0 two_names 1 (names_tree x y) names_tokens.
Proof.
  intros Hx Hy.
  assert (Hl : forall z, In z [5; 6; 7] -> tree_for 0 two_names z (leaf_of z) [nt z]).
  { intros z Hz. apply leaf_tree; simpl in Hz; decompose [or] Hz; subst; try discriminate; try contradiction;
      apply non_terminalb_false; reflexivity. }
  assert (Ha : forall z, In z [3; 4] -> tree_for 0 two_names z (Node [leaf_of 5] (Token None z)) [nt 5]).
  { intros z Hz. apply (@tree_production nat nat 0 two_names (Production z [5])).
    - simpl in *. decompose [or] Hz; subst; tauto.
    - apply (@forest_cons nat nat 0 two_names 5 [] _ _ [nt 5] []); [apply Hl; simpl; auto|constructor]. }
  assert (H2 : forall z n w, In z [3; 4] -> tree_for 0 two_names 2 n w ->
            tree_for 0 two_names 2 (Node [Node [leaf_of 5] (Token None z); n] (Token None 2)) (nt 5 :: w)).
  { intros z n w Hz Hn. apply (@tree_production nat nat 0 two_names (Production 2 [z; 2])).
    - simpl in *. decompose [or] Hz; subst; tauto.
    - apply (@forest_cons nat nat 0 two_names z [2] _ _ [nt 5] w); auto.
      rewrite <- (app_nil_r w). apply (@forest_cons nat nat 0 two_names 2 [] _ _ w []); [auto|constructor]. }
  apply (@tree_production nat nat 0 two_names (Production 1 [2; 7])); [simpl; auto|].
  apply (@forest_cons nat nat 0 two_names 2 [7] _ _ [nt 5; nt 5; nt 6] [nt 7]).
  - apply H2; auto. apply H2; auto.
    apply (@tree_production nat nat 0 two_names (Production 2 [6])); [simpl; auto|].
    apply (@forest_cons nat nat 0 two_names 6 [] _ _ [nt 6] []); [apply Hl; simpl; auto|constructor].
  - apply (@forest_cons nat nat 0 two_names 7 [] _ _ [nt 7] []); [apply Hl; simpl; auto|constructor].
Qed.

Example C78_case :
  built_parser 0 1 two_names None (parser_at two_names 1) /\ non_terminal two_names 1 /\
  prefix_free_productions 0 two_names /\ repeats_harmless 0 two_names 1 /\
  initial_ends_in_terminal 0 two_names 1 /\
  parse_from_tokens 50 (parser_at two_names 1) names_tokens = Done (ResultOk (names_tree 3 3), []) /\
  (forall x y, In x [3; 4] -> In y [3; 4] -> tree_for 0 two_names 1 (names_tree x y) names_tokens) /\
  earlier two_names (names_tree 3 3) (names_tree 3 4) /\ earlier two_names (names_tree 3 4) (names_tree 4 3).
Proof.
  splits.
  - apply build_built with (fuel := 200). vm_compute. reflexivity.
  - apply non_terminalb_spec. reflexivity.
  - exact two_names_prefix_free.
  - apply no_repeated_neighbours_harmless, no_repeated_neighbours_check. reflexivity.
  - intros p Hp Hi. simpl in Hp. decompose [or] Hp; subst; try discriminate; try contradiction.
    exists [2], 7. split; [reflexivity|]. split; [discriminate|apply non_terminalb_false; reflexivity].
  - vm_compute. reflexivity.
  - exact names_trees.
  - apply (@earlier_child nat nat two_names [] _ _ [leaf_of 7] [leaf_of 7] (Token None 1)); [|reflexivity].
    apply (@earlier_child nat nat two_names [Node [leaf_of 5] (Token None 3)] _ _ [] [] (Token None 2)); [|reflexivity].
    apply earlier_production. exists [Production 1 [2; 7]], (skipn 2 two_names).
    split; [reflexivity|]. split; [|discriminate]. simpl. intuition discriminate.
  - apply (@earlier_child nat nat two_names [] _ _ [leaf_of 7] [leaf_of 7] (Token None 1)); [|reflexivity].
    apply earlier_production. exists [Production 1 [2; 7]], (skipn 2 two_names).
    split; [reflexivity|]. split; [|discriminate]. simpl. intuition discriminate.
Qed.
