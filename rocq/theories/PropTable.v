(** * Properties of parser construction and of the transition table:
      C09 (cells), C10 - C13, C41 *)

From Verif Require Import BaseFacts GrammarFacts DerivFacts FirstFacts FollowFacts FollowRepeat TransitionsFacts.
From Verif Require Import Examples PropFirstFollow.

Set Implicit Arguments.

(** ** C10: construction never panics and always returns *)
Theorem C10_construction_total :
  forall (L T : Type) (E : EqDec T) (ho ho' : hash_order T) (eps init : T)
         (ps : list (production T)) (g : grammar T),
    cfg_new ho eps init ps = Done g ->
    exists n ffs t,
      (forall fuel, n <= fuel ->
         ffs_from ho' fuel g = Done ffs /\
         transitions_from ho' g ffs = Done t /\
         from_grammar ho' fuel g =
           Done (Parser g (None : option (syntax_error_solver L T)) t) /\
         forall s : syntax_error_solver L T,
           from_grammar_and_solver ho' fuel g s = Done (Parser g (Some s) t)) /\
      (forall fuel q, from_grammar (L := L) ho' fuel g <> Panicked q) /\
      (forall fuel (s : syntax_error_solver L T) q,
         from_grammar_and_solver ho' fuel g s <> Panicked q).
Proof.
  intros L T E ho ho' eps init ps g Hg.
  destruct (@C04_first_follow_terminates T E ho ho' eps init ps g Hg) as (ffs & Hn & Hall).
  apply cfg_new_grammar_of in Hg as G.
  remember ((length (get_non_terminal_symbols ho' g) + length (get_terminal_symbols ho' g))
           * length (get_terminal_symbols ho' g)) as n.
  destruct (ffs_from_exact G _ _ (Hn (S n) (le_n _))) as [Hx1 Hx2].
  destruct (@transitions_exact_total _ _ _ _ _ _ G ho' ffs Hx1 Hx2) as [t Ht].
  exists (S n), ffs, t.
  unfold from_grammar, from_grammar_and_solver, from_grammar_and_first_follow_symbols, rdp_from.
  splits.
  - intros fuel Hf. rewrite Hn by lia. simpl. rewrite Ht. simpl. auto.
  - intros fuel q. destruct (Hall fuel) as [-> | ->]; simpl; [rewrite Ht; simpl|]; discriminate.
  - intros fuel s q. destruct (Hall fuel) as [-> | ->]; simpl; [rewrite Ht; simpl|]; discriminate.
Qed.
Print Assumptions C10_construction_total.

Example C10_case : cfg_new (insertion_order sym) Eps Prog expr_productions = Done expr_grammar /\
  from_grammar (insertion_order sym) 200 expr_grammar = Done expr_parser.
Proof. split; [exact expr_grammar_new|]. vm_compute. reflexivity. Qed.

(** ** C11: the contents of every cell *)
Section CellSpec.
  Context {T : Type} {E : EqDec T}.

  Definition in_set (o : option (list T)) (a : T) : Prop := exists s, o = Some s /\ In a s.

  (** production [p] belongs in the column of [a], by FIRST and FOLLOW of its
      first symbol (FOLLOW of its input if that symbol is epsilon) *)
  Definition belongs (eps : T) (ffs : first_follow_symbols T) (p : production T) (a : T) : Prop :=
    exists X rest, p_output p = X :: rest /\
      ((in_set (get_first_symbols ffs X) a /\ a <> eps) \/
       (in_set (get_first_symbols ffs X) eps /\
        ((X = eps /\ in_set (get_follow_symbols ffs (p_input p)) a) \/
         (X <> eps /\ in_set (get_follow_symbols ffs X) a)))).
End CellSpec.

Theorem C11_table_contents :
  forall (T : Type) (E : EqDec T) (ho ho' ho'' : hash_order T) (eps init : T)
         (ps : list (production T)) (g : grammar T) (fuel : nat)
         (ffs : first_follow_symbols T) (t : transitions T) (A a : T),
    cfg_new ho eps init ps = Done g -> ffs_from ho' fuel g = Done ffs ->
    transitions_from ho'' g ffs = Done t ->
    (transitions_get_productions t A a = None <-> ~ (non_terminal ps A /\ terminal ps a)) /\
    (forall l, transitions_get_productions t A a = Some l ->
       exists keep : production T -> bool,
         l = filter keep (filter (fun p => if eq_dec (p_input p) A then true else false) ps) /\
         forall p, In p ps -> p_input p = A -> (keep p = true <-> belongs eps ffs p a)).
Proof.
  intros T E ho ho' ho'' eps init ps g fuel ffs t A a Hg Hf Ht. apply cfg_new_grammar_of in Hg as G.
  destruct (ffs_from_exact G _ _ Hf) as [Hx1 Hx2].
  rewrite (transitions_cells G _ _ Ht).
  pose proof (is_non_terminal_spec G A) as HnA. pose proof (is_terminal_spec G a) as Hta.
  split.
  - destruct (is_non_terminal g A), (is_terminal g a); simpl; split; intros H; try discriminate; auto.
    + exfalso. apply H. split; [now apply HnA|now apply Hta].
    + intros [_ H2]. apply Hta in H2. discriminate.
    + intros [H2 _]. apply HnA in H2. discriminate.
    + intros [H2 _]. apply HnA in H2. discriminate.
  - destruct (is_non_terminal g A && is_terminal g a); [|discriminate].
    intros l Hl. inversion Hl; subst l. exists (fun p => selectsb (g := g) ho'' ffs p a). split; auto.
    intros p Hp Hi. rewrite (@selectsb_spec _ _ _ _ _ _ G ho'' ffs Hx1 Hx2 p a Hp).
    destruct Hx1 as [Hk1 Hx1]. destruct Hx2 as [Hk2 Hx2].
    assert (H1 : forall X b, symbol_of ps X ->
      (in_set (get_first_symbols ffs X) b <-> first_elem (eps := eps) (ps := ps) X b)).
    { intros X b HX. apply Hk1 in HX as [s Hs]. destruct (Hx1 _ _ Hs) as [_ Hin].
      unfold in_set, get_first_symbols. split.
      - intros (s' & Hs' & Hb). rewrite Hs in Hs'. inversion Hs'; subst. now apply Hin.
      - intros Hb. exists s. split; auto. now apply Hin. }
    assert (H2 : forall B b, non_terminal ps B ->
      (in_set (get_follow_symbols ffs B) b <-> follow_rules (eps := eps) (ps := ps) B b)).
    { intros X b HX. apply Hk2 in HX as [s Hs]. destruct (Hx2 _ _ Hs) as [_ Hin].
      unfold in_set, get_follow_symbols. split.
      - intros (s' & Hs' & Hb). rewrite Hs in Hs'. inversion Hs'; subst. now apply Hin.
      - intros Hb. exists s. split; auto. now apply Hin. }
    assert (Hpnt : non_terminal ps (p_input p)) by (exists p; auto).
    split.
    + intros (X & rest & Ho & Hc). exists X, rest. split; auto.
      assert (HX : symbol_of ps X) by (eapply output_symbol_of; eauto; rewrite Ho; now left).
      destruct Hc as [Hc|[Hn Hc]].
      * left. split; [apply H1; auto; right; auto|]. now destruct Hc.
      * right. split; [apply H1; auto; left; auto|]. destruct (eqb eps X) eqn:HeX.
        -- apply eqb_iff in HeX. left. split; auto. now apply H2.
        -- apply eqb_ne_iff in HeX. right. split; auto. apply H2; auto.
           destruct (non_terminal_dec ps X); auto. exfalso. apply HeX.
           symmetry. eapply nullable_terminal; eauto.
    + intros (X & rest & Ho & Hc). exists X, rest. split; auto.
      assert (HX : symbol_of ps X) by (eapply output_symbol_of; eauto; rewrite Ho; now left).
      destruct Hc as [[Hc Ha]|[Hn Hc]].
      * left. apply H1 in Hc; auto. destruct Hc as [[Hc _]|Hc]; auto. congruence.
      * right. apply H1 in Hn; auto. destruct Hn as [[_ Hn]|[Hn _]]; [|congruence].
        split; auto. destruct Hc as [[-> Hc]|[HXe Hc]].
        -- rewrite eqb_self. now apply H2.
        -- destruct (eqb eps X) eqn:HeX; [apply eqb_iff in HeX; congruence|].
           apply H2; auto. destruct (non_terminal_dec ps X); auto. exfalso. apply HXe.
           eapply nullable_terminal; eauto.
Qed.
Print Assumptions C11_table_contents.

Example C11_case :
  transitions_get_productions expr_transitions ExprTail RParen = Some [Production ExprTail [Eps]] /\
  transitions_get_productions expr_transitions ExprTail Star = Some [] /\
  transitions_get_productions expr_transitions ExprTail Expr = None.
Proof. vm_compute. auto. Qed.

(** ** C09 (cells): the table does not depend on hash iteration orders *)
Theorem C09_table_order_independent :
  forall (T : Type) (E : EqDec T) (ho1 ho2 ho3 ho1' ho2' ho3' : hash_order T) (eps init : T)
         (ps : list (production T)) (g g' : grammar T) (fuel fuel' : nat)
         (ffs ffs' : first_follow_symbols T) (t t' : transitions T) (A a : T),
    cfg_new ho1 eps init ps = Done g -> ffs_from ho2 fuel g = Done ffs ->
    transitions_from ho3 g ffs = Done t ->
    cfg_new ho1' eps init ps = Done g' -> ffs_from ho2' fuel' g' = Done ffs' ->
    transitions_from ho3' g' ffs' = Done t' ->
    transitions_get_productions t A a = transitions_get_productions t' A a.
Proof.
  intros T E ho1 ho2 ho3 ho1' ho2' ho3' eps init ps g g' fuel fuel' ffs ffs' t t' A a
    Hg Hf Ht Hg' Hf' Ht'.
  apply cfg_new_grammar_of in Hg as G. apply cfg_new_grammar_of in Hg' as G'.
  destruct (ffs_from_exact G _ _ Hf) as [Hx1 Hx2].
  destruct (ffs_from_exact G' _ _ Hf') as [Hx1' Hx2'].
  rewrite (transitions_cells G _ _ Ht), (transitions_cells G' _ _ Ht').
  assert (H1 : is_non_terminal g A = is_non_terminal g' A).
  { apply eq_true_iff_eq. rewrite (is_non_terminal_spec G), (is_non_terminal_spec G'). tauto. }
  assert (H2 : is_terminal g a = is_terminal g' a).
  { apply eq_true_iff_eq. rewrite (is_terminal_spec G), (is_terminal_spec G'). tauto. }
  rewrite H1, H2. destruct (is_non_terminal g' A && is_terminal g' a); auto.
  f_equal. apply filter_ext_in. intros p Hp. apply productions_of_In in Hp as [Hp _].
  apply eq_true_iff_eq.
  rewrite (@selectsb_spec _ _ _ _ _ _ G ho3 ffs Hx1 Hx2 p a Hp).
  rewrite (@selectsb_spec _ _ _ _ _ _ G' ho3' ffs' Hx1' Hx2' p a Hp). tauto.
Qed.
Print Assumptions C09_table_order_independent.

Example C09_table_case : exists g ffs t,
  cfg_new (reversed_order sym) Eps Prog expr_productions = Done g /\
  ffs_from (reversed_order sym) 200 g = Done ffs /\
  transitions_from (reversed_order sym) g ffs = Done t /\ t <> expr_transitions.
Proof.
  eexists. eexists. eexists. split; [vm_compute; reflexivity|]. split; [vm_compute; reflexivity|].
  split; [vm_compute; reflexivity|]. vm_compute. discriminate.
Qed.

(** ** C12: the table covers Algorithm 4.31 -- false in general *)
Definition C12_full_statement : Prop :=
  forall (T : Type) (E : EqDec T) (ho ho' ho'' : hash_order T) (eps init : T)
         (ps : list (production T)) (g : grammar T) (fuel : nat)
         (ffs : first_follow_symbols T) (t : transitions T) (A a : T) (p : production T),
    cfg_new ho eps init ps = Done g -> ffs_from ho' fuel g = Done ffs ->
    transitions_from ho'' g ffs = Done t ->
    textbook_cell eps ps init A a p ->
    in_set (transitions_get_productions t A a) p.

Theorem C12_full_statement_refuted : ~ C12_full_statement.
Proof.
  intros H.
  destruct (cfg_new (insertion_order nat) 0 1 twice_productions) as [g| |] eqn:Hg; try discriminate.
  vm_compute in Hg. inversion Hg as [Hg']. symmetry in Hg'.
  destruct (ffs_from (insertion_order nat) 200 g) as [ffs| |] eqn:Hf;
    [|subst g; vm_compute in Hf; discriminate..].
  destruct (transitions_from (insertion_order nat) g ffs) as [t| |] eqn:Ht;
    [|subst g; vm_compute in Hf; inversion Hf; subst ffs; vm_compute in Ht; discriminate..].
  assert (Hc : textbook_cell 0 twice_productions 1 3 4 (Production 3 [0])).
  { split; [simpl; auto|]. split; [reflexivity|]. right. split.
    - econstructor 2; [|constructor 1]. apply (@derive1_epsilon _ 0 twice_productions [] []).
    - split; [discriminate|]. split; [apply non_terminalb_false; reflexivity|].
      exists [4], [3; 6].
      eapply derives_trans;
        [apply (@derives_production _ 0 twice_productions (Production 1 [2; 2; 6])); simpl; auto|].
      apply (@derives_app _ 0 twice_productions [2] [4; 3] [2; 6] [4; 3; 6]).
      + apply (@derives_production _ 0 twice_productions (Production 2 [4; 3])). simpl; auto.
      + apply (@derives_app _ 0 twice_productions [2] [4; 3] [6] [6]); [|apply derives_refl].
        apply (@derives_production _ 0 twice_productions (Production 2 [4; 3])). simpl; auto. }
  assert (Hg2 : cfg_new (insertion_order nat) 0 1 twice_productions = Done g)
    by (subst g; vm_compute; reflexivity).
  destruct (H _ _ _ _ _ _ _ _ _ _ _ _ _ _ _ Hg2 Hf Ht Hc) as (s & Hs & Hin).
  subst g. vm_compute in Hf. inversion Hf; subst ffs. vm_compute in Ht. inversion Ht; subst t.
  vm_compute in Hs. inversion Hs; subst s. destruct Hin.
Qed.
Print Assumptions C12_full_statement_refuted.

(** What holds: coverage whenever a non-terminal repeated back to back does no harm:
    FOLLOW of the nullable symbols that can end it has what can start it (see C08).
    Missing: the other grammars. *)
Theorem C12_table_covers_textbook_partial :
  forall (T : Type) (E : EqDec T) (ho ho' ho'' : hash_order T) (eps init : T)
         (ps : list (production T)) (g : grammar T) (fuel : nat)
         (ffs : first_follow_symbols T) (t : transitions T) (A a : T) (p : production T),
    cfg_new ho eps init ps = Done g -> ffs_from ho' fuel g = Done ffs ->
    transitions_from ho'' g ffs = Done t ->
    repeats_harmless eps ps init ->
    textbook_cell eps ps init A a p ->
    in_set (transitions_get_productions t A a) p.
Proof.
  intros T E ho ho' ho'' eps init ps g fuel ffs t A a p Hg Hf Ht Hrep Hc.
  apply cfg_new_grammar_of in Hg as G.
  destruct (ffs_from_exact G _ _ Hf) as [Hx1 Hx2].
  pose proof Hc as (Hp & Hi & _).
  apply (textbook_selects (go_ok G) Hrep) in Hc.
  destruct (selects_sem_terminal Hp Hc) as [Hta _].
  destruct (transitions_get_productions t A a) as [l|] eqn:Hl.
  - exists l. split; auto. apply (@cell_In _ _ _ _ _ _ G ho'' ffs Hx1 Hx2 t A a l Ht Hl). auto.
  - exfalso. rewrite (transitions_cells G _ _ Ht) in Hl.
    assert (H1 : is_non_terminal g A = true) by (apply (is_non_terminal_spec G); exists p; auto).
    assert (H2 : is_terminal g a = true) by (now apply (is_terminal_spec G)).
    rewrite H1, H2 in Hl. discriminate.
Qed.
Print Assumptions C12_table_covers_textbook_partial.

(** Exactly when the table covers Algorithm 4.31: the only entries it can miss are those of
    productions that derive the empty word, on a token that follows the symbol and neither
    starts the production's first symbol nor is in the FOLLOW set consulted for it. *)
Theorem C12_covers_exactly_when_partial :
  forall (T : Type) (E : EqDec T) (ho ho' ho'' : hash_order T) (eps init : T)
         (ps : list (production T)) (g : grammar T) (fuel : nat)
         (ffs : first_follow_symbols T) (t : transitions T),
    cfg_new ho eps init ps = Done g -> ffs_from ho' fuel g = Done ffs ->
    transitions_from ho'' g ffs = Done t ->
    ((forall A a p, textbook_cell eps ps init A a p -> in_set (transitions_get_productions t A a) p) <->
     (forall p X rest a, In p ps -> p_output p = X :: rest -> nullable eps ps (p_output p) ->
        can_follow eps ps init (p_input p) a ->
        can_start eps ps [X] a \/
        (X = eps /\ in_set (get_follow_symbols ffs (p_input p)) a) \/
        (X <> eps /\ in_set (get_follow_symbols ffs X) a))).
Proof.
  intros T E ho ho' ho'' eps init ps g fuel ffs t Hg Hf Ht.
  apply cfg_new_grammar_of in Hg as G.
  destruct (ffs_from_exact G _ _ Hf) as [Hx1 Hx2].
  assert (Hfo : forall X a, in_set (get_follow_symbols ffs X) a ->
            follow_rules (eps := eps) (ps := ps) X a).
  { intros X a (s & Hs & Ha). now apply (proj2 Hx2 X s Hs). }
  assert (Hof : forall X a, non_terminal ps X -> follow_rules (eps := eps) (ps := ps) X a ->
            in_set (get_follow_symbols ffs X) a).
  { intros X a HX Ha. apply (proj1 Hx2) in HX as [s Hs]. exists s. split; auto. now apply (proj2 Hx2 X s Hs). }
  split.
  - intros H p X rest a Hp Ho Hn Hfol.
    destruct (H (p_input p) a p) as (l & Hl & Hin); [split; auto|].
    apply (@cell_In _ _ _ _ _ _ G ho'' ffs Hx1 Hx2 t _ a l Ht Hl) in Hin as (_ & _ & X' & rest' & Ho' & Hs).
    rewrite Ho in Ho'. inversion Ho'; subst X' rest'. clear Ho'.
    destruct Hs as [Hs|[Hnx Hs]]; [now left|right].
    destruct (eqb eps X) eqn:HeX.
    + apply eqb_iff in HeX. left. split; [congruence|]. apply Hof; auto. exists p; auto.
    + apply eqb_ne_iff in HeX. right. split; [congruence|]. apply Hof; auto.
      destruct (non_terminal_dec ps X); auto. exfalso. apply HeX. symmetry. eapply nullable_terminal; eauto.
  - intros H A a p (Hp & Hi & Hc). subst A.
    assert (Hs : selects_sem (eps := eps) (ps := ps) p a).
    { destruct Hc as [Hc|[Hn Hfol]]; [now apply (first_selects (go_ok G))|].
      destruct (p_output p) as [|X rest] eqn:Ho; [destruct (go_ok G p Hp) as (_ & Hne & _); congruence|].
      exists X, rest. split; auto.
      assert (HnX : nullable eps ps [X]) by (apply nullable_cons in Hn; tauto). rewrite <- Ho in Hn.
      destruct (H p X rest a Hp Ho Hn Hfol) as [Ha|[[-> Ha]|[He Ha]]]; [now left| |].
      - right. split; auto. rewrite (proj2 (eqb_iff eps eps) eq_refl). auto.
      - right. split; auto. rewrite (proj2 (eqb_ne_iff eps X)) by congruence. auto. }
    destruct (selects_sem_terminal Hp Hs) as [Hta _].
    destruct (transitions_get_productions t (p_input p) a) as [l|] eqn:Hl.
    + exists l. split; auto. apply (@cell_In _ _ _ _ _ _ G ho'' ffs Hx1 Hx2 t _ a l Ht Hl). auto.
    + exfalso. rewrite (transitions_cells G _ _ Ht) in Hl.
      assert (H1 : is_non_terminal g (p_input p) = true) by (apply (is_non_terminal_spec G); exists p; auto).
      assert (H2 : is_terminal g a = true) by (now apply (is_terminal_spec G)).
      rewrite H1, H2 in Hl. discriminate.
Qed.
Print Assumptions C12_covers_exactly_when_partial.

Example C12_case : textbook_cell Eps expr_productions Prog Factor LParen (Production Factor [LParen; Expr; RParen])
  /\ repeats_harmless Eps expr_productions Prog.
Proof.
  split.
  - split; [simpl; auto 10|]. split; [reflexivity|]. left. split; [discriminate|].
    split; [apply non_terminalb_false; reflexivity|]. eexists. apply derives_refl.
  - exact expr_harmless.
Qed.

(** ** C13: the table is no larger than Algorithm 4.31 -- false in general *)
Definition C13_full_statement : Prop :=
  forall (T : Type) (E : EqDec T) (ho ho' ho'' : hash_order T) (eps init : T)
         (ps : list (production T)) (g : grammar T) (fuel : nat)
         (ffs : first_follow_symbols T) (t : transitions T) (A a : T) (p : production T),
    cfg_new ho eps init ps = Done g -> ffs_from ho' fuel g = Done ffs ->
    transitions_from ho'' g ffs = Done t ->
    (forall B, non_terminal ps B -> reachable_from eps ps init B) ->
    in_set (transitions_get_productions t A a) p ->
    textbook_cell eps ps init A a p.

(** 0 epsilon; S = 1 -> Z c | d B b; Z = 2 -> A; A = 3 -> B | b; B = 4 -> epsilon;
    b = 5, c = 6, d = 7 *)
Definition extra_productions : list (production nat) :=
  [Production 1 [2; 6]; Production 1 [7; 4; 5]; Production 2 [3];
   Production 3 [4]; Production 3 [5]; Production 4 [0]].

Lemma extra_reachable B : non_terminal extra_productions B -> reachable_from 0 extra_productions 1 B.
Proof.
  assert (H0 : reachable_from 0 extra_productions 1 1) by (exists [], []; apply derives_refl).
  assert (H1 : reachable_from 0 extra_productions 1 2)
    by (apply (@reach_step _ _ _ _ (Production 1 [2; 6]) [] _ [6] H0); simpl; auto 12).
  assert (H2 : reachable_from 0 extra_productions 1 3)
    by (apply (@reach_step _ _ _ _ (Production 2 [3]) [] _ [] H1); simpl; auto 12).
  assert (H3 : reachable_from 0 extra_productions 1 4)
    by (apply (@reach_step _ _ _ _ (Production 3 [4]) [] _ [] H2); simpl; auto 12).
  intros (p & Hp & Hi). subst B. simpl in Hp.
  decompose [or] Hp; subst; simpl; assumption || contradiction.
Qed.

(** A -> B is not in the textbook's M[A, b] *)
Lemma extra_not_textbook : ~ textbook_cell 0 extra_productions 1 3 5 (Production 3 [4]).
Proof.
  intros (_ & _ & Hc).
  destruct (cfg_new (insertion_order nat) 0 1 extra_productions) as [g| |] eqn:Hg; try discriminate.
  vm_compute in Hg. inversion Hg as [Hg']. symmetry in Hg'.
  destruct (ffs_from (insertion_order nat) 200 g) as [ffs| |] eqn:Hf;
    [|subst g; vm_compute in Hf; discriminate..].
  assert (Hg2 : cfg_new (insertion_order nat) 0 1 extra_productions = Done g)
    by (subst g; vm_compute; reflexivity).
  destruct Hc as [(He & Hn & Hd)|[_ Hfol]]; simpl in *.
  - assert (Hs : get_first_symbols ffs 4 = Some [0])
      by (subst g; vm_compute in Hf; inversion Hf; subst ffs; vm_compute; reflexivity).
    destruct (@C05_first_exact _ _ _ _ _ _ _ _ _ _ _ _ Hg2 Hf Hs) as [H1 _].
    apply (H1 5) in He. simpl in He. destruct He as [_ He].
    destruct (He (conj Hn Hd)) as [H|[]]. discriminate.
  - destruct (@C08_follow_complete_partial _ _ _ _ _ _ _ _ _ _ Hg2 Hf) as [_ H2].
    destruct (H2 (@no_repeated_neighbours_check _ nat_eq_dec extra_productions eq_refl) 3 5) as (s & Hs & Hin).
    + apply non_terminalb_spec. reflexivity.
    + exists 1. split; [apply non_terminalb_spec; reflexivity|exact Hfol].
    + subst g. vm_compute in Hf. inversion Hf; subst ffs. vm_compute in Hs. inversion Hs; subst s.
      simpl in Hin. intuition discriminate.
Qed.

Theorem C13_full_statement_refuted : ~ C13_full_statement.
Proof.
  intros H. apply extra_not_textbook.
  destruct (cfg_new (insertion_order nat) 0 1 extra_productions) as [g| |] eqn:Hg; try discriminate.
  vm_compute in Hg. inversion Hg as [Hg']. symmetry in Hg'.
  destruct (ffs_from (insertion_order nat) 200 g) as [ffs| |] eqn:Hf;
    [|subst g; vm_compute in Hf; discriminate..].
  destruct (transitions_from (insertion_order nat) g ffs) as [t| |] eqn:Ht;
    [|subst g; vm_compute in Hf; inversion Hf; subst ffs; vm_compute in Ht; discriminate..].
  apply (H _ _ (insertion_order nat) (insertion_order nat) (insertion_order nat) 0 1
           extra_productions g 200 ffs t); auto.
  - exact extra_reachable.
  - subst g. vm_compute in Hf. inversion Hf; subst ffs. vm_compute in Ht. inversion Ht; subst t.
    eexists. split; [vm_compute; reflexivity|]. simpl. auto.
Qed.
Print Assumptions C13_full_statement_refuted.

(** What holds (every non-terminal reachable): the table stays within the
    textbook's exactly when FOLLOW(X) does for the productions that start with
    a nullable non-terminal X; in particular when there are none.  Missing:
    the other grammars.  There the code takes FOLLOW(X) where the textbook
    takes FIRST of the rest of the production and FOLLOW of its input. *)
Theorem C13_table_within_textbook_partial :
  forall (T : Type) (E : EqDec T) (ho ho' ho'' : hash_order T) (eps init : T)
         (ps : list (production T)) (g : grammar T) (fuel : nat)
         (ffs : first_follow_symbols T) (t : transitions T),
    cfg_new ho eps init ps = Done g -> ffs_from ho' fuel g = Done ffs ->
    transitions_from ho'' g ffs = Done t ->
    (forall B, non_terminal ps B -> reachable_from eps ps init B) ->
    ((forall A a p, in_set (transitions_get_productions t A a) p ->
        textbook_cell eps ps init A a p) <->
     (forall q X rest a, In q ps -> p_output q = X :: rest -> non_terminal ps X ->
        nullable eps ps [X] -> in_set (get_follow_symbols ffs X) a ->
        textbook_cell eps ps init (p_input q) a q)) /\
    ((forall q X rest, In q ps -> p_output q = X :: rest -> non_terminal ps X ->
        ~ nullable eps ps [X]) ->
     forall A a p, in_set (transitions_get_productions t A a) p ->
       textbook_cell eps ps init A a p).
Proof.
  intros T E ho ho' ho'' eps init ps g fuel ffs t Hg Hf Ht Hr.
  apply cfg_new_grammar_of in Hg as G.
  destruct (ffs_from_exact G _ _ Hf) as [Hx1 Hx2].
  assert (Hback : (forall q X rest a, In q ps -> p_output q = X :: rest -> non_terminal ps X ->
        nullable eps ps [X] -> in_set (get_follow_symbols ffs X) a ->
        textbook_cell eps ps init (p_input q) a q) ->
     forall A a p, in_set (transitions_get_productions t A a) p ->
       textbook_cell eps ps init A a p).
  { intros H A a p (l & Hc & Hin).
    apply (@cell_In _ _ _ _ _ _ G ho'' ffs Hx1 Hx2 t A a l Ht Hc) in Hin as (Hp & Hi & Hs).
    subst A. destruct Hs as (X & rest & Ho & Hs).
    destruct Hs as [Ha|[Hn Hfo]].
    - split; auto. split; auto. left. rewrite Ho. apply can_start_cons. auto.
    - destruct (eqb eps X) eqn:HeX.
      + apply eqb_iff in HeX. subst X. split; auto. split; auto. right.
        destruct (go_ok G p Hp) as (_ & _ & Ha). rewrite Ho in Ha.
        specialize (Ha (or_introl eq_refl)). inversion Ha; subst rest. rewrite Ho. split; auto.
        apply can_follow_reachable; auto. now apply follow_rules_sound.
      + apply eqb_ne_iff in HeX.
        assert (HX : non_terminal ps X).
        { destruct (non_terminal_dec ps X); auto.
          exfalso. apply HeX. symmetry. eapply nullable_terminal; eauto. }
        apply (H p X rest a Hp Ho HX Hn).
        destruct Hx2 as [Hk2 Hx2]. apply Hk2 in HX as [s Hs]. exists s. split; auto.
        now apply (Hx2 X s Hs). }
  split; [split; [|exact Hback]|].
  - intros H q X rest a Hq Ho HX Hn (s & Hs & Ha). apply H.
    assert (Hsel : selects_sem (eps := eps) (ps := ps) q a).
    { exists X, rest. split; auto. right. split; auto.
      destruct (eqb eps X) eqn:HeX.
      - apply eqb_iff in HeX. subst X. destruct HX as (r & Hrp & Hri).
        exfalso. destruct (go_ok G r Hrp). congruence.
      - destruct Hx2 as [_ Hx2]. now apply (Hx2 X s Hs). }
    destruct (selects_sem_terminal Hq Hsel) as [Hta _].
    destruct (transitions_get_productions t (p_input q) a) as [l|] eqn:Hl.
    + exists l. split; auto. apply (@cell_In _ _ _ _ _ _ G ho'' ffs Hx1 Hx2 t _ a l Ht Hl). auto.
    + exfalso. rewrite (transitions_cells G _ _ Ht) in Hl.
      assert (H1 : is_non_terminal g (p_input q) = true)
        by (apply (is_non_terminal_spec G); exists q; auto).
      assert (H2 : is_terminal g a = true) by (now apply (is_terminal_spec G)).
      rewrite H1, H2 in Hl. discriminate.
  - intros H. apply Hback. intros q X rest a Hq Ho HX Hn. exfalso. exact (H q X rest Hq Ho HX Hn).
Qed.
Print Assumptions C13_table_within_textbook_partial.

Lemma expr_leading q X rest : In q expr_productions -> p_output q = X :: rest ->
  non_terminal expr_productions X -> ~ nullable Eps expr_productions [X].
Proof.
  intros Hq Ho HX Hn.
  assert (HXs : X = Expr \/ X = Term \/ X = Factor).
  { simpl in Hq. decompose [or] Hq; subst; simpl in Ho; inversion Ho; subst; auto; try contradiction;
      apply non_terminalb_spec in HX; discriminate. }
  assert (Hs : get_first_symbols expr_ffs X = Some [LParen; Id]).
  { decompose [or] HXs; subst; vm_compute; reflexivity. }
  destruct (@C05_first_exact _ _ _ _ _ _ _ _ _ _ _ _ expr_grammar_new expr_ffs_from Hs) as [_ H].
  apply H in Hn. simpl in Hn. intuition discriminate.
Qed.

Example C13_case : in_set (transitions_get_productions expr_transitions ExprTail RParen)
                     (Production ExprTail [Eps]) /\
  (forall q X rest, In q expr_productions -> p_output q = X :: rest ->
     non_terminal expr_productions X -> ~ nullable Eps expr_productions [X]).
Proof.
  split; [|exact expr_leading]. eexists. split; [vm_compute; reflexivity|]. simpl; auto.
Qed.

(** ** C41: user-supplied FIRST/FOLLOW maps *)

(** what the code reads from arbitrary maps *)
Definition belongs_any {T : Type} (eps : T) (ffs_first ffs_follow : T -> option (list T))
           (p : production T) (a : T) : Prop :=
  exists X rest F, p_output p = X :: rest /\ ffs_first X = Some F /\
    ((~ In eps F /\ In a F) \/
     (In eps F /\ exists W, (X = eps /\ ffs_follow (p_input p) = Some W \/
                             X <> eps /\ ffs_follow X = Some W) /\
                            ((In a F /\ a <> eps) \/ In a W))).

Lemma insert_many_In {T : Type} {E : EqDec T} (items : list T) : forall s a,
  In a (fst (insert_many s items)) <-> In a s \/ In a items.
Proof.
  unfold insert_many. assert (H : forall (acc : list T * bool) a,
    In a (fst (fold_left (fun acc x => let '(s', b) := hash_set_insert (fst acc) x in
                    (s', snd acc || b)) items acc)) <-> In a (fst acc) \/ In a items).
  { induction items as [|x items IH]; intros acc a; simpl; [tauto|].
    rewrite IH. destruct (hash_set_insert (fst acc) x) as [s' b] eqn:Hi. simpl.
    unfold hash_set_insert in Hi. destruct (hash_set_contains (fst acc) x) eqn:Hc;
      inversion Hi; subst.
    - apply contains_In in Hc. split; [tauto|]. intros [H|[H|H]]; subst; auto.
    - rewrite in_app_iff. simpl. tauto. }
  intros s a. apply H.
Qed.

Lemma selectsb_any {T : Type} {E : EqDec T} ho (g : grammar T) ffs p a :
  selectsb (g := g) ho ffs p a = true <->
  belongs_any (get_epsilon_symbol g) (get_first_symbols ffs) (get_follow_symbols ffs) p a.
Proof.
  unfold selectsb, inner_from_get_production_first_symbols, belongs_any.
  set (eps := get_epsilon_symbol g).
  destruct (p_output p) as [|X rest] eqn:Ho; simpl.
  { split; [discriminate|]. intros (X & rest & F & H & _). discriminate. }
  destruct (get_first_symbols ffs X) as [F|] eqn:HF; simpl.
  2:{ split; [discriminate|]. intros (X' & rest' & F & H & HF' & _). inversion H; subst. congruence. }
  fold eps.
  assert (Hperm : forall st (l : list T) x, In x (ho_iter ho st l) <-> In x l).
  { intros st l x. split; apply Permutation_in; [|symmetry]; apply ho_perm. }
  destruct (hash_set_contains F eps) eqn:Hc.
  - apply contains_In in Hc.
    unfold inner_from_get_production_first_symbols_on_epsilon_first. fold eps.
    set (W := if eqb eps X then get_follow_symbols ffs (p_input p) else get_follow_symbols ffs X).
    assert (HW : forall W', W = Some W' <-> X = eps /\ get_follow_symbols ffs (p_input p) = Some W' \/
                             X <> eps /\ get_follow_symbols ffs X = Some W').
    { intros W'. unfold W. destruct (eqb eps X) eqn:He.
      - apply eqb_iff in He. split; [auto|]. intros [[_ H]|[H _]]; [exact H|congruence].
      - apply eqb_ne_iff in He. split; [auto|]. intros [[H _]|[_ H]]; [congruence|exact H]. }
    destruct W as [W0|]; simpl.
    + rewrite contains_In, insert_many_In, set_from_iter_In, filter_In, !Hperm.
      rewrite negb_true_iff. assert (Hne : eqb eps a = false <-> a <> eps).
      { split; intros H; [intros ->; now rewrite eqb_self in H|].
        destruct (eqb eps a) eqn:H'; auto. apply eqb_iff in H'. congruence. }
      rewrite Hne. split.
      * intros H. exists X, rest, F. split; auto. split; auto. right. split; auto.
        exists W0. split; [now apply HW|exact H].
      * intros (X' & rest' & F' & H & HF' & H'). inversion H; subst X' rest'.
        assert (F' = F) by congruence. subst F'. destruct H' as [[H' _]|(_ & W' & H1 & H2)]; [contradiction|].
        apply HW in H1. inversion H1; subst W'. exact H2.
    + split; [discriminate|].
      intros (X' & rest' & F' & H & HF' & H'). inversion H; subst X' rest'.
      assert (F' = F) by congruence. subst F'. destruct H' as [[H' _]|(_ & W' & H1 & H2)]; [contradiction|].
      apply HW in H1. discriminate.
  - unfold inner_from_get_production_first_symbols_on_non_epsilon_first.
    assert (Hce : ~ In eps F) by (intros H; apply contains_In in H; congruence).
    rewrite contains_In, set_from_iter_In, Hperm. split.
    + intros H. exists X, rest, F. auto.
    + intros (X' & rest' & F' & H & HF' & H'). inversion H; subst X' rest'.
      assert (F' = F) by congruence. subst F'. destruct H' as [[_ H']|[H' _]]; auto. contradiction.
Qed.

Lemma for_each_unwrap {A S : Type} (f : S -> A -> outcome S) : forall l s,
  (forall s x, (exists s', f s x = Done s') \/ f s x = Panicked PanicUnwrapNone) ->
  (exists s', for_each f s l = Done s') \/ for_each f s l = Panicked PanicUnwrapNone.
Proof.
  induction l as [|x l IH]; intros s H; simpl; eauto.
  destruct (H s x) as [[s' Hs]|Hs]; rewrite Hs; simpl; auto.
Qed.

Lemma unwrap_cases {A : Type} (o : option A) :
  (exists a, unwrap o = Done a) \/ unwrap o = Panicked PanicUnwrapNone.
Proof. destruct o; simpl; eauto. Qed.

Lemma transitions_from_cases {T : Type} {E : EqDec T} ho (g : grammar T) ffs :
  (exists t, transitions_from ho g ffs = Done t) \/
  transitions_from ho g ffs = Panicked PanicUnwrapNone.
Proof.
  unfold transitions_from, inner_from_process_productions.
  match goal with |- context [for_each ?f ?s ?l] => destruct (@for_each_unwrap _ _ f l s) as [[s' H]|H] end.
  - intros tb nt. destruct (unwrap_cases (get_productions g nt)) as [[l ->]| ->]; simpl; auto.
    destruct (unwrap_cases (hash_map_get tb nt)) as [[r ->]| ->]; simpl; auto.
    match goal with |- context [for_each ?f ?s ?l] => destruct (@for_each_unwrap _ _ f l s) as [[s' H]|H] end.
    + intros r' p. unfold inner_from_get_production_first_symbols.
      destruct (unwrap_cases (nth_error (p_output p) 0)) as [[X ->]| ->]; simpl; auto.
      destruct (unwrap_cases (get_first_symbols ffs X)) as [[F ->]| ->]; simpl; auto.
      assert (Hpush : forall l, (exists s', push_production ho p l r' = Done s') \/
                push_production ho p l r' = Panicked PanicUnwrapNone).
      { intros l0. unfold push_production. apply for_each_unwrap. intros r1 x.
        destruct (unwrap_cases (hash_map_get r1 x)) as [[c ->]| ->]; simpl; eauto. }
      destruct (hash_set_contains F (get_epsilon_symbol g)); simpl; auto.
      unfold inner_from_get_production_first_symbols_on_epsilon_first.
      match goal with |- context [unwrap ?o] => destruct (unwrap_cases o) as [[c ->]| ->]; simpl; auto end.
    + rewrite H. simpl. eauto.
    + rewrite H. simpl. auto.
  - left. eexists. rewrite H. reflexivity.
  - right. rewrite H. reflexivity.
Qed.

Theorem C41_user_first_follow :
  forall (L T : Type) (E : EqDec T) (ho ho' : hash_order T) (eps init : T)
         (ps : list (production T)) (g : grammar T) (ffs : first_follow_symbols T),
    cfg_new ho eps init ps = Done g ->
    (* it returns or panics on a missing key *)
    (from_grammar_and_first_follow_symbols (L := L) ho' g ffs = Panicked PanicUnwrapNone \/
     exists self, from_grammar_and_first_follow_symbols (L := L) ho' g ffs = Done self) /\
    forall self, from_grammar_and_first_follow_symbols (L := L) ho' g ffs = Done self ->
      (* cells: declared productions of the symbol, in order, as the maps say *)
      (forall A a l, transitions_get_productions (pr_transitions self) A a = Some l ->
         non_terminal ps A /\ terminal ps a /\
         exists keep : production T -> bool,
           l = filter keep (filter (fun p => if eq_dec (p_input p) A then true else false) ps) /\
           forall p, keep p = true <->
                     belongs_any eps (get_first_symbols ffs) (get_follow_symbols ffs) p a) /\
      (* soundness of the results *)
      (forall fuel tokens root h,
         parse_from_tokens fuel self tokens = Done (ResultOk root, h) ->
         exists w, tree_for eps ps init root w /\ prefix w tokens).
Proof.
  intros L T E ho ho' eps init ps g ffs Hg. apply cfg_new_grammar_of in Hg as G. split.
  - unfold from_grammar_and_first_follow_symbols, rdp_from.
    destruct (transitions_from_cases ho' g ffs) as [[t ->]| ->]; simpl; eauto.
  - intros self Hs. split.
    + intros A a l Hl. destruct (rdp_from_inv _ _ _ _ Hs) as (_ & _ & Ht).
      rewrite (transitions_cells G _ _ Ht) in Hl.
      destruct (is_non_terminal g A) eqn:HA, (is_terminal g a) eqn:Ha; try discriminate.
      simpl in Hl. inversion Hl; subst l.
      split; [now apply (is_non_terminal_spec G)|]. split; [now apply (is_terminal_spec G)|].
      exists (fun p => selectsb (g := g) ho' ffs p a). split; auto.
      intros p. rewrite selectsb_any. unfold get_epsilon_symbol. now rewrite (go_eps G).
    + intros fuel tokens root h Hp. eapply parse_ok_sound; eauto. eapply rdp_from_parser_of; eauto.
Qed.
Print Assumptions C41_user_first_follow.

(** a parser from hand-written, wrong maps *)
Example C41_case : exists self,
  from_grammar_and_first_follow_symbols (L := nat) (insertion_order nat)
    (get_done (pr_grammar (no_parser 0)) (cfg_new (insertion_order nat) 0 1 twice_productions))
    (FirstFollowSymbols [(1, [4]); (2, [4]); (3, [5; 0]); (4, [4]); (5, [5; 6]); (0, [0])]
                        [(1, []); (2, [4; 6]); (3, [4; 6])]) = Done self /\
  parse_from_tokens 50 self [Token (Some 1) 4; Token (Some 2) 4; Token (Some 3) 6] =
    Done (ResultOk
      (Node [Node [Node [] (Token (Some 1) 4); Node [Node [] (Token None 0)] (Token None 3)] (Token None 2);
             Node [Node [] (Token (Some 2) 4); Node [Node [] (Token None 0)] (Token None 3)] (Token None 2);
             Node [] (Token (Some 3) 6)] (Token None 1)), []).
Proof. eexists. split; [vm_compute; reflexivity|]. vm_compute. reflexivity. Qed.
