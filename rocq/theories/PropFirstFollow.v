(** * Properties of FIRST and FOLLOW: C04 - C09 (sets) *)

From Verif Require Import BaseFacts GrammarFacts DerivFacts FirstFacts FollowFacts TransitionsFacts.
From Verif Require Import Examples.

Set Implicit Arguments.

(** ** C04: the construction always returns, within a bounded number of rounds *)
Theorem C04_first_follow_terminates :
  forall (T : Type) (E : EqDec T) (ho ho' : hash_order T) (eps init : T)
         (ps : list (production T)) (g : grammar T),
    cfg_new ho eps init ps = Done g ->
    exists ffs,
      (forall fuel,
         (length (get_non_terminal_symbols ho' g) + length (get_terminal_symbols ho' g))
           * length (get_terminal_symbols ho' g) < fuel ->
         ffs_from ho' fuel g = Done ffs) /\
      (forall fuel, ffs_from ho' fuel g = Done ffs \/ ffs_from ho' fuel g = OutOfFuel).
Proof.
  intros T E ho ho' eps init ps g Hg. apply cfg_new_grammar_of in Hg as G.
  destruct (ffs_from_total G ho' (le_n _)) as (ffs & Hffs & _).
  assert (Hl1 : length (get_non_terminal_symbols ho' g) = length (g_non_terminal_symbols_set g))
    by (apply Permutation_length, ho_perm).
  assert (Hl2 : length (get_terminal_symbols ho' g) = length (g_terminal_symbols_set g))
    by (apply Permutation_length, ho_perm).
  exists ffs. split.
  - intros fuel Hf. rewrite Hl1, Hl2 in Hf.
    eapply ffs_from_mono; [exact Hffs|discriminate|]. unfold first_fuel. lia.
  - intros fuel. destruct (ffs_from ho' fuel g) as [ffs'|q|] eqn:Hr; auto.
    + left. destruct (Nat.le_ge_cases fuel (first_fuel (g := g))) as [Hle|Hle].
      * rewrite <- Hr. rewrite <- Hffs. symmetry. eapply ffs_from_mono; eauto. congruence.
      * rewrite <- Hr. eapply ffs_from_mono; [exact Hffs|discriminate|auto].
    + exfalso. destruct (Nat.le_ge_cases fuel (first_fuel (g := g))) as [Hle|Hle].
      * assert (ffs_from ho' (first_fuel (g := g)) g = Panicked q)
          by (eapply ffs_from_mono; eauto; discriminate). congruence.
      * assert (ffs_from ho' fuel g = Done ffs)
          by (eapply ffs_from_mono; [exact Hffs|discriminate|auto]). congruence.
Qed.
Print Assumptions C04_first_follow_terminates.

Example C04_case : ffs_from (insertion_order sym) 200 expr_grammar = Done expr_ffs.
Proof. exact expr_ffs_from. Qed.

(** ** C05: FIRST is exact *)
Theorem C05_first_exact :
  forall (T : Type) (E : EqDec T) (ho ho' : hash_order T) (eps init : T)
         (ps : list (production T)) (g : grammar T) (fuel : nat)
         (ffs : first_follow_symbols T) (X : T) (s : list T),
    cfg_new ho eps init ps = Done g -> ffs_from ho' fuel g = Done ffs ->
    get_first_symbols ffs X = Some s ->
    (forall a, a <> eps -> (In a s <-> ~ non_terminal ps a /\ exists v, derives eps ps [X] (a :: v))) /\
    (In eps s <-> derives eps ps [X] []).
Proof.
  intros T E ho ho' eps init ps g fuel ffs X s Hg Hf Hs. apply cfg_new_grammar_of in Hg as G.
  destruct (ffs_from_exact G _ _ Hf) as [[_ Hx] _].
  destruct (Hx X s Hs) as [_ Hin]. split.
  - intros a Ha. rewrite Hin. split.
    + intros H. destruct H as [[H1 _]|(H1 & H2 & H3)]; auto. congruence.
    + intros [H1 H2]. right. split; auto.
  - rewrite Hin. split.
    + intros H. destruct H as [[_ H1]|(H1 & H2 & H3)]; auto. congruence.
    + intros H. left. auto.
Qed.
Print Assumptions C05_first_exact.

Example C05_case : get_first_symbols expr_ffs ExprTail = Some [Plus; Eps] /\
  get_first_symbols expr_ffs Prog = Some [LParen; Id] /\ get_first_symbols expr_ffs Plus = Some [Plus].
Proof. vm_compute. auto. Qed.

(** ** C06: keys and contents *)
Theorem C06_first_follow_hygiene :
  forall (T : Type) (E : EqDec T) (ho ho' : hash_order T) (eps init : T)
         (ps : list (production T)) (g : grammar T) (fuel : nat)
         (ffs : first_follow_symbols T),
    cfg_new ho eps init ps = Done g -> ffs_from ho' fuel g = Done ffs ->
    (forall X, (exists s, get_first_symbols ffs X = Some s) <->
               exists p, In p ps /\ (p_input p = X \/ In X (p_output p))) /\
    (forall A, (exists s, get_follow_symbols ffs A = Some s) <-> non_terminal ps A) /\
    (forall X s, get_first_symbols ffs X = Some s ->
       NoDup s /\ forall a, In a s -> terminal ps a) /\
    (forall A s, get_follow_symbols ffs A = Some s ->
       NoDup s /\ forall a, In a s -> terminal ps a /\ a <> eps).
Proof.
  intros T E ho ho' eps init ps g fuel ffs Hg Hf. apply cfg_new_grammar_of in Hg as G.
  destruct (ffs_from_exact G _ _ Hf) as [[Hk Hx] [Hk' Hx']]. splits.
  - intros X. unfold get_first_symbols. rewrite Hk. split.
    + intros [(p & Hp & Hi)|[(p & Hp & Hi) _]]; eauto.
    + intros (p & Hp & [Hi|Ho]).
      * left. exists p; auto.
      * destruct (non_terminal_dec ps X) as [H|H]; [left; auto|].
        right. split; auto. exists p; auto.
  - exact Hk'.
  - intros X s Hs. destruct (Hx X s Hs) as [Hnd Hin]. split; auto. intros a Ha.
    apply Hin in Ha. pose proof (proj1 (Hk X) (ex_intro _ s Hs)) as HX. eapply first_elem_terminal; eauto.
  - intros A s Hs. destruct (Hx' A s Hs) as [Hnd Hin]. split; auto. intros a Ha.
    apply Hin in Ha. apply follow_rules_sound in Ha as (X & HX & He & Hn & u & v & Hd). split; auto.
    assert (Hall : Forall (symbol_of ps) (u ++ A :: a :: v)).
    { eapply derives_symbols; eauto. constructor; auto. left; auto. }
    rewrite Forall_forall in Hall. destruct (Hall a) as [H|H]; auto; [|contradiction].
    apply in_or_app. right. right. left. auto.
Qed.
Print Assumptions C06_first_follow_hygiene.

Example C06_case : get_follow_symbols expr_ffs TermTail = Some [Eof; Plus; RParen] /\
  get_follow_symbols expr_ffs Plus = None.
Proof. vm_compute. auto. Qed.

(** ** C07: FOLLOW is sound *)
Theorem C07_follow_sound :
  forall (T : Type) (E : EqDec T) (ho ho' : hash_order T) (eps init : T)
         (ps : list (production T)) (g : grammar T) (fuel : nat)
         (ffs : first_follow_symbols T) (A a : T) (s : list T),
    cfg_new ho eps init ps = Done g -> ffs_from ho' fuel g = Done ffs ->
    get_follow_symbols ffs A = Some s -> In a s ->
    a <> eps /\ ~ non_terminal ps a /\
    (exists X u v, non_terminal ps X /\ derives eps ps [X] (u ++ A :: a :: v)) /\
    ((forall B, non_terminal ps B -> reachable_from eps ps init B) ->
     exists u v, derives eps ps [init] (u ++ A :: a :: v)).
Proof.
  intros T E ho ho' eps init ps g fuel ffs A a s Hg Hf Hs Ha. apply cfg_new_grammar_of in Hg as G.
  destruct (ffs_from_exact G _ _ Hf) as [_ [_ Hx]].
  destruct (Hx A s Hs) as [_ Hin]. apply Hin in Ha. apply follow_rules_sound in Ha as Hcf.
  pose proof Hcf as (X & HX & He & Hn & u & v & Hd). splits; auto.
  - exists X, u, v. auto.
  - intros Hr. destruct (can_follow_reachable Hr Hcf) as (_ & _ & H). exact H.
Qed.
Print Assumptions C07_follow_sound.

Example C07_case : exists s, get_follow_symbols expr_ffs Expr = Some s /\ In RParen s /\
  (forall B, non_terminal expr_productions B -> reachable_from Eps expr_productions Prog B).
Proof. eexists. split; [vm_compute; reflexivity|]. split; [vm_compute; auto|exact expr_reachable]. Qed.

(** ** C08: FOLLOW is complete -- false in general *)
Definition C08_full_statement : Prop :=
  forall (T : Type) (E : EqDec T) (ho ho' : hash_order T) (eps init : T)
         (ps : list (production T)) (g : grammar T) (fuel : nat)
         (ffs : first_follow_symbols T) (A a : T),
    cfg_new ho eps init ps = Done g -> ffs_from ho' fuel g = Done ffs ->
    non_terminal ps A -> can_follow_somewhere eps ps A a ->
    exists s, get_follow_symbols ffs A = Some s /\ In a s.

(** 0 epsilon; S = 1 -> B B $; B = 2 -> b D; D = 3 -> d | epsilon; b = 4, d = 5, $ = 6 *)
Definition twice_productions : list (production nat) :=
  [Production 1 [2; 2; 6]; Production 2 [4; 3]; Production 3 [5]; Production 3 [0]].

Theorem C08_full_statement_refuted : ~ C08_full_statement.
Proof.
  intros H.
  destruct (cfg_new (insertion_order nat) 0 1 twice_productions) as [g| |] eqn:Hg; try discriminate.
  destruct (ffs_from (insertion_order nat) 200 g) as [ffs| |] eqn:Hf;
    [|vm_compute in Hg; inversion Hg; subst g; vm_compute in Hf; discriminate..].
  assert (Hfol : can_follow_somewhere 0 twice_productions 2 4).
  { exists 1. split; [exists (Production 1 [2; 2; 6]); simpl; auto|].
    split; [discriminate|]. split; [apply non_terminalb_false; reflexivity|].
    exists [], [3; 6]. eapply derives_trans.
    - apply (@derives_production _ 0 twice_productions (Production 1 [2; 2; 6])). simpl; auto.
    - simpl. apply (@derives_ctx _ 0 twice_productions [2] [6] [2] [4; 3]).
      apply (@derives_production _ 0 twice_productions (Production 2 [4; 3])). simpl; auto. }
  assert (HB : non_terminal twice_productions 2) by (apply non_terminalb_spec; reflexivity).
  destruct (H _ _ _ _ _ _ _ _ _ _ _ _ Hg Hf HB Hfol) as (s & Hs & Hin).
  vm_compute in Hg. inversion Hg; subst g. vm_compute in Hf. inversion Hf; subst ffs.
  vm_compute in Hs. inversion Hs; subst s. simpl in Hin. intuition discriminate.
Qed.
Print Assumptions C08_full_statement_refuted.

(** What holds.  FOLLOW is complete for all symbols exactly when it is complete
    at the back-to-back repetitions [A A] of a production, in particular when
    no production repeats a non-terminal back to back.  Missing with respect to
    the full statement: grammars where a terminal follows [A] only through
    such repetitions. *)
Theorem C08_follow_complete_partial :
  forall (T : Type) (E : EqDec T) (ho ho' : hash_order T) (eps init : T)
         (ps : list (production T)) (g : grammar T) (fuel : nat)
         (ffs : first_follow_symbols T),
    cfg_new ho eps init ps = Done g -> ffs_from ho' fuel g = Done ffs ->
    let in_follow A a := exists s, get_follow_symbols ffs A = Some s /\ In a s in
    ((forall A a, non_terminal ps A -> can_follow_somewhere eps ps A a -> in_follow A a) <->
     (forall p u A v a, In p ps -> p_output p = u ++ A :: A :: v -> non_terminal ps A ->
        can_start eps ps [A] a -> in_follow A a)) /\
    ((forall p u A v, In p ps -> p_output p = u ++ A :: A :: v -> ~ non_terminal ps A) ->
     forall A a, non_terminal ps A -> can_follow_somewhere eps ps A a -> in_follow A a).
Proof.
  intros T E ho ho' eps init ps g fuel ffs Hg Hf in_follow. apply cfg_new_grammar_of in Hg as G.
  destruct (ffs_from_exact G _ _ Hf) as [_ [Hk Hx]].
  assert (Hin : forall A a, non_terminal ps A ->
    (in_follow A a <-> follow_rules (eps := eps) (ps := ps) A a)).
  { intros A a HA. apply Hk in HA as [s Hs]. destruct (Hx A s Hs) as [_ H]. split.
    - intros (s' & Hs' & Ha). unfold get_follow_symbols in Hs'. rewrite Hs in Hs'.
      inversion Hs'; subst s'. now apply H.
    - intros Ha. exists s. split; auto. now apply H. }
  pose proof (follow_everywhere_iff eps ps) as Hiff.
  assert (Hrep : repeated_ok (eps := eps) (ps := ps) ->
    forall A a, non_terminal ps A -> can_follow_somewhere eps ps A a -> in_follow A a).
  { intros Hr A a HA Hcf. apply Hin; auto. apply Hiff; auto. }
  split; [split|].
  - intros H p u A v a Hp Ho HA Ha. apply Hin; auto.
    apply (proj1 Hiff) with (p := p) (u := u) (v := v); auto. intros B b HB Hb. apply Hin; auto.
  - intros H. apply Hrep. intros p u A v Hp Ho HA a Ha. apply Hin; eauto.
  - intros H. apply Hrep. now apply no_repeated_neighbours_ok.
Qed.
Print Assumptions C08_follow_complete_partial.

Example C08_case : cfg_new (insertion_order sym) Eps Prog expr_productions = Done expr_grammar /\
  ffs_from (insertion_order sym) 200 expr_grammar = Done expr_ffs /\
  no_repeated_neighbours expr_productions.
Proof. split; [exact expr_grammar_new|]. split; [exact expr_ffs_from|exact expr_no_repeated]. Qed.

(** ** C09 (sets): FIRST and FOLLOW do not depend on hash iteration orders *)
Definition same_set {A : Type} (o o' : option (list A)) : Prop :=
  match o, o' with
  | Some s, Some s' => Permutation s s'
  | None, None => True
  | _, _ => False
  end.

Theorem C09_first_follow_order_independent :
  forall (T : Type) (E : EqDec T) (ho1 ho2 ho1' ho2' : hash_order T) (eps init : T)
         (ps : list (production T)) (g g' : grammar T) (fuel fuel' : nat)
         (ffs ffs' : first_follow_symbols T) (X : T),
    cfg_new ho1 eps init ps = Done g -> ffs_from ho2 fuel g = Done ffs ->
    cfg_new ho1' eps init ps = Done g' -> ffs_from ho2' fuel' g' = Done ffs' ->
    same_set (get_first_symbols ffs X) (get_first_symbols ffs' X) /\
    same_set (get_follow_symbols ffs X) (get_follow_symbols ffs' X).
Proof.
  intros T E ho1 ho2 ho1' ho2' eps init ps g g' fuel fuel' ffs ffs' X Hg Hf Hg' Hf'.
  apply cfg_new_grammar_of in Hg as G. apply cfg_new_grammar_of in Hg' as G'.
  destruct (ffs_from_exact G _ _ Hf) as [[Hk1 Hx1] [Hk2 Hx2]].
  destruct (ffs_from_exact G' _ _ Hf') as [[Hk1' Hx1'] [Hk2' Hx2']].
  assert (Hgen : forall (m m' : list (T * list T)) (K : T -> Prop) (P : T -> T -> Prop),
    (forall x, (exists s, hash_map_get m x = Some s) <-> K x) ->
    (forall x, (exists s, hash_map_get m' x = Some s) <-> K x) ->
    (forall x s, hash_map_get m x = Some s -> NoDup s /\ forall a, In a s <-> P x a) ->
    (forall x s, hash_map_get m' x = Some s -> NoDup s /\ forall a, In a s <-> P x a) ->
    same_set (hash_map_get m X) (hash_map_get m' X)).
  { intros m m' K P H1 H2 H3 H4.
    destruct (hash_map_get m X) as [s|] eqn:Hs, (hash_map_get m' X) as [s'|] eqn:Hs'; simpl; auto.
    - destruct (H3 _ _ Hs) as [N1 I1]. destruct (H4 _ _ Hs') as [N2 I2].
      apply NoDup_Permutation; auto. intros a. rewrite I1, I2. tauto.
    - assert (H : exists s, hash_map_get m' X = Some s) by (apply H2, H1; eauto).
      destruct H; congruence.
    - assert (H : exists s, hash_map_get m X = Some s) by (apply H1, H2; eauto).
      destruct H; congruence. }
  split; eapply Hgen; eauto.
Qed.
Print Assumptions C09_first_follow_order_independent.

Example C09_sets_case : exists g ffs,
  cfg_new (reversed_order sym) Eps Prog expr_productions = Done g /\
  ffs_from (reversed_order sym) 200 g = Done ffs /\ ffs <> expr_ffs.
Proof.
  eexists. eexists. split; [vm_compute; reflexivity|]. split; [vm_compute; reflexivity|].
  vm_compute. discriminate.
Qed.
