(** * ExampleTools: sufficient conditions that can be checked on concrete grammars

    Used to show that concrete grammars meet the hypotheses of the theorems. *)

From Verif Require Import BaseFacts GrammarFacts DerivFacts FirstFacts FollowFacts TransitionsFacts.
From Verif Require Export MoreFacts.

Set Implicit Arguments.

(** split the conjunctions of a goal, leaving equivalences alone *)
Ltac splits := lazymatch goal with |- _ /\ _ => split; [|splits] | _ => idtac end.

Section Nullable.
  Context {T : Type} {E : EqDec T}.
  Variable eps : T.
  Variable ps : list (production T).
  Variable N : T -> bool.
  Lemma nullable_check_ok w :
    N eps = true -> (forall p, In p ps -> forallb N (p_output p) = true -> N (p_input p) = true) ->
    nullable eps ps w -> forallb N w = true.
  Proof.
    intros Heps HN H. unfold nullable, derives in H.
    remember (@nil T) as e eqn:He. induction H as [|w w' w'' Hs Hd IH]; subst; auto.
    specialize (IH eq_refl). destruct Hs as [x y p Hp|x y]; rewrite !forallb_app in *; simpl in *.
    - apply andb_true_iff in IH as [H1 H2]. apply andb_true_iff in H2 as [H2 H3].
      now rewrite H1, (HN p Hp H2), H3.
    - apply andb_true_iff in IH as [H1 H2]. now rewrite H1, Heps, H2.
  Qed.
End Nullable.

Section Rank.
  Context {T : Type} {E : EqDec T}.
  Variable eps : T.
  Variable ps : list (production T).
  (** an over-approximation of the nullable symbols, and a rank *)
  Variable N : T -> bool.
  Variable rank : T -> nat.
  Hypothesis Heps : N eps = true.
  Hypothesis HN : forall p, In p ps -> forallb N (p_output p) = true -> N (p_input p) = true.

  Fixpoint head_ok (r : nat) (out : list T) : bool :=
    match out with
    | [] => true
    | X :: out' => (rank X <? r) && (if N X then head_ok r out' else true)
    end.
  Hypothesis Hrank : forall p, In p ps -> head_ok (rank (p_input p)) (p_output p) = true.
  Hypothesis Hranke : forall p, In p ps -> rank eps < rank (p_input p).

  (** [Y] is at the front of [w] up to nullable symbols *)
  Definition head_of (w : list T) (Y : T) : Prop :=
    exists u v, w = u ++ Y :: v /\ forallb N u = true.

  Lemma head_ok_spec r out Y : head_ok r out = true -> head_of out Y -> rank Y < r.
  Proof.
    intros H (u & v & -> & Hu). induction u as [|x u IH]; simpl in *.
    - apply andb_true_iff in H as [H _]. now apply Nat.ltb_lt.
    - apply andb_true_iff in H as [_ H]. apply andb_true_iff in Hu as [Hx Hu].
      rewrite Hx in H. auto.
  Qed.

  Lemma head_step w w' Y : derive1 eps ps w w' -> head_of w' Y ->
    exists Z, head_of w Z /\ (Z = Y \/ rank Y < rank Z).
  Proof.
    intros Hs (u & v & Hw & Hu). destruct Hs as [x y p Hp|x y].
    - apply app_cons_split in Hw as [(m & Hx & Hv)|(m & Hu' & Hm)].
      + subst. exists Y. split; auto. exists u, (m ++ p_input p :: y).
        split; auto. now rewrite <- app_assoc.
      + subst u. rewrite forallb_app in Hu. apply andb_true_iff in Hu as [Hx Hmn].
        apply app_cons_split in Hm as [(m2 & Ho & Hv)|(m2 & Hm & Hy)].
        * exists (p_input p). split; [exists x, y; auto|]. right.
          apply (head_ok_spec _ (Hrank p Hp)). exists m, m2. auto.
        * subst m y. rewrite forallb_app in Hmn. apply andb_true_iff in Hmn as [Ho Hm2].
          exists Y. split; auto. exists (x ++ p_input p :: m2), v. split.
          -- now rewrite <- app_assoc.
          -- rewrite forallb_app. simpl. rewrite Hx, Hm2, HN; auto.
    - apply app_cons_split in Hw as [(m & Hx & Hv)|(m & Hu' & Hm)].
      + subst. exists Y. split; auto. exists u, (m ++ eps :: y).
        split; auto. now rewrite <- app_assoc.
      + subst u y. rewrite forallb_app in Hu. apply andb_true_iff in Hu as [Hx Hmn].
        exists Y. split; auto. exists (x ++ eps :: m), v. split.
        * now rewrite <- app_assoc.
        * rewrite forallb_app. simpl. rewrite Hx, Heps, Hmn. auto.
  Qed.

  Lemma head_steps w w' Y : derives eps ps w w' -> head_of w' Y ->
    exists Z, head_of w Z /\ rank Y <= rank Z.
  Proof.
    intros Hd. revert Y. induction Hd as [w|w w1 w2 Hs Hd IH]; intros Y HY.
    - exists Y. auto.
    - destruct (IH Y HY) as (Z & HZ & Hr). destruct (head_step Hs HZ) as (Z' & HZ' & Hr').
      exists Z'. split; auto. destruct Hr'; subst; lia.
  Qed.

  Lemma rank_no_left_recursion : no_left_recursion eps ps.
  Proof.
    intros A HA (w & v & Hs & Hd).
    assert (HY : head_of (A :: v) A) by (exists [], v; auto).
    destruct (head_steps Hd HY) as (Z & HZ & Hr).
    apply derive1_single in Hs as [(q & Hq & Hqi & ->)|[He _]].
    - pose proof (head_ok_spec _ (Hrank q Hq) HZ). subst A. lia.
    - subst A. destruct HA as (q & Hq & Hqi). pose proof (Hranke q Hq) as H. rewrite Hqi in H. lia.
  Qed.
End Rank.

(** the rank conditions as one boolean *)
Definition rank_check {T : Type} {E : EqDec T} (eps : T) (ps : list (production T))
           (N : T -> bool) (rank : T -> nat) : bool :=
  N eps && forallb (fun p => implb (forallb N (p_output p)) (N (p_input p)) &&
                             head_ok N rank (rank (p_input p)) (p_output p) &&
                             (rank eps <? rank (p_input p))) ps.

Lemma no_left_recursion_anywhere {T : Type} (eps init : T) ps :
  no_left_recursion eps ps -> no_left_recursion_from eps ps init.
Proof. intros H A HA _. now apply H. Qed.

Lemma rank_check_ok {T : Type} {E : EqDec T} (eps : T) ps N rank :
  rank_check eps ps N rank = true -> no_left_recursion eps ps.
Proof.
  intros H. apply andb_true_iff in H as [H1 H2]. rewrite forallb_forall in H2.
  apply (@rank_no_left_recursion T eps ps N rank); auto.
  - intros p Hp Ho. specialize (H2 p Hp). rewrite Ho in H2. simpl in H2.
    now destruct (N (p_input p)).
  - intros p Hp. specialize (H2 p Hp). apply andb_true_iff in H2 as [H2 _].
    now apply andb_true_iff in H2 as [_ H2].
  - intros p Hp. specialize (H2 p Hp). apply andb_true_iff in H2 as [_ H2].
    now apply Nat.ltb_lt.
Qed.

(** ** conflict-free tables *)
Definition conflict_free_check {T : Type} {E : EqDec T} (t : transitions T) : bool :=
  forallb (fun r => forallb (fun c => length (snd c) <=? 1) (snd r)) (t_table t).

Lemma hash_map_get_In {K V : Type} {E : EqDec K} (m : list (K * V)) k v :
  hash_map_get m k = Some v -> exists k', In (k', v) m.
Proof.
  induction m as [|[k' v'] m IH]; simpl; [discriminate|].
  destruct (eqb k k'); intros H.
  - inversion H; subst. exists k'; auto.
  - destruct (IH H) as [k2 H2]. exists k2; auto.
Qed.

Lemma conflict_free_check_ok {T : Type} {E : EqDec T} (t : transitions T) :
  conflict_free_check t = true -> conflict_free t.
Proof.
  intros H A a l Hg. unfold transitions_get_productions in Hg.
  destruct (hash_map_get (t_table t) A) as [r|] eqn:Hr; [|discriminate].
  apply hash_map_get_In in Hr as [k Hr]. apply hash_map_get_In in Hg as [k' Hg].
  unfold conflict_free_check in H. rewrite forallb_forall in H. specialize (H _ Hr). simpl in H.
  rewrite forallb_forall in H. specialize (H _ Hg). simpl in H. now apply Nat.leb_le.
Qed.

(** ** decidable grammar conditions *)
Definition non_terminalb {T : Type} {E : EqDec T} (ps : list (production T)) (x : T) : bool :=
  existsb (fun p => eqb (p_input p) x) ps.

Lemma non_terminalb_spec {T : Type} {E : EqDec T} (ps : list (production T)) x :
  non_terminalb ps x = true <-> non_terminal ps x.
Proof.
  unfold non_terminalb. rewrite existsb_exists. split.
  - intros (p & Hp & H). apply eqb_iff in H. exists p; auto.
  - intros (p & Hp & H). exists p. split; auto. now apply eqb_iff.
Qed.

Lemma non_terminalb_false {T : Type} {E : EqDec T} (ps : list (production T)) x :
  non_terminalb ps x = false -> ~ non_terminal ps x.
Proof. intros H Hn. apply non_terminalb_spec in Hn. congruence. Qed.

Fixpoint no_repeatb {T : Type} {E : EqDec T} (nt : T -> bool) (out : list T) : bool :=
  match out with
  | X :: ((Y :: _) as out') => negb (eqb X Y && nt X) && no_repeatb nt out'
  | _ => true
  end.

Lemma no_repeatb_ok {T : Type} {E : EqDec T} nt (u : list T) A v :
  no_repeatb nt (u ++ A :: A :: v) = true -> nt A = false.
Proof.
  induction u as [|x u IH]; intros H.
  - simpl in H. rewrite eqb_self in H. simpl in H. now destruct (nt A).
  - apply IH. simpl in H. destruct (u ++ A :: A :: v) eqn:Hl; auto.
    now apply andb_true_iff in H as [_ H].
Qed.

Lemma no_repeated_neighbours_check {T : Type} {E : EqDec T} (ps : list (production T)) :
  forallb (fun p => no_repeatb (non_terminalb ps) (p_output p)) ps = true ->
  no_repeated_neighbours ps.
Proof.
  intros H p u A v Hp Ho. rewrite forallb_forall in H. specialize (H p Hp). rewrite Ho in H.
  apply no_repeatb_ok in H. now apply non_terminalb_false.
Qed.

Definition production_okb {T : Type} {E : EqDec T} (eps : T) (p : production T) : bool :=
  negb (eqb (p_input p) eps) &&
  match p_output p with
  | [] => false
  | [x] => true
  | l => negb (existsb (eqb eps) l)
  end.

Lemma productions_ok_check {T : Type} {E : EqDec T} (eps : T) (ps : list (production T)) :
  forallb (production_okb eps) ps = true -> productions_ok eps ps.
Proof.
  intros H p Hp. rewrite forallb_forall in H. specialize (H p Hp). unfold production_okb in H.
  apply andb_true_iff in H as [H1 H2]. split; [|split].
  - intros He. apply eqb_iff in He. rewrite He in H1. discriminate.
  - intros He. now rewrite He in H2.
  - intros Hi. destruct (p_output p) as [|x [|y l]]; try discriminate.
    + simpl in Hi. destruct Hi as [-> | []]; auto.
    + apply negb_true_iff in H2. rewrite <- not_true_iff_false in H2. exfalso. apply H2.
      apply existsb_exists. exists eps. split; auto. apply eqb_self.
Qed.

(** ** building concrete parsers *)
Definition build {L T : Type} {E : EqDec T} (eps init : T) (ps : list (production T))
           (solver : option (syntax_error_solver L T)) (fuel : nat) : outcome (parser L T) :=
  g <- cfg_new (insertion_order T) eps init ps ;;
  match solver with
  | None => from_grammar (insertion_order T) fuel g
  | Some s => from_grammar_and_solver (insertion_order T) fuel g s
  end.

Lemma build_built {L T : Type} {E : EqDec T} (eps init : T) ps solver fuel (self : parser L T) :
  build eps init ps solver fuel = Done self -> built_parser eps init ps solver self.
Proof.
  unfold build. destruct (cfg_new (insertion_order T) eps init ps) as [g| |] eqn:Hg; try discriminate.
  simpl. intros H. exists (insertion_order T), (insertion_order T), fuel, g. auto.
Qed.
