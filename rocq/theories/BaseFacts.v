(** * Facts about the base collections (proof infrastructure) *)

From Verif Require Import Base.

Set Implicit Arguments.

Lemma eqb_iff {A} {E : EqDec A} (x y : A) : eqb x y = true <-> x = y.
Proof. unfold eqb, identity_eq; destruct (eq_dec x y); split; congruence. Qed.

Lemma eqb_ne_iff {A} {E : EqDec A} (x y : A) : eqb x y = false <-> x <> y.
Proof. unfold eqb, identity_eq; destruct (eq_dec x y); split; congruence. Qed.

Lemma eqb_self {A} {E : EqDec A} (x : A) : eqb x x = true.
Proof. apply eqb_iff; reflexivity. Qed.

Lemma eqb_comm {A} {E : EqDec A} (x y : A) : eqb x y = eqb y x.
Proof. unfold eqb, identity_eq; destruct (eq_dec x y), (eq_dec y x); congruence. Qed.

Lemma bind_done {A B} (o : outcome A) (f : A -> outcome B) b :
  bind o f = Done b -> exists a, o = Done a /\ f a = Done b.
Proof. destruct o; simpl; intros H; try discriminate; eauto. Qed.

Lemma nodup_snoc {A} (s : list A) x : NoDup s -> ~ In x s -> NoDup (s ++ [x]).
Proof.
  intros Hnd Hx. apply (Permutation_NoDup (l := x :: s)).
  - apply Permutation_cons_append.
  - now constructor.
Qed.

Section SetFacts.
  Context {A : Type} {E : EqDec A}.

  Lemma contains_In (s : list A) x : hash_set_contains s x = true <-> In x s.
  Proof.
    unfold hash_set_contains; rewrite existsb_exists; split.
    - intros (y & Hy & He); apply eqb_iff in He; congruence.
    - intros H; exists x; split; [exact H | apply eqb_self].
  Qed.

  Lemma contains_not_In (s : list A) x : hash_set_contains s x = false <-> ~ In x s.
  Proof.
    rewrite <- contains_In. destruct (hash_set_contains s x); split; congruence.
  Qed.

  Lemma insert_spec (s s' : list A) x b :
    hash_set_insert s x = (s', b) ->
    (forall y, In y s' <-> In y s \/ y = x) /\
    (NoDup s -> NoDup s') /\
    (b = false -> s' = s /\ In x s) /\
    (b = true -> s' = s ++ [x] /\ ~ In x s).
  Proof.
    unfold hash_set_insert; destruct (hash_set_contains s x) eqn:Hc; intros H;
      inversion H; subst; clear H.
    - apply contains_In in Hc. repeat split; auto; try congruence.
      intros [H|H]; subst; auto.
    - apply contains_not_In in Hc. repeat split; auto; try congruence.
      + rewrite in_app_iff; simpl; intuition.
      + rewrite in_app_iff; simpl; intuition.
      + intros Hnd. now apply nodup_snoc.
  Qed.

  Lemma insert_fst_In (s : list A) x y : In y (fst (hash_set_insert s x)) <-> In y s \/ y = x.
  Proof.
    destruct (hash_set_insert s x) as [s' b] eqn:H. apply insert_spec in H. apply H.
  Qed.

  Lemma insert_fst_NoDup (s : list A) x : NoDup s -> NoDup (fst (hash_set_insert s x)).
  Proof.
    destruct (hash_set_insert s x) as [s' b] eqn:H. apply insert_spec in H. apply H.
  Qed.

  Lemma set_fold_In (l s : list A) y :
    In y (fold_left (fun s x => fst (hash_set_insert s x)) l s) <-> In y s \/ In y l.
  Proof.
    revert s; induction l as [|x l IH]; intros s; simpl; [tauto|].
    rewrite IH, insert_fst_In. intuition.
  Qed.

  Lemma set_fold_NoDup (l s : list A) :
    NoDup s -> NoDup (fold_left (fun s x => fst (hash_set_insert s x)) l s).
  Proof.
    revert s; induction l as [|x l IH]; intros s Hs; simpl; auto using insert_fst_NoDup.
  Qed.

  Lemma set_from_iter_In (l : list A) y : In y (hash_set_from_iter l) <-> In y l.
  Proof. unfold hash_set_from_iter; rewrite set_fold_In; simpl; tauto. Qed.

  Lemma set_from_iter_NoDup (l : list A) : NoDup (hash_set_from_iter l).
  Proof. apply set_fold_NoDup; constructor. Qed.
End SetFacts.

Section MapFacts.
  Context {K V : Type} {E : EqDec K}.
  Implicit Types (m : list (K * V)) (k : K) (v : V).

  Lemma get_insert_same m k v : hash_map_get (hash_map_insert m k v) k = Some v.
  Proof.
    induction m as [|[k' v'] m IH]; simpl.
    - now rewrite eqb_self.
    - destruct (eqb k k') eqn:Hk; simpl; rewrite Hk; auto.
  Qed.

  Lemma get_insert_other m k k' v :
    k' <> k -> hash_map_get (hash_map_insert m k v) k' = hash_map_get m k'.
  Proof.
    intros Hne; induction m as [|[k0 v0] m IH]; simpl.
    - apply eqb_ne_iff in Hne; now rewrite Hne.
    - destruct (eqb k k0) eqn:Hk; simpl.
      + apply eqb_iff in Hk; subst k0.
        apply eqb_ne_iff in Hne; now rewrite Hne.
      + now rewrite IH.
  Qed.

  Lemma get_insert m k k' v :
    hash_map_get (hash_map_insert m k v) k' =
    if eqb k' k then Some v else hash_map_get m k'.
  Proof.
    destruct (eqb k' k) eqn:Hk.
    - apply eqb_iff in Hk; subst; apply get_insert_same.
    - apply eqb_ne_iff in Hk; now apply get_insert_other.
  Qed.

  Lemma insert_same m k v : hash_map_get m k = Some v -> hash_map_insert m k v = m.
  Proof.
    induction m as [|[k' v'] m IH]; simpl; [discriminate|].
    destruct (eqb k k') eqn:Hk; intros H.
    - now inversion H.
    - now rewrite IH.
  Qed.

  Lemma get_keys m k : (exists v, hash_map_get m k = Some v) <-> In k (map fst m).
  Proof.
    induction m as [|[k' v'] m IH]; simpl.
    - split; [intros [v H]; discriminate | tauto].
    - destruct (eqb k k') eqn:Hk.
      + apply eqb_iff in Hk; subst. split; eauto.
      + apply eqb_ne_iff in Hk. rewrite IH. intuition congruence.
  Qed.

  Lemma get_none_keys m k : hash_map_get m k = None <-> ~ In k (map fst m).
  Proof.
    rewrite <- get_keys. destruct (hash_map_get m k); split; intros H; auto; try discriminate.
    - exfalso; apply H; eauto.
    - intros [v Hv]; discriminate.
  Qed.

  Lemma insert_keys_existing m k v w :
    hash_map_get m k = Some w -> map fst (hash_map_insert m k v) = map fst m.
  Proof.
    induction m as [|[k' v'] m IH]; simpl; [discriminate|].
    destruct (eqb k k') eqn:Hk; simpl; intros H; [reflexivity|].
    now rewrite IH.
  Qed.

  Lemma insert_keys_new m k v :
    hash_map_get m k = None -> map fst (hash_map_insert m k v) = map fst m ++ [k].
  Proof.
    induction m as [|[k' v'] m IH]; simpl; [reflexivity|].
    destruct (eqb k k') eqn:Hk; simpl; intros H; [discriminate|].
    now rewrite IH.
  Qed.

  Lemma insert_keys_In m k v x :
    In x (map fst (hash_map_insert m k v)) <-> In x (map fst m) \/ x = k.
  Proof.
    destruct (hash_map_get m k) eqn:Hg.
    - rewrite (insert_keys_existing m k v Hg).
      assert (In k (map fst m)) by (apply get_keys; eauto).
      intuition congruence.
    - rewrite (insert_keys_new m k v Hg), in_app_iff; simpl. intuition.
  Qed.

  Lemma insert_keys_NoDup m k v :
    NoDup (map fst m) -> NoDup (map fst (hash_map_insert m k v)).
  Proof.
    intros Hnd. destruct (hash_map_get m k) eqn:Hg.
    - now rewrite (insert_keys_existing m k v Hg).
    - rewrite (insert_keys_new m k v Hg).
      apply get_none_keys in Hg.
      now apply nodup_snoc.
  Qed.

  Lemma map_fold_NoDup l m :
    NoDup (map fst m) ->
    NoDup (map fst (fold_left (fun m kv => hash_map_insert m (fst kv) (snd kv)) l m)).
  Proof.
    revert m; induction l as [|[k v] l IH]; intros m H; simpl; auto using insert_keys_NoDup.
  Qed.

  Lemma from_iter_NoDup (l : list (K * V)) : NoDup (map fst (hash_map_from_iter l)).
  Proof. apply map_fold_NoDup; constructor. Qed.

  Lemma map_fold_get l : forall m k,
    hash_map_get (fold_left (fun m kv => hash_map_insert m (fst kv) (snd kv)) l m) k =
    match hash_map_get (rev l) k with Some v => Some v | None => hash_map_get m k end.
  Proof.
    assert (Happ : forall (l1 l2 : list (K * V)) k, hash_map_get (l1 ++ l2) k =
              match hash_map_get l1 k with Some v => Some v | None => hash_map_get l2 k end).
    { induction l1 as [|[k v] l1 IH]; intros l2 k0; simpl; [reflexivity|].
      destruct (eqb k0 k); auto. }
    induction l as [|[k v] l IH]; intros m k0; simpl; [reflexivity|].
    rewrite IH, Happ. simpl. destruct (hash_map_get (rev l) k0); [reflexivity|].
    rewrite get_insert. destruct (eqb k0 k); reflexivity.
  Qed.

  Lemma get_In m k v : NoDup (map fst m) -> (hash_map_get m k = Some v <-> In (k, v) m).
  Proof.
    induction m as [|[k' v'] m IH]; simpl; intros Hnd.
    - split; [discriminate|tauto].
    - inversion Hnd as [|? ? Hni Hnd']; subst.
      destruct (eqb k k') eqn:Hk.
      + apply eqb_iff in Hk; subst k'. split.
        * intros H; inversion H; auto.
        * intros [H|H]; [now inversion H|].
          exfalso; apply Hni. apply (in_map fst) in H; exact H.
      + apply eqb_ne_iff in Hk. rewrite (IH Hnd'). split; [auto|].
        intros [H|H]; [inversion H; congruence | exact H].
  Qed.

  Lemma get_perm (m m' : list (K * V)) k :
    NoDup (map fst m) -> Permutation m' m -> hash_map_get m' k = hash_map_get m k.
  Proof.
    intros Hnd Hp.
    assert (Hnd' : NoDup (map fst m')).
    { eapply Permutation_NoDup; [|exact Hnd]. apply Permutation_map, Permutation_sym, Hp. }
    destruct (hash_map_get m' k) eqn:H1.
    - symmetry. apply get_In; auto. apply get_In in H1; auto.
      eapply Permutation_in; eauto.
    - symmetry. apply get_none_keys. apply get_none_keys in H1.
      intros H; apply H1. eapply Permutation_in; [|exact H].
      apply Permutation_map, Permutation_sym, Hp.
  Qed.

  Lemma from_iter_get (l : list (K * V)) k :
    NoDup (map fst l) -> hash_map_get (hash_map_from_iter l) k = hash_map_get l k.
  Proof.
    intros Hnd. unfold hash_map_from_iter. rewrite map_fold_get; simpl.
    rewrite (@get_perm l (rev l)); auto.
    - destruct (hash_map_get l k); reflexivity.
    - apply Permutation_sym, Permutation_rev.
  Qed.

  Lemma from_iter_perm_get (m m' : list (K * V)) k :
    NoDup (map fst m) -> Permutation m' m ->
    hash_map_get (hash_map_from_iter m') k = hash_map_get m k.
  Proof.
    intros Hnd Hp. rewrite from_iter_get.
    - now apply get_perm.
    - eapply Permutation_NoDup; [|exact Hnd]. apply Permutation_map, Permutation_sym, Hp.
  Qed.
End MapFacts.

(** constant-valued maps, as built by the initial tables *)
Lemma get_map_const {K V} {E : EqDec K} (l : list K) (f : K -> V) k :
  hash_map_get (map (fun x => (x, f x)) l) k = if hash_set_contains l k then Some (f k) else None.
Proof.
  induction l as [|x l IH]; simpl; [reflexivity|].
  destruct (eqb k x) eqn:Hk; simpl.
  - apply eqb_iff in Hk; now subst.
  - exact IH.
Qed.

Lemma map_fst_const {K V} (l : list K) (f : K -> V) : map fst (map (fun x => (x, f x)) l) = l.
Proof. rewrite map_map; simpl. apply map_id. Qed.

Lemma get_app {K V} {E : EqDec K} (l1 l2 : list (K * V)) k :
  hash_map_get (l1 ++ l2) k =
  match hash_map_get l1 k with Some v => Some v | None => hash_map_get l2 k end.
Proof.
  induction l1 as [|[k1 v1] l1 IH]; simpl; [reflexivity|]. destruct (eqb k k1); auto.
Qed.

(** ** for_each *)
Lemma for_each_inv {A S : Type} (f : S -> A -> outcome S) (I : S -> Prop) (l : list A) :
  forall s, I s ->
  (forall s x, In x l -> I s -> exists s', f s x = Done s' /\ I s') ->
  exists s', for_each f s l = Done s' /\ I s'.
Proof.
  induction l as [|x l IH]; intros s Hs Hf; simpl; [eauto|].
  destruct (Hf s x (or_introl eq_refl) Hs) as (s1 & E1 & H1). rewrite E1; simpl.
  apply IH; auto. intros s2 y Hy; apply Hf; simpl; auto.
Qed.

Lemma for_each_app {A S : Type} (f : S -> A -> outcome S) l1 l2 s :
  for_each f s (l1 ++ l2) = bind (for_each f s l1) (fun s' => for_each f s' l2).
Proof.
  revert s; induction l1 as [|x l1 IH]; intros s; simpl; [reflexivity|].
  destruct (f s x); simpl; auto.
Qed.

(** invariant that also knows the processed elements *)
Lemma for_each_inv_prefix {A S : Type} (f : S -> A -> outcome S)
      (I : list A -> S -> Prop) (l : list A) :
  forall s, I [] s ->
  (forall done s x, In x l -> I done s ->
     exists s', f s x = Done s' /\ I (done ++ [x]) s') ->
  exists s', for_each f s l = Done s' /\ I l s'.
Proof.
  intros s Hs Hf.
  assert (G : forall todo done s, (forall x, In x todo -> In x l) -> I done s ->
              exists s', for_each f s todo = Done s' /\ I (done ++ todo) s').
  { induction todo as [|x todo IH]; intros done s0 Hsub Hi; simpl.
    - rewrite app_nil_r; eauto.
    - destruct (Hf done s0 x) as (s1 & E1 & H1); simpl in *; auto.
      rewrite E1; simpl.
      destruct (IH (done ++ [x]) s1) as (s2 & E2 & H2); auto.
      exists s2; split; auto. now rewrite <- app_assoc in H2. }
  destruct (G l [] s) as (s' & ? & ?); eauto.
Qed.

Lemma for_each_ext {A S : Type} (f g : S -> A -> outcome S) l :
  (forall s x, In x l -> f s x = g s x) -> forall s, for_each f s l = for_each g s l.
Proof.
  induction l as [|x l IH]; intros H s; simpl; [reflexivity|].
  rewrite H by (simpl; auto). destruct (g s x); simpl; auto.
  apply IH; intros; apply H; simpl; auto.
Qed.

Lemma for_each_done_inv {A S : Type} (f : S -> A -> outcome S) (I : S -> Prop) (l : list A) :
  forall s s', I s -> for_each f s l = Done s' ->
  (forall s x s', In x l -> I s -> f s x = Done s' -> I s') ->
  I s'.
Proof.
  induction l as [|x l IH]; intros s s' Hs H Hf; simpl in *.
  - now inversion H; subst.
  - apply bind_done in H as (s1 & H1 & H2).
    eapply IH; [|exact H2|]; eauto.
Qed.
