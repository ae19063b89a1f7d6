(** * How many rounds the FIRST and FOLLOW loops take (proofs) *)

From Verif Require Import BaseFacts GrammarFacts DerivFacts.
From Verif Require Export FirstFacts FollowFacts.

Set Implicit Arguments.

(** ** growing subsets of a finite list become stable *)
Section Saturate.
  Context {A : Type}.
  Variable S : nat -> A -> bool.
  Variable l : list A.
  Hypothesis mono : forall k x, S k x = true -> S (k + 1) x = true.

  Definition stable (k : nat) : Prop := forall x, In x l -> S (k + 1) x = true -> S k x = true.

  Lemma stable_or_grow k :
    stable k \/ length (filter (S k) l) < length (filter (S (k + 1)) l).
  Proof.
    unfold stable.
    assert (H : (forall x, In x l -> S (k + 1) x = true -> S k x = true) /\
                length (filter (S k) l) <= length (filter (S (k + 1)) l) \/
                length (filter (S k) l) < length (filter (S (k + 1)) l)).
    { induction l as [|x l' IH]; simpl; [left; split; auto; intros x []|].
      destruct (S k x) eqn:H1.
      - rewrite (mono H1). simpl. destruct IH as [[IH Hl]|IH]; [left|right; lia].
        split; [|lia]. intros y [<- |Hy]; auto.
      - destruct (S (k + 1) x) eqn:H2; simpl.
        + right. destruct IH as [[_ Hl]|Hl]; lia.
        + destruct IH as [[IH Hl]|IH]; [left|right; lia].
          split; auto. intros y [<- |Hy] H; auto. congruence. }
    destruct H as [[H _]|H]; auto.
  Qed.

  Lemma saturate k0 : exists k, k0 <= k <= k0 + length l /\ stable k.
  Proof.
    assert (H : forall n, (exists k, k0 <= k < k0 + n /\ stable k) \/
                          n <= length (filter (S (k0 + n)) l)).
    { induction n as [|n [(k & Hk & IH)|IH]].
      - right. lia.
      - left. exists k. split; auto. lia.
      - destruct (stable_or_grow (k0 + n)) as [H|H].
        + left. exists (k0 + n). split; auto. lia.
        + right. replace (k0 + Datatypes.S n) with (k0 + n + 1) by lia. lia. }
    destruct (H (Datatypes.S (length l))) as [(k & Hk & Hs)|Hf].
    - exists k. split; auto. lia.
    - exfalso. assert (Hl : forall f, length (filter f l) <= length l).
      { intros f. clear. induction l as [|x l' IH]; simpl; [lia|]. destruct (f x); simpl; lia. }
      specialize (Hl (S (k0 + Datatypes.S (length l)))). lia.
  Qed.
End Saturate.

Section Total.
  Context {T : Type} {E : EqDec T}.

  Definition size_at (m : symbols_map T) (k : T) : nat :=
    match hash_map_get m k with Some s => length s | None => 0 end.

  Fixpoint sum_at (m : symbols_map T) (keys : list T) : nat :=
    match keys with [] => 0 | k :: keys' => size_at m k + sum_at m keys' end.

  Lemma sum_at_perm m ks ks' : Permutation ks ks' -> sum_at m ks = sum_at m ks'.
  Proof. induction 1; simpl; lia. Qed.

  Lemma sum_at_skip m k s ks : ~ In k ks -> sum_at ((k, s) :: m) ks = sum_at m ks.
  Proof.
    induction ks as [|x ks IH]; simpl; intros H; auto. rewrite IH by tauto.
    unfold size_at. simpl. destruct (eqb x k) eqn:He; auto.
    apply eqb_iff in He. subst. tauto.
  Qed.

  Lemma total_sum m : NoDup (map fst m) -> total m = sum_at m (map fst m).
  Proof.
    induction m as [|[k s] m IH]; simpl; intros H; auto.
    inversion H as [|? ? Hn Hd]; subst. rewrite (IH Hd), sum_at_skip by auto.
    unfold size_at. simpl. rewrite eqb_self. reflexivity.
  Qed.

  Lemma total_le m m' :
    NoDup (map fst m) -> NoDup (map fst m') ->
    (forall x, In x (map fst m') <-> In x (map fst m)) ->
    (forall x s s', hash_map_get m x = Some s -> hash_map_get m' x = Some s' -> length s' <= length s) ->
    total m' <= total m.
  Proof.
    intros H1 H2 Hk Hs. rewrite (@total_sum m H1), (@total_sum m' H2).
    rewrite (@sum_at_perm m' (map fst m') (map fst m)) by (apply NoDup_Permutation; auto).
    assert (Hin : forall x, In x (map fst m) -> size_at m' x <= size_at m x).
    { intros x Hx. unfold size_at.
      pose proof (proj2 (get_keys m x) Hx) as [s Hm]. rewrite Hm.
      apply Hk in Hx. pose proof (proj2 (get_keys m' x) Hx) as [s' Hm']. rewrite Hm'. eauto. }
    revert Hin. generalize (map fst m) as ks. induction ks as [|x ks IH]; simpl; intros H; [lia|].
    pose proof (H x (or_introl eq_refl)). assert (sum_at m' ks <= sum_at m ks) by (apply IH; auto). lia.
  Qed.

  Definition lkb (m : symbols_map T) (x a : T) : bool :=
    match hash_map_get m x with Some s => hash_set_contains s a | None => false end.

  Lemma lkb_iff m x a : lkb m x a = true <-> lk m x a.
  Proof.
    unfold lkb, lk. destruct (hash_map_get m x) as [s|].
    - rewrite contains_In. split; [eauto|]. intros (s' & H & Ha). congruence.
    - split; [discriminate|]. intros (s' & H & _). discriminate.
  Qed.
End Total.

(** ** the states of a loop *)
Section States.
  Context {M : Type}.
  Variable callback : nat -> M -> outcome (M * bool).
  Variable st : nat -> M.
  Hypothesis Hst : forall k, exists b, callback k (st k) = Done (st (S k), b).

  Lemma converge_states K : callback K (st K) = Done (st (S K), false) ->
    forall n i, i + n = K -> exists j, j <= S K /\ converge (S n) i callback (st i) = Done (st j).
  Proof.
    intros HK. induction n as [|n IH]; intros i Hi.
    - replace i with K by lia. exists (S K). split; auto. simpl. rewrite HK. reflexivity.
    - destruct (Hst i) as [b Hb]. cbn [converge]. rewrite Hb. cbn [bind]. destruct b.
      + apply IH. lia.
      + exists (S i). split; [lia|reflexivity].
  Qed.
End States.

Section Rounds.
  Context {T : Type} {E : EqDec T}.
  Context {eps init : T} {ps : list (production T)} {g : grammar T}.
  Hypothesis G : grammar_of eps init ps g.
  Variable ho : hash_order T.

  Notation nullable := (nullable eps ps).
  Notation can_start := (can_start eps ps).
  Notation first_inv := (first_inv (eps := eps) (ps := ps)).
  Notation first_elem := (first_elem (eps := eps) (ps := ps)).
  Notation nts := (get_non_terminal_symbols ho g).

  (** *** FIRST *)
  Fixpoint first_state (k : nat) : symbols_map T :=
    match k with
    | O => first_initial (g := g) ho
    | S k' => match first_round ho g nts k' (first_state k') with
              | Done (m, _) => m
              | _ => first_state k'
              end
    end.

  Lemma first_state_inv k : first_inv (first_state k).
  Proof.
    induction k as [|k IH]; simpl; [apply (first_initial_inv G)|].
    destruct (first_round_step G ho k IH) as (m' & b & -> & H & _). exact H.
  Qed.

  Lemma first_state_step k :
    exists b, first_round ho g nts k (first_state k) = Done (first_state (S k), b) /\
      (b = true -> total (first_state k) < total (first_state (S k))) /\
      mle (first_state k) (first_state (S k)) /\
      (forall p, In p ps -> closed_map (eps := eps) (first_state k) (first_state (S k)) p).
  Proof.
    destruct (first_round_step G ho k (first_state_inv k)) as (m' & b & H & _ & H1 & _ & H2 & H3).
    exists b. cbn [first_state]. rewrite H. auto.
  Qed.

  Lemma first_state_le k k' : k <= k' -> mle (first_state k) (first_state k').
  Proof.
    induction 1 as [|k' _ IH]; [intros x a; auto|].
    destruct (first_state_step k') as (b & _ & _ & H & _). intros x a Ha. auto.
  Qed.

  Definition nullable_known (m : symbols_map T) : Prop :=
    forall x, symbol_of ps x -> nullable [x] -> lk m x eps.

  Lemma stable_of a k : stable (fun k x => lkb (first_state k) x a) nts k ->
    forall x, non_terminal ps x -> lk (first_state (S k)) x a -> lk (first_state k) x a.
  Proof.
    intros Hs x Hx H. apply lkb_iff. apply Hs; [now apply (get_nts_In G)|].
    replace (k + 1) with (S k) by lia. now apply lkb_iff.
  Qed.

  Lemma state_mono a k x :
    lkb (first_state k) x a = true -> lkb (first_state (k + 1)) x a = true.
  Proof.
    rewrite !lkb_iff. apply first_state_le. lia.
  Qed.

  Lemma state_eps m x : first_inv m -> symbol_of ps x -> x = eps \/ lk m x eps -> lk m x eps.
  Proof.
    intros Hm Hx [He|H]; auto. subst x. destruct Hx as [Hx|Hx].
    - exfalso. eapply eps_not_nt; eauto.
    - exists [eps]. split; [now apply (fi_ts Hm) | simpl; auto].
  Qed.

  Lemma nullable_rounds : nullable_known (first_state (length nts)).
  Proof.
    destruct (saturate (fun k x => lkb (first_state k) x eps) nts (@state_mono eps) 0) as (k & Hk & Hs).
    intros x Hx Hn. apply (@first_state_le k); [lia|].
    pose proof (stable_of Hs) as Hst. pose proof (first_state_inv k) as Hm.
    destruct (first_state_step k) as (b & _ & _ & _ & Hcl).
    assert (HN : forall w, nullable w -> Forall (fun x => x = eps \/ lk (first_state k) x eps) w).
    { apply closure_nullable.
      - left; auto.
      - intros p Hp Ho. right. apply Hst; [exists p; auto|]. apply (Hcl p Hp). rewrite Forall_forall in *.
        intros y Hy. apply state_eps; auto. eapply output_symbol_of; eauto. }
    apply HN in Hn. apply Forall_inv in Hn. now apply state_eps.
  Qed.

  Lemma first_rounds x a : symbol_of ps x -> first_elem x a -> lk (first_state (2 * length nts)) x a.
  Proof.
    intros Hx Ha.
    assert (Hnull : forall k, length nts <= k -> nullable_known (first_state k)).
    { intros k Hk y Hy Hn. apply (@first_state_le (length nts)); auto. now apply nullable_rounds. }
    destruct Ha as [[-> Ha]|Ha]; [apply Hnull; auto; lia|].
    destruct (saturate (fun k x => lkb (first_state k) x a) nts (@state_mono a) (length nts)) as (k & Hk & Hs).
    apply (@first_state_le k); [lia|].
    pose proof (stable_of Hs) as Hst. pose proof (first_state_inv k) as Hm.
    destruct (first_state_step k) as (b & _ & _ & _ & Hcl).
    specialize (Hnull k ltac:(lia)).
    set (N := fun y => nullable [y]).
    set (F := fun y c => c <> eps /\ (c = a -> lk (first_state k) y c \/ (~ symbol_of ps y /\ c = y))).
    assert (Hfs : forall w c, fs N F w c -> c = a -> Forall (symbol_of ps) w ->
                  fs (fun x => lk (first_state k) x eps)
                     (fun x a => a <> eps /\ lk (first_state k) x a) w c).
    { intros w c H. induction H as [y v c [Hne HF]|y v c HN H IH]; intros Hc Hw.
      - constructor. split; auto. apply Forall_inv in Hw. destruct (HF Hc) as [H|[H _]]; tauto.
      - apply Forall_cons_iff in Hw as [Hy Hv]. apply fs_skip; auto. }
    assert (HF : forall w c, can_start w c -> fs N F w c).
    { apply closure_can_start.
      - apply derives_eps.
      - intros p Hp Ho. unfold N in *.
        eapply derives_trans; [now apply derives_production|]. now apply nullable_forall.
      - intros p c Hp Ho.
        assert (Hne : c <> eps).
        { clear - Ho. induction Ho as [y v c [H _]|]; auto. }
        split; auto. intros ->. left. apply Hst; [exists p; auto|]. apply (Hcl p Hp). apply Hfs; auto.
        apply Forall_forall. intros y Hy. eapply output_symbol_of; eauto.
      - intros c Hne Hnt. split; auto. intros ->.
        destruct (in_dec eq_dec a (g_terminal_symbols_set g)) as [H|H].
        + apply (go_ts G) in H. left. exists [a]. split; [now apply (fi_ts Hm)|simpl; auto].
        + right. split; auto. intros [H'|H']; auto. apply H. now apply (go_ts G). }
    apply HF in Ha. apply Hfs, fs_cons_inv in Ha; [|reflexivity|constructor; auto].
    destruct Ha as [[_ Ha]|[_ Ha]]; [exact Ha|inversion Ha].
  Qed.

  Lemma first_last : exists K, K = 2 * length nts /\
    first_round ho g nts K (first_state K) = Done (first_state (S K), false).
  Proof.
    exists (2 * length nts). split; [reflexivity|]. set (K := 2 * length nts).
    destruct (first_state_step K) as (b & H & Hb & _). rewrite H. destruct b; [exfalso|reflexivity].
    specialize (Hb eq_refl).
    pose proof (first_state_inv K) as H1. pose proof (first_state_inv (S K)) as H2.
    assert (total (first_state (S K)) <= total (first_state K)); [|lia].
    apply total_le; [apply (fi_nodup H1)|apply (fi_nodup H2)| |].
    - intros x. rewrite (fi_keys H1), (fi_keys H2). reflexivity.
    - intros x s s' Hs Hs'. destruct (fi_sets H2 _ Hs') as [Hnd Hok].
      apply NoDup_incl_length; auto. intros a Ha.
      destruct (@first_rounds x a) as (s1 & Hs1 & Ha1).
      + apply (fi_keys H1). apply get_keys. eauto.
      + auto.
      + unfold K in Hs. congruence.
  Qed.

  Lemma inner_get_first_symbols_rounds fuel : 2 * length nts < fuel ->
    exists m, inner_get_first_symbols ho fuel g = Done m.
  Proof.
    intros Hf. destruct first_last as (K & HK & Hl).
    destruct (@converge_states _ (first_round ho g nts) first_state) with (K := K) (n := K) (i := 0)
      as (j & _ & Hc); auto.
    { intros k. destruct (first_state_step k) as (b & H & _). eauto. }
    exists (ref_map_to_symbols_map ho IterRefMapFirst (first_state j)).
    apply (@inner_get_first_symbols_mono _ _ g ho (S K)); [|discriminate|lia].
    unfold inner_get_first_symbols. unfold first_initial in Hc.
    change (first_state 0) with (first_initial (g := g) ho) in Hc. unfold first_initial in Hc.
    rewrite Hc. reflexivity.
  Qed.

  (** *** FOLLOW *)
  Variable first : symbols_map T.
  Hypothesis Hfirst : first_exact (eps := eps) (ps := ps) first.
  Notation follow_inv := (follow_inv (eps := eps) (ps := ps)).
  Notation follow_rules := (follow_rules (eps := eps) (ps := ps)).

  Fixpoint follow_state (k : nat) : symbols_map T :=
    match k with
    | O => follow_initial (g := g) ho
    | S k' => match follow_round ho g first nts k' (follow_state k') with
              | Done (m, _) => m
              | _ => follow_state k'
              end
    end.

  Lemma follow_state_inv k : follow_inv (follow_state k).
  Proof.
    induction k as [|k IH]; simpl; [apply (follow_initial_inv G)|].
    destruct (follow_round_step G ho Hfirst k IH) as (m' & b & -> & H & _). exact H.
  Qed.

  Lemma follow_state_step k :
    exists b, follow_round ho g first nts k (follow_state k) = Done (follow_state (S k), b) /\
      (b = true -> total (follow_state k) < total (follow_state (S k))) /\
      mle (follow_state k) (follow_state (S k)) /\
      (forall p, In p ps -> follow_closed (eps := eps) (ps := ps) p (follow_state k) (follow_state (S k))).
  Proof.
    destruct (follow_round_step G ho Hfirst k (follow_state_inv k)) as (m' & b & H & _ & H1 & _ & H2 & H3).
    exists b. cbn [follow_state]. rewrite H. auto.
  Qed.

  Lemma follow_state_le k k' : k <= k' -> mle (follow_state k) (follow_state k').
  Proof.
    induction 1 as [|k' _ IH]; [intros x a; auto|].
    destruct (follow_state_step k') as (b & _ & _ & H & _). intros x a Ha. auto.
  Qed.

  Lemma follow_rounds x a : follow_rules x a -> lk (follow_state (length nts)) x a.
  Proof.
    intros Ha.
    destruct (saturate (fun k x => lkb (follow_state k) x a) nts) with (k0 := 0) as (k & Hk & Hs).
    { intros k y. rewrite !lkb_iff. apply follow_state_le. lia. }
    apply (@follow_state_le k); [lia|].
    assert (Hst : forall y, non_terminal ps y -> lk (follow_state (S k)) y a -> lk (follow_state k) y a).
    { intros y Hy H. apply lkb_iff. apply Hs; [now apply (get_nts_In G)|].
      replace (k + 1) with (S k) by lia. now apply lkb_iff. }
    destruct (follow_state_step k) as (b & _ & _ & _ & Hcl).
    induction Ha as [p u A mid Z v a Hp Ho HA Hmid HZ Hr|p u A v a Hp Ho HA Hv Hf IH].
    - apply Hst; auto. eapply (proj1 (Hcl p Hp)); eauto.
    - apply Hst; auto. eapply (proj2 (Hcl p Hp)); eauto.
  Qed.

  Lemma follow_last : exists K, K = length nts /\
    follow_round ho g first nts K (follow_state K) = Done (follow_state (S K), false).
  Proof.
    exists (length nts). split; [reflexivity|]. set (K := length nts).
    destruct (follow_state_step K) as (b & H & Hb & _). rewrite H. destruct b; [exfalso|reflexivity].
    specialize (Hb eq_refl).
    pose proof (follow_state_inv K) as H1. pose proof (follow_state_inv (S K)) as H2.
    assert (total (follow_state (S K)) <= total (follow_state K)); [|lia].
    apply total_le; [apply (fo_nodup H1)|apply (fo_nodup H2)| |].
    - intros x. rewrite (fo_keys H1), (fo_keys H2). reflexivity.
    - intros x s s' Hs Hs'. destruct (fo_sets H2 _ Hs') as [Hnd Hok].
      apply NoDup_incl_length; auto. intros a Ha.
      destruct (@follow_rounds x a) as (s1 & Hs1 & Ha1); auto.
      unfold K in Hs. congruence.
  Qed.

  Lemma inner_get_follow_symbols_rounds fuel : length nts < fuel ->
    exists m, inner_get_follow_symbols ho fuel g first = Done m.
  Proof.
    intros Hf. destruct follow_last as (K & HK & Hl).
    destruct (@converge_states _ (follow_round ho g first nts) follow_state) with (K := K) (n := K) (i := 0)
      as (j & _ & Hc); auto.
    { intros k. destruct (follow_state_step k) as (b & H & _). eauto. }
    exists (ref_map_to_symbols_map ho IterRefMapFollow (follow_state j)).
    apply (@inner_get_follow_symbols_mono _ _ g ho first (S K)); [|discriminate|lia].
    unfold inner_get_follow_symbols.
    change (follow_state 0) with (follow_initial (g := g) ho) in Hc. unfold follow_initial in Hc.
    rewrite Hc. reflexivity.
  Qed.
End Rounds.
