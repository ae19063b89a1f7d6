(** * FOLLOW: termination, absence of panics, exact characterisation (proofs) *)

From Verif Require Import BaseFacts GrammarFacts DerivFacts FirstFacts.
From Verif Require Export Spec.

Set Implicit Arguments.

Section Split.
  Context {A : Type}.

  Lemma nth_split2 (l : list A) i j x y :
    nth_error l i = Some x -> nth_error l j = Some y -> i < j ->
    exists u mid v, l = u ++ x :: mid ++ y :: v /\ length u = i /\ length mid = j - i - 1 /\
      forall z, In z mid -> exists k, i < k < j /\ nth_error l k = Some z.
  Proof.
    intros Hi Hj Hlt. apply nth_error_split in Hi as (u & w & -> & Hu).
    rewrite nth_error_app2 in Hj by lia. destruct (j - length u) as [|k] eqn:Hk; [lia|].
    simpl in Hj. apply nth_error_split in Hj as (mid & v & -> & Hm).
    exists u, mid, v. split; [reflexivity|]. split; [lia|]. split; [lia|].
    intros z Hz. apply In_nth_error in Hz as (n & Hn).
    assert (n < length mid) by (apply nth_error_Some; congruence).
    exists (length u + S n). split; [lia|].
    rewrite nth_error_app2 by lia. replace (length u + S n - length u) with (S n) by lia.
    simpl. rewrite nth_error_app1; auto.
  Qed.

  Lemma nth_mid (u mid v : list A) x k z :
    nth_error mid k = Some z -> nth_error (u ++ x :: mid ++ v) (length u + S k) = Some z.
  Proof.
    intros H. rewrite nth_error_app2 by lia.
    replace (length u + S k - length u) with (S k) by lia. simpl.
    rewrite nth_error_app1; auto. apply nth_error_Some; congruence.
  Qed.

  Lemma nth_end (u mid v : list A) x y :
    nth_error (u ++ x :: mid ++ y :: v) (length u + S (length mid)) = Some y.
  Proof.
    rewrite nth_error_app2 by lia.
    replace (length u + S (length mid) - length u) with (S (length mid)) by lia. simpl.
    rewrite nth_error_app2 by lia. now rewrite Nat.sub_diag.
  Qed.

  Lemma nth_here (u v : list A) x : nth_error (u ++ x :: v) (length u) = Some x.
  Proof. rewrite nth_error_app2 by lia. now rewrite Nat.sub_diag. Qed.

  Lemma skipn_nth (l : list A) k x :
    nth_error l k = Some x -> skipn k l = x :: skipn (S k) l.
  Proof.
    revert l; induction k as [|k IH]; intros [|y l] H; simpl in *; try discriminate.
    - now inversion H.
    - now rewrite (IH l H).
  Qed.
End Split.

Section Follow.
  Context {T : Type} {E : EqDec T}.
  Context {eps init : T} {ps : list (production T)} {g : grammar T}.
  Hypothesis G : grammar_of eps init ps g.
  Variable ho : hash_order T.
  Variable first : symbols_map T.
  Hypothesis Hfirst : first_exact (eps := eps) (ps := ps) first.

  Notation nullable := (nullable eps ps).
  Notation can_start := (can_start eps ps).
  Notation derives := (derives eps ps).
  Notation first_elem := (first_elem (eps := eps) (ps := ps)).

  (** The rules the code implements.  They are the textbook rules except that
      a symbol followed by a run of copies of itself learns nothing from that run. *)
  Inductive follow_rules : T -> T -> Prop :=
  | follow_by_first p u A mid Z v a :
      In p ps -> p_output p = u ++ A :: mid ++ Z :: v -> non_terminal ps A ->
      nullable mid -> can_start [Z] a -> ~ Forall (eq A) (mid ++ [Z]) ->
      follow_rules A a
  | follow_by_end p u A v a :
      In p ps -> p_output p = u ++ A :: v -> non_terminal ps A ->
      nullable v -> follow_rules (p_input p) a -> follow_rules A a.

  Lemma follow_rules_terminal A a : follow_rules A a -> terminal ps a /\ a <> eps.
  Proof.
    induction 1 as [p u A mid Z v a Hp Ho HA Hm HZ Hr|]; auto.
    split; [|apply can_start_real in HZ; tauto].
    eapply can_start_terminal_of; [|exact HZ]. eapply output_symbol_of; [exact Hp|].
    rewrite Ho, in_app_iff; simpl. rewrite in_app_iff; simpl. auto.
  Qed.

  Lemma follow_rules_sound A a : follow_rules A a -> can_follow_somewhere eps ps A a.
  Proof.
    induction 1 as [p u A mid Z v a Hp Ho HA Hm HZ Hr|p u A v a Hp Ho HA Hv Hf IH].
    - exists (p_input p). split; [exists p; auto|].
      destruct (HZ) as (He & Hn & w & Hw). repeat split; auto.
      exists u, (w ++ v).
      eapply derives_trans; [now apply derives_production|]. rewrite Ho.
      change (u ++ A :: a :: w ++ v) with (u ++ [A] ++ [] ++ (a :: w) ++ v).
      apply derives_app; [apply derives_refl|].
      apply (@derives_app _ eps ps [A] [A]); [apply derives_refl|].
      apply derives_app; [exact Hm|].
      apply (@derives_app _ eps ps [Z] (a :: w)); [exact Hw|apply derives_refl].
    - destruct IH as (X & HX & He & Hn & u' & v' & Hd).
      exists X. split; auto. repeat split; auto. exists (u' ++ u), v'.
      eapply derives_trans; [exact Hd|].
      apply derives_trans with (u' ++ p_output p ++ a :: v').
      + apply derives_app; [apply derives_refl|].
        apply (@derives_app _ eps ps [p_input p]); [now apply derives_production|apply derives_refl].
      + rewrite Ho, <- !app_assoc. simpl.
        apply derives_app; [apply derives_refl|]. apply derives_app; [apply derives_refl|].
        apply (@derives_app _ eps ps [A] [A]); [apply derives_refl|].
        exact (derives_app Hv (derives_refl eps ps (a :: v'))).
  Qed.

  (** ** invariant of the FOLLOW map *)
  Record follow_inv (m : symbols_map T) : Prop := {
    fo_nodup : NoDup (map fst m);
    fo_keys : forall x, In x (map fst m) <-> non_terminal ps x;
    fo_sets : forall x s, hash_map_get m x = Some s -> NoDup s /\ forall a, In a s -> follow_rules x a
  }.

  Lemma follow_inv_get m A : follow_inv m -> non_terminal ps A -> exists s, hash_map_get m A = Some s.
  Proof. intros Hm HA. apply get_keys, (fo_keys Hm), HA. Qed.

  Lemma follow_inv_bound m : follow_inv m ->
    total m <= length m * length (g_terminal_symbols_set g).
  Proof.
    intros Hm. apply total_bound. intros k s Hin.
    apply get_In in Hin; [|apply (fo_nodup Hm)].
    destruct (fo_sets Hm _ Hin) as [Hnd Hs]. split; auto. intros a Ha.
    apply (go_ts G). now apply Hs, follow_rules_terminal in Ha.
  Qed.

  Definition mgrew (m m' : symbols_map T) (upd upd' : bool) : Prop :=
    (m' = m /\ upd' = upd) \/ (total m < total m' /\ upd' = true).

  Lemma mgrew_refl m b : mgrew m m b b.
  Proof. left; auto. Qed.

  Lemma mgrew_trans m1 m2 m3 b1 b2 b3 :
    mgrew m1 m2 b1 b2 -> mgrew m2 m3 b2 b3 -> mgrew m1 m3 b1 b3.
  Proof.
    unfold mgrew. intros [[-> ->]|[? ->]] [[-> ->]|[? ->]]; auto; right; split; auto; lia.
  Qed.

  Lemma mgrew_or m m' b u : mgrew m m' false b -> mgrew m m' u (u || b).
  Proof.
    intros [[-> ->]|[? ->]]; [left; now rewrite orb_false_r | right; now rewrite orb_true_r].
  Qed.

  Lemma mgrew_same m1 m2 m3 b1 b2 b3 :
    mgrew m1 m2 b1 b2 -> mgrew m2 m3 b2 b3 -> m3 = m1 -> m2 = m1.
  Proof. intros [[-> ->]|[? ->]] [[-> ->]|[? ->]] He; auto; subst; lia. Qed.

  (** writing a grown set back *)
  Lemma follow_update m A s s' b :
    follow_inv m -> hash_map_get m A = Some s -> NoDup s' ->
    (forall a, In a s' -> follow_rules A a) ->
    ((s' = s /\ b = false) \/ (length s < length s' /\ b = true)) -> incl s s' ->
    follow_inv (hash_map_insert m A s') /\ mgrew m (hash_map_insert m A s') false b /\
    mle m (hash_map_insert m A s').
  Proof.
    intros Hm Hs Hnd Hok Hgr Hinc. split; [|split].
    - constructor.
      + rewrite (insert_keys_existing _ _ _ Hs). apply (fo_nodup Hm).
      + rewrite (insert_keys_existing _ _ _ Hs). apply (fo_keys Hm).
      + intros x s1. rewrite get_insert. destruct (eqb x A) eqn:Hx.
        * apply eqb_iff in Hx; subst. intros H; inversion H; subst; auto.
        * apply (fo_sets Hm).
    - pose proof (total_insert m A s' Hs) as Htot.
      destruct Hgr as [[-> ->]|[Hlt ->]].
      + left. split; auto. now apply insert_same.
      + right. split; auto; lia.
    - eapply mle_insert; eauto.
  Qed.

  Lemma mle_refl m : mle m m.
  Proof. intros x a; auto. Qed.

  Lemma mle_trans m1 m2 m3 : mle m1 m2 -> mle m2 m3 -> mle m1 m3.
  Proof. intros H1 H2 x a H. auto. Qed.

  (** ** what [first] says *)
  Lemma first_get x : symbol_of ps x -> exists s, hash_map_get first x = Some s.
  Proof. apply (proj1 Hfirst). Qed.

  Lemma first_contains x s : hash_map_get first x = Some s ->
    (hash_set_contains s eps = true <-> nullable [x]) /\
    (forall a, a <> eps -> (In a s <-> can_start [x] a)).
  Proof.
    intros Hs. destruct (proj2 Hfirst x s Hs) as [_ Hin]. split.
    - rewrite contains_In, Hin. unfold FirstFacts.first_elem. split.
      + intros [[_ H]|H]; auto. apply can_start_real in H; tauto.
      + auto.
    - intros a Hne. rewrite Hin. unfold FirstFacts.first_elem. split.
      + intros [[H _]|H]; [congruence|auto].
      + auto.
  Qed.

  Lemma first_contains_false x s : hash_map_get first x = Some s ->
    (hash_set_contains s eps = false <-> ~ nullable [x]).
  Proof.
    intros Hs. rewrite <- (proj1 (first_contains _ Hs)).
    destruct (hash_set_contains s eps); split; congruence.
  Qed.

  (** ** one production *)
  Section Production.
    Variable p : production T.
    Hypothesis Hp : In p ps.
    Let out := p_output p.

    Definition sym (k : nat) (x : T) : Prop := nth_error out k = Some x.
    Definition N (k : nat) : Prop := exists x, sym k x /\ nullable [x].

    Lemma sym_symbol k x : sym k x -> symbol_of ps x.
    Proof. intros H. eapply output_symbol_of; [exact Hp|]. eapply nth_error_In; exact H. Qed.

    Lemma sym_lt k x : sym k x -> k < length out.
    Proof. intros H. apply nth_error_Some. unfold sym in H; congruence. Qed.

    Lemma sym_exists k : k < length out -> exists x, sym k x.
    Proof.
      intros H. apply nth_error_Some in H. unfold sym.
      destruct (nth_error out k) eqn:Hk; [eauto|congruence].
    Qed.

    (** nullable symbols of a long output are non-terminals *)
    Lemma N_non_terminal k x : 1 < length out -> sym k x -> nullable [x] -> non_terminal ps x.
    Proof.
      intros Hlen Hk Hn. destruct (non_terminal_dec ps x) as [H|H]; auto.
      apply nullable_terminal in Hn; auto. subst x.
      destruct (go_ok G p Hp) as (_ & _ & Ha). fold out in Ha.
      rewrite Ha in Hlen by (eapply nth_error_In; exact Hk). simpl in Hlen; lia.
    Qed.

    (** *** the chain of trailing nullable symbols *)
    Definition end_closed (m m' : symbols_map T) (j : nat) : Prop :=
      forall A a, sym j A -> nullable (skipn (S j) out) -> non_terminal ps A ->
                  lk m (p_input p) a -> lk m' A a.

    Lemma end_closed_le m0 m m1 m2 j :
      mle m0 m -> mle m1 m2 -> end_closed m m1 j -> end_closed m0 m2 j.
    Proof. intros H0 H1 H A a H2 H3 H4 H5. apply H1. eapply H; eauto. Qed.

    Lemma follow_propagate_spec round m A j :
      follow_inv m -> sym j A -> non_terminal ps A -> A <> p_input p ->
      nullable (skipn (S j) out) ->
      exists m' upd, follow_propagate ho round m (p_input p) A = Done (m', upd) /\
        follow_inv m' /\ mgrew m m' false upd /\ mle m m' /\ end_closed m m' j.
    Proof.
      intros Hm Hj HA Hne Hnull. unfold follow_propagate.
      assert (HI : non_terminal ps (p_input p)) by (exists p; auto).
      destruct (follow_inv_get Hm HI) as [si Hsi]. rewrite Hsi. simpl.
      destruct (follow_inv_get Hm HA) as [s Hs]. rewrite Hs. simpl.
      assert (Hb : eqb (p_input p) A = false) by (apply eqb_ne_iff; auto). rewrite Hb.
      destruct (insert_many s _) as [s' upd] eqn:Him.
      apply insert_many_spec in Him as (Hin & Hnd & Hgr).
      destruct (fo_sets Hm _ Hs) as [Hsnd Hsok]. destruct (fo_sets Hm _ Hsi) as [_ Hiok].
      assert (Hperm : forall a, In a (ho_iter ho (Site IterInputFollow round [p_input p; A]) si) <-> In a si).
      { intros a. split; apply Permutation_in; [|apply Permutation_sym]; apply ho_perm. }
      destruct (@follow_update m A s s' upd Hm Hs) as (H1 & H2 & H3); auto.
      { intros a Ha. apply Hin in Ha as [Ha|Ha]; auto. apply Hperm in Ha.
        pose proof Hj as Hj'. apply nth_error_split in Hj' as (u & v & Hout & Hu).
        eapply follow_by_end with (u := u) (v := v); eauto.
        assert (Hv : v = skipn (S j) out).
        { pose proof (skipn_nth _ _ Hj) as Hsk.
          assert (Hsk2 : skipn j out = A :: v).
          { rewrite Hout, <- Hu. rewrite skipn_app, Nat.sub_diag, skipn_all. reflexivity. }
          congruence. }
        now rewrite Hv. }
      { intros a Ha. apply Hin; auto. }
      eexists _, _. split; [reflexivity|]. split; auto. split; auto. split; auto.
      intros B a HB _ _ (sx & Hsx & Ha).
      assert (HAB : B = A) by (unfold sym in *; congruence). subst B.
      exists s'. split; [apply get_insert_same|]. apply Hin. right. apply Hperm. congruence.
    Qed.

    Lemma last_chain_spec round k : forall m upd,
      follow_inv m -> k < length out -> nullable (skipn (S k) out) ->
      exists m' upd', last_epsilon_chain_loop ho round g first p k m upd = Done (m', upd') /\
        follow_inv m' /\ mgrew m m' upd upd' /\
        mle m m' /\ (forall j, j <= k -> end_closed m m' j).
    Proof.
      induction k as [|k IH]; intros m upd Hm Hk Hnull;
        destruct (sym_exists Hk) as [A HA].
      - cbn [last_epsilon_chain_loop]. fold out. unfold sym in HA. rewrite HA. cbn [unwrap bind].
        assert (Hstep : exists m' upd',
          (if negb (eqb A (p_input p)) && is_non_terminal g A
           then follow_propagate ho round m (p_input p) A else Done (m, false)) = Done (m', upd') /\
          follow_inv m' /\ mgrew m m' false upd' /\ mle m m' /\ end_closed m m' 0).
        { destruct (eqb A (p_input p)) eqn:He; simpl.
          - exists m, false. split; [reflexivity|]. split; [exact Hm|]. split; [apply mgrew_refl|].
            split; [apply mle_refl|].
            intros B a HB _ _ Ha. apply eqb_iff in He. unfold sym in *. congruence.
          - destruct (is_non_terminal g A) eqn:Hnt.
            + apply (is_non_terminal_spec G) in Hnt. apply eqb_ne_iff in He.
              now apply follow_propagate_spec.
            + exists m, false. split; [reflexivity|]. split; [exact Hm|]. split; [apply mgrew_refl|].
              split; [apply mle_refl|].
              intros B a HB _ Hnt' _. apply (is_non_terminal_false G) in Hnt.
              unfold sym in *. congruence. }
        destruct Hstep as (m' & upd' & -> & Hm' & Hgr & Hle & Hcl). simpl.
        destruct (first_get (sym_symbol HA)) as [s Hs]. rewrite Hs. simpl.
        exists m', (upd || upd'). split; [reflexivity|]. split; auto.
        split; [now apply mgrew_or|]. split; auto.
        intros j Hj. assert (j = 0) by lia. subst j. auto.
      - cbn [last_epsilon_chain_loop]. fold out. unfold sym in HA. rewrite HA. cbn [unwrap bind].
        assert (Hstep : exists m' upd',
          (if negb (eqb A (p_input p)) && is_non_terminal g A
           then follow_propagate ho round m (p_input p) A else Done (m, false)) = Done (m', upd') /\
          follow_inv m' /\ mgrew m m' false upd' /\ mle m m' /\ end_closed m m' (S k)).
        { destruct (eqb A (p_input p)) eqn:He; simpl.
          - exists m, false. split; [reflexivity|]. split; [exact Hm|]. split; [apply mgrew_refl|].
            split; [apply mle_refl|].
            intros B a HB _ _ Ha. apply eqb_iff in He. unfold sym in *. congruence.
          - destruct (is_non_terminal g A) eqn:Hnt.
            + apply (is_non_terminal_spec G) in Hnt. apply eqb_ne_iff in He.
              now apply follow_propagate_spec.
            + exists m, false. split; [reflexivity|]. split; [exact Hm|]. split; [apply mgrew_refl|].
              split; [apply mle_refl|].
              intros B a HB _ Hnt' _. apply (is_non_terminal_false G) in Hnt.
              unfold sym in *. congruence. }
        destruct Hstep as (m' & upd' & -> & Hm' & Hgr & Hle & Hcl). simpl.
        destruct (first_get (sym_symbol HA)) as [s Hs]. rewrite Hs. simpl.
        unfold get_epsilon_symbol; rewrite (go_eps G).
        apply mgrew_or with (u := upd) in Hgr.
        pose proof (skipn_nth _ _ HA) as Hsk.
        destruct (hash_set_contains s eps) eqn:Heps.
        + apply (first_contains _ Hs) in Heps.
          destruct (IH m' (upd || upd')) as (m2 & upd2 & -> & Hm2 & Hgr2 & Hle2 & Hcl2); auto; [lia| |].
          { rewrite Hsk. rewrite nullable_cons; auto. }
          exists m2, upd2. split; [reflexivity|]. split; auto.
          split; [eapply mgrew_trans; eauto|]. split; [eapply mle_trans; eauto|].
          intros j Hj.
          destruct (Nat.eq_dec j (S k)) as [->|Hne].
          * eapply end_closed_le; [apply mle_refl|exact Hle2|exact Hcl].
          * eapply end_closed_le; [exact Hle|apply mle_refl|]. apply Hcl2. lia.
        + apply (first_contains_false _ Hs) in Heps.
          exists m', (upd || upd'). split; [reflexivity|]. split; auto. split; auto. split; auto.
          intros j Hj. destruct (Nat.eq_dec j (S k)) as [->|Hne]; [auto|].
          intros B a HB Hn. exfalso. apply Heps.
          assert (Hin : In A (skipn (S j) out)).
          { replace (skipn (S j) out) with (skipn (S j) (firstn (S k) out ++ skipn (S k) out))
              by now rewrite firstn_skipn.
            rewrite skipn_app, in_app_iff. right.
            rewrite firstn_length, Nat.min_l by lia.
            replace (S j - S k) with 0 by lia. rewrite skipn_O, Hsk. left; reflexivity. }
          apply nullable_forall in Hn. rewrite Forall_forall in Hn. auto.
    Qed.

    (** *** the FIRST part *)
    Definition pre (i : nat) (fi : list nat) : Prop :=
      forall j, In j fi -> i + 1 < j < length out /\
        ((forall k, i + 2 <= k < j -> N k) \/ ~ N (i + 1)).

    Definition cover (i : nat) (fi : list nat) : Prop :=
      N (i + 1) -> forall k, i + 2 <= k < length out ->
      (forall l, i + 2 <= l < k -> N l) ->
      (exists j, In j fi /\ nth_error out j = nth_error out k) \/
      nth_error out k = nth_error out (i + 1).

    (** what index [i] guarantees when nothing changed *)
    Definition first_closed (m : symbols_map T) (i : nat) : Prop :=
      forall A, sym i A -> non_terminal ps A -> ~ sym (i + 1) A ->
      forall k Z a, i < k -> (forall l, i < l < k -> N l) -> sym k Z ->
      can_start [Z] a -> lk m A a.

    Lemma N_dec_eq k x y : sym k x -> sym k y -> x = y.
    Proof. unfold sym; congruence. Qed.

    Lemma lambda_chain_spec round fi : forall s,
      (forall j, In j fi -> j < length out) ->
      exists s' b, update_follow_symbols_lambda_chain ho round g first p fi s = Done (s', b) /\
        (NoDup s -> NoDup s') /\
        (forall a, In a s' -> In a s \/ exists j Z, In j fi /\ sym j Z /\ can_start [Z] a) /\
        ((s' = s /\ b = false) \/ (length s < length s' /\ b = true)) /\
        (forall j Z a, In j fi -> sym j Z -> can_start [Z] a -> In a s') /\ incl s s'.
    Proof.
      intros s Hfi. unfold update_follow_symbols_lambda_chain.
      match goal with |- context [for_each ?f _ _] => set (body := f) end.
      destruct (@for_each_inv_prefix _ _ body
        (fun dn acc => (NoDup s -> NoDup (fst acc)) /\
           (forall a, In a (fst acc) -> In a s \/ exists j Z, In j fi /\ sym j Z /\ can_start [Z] a) /\
           grew s (fst acc) false (snd acc) /\
           (forall j Z a, In j dn -> sym j Z -> can_start [Z] a -> In a (fst acc)) /\
           incl s (fst acc)) fi (s, false)) as ([s' b] & -> & H1 & H2 & H3 & H4 & H5).
      - simpl. repeat split; auto; [left; auto| |apply incl_refl]. intros j Z a [].
      - intros dn [s1 b1] j Hj (H1 & H2 & H3 & H4 & H5). simpl in *. unfold body.
        destruct (sym_exists (Hfi j Hj)) as [Z HZ]. fold out. rewrite HZ. simpl.
        destruct (first_get (sym_symbol HZ)) as [sz Hsz]. rewrite Hsz. simpl.
        unfold get_epsilon_symbol; rewrite (go_eps G).
        destruct (insert_many s1 _) as [s2 b2] eqn:Him.
        apply insert_many_spec in Him as (Hin & Hnd & Hgr).
        assert (Hitems : forall a, In a (filter (fun s0 => negb (eqb eps s0))
                   (ho_iter ho (Site IterFollowFirst round [Z]) sz)) <-> can_start [Z] a).
        { intros a. rewrite filter_In.
          assert (Hpm : In a (ho_iter ho (Site IterFollowFirst round [Z]) sz) <-> In a sz).
          { split; apply Permutation_in; [|apply Permutation_sym]; apply ho_perm. }
          rewrite Hpm, negb_true_iff, eqb_ne_iff. destruct (first_contains _ Hsz) as [_ Hc]. split.
          - intros [H Hne]. apply Hc; auto.
          - intros H. pose proof (can_start_real H) as [Hne _]. split; [apply Hc; auto|congruence]. }
        eexists; split; [reflexivity|]. simpl.
        split; [auto|]. split; [|split; [|split]].
        + intros a Ha. apply Hin in Ha as [Ha|Ha]; auto. apply Hitems in Ha.
          right; exists j, Z; auto.
        + eapply grew_trans; [exact H3|]. now apply grew_or.
        + intros k W a Hk HW Ha. apply in_app_iff in Hk as [Hk|[Hk|[]]].
          * apply Hin. left. eapply H4; eauto.
          * subst k. assert (W = Z) by (eapply N_dec_eq; eauto). subst W.
            apply Hin. right. now apply Hitems.
        + intros a Ha. apply Hin. left. auto.
      - simpl in *. exists s', b. repeat split; auto.
    Qed.

    Lemma process_symbol_spec round i m fi :
      follow_inv m -> i + 1 < length out -> pre i fi -> cover i fi ->
      exists m' upd fi',
        get_follow_symbols_process_production_symbol ho round g first m p i fi
          = Done (m', upd, fi') /\
        follow_inv m' /\ mgrew m m' false upd /\
        (forall i', i = S i' -> pre i' fi' /\ cover i' fi') /\
        mle m m' /\ first_closed m' i.
    Proof.
      intros Hm Hi Hpre Hcov. unfold get_follow_symbols_process_production_symbol.
      destruct (@sym_exists i) as [A HA]; [lia|]. fold out. rewrite HA. simpl.
      destruct (is_non_terminal g A) eqn:Hnt.
      2:{ apply (is_non_terminal_false G) in Hnt.
          exists m, false, []. split; [reflexivity|]. split; auto. split; [apply mgrew_refl|].
          split.
          - intros i' ->. split; [intros j []|].
            intros (x & Hx & Hn). replace (i' + 1) with (S i') in * by lia.
            assert (x = A) by (eapply N_dec_eq; eauto). subst x.
            exfalso. apply Hnt. eapply N_non_terminal; eauto. lia.
          - split; [apply mle_refl|].
            intros B HB HntB. assert (B = A) by (eapply N_dec_eq; eauto). subst. contradiction. }
      apply (is_non_terminal_spec G) in Hnt.
      unfold get_follow_symbols_process_production_non_terminal_symbol.
      destruct (sym_exists Hi) as [X HX]. fold out. rewrite HX. simpl.
      destruct (eqb A X) eqn:HAX; simpl.
      - (* repeated neighbour *)
        apply eqb_iff in HAX; subst X.
        exists m, false, fi. split; [reflexivity|]. split; auto. split; [apply mgrew_refl|].
        split.
        + intros i' ->. replace (i' + 1) with (S i') in * by lia.
          replace (S i' + 1) with (S (S i')) in * by lia.
          assert (HNeq : N (S i') <-> N (S (S i'))).
          { split; intros (x & Hx & Hn).
            - assert (x = A) by (eapply N_dec_eq; eauto). subst. exists A; auto.
            - assert (x = A) by (eapply N_dec_eq; eauto). subst. exists A; auto. }
          split.
          * intros j Hj. destruct (Hpre j Hj) as [Hr Hc]. split; [lia|].
            replace (i' + 1) with (S i') in * by lia.
            replace (S i' + 1) with (S (S i')) in * by lia.
            destruct Hc as [Hc|Hc]; [|right; tauto].
            destruct (first_get (sym_symbol HA)) as [s Hs].
            destruct (hash_set_contains s eps) eqn:Heps.
            -- apply (first_contains _ Hs) in Heps. left. intros k Hk.
               destruct (Nat.eq_dec k (S (S i'))) as [->|]; [exists A; auto|].
               apply Hc; lia.
            -- apply (first_contains_false _ Hs) in Heps. right. intros (x & Hx & Hn).
               apply Heps. assert (x = A) by (eapply N_dec_eq; eauto). congruence.
          * intros HN k Hk Hl. replace (i' + 1) with (S i') in * by lia.
            unfold cover in Hcov. replace (S i' + 1) with (S (S i')) in * by lia.
            destruct (Nat.eq_dec k (S (S i'))) as [->|Hne].
            -- right. unfold sym in *. congruence.
            -- destruct (Hcov (proj1 HNeq HN) k) as [H|H]; [lia|intros l Hl'; apply Hl; lia| |].
               ++ left; exact H.
               ++ right. unfold sym in *. congruence.
        + split; [apply mle_refl|].
          intros B HB _ Hne. assert (B = A) by (eapply N_dec_eq; eauto). subst. contradiction.
      - apply eqb_ne_iff in HAX.
        destruct (first_get (sym_symbol HX)) as [sx Hsx]. rewrite Hsx. simpl.
        unfold get_epsilon_symbol; rewrite (go_eps G).
        set (fi' := (if negb (hash_set_contains sx eps) then [] else fi) ++ [i + 1]).
        assert (Hfi' : forall j, In j fi' <-> j = i + 1 \/ (nullable [X] /\ In j fi)).
        { intros j. unfold fi'. rewrite in_app_iff. simpl.
          destruct (hash_set_contains sx eps) eqn:Heps; simpl.
          - apply (first_contains _ Hsx) in Heps. intuition.
          - apply (first_contains_false _ Hsx) in Heps. intuition. }
        assert (HNX : N (i + 1) <-> nullable [X]).
        { split; [intros (x & Hx & Hn); assert (x = X) by (eapply N_dec_eq; eauto); congruence|].
          intros H; exists X; auto. }
        destruct (follow_inv_get Hm Hnt) as [s Hs]. rewrite Hs. simpl.
        destruct (@lambda_chain_spec round fi' s) as (s' & b & -> & Hnd & Hin & Hgr & Hcl & Hinc).
        { intros j Hj. apply Hfi' in Hj as [->|[_ Hj]]; auto. apply Hpre in Hj. lia. }
        simpl.
        assert (Hbetween : forall j, In j fi' -> i < j /\ forall k, i < k < j -> N k).
        { intros j Hj. apply Hfi' in Hj as [->|[Hn Hj]]; [split; [lia|intros; lia]|].
          destruct (Hpre j Hj) as [Hr Hc]. split; [lia|]. intros k Hk.
          destruct (Nat.eq_dec k (i + 1)) as [->|]; [now apply HNX|].
          destruct Hc as [Hc|Hc]; [apply Hc; lia|]. exfalso; apply Hc, HNX, Hn. }
        destruct (fo_sets Hm _ Hs) as [Hsnd Hsok].
        destruct (@follow_update m A s s' b Hm Hs) as (H1 & H2 & H3); auto.
        { intros a Ha. apply Hin in Ha as [Ha|(j & Z & Hj & HZ & Ha)]; auto.
          destruct (Hbetween j Hj) as [Hij Hk].
          destruct (@nth_split2 _ out i j A Z HA HZ Hij) as (u & mid & v & Hout & Hu & Hmid & Hz).
          eapply follow_by_first with (mid := mid) (Z := Z); eauto.
          - apply nullable_forall, Forall_forall. intros z Hzin.
            destruct (Hz z Hzin) as (k & Hkr & Hkz). destruct (Hk k Hkr) as (x & Hx & Hn).
            assert (x = z) by (eapply N_dec_eq; eauto). congruence.
          - intros Hall. apply HAX.
            assert (HX' : nth_error (mid ++ [Z]) 0 = Some X).
            { unfold sym in HX. rewrite Hout in HX.
              rewrite nth_error_app2 in HX by lia.
              replace (i + 1 - length u) with 1 in HX by lia.
              destruct mid; simpl in *; exact HX. }
            apply nth_error_In in HX'. rewrite Forall_forall in Hall. auto. }
        exists (hash_map_insert m A s'), b, fi'. split; [reflexivity|]. split; auto. split; auto.
        split.
        + intros i' ->. split.
          * intros j Hj. destruct (Hbetween j Hj) as [Hij Hk]. split.
            -- split; [lia|]. apply Hfi' in Hj as [->|[_ Hj]]; auto. apply Hpre in Hj. lia.
            -- left. intros k Hk'. apply Hk. lia.
          * intros HN k Hk Hl. left. replace (i' + 1) with (S i') in * by lia.
            destruct (Nat.eq_dec k (S i' + 1)) as [->|Hne].
            -- exists (S i' + 1). split; auto. apply Hfi'; auto.
            -- assert (HN1 : N (S i' + 1)) by (apply Hl; lia).
               destruct (Hcov HN1 k) as [(j & Hj & He)|He]; [lia|intros l Hl'; apply Hl; lia| |].
               ++ exists j. split; auto. apply Hfi'. right. split; auto. now apply HNX.
               ++ exists (S i' + 1). split; auto. apply Hfi'; auto.
        + split; [exact H3|].
          intros B HB _ _ k Z a Hik Hbet HZ Ha.
          assert (B = A) by (eapply N_dec_eq; eauto). subst B. exists s'. split; [apply get_insert_same|].
          destruct (Nat.eq_dec k (i + 1)) as [->|Hne].
          * eapply Hcl; eauto. apply Hfi'; auto.
          * assert (HN1 : N (i + 1)) by (apply Hbet; lia).
            pose proof (sym_lt HZ) as Hlt.
            destruct (Hcov HN1 k) as [(j & Hj & Hej)|Hej]; [lia|intros l Hl'; apply Hbet; lia| |].
            -- eapply Hcl with (j := j) (Z := Z); eauto.
               ++ apply Hfi'. right. split; auto. now apply HNX.
               ++ unfold sym in *. congruence.
            -- eapply Hcl with (j := i + 1) (Z := Z); eauto.
               ++ apply Hfi'; auto.
               ++ unfold sym in *. congruence.
    Qed.

    Lemma follow_loop_spec round i : forall m fi upd,
      follow_inv m -> i + 1 < length out -> pre i fi -> cover i fi ->
      exists m' upd',
        follow_symbols_loop ho round g first p i m fi upd = Done (m', upd') /\
        follow_inv m' /\ mgrew m m' upd upd' /\
        mle m m' /\ (forall j, j <= i -> first_closed m' j).
    Proof.
      induction i as [|i IH]; intros m fi upd Hm Hi Hpre Hcov;
        destruct (process_symbol_spec round Hm Hi Hpre Hcov)
          as (m1 & upd1 & fi1 & Heq & Hm1 & Hgr1 & Hnext & Hle1 & Hcl1);
        simpl; rewrite Heq; simpl; apply mgrew_or with (u := upd) in Hgr1.
      - exists m1, (upd || upd1). split; [reflexivity|]. split; auto. split; auto. split; auto.
        intros j Hj. assert (j = 0) by lia. subst. auto.
      - destruct (Hnext i eq_refl) as [Hpre1 Hcov1].
        destruct (IH m1 fi1 (upd || upd1)) as (m2 & upd2 & -> & Hm2 & Hgr2 & Hle2 & Hcl2); auto; [lia|].
        exists m2, upd2. split; [reflexivity|]. split; auto. split; [eapply mgrew_trans; eauto|].
        split; [eapply mle_trans; eauto|].
        intros j Hj.
        destruct (Nat.eq_dec j (S i)) as [->|Hne].
        + intros A HA HntA Hne k Z a H1 H2 H3 H4. apply Hle2. eapply Hcl1; eauto.
        + apply Hcl2. lia.
    Qed.

    (** closure of a map under the rules for this production *)
    Definition follow_closed (m m' : symbols_map T) : Prop :=
      (forall u A mid Z v a, out = u ++ A :: mid ++ Z :: v -> non_terminal ps A ->
         nullable mid -> can_start [Z] a -> ~ Forall (eq A) (mid ++ [Z]) -> lk m' A a) /\
      (forall u A v a, out = u ++ A :: v -> non_terminal ps A -> nullable v ->
         lk m (p_input p) a -> lk m' A a).

    Lemma follow_closed_le m0 m m1 m2 :
      mle m0 m -> mle m1 m2 -> follow_closed m m1 -> follow_closed m0 m2.
    Proof.
      intros H0 H1 [Ha Hb]. split.
      - intros u A mid Z v a Ho HA Hm HZ Hr. apply H1. eapply Ha; eauto.
      - intros u A v a Ho HA Hv Hi. apply H1. eapply Hb; eauto.
    Qed.

    Lemma follow_closed_intro m m' :
      (forall j, j < length out -> end_closed m m' j) ->
      (forall j, j + 1 < length out -> first_closed m' j) -> follow_closed m m'.
    Proof.
      intros He Hf. split.
      - intros u A mid Z v a Hout HA Hmid HZ Hall.
        (* skip the copies of A that follow *)
        revert u Hout. induction mid as [|X mid IH]; intros u Hout.
        + assert (HsA : sym (length u) A) by (unfold sym; rewrite Hout; apply nth_here).
          assert (HsZ : sym (length u + 1) Z) by (unfold sym; rewrite Hout; apply (nth_end u [] v A Z)).
          apply (@Hf (length u)) with (k := length u + 1) (Z := Z); auto.
          * apply (sym_lt HsZ).
          * intros HZ'. apply Hall. assert (Z = A) by (eapply N_dec_eq; eauto). subst.
            simpl; auto.
          * lia.
          * intros l Hl; lia.
        + assert (HsA : sym (length u) A) by (unfold sym; rewrite Hout; apply nth_here).
          assert (HsX : sym (length u + 1) X).
          { unfold sym; rewrite Hout. apply (nth_mid u (X :: mid) (Z :: v) A 0). reflexivity. }
          destruct (eq_dec X A) as [->|HXA].
          * apply (IH) with (u := u ++ [A]).
            -- now apply nullable_cons in Hmid as [_ ?].
            -- intros H. apply Hall. simpl. constructor; auto.
            -- rewrite Hout, <- app_assoc. reflexivity.
          * assert (HsZ : sym (length u + S (length (X :: mid))) Z)
              by (unfold sym; rewrite Hout; apply (nth_end u (X :: mid) v A Z)).
            apply (@Hf (length u)) with (k := length u + S (length (X :: mid))) (Z := Z); auto.
            -- apply (sym_lt HsX).
            -- intros H. apply HXA. eapply N_dec_eq; eauto.
            -- lia.
            -- intros l Hl. apply nullable_forall in Hmid. rewrite Forall_forall in Hmid.
               destruct (nth_error (X :: mid) (l - length u - 1)) as [z|] eqn:Hz.
               ++ exists z. split; [|apply Hmid; eapply nth_error_In; exact Hz].
                  unfold sym. rewrite Hout.
                  replace l with (length u + S (l - length u - 1)) by lia.
                  now apply (nth_mid u (X :: mid) (Z :: v)).
               ++ apply nth_error_None in Hz. lia.
      - intros u A v a Hout HA Hv Ha.
        apply (@He (length u)) with (a := a); auto.
        + rewrite Hout, app_length. simpl. lia.
        + unfold sym; rewrite Hout; apply nth_here.
        + replace (skipn (S (length u)) out) with v; auto.
          rewrite Hout. change (u ++ A :: v) with (u ++ [A] ++ v). rewrite app_assoc.
          replace (S (length u)) with (length (u ++ [A])) by (rewrite app_length; simpl; lia).
          rewrite skipn_app, Nat.sub_diag, skipn_all. reflexivity.
    Qed.

    Lemma process_production_spec round m :
      follow_inv m ->
      exists m' upd, get_follow_symbols_process_production ho round g first m p = Done (m', upd) /\
        follow_inv m' /\ mgrew m m' false upd /\ mle m m' /\ follow_closed m m'.
    Proof.
      intros Hm. unfold get_follow_symbols_process_production,
        get_follow_symbols_process_production_last_epsilon_chain, last_output_index.
      fold out. destruct (length out) as [|n] eqn:Hlen.
      { exfalso. destruct (go_ok G p Hp) as (_ & Hne & _). fold out in Hne.
        destruct out; [congruence|discriminate]. }
      simpl.
      destruct (@last_chain_spec round n m false) as (m1 & upd1 & -> & Hm1 & Hgr1 & Hle1 & Hcl1); auto.
      { lia. } { rewrite skipn_all2 by lia. apply nullable_nil. }
      simpl. destruct n as [|n].
      - exists m1, upd1. split; [reflexivity|]. split; auto. split; auto. split; auto.
        apply follow_closed_intro; intros j Hj; [|lia]. apply Hcl1; auto; lia.
      - destruct (@follow_loop_spec round n m1 [] upd1) as (m2 & upd2 & -> & Hm2 & Hgr2 & Hle2 & Hcl2); auto.
        + lia.
        + intros j [].
        + intros _ k Hk. lia.
        + exists m2, upd2. split; [reflexivity|]. split; auto. split; [eapply mgrew_trans; eauto|].
          split; [eapply mle_trans; eauto|].
          apply follow_closed_intro; intros j Hj.
          * eapply end_closed_le; [apply mle_refl|exact Hle2|]. apply Hcl1; auto; lia.
          * apply Hcl2. lia.
    Qed.
  End Production.

  (** one round of the FOLLOW loop, as [first_round_step] *)
  Lemma follow_round_step round m0 :
    follow_inv m0 ->
    exists m' b, follow_round ho g first (get_non_terminal_symbols ho g) round m0 = Done (m', b) /\
      follow_inv m' /\ (b = true -> total m0 < total m') /\ (b = false -> m' = m0) /\
      mle m0 m' /\ (forall p, In p ps -> follow_closed p m0 m').
  Proof.
    intros Hm0. unfold follow_round.
    destruct (@for_each_inv_prefix _ _ (follow_round_symbol ho round g first)
      (fun dn st => follow_inv (fst st) /\ mgrew m0 (fst st) false (snd st) /\ mle m0 (fst st) /\
         (forall p, In p ps -> In (p_input p) dn -> follow_closed p m0 (fst st)))
      (get_non_terminal_symbols ho g) (m0, false)) as ([m' b] & -> & H1 & H2 & H3 & H4).
    - simpl. split; auto. split; [apply mgrew_refl|]. split; [apply mle_refl|]. intros p _ [].
    - intros dn [m b] A HA (H1 & H2 & H3 & H3'). simpl in H1, H2, H3, H3'.
      apply (get_nts_In G) in HA. unfold follow_round_symbol.
      rewrite (get_productions_nt G HA). simpl.
      match goal with |- context [for_each ?f _ _] => set (body := f) end.
      destruct (@for_each_inv_prefix _ _ body
        (fun dn' st => follow_inv (fst st) /\ mgrew m (fst st) b (snd st) /\ mle m (fst st) /\
           (forall p, In p dn' -> follow_closed p m (fst st)))
        (productions_of ps A) (m, b)) as ([m2 b2] & -> & H4 & H5 & H6 & H6').
      + simpl. split; auto. split; [apply mgrew_refl|]. split; [apply mle_refl|]. intros p [].
      + intros dn' [m1 b1] p Hp (H4 & H5 & H6 & H6'). simpl in H4, H5, H6, H6'. unfold body.
        apply productions_of_In in Hp as [Hp Hi]. simpl fst.
        destruct (@process_production_spec p Hp round m1 H4) as (m2 & b2 & -> & H7 & H8 & H9 & H9').
        simpl. eexists; split; [reflexivity|]. simpl.
        apply mgrew_or with (u := b1) in H8.
        split; auto. split; [eapply mgrew_trans; eauto|]. split; [eapply mle_trans; eauto|].
        intros q Hq. apply in_app_iff in Hq as [Hq|[Hq|[]]].
        * eapply follow_closed_le; [apply mle_refl|exact H9|]. now apply H6'.
        * subst q. eapply follow_closed_le; [exact H6|apply mle_refl|exact H9'].
      + simpl in *. eexists; split; [reflexivity|]. simpl. split; auto.
        split; [eapply mgrew_trans; eauto|]. split; [eapply mle_trans; eauto|].
        intros p Hp Hi. apply in_app_iff in Hi as [Hi|[Hi|[]]].
        * eapply follow_closed_le; [apply mle_refl|exact H6|]. now apply H3'.
        * eapply follow_closed_le; [exact H3|apply mle_refl|]. apply H6'.
          apply productions_of_In; auto.
    - simpl in *. exists m', b. split; [reflexivity|]. split; auto.
      assert (Hcl : forall p, In p ps -> follow_closed p m0 m').
      { intros p Hp. apply H4; auto. apply (get_nts_In G). exists p; auto. }
      destruct H2 as [[-> ->]|[Hlt ->]].
      + split; [discriminate|]. split; auto.
      + split; [auto|]. split; [discriminate|auto].
  Qed.

  Lemma follow_round_spec round m0 :
    follow_inv m0 ->
    exists m' b, follow_round ho g first (get_non_terminal_symbols ho g) round m0 = Done (m', b) /\
      follow_inv m' /\ (b = true -> total m0 < total m') /\
      (b = false -> m' = m0 /\ forall p, In p ps -> follow_closed p m0 m0).
  Proof.
    intros Hm0. destruct (follow_round_step round Hm0) as (m' & b & -> & H1 & H2 & H3 & _ & H4).
    exists m', b. split; [reflexivity|]. split; auto. split; auto.
    intros Hb. rewrite (H3 Hb) in *. auto.
  Qed.

  (** ** exactness *)
  Definition follow_exact (m : symbols_map T) : Prop :=
    (forall x, (exists s, hash_map_get m x = Some s) <-> non_terminal ps x) /\
    (forall x s, hash_map_get m x = Some s -> NoDup s /\ forall a, In a s <-> follow_rules x a).

  Lemma follow_closed_exact m :
    follow_inv m -> (forall p, In p ps -> follow_closed p m m) -> follow_exact m.
  Proof.
    intros Hm Hcl.
    assert (Hc : forall A a, follow_rules A a -> lk m A a).
    { induction 1 as [p u A mid Z v a Hp Ho HA Hmid HZ Hr|p u A v a Hp Ho HA Hv Hf IH].
      - eapply (proj1 (Hcl p Hp)); eauto.
      - eapply (proj2 (Hcl p Hp)); eauto. }
    split.
    - intros x. rewrite get_keys. apply (fo_keys Hm).
    - intros x s Hs. destruct (fo_sets Hm _ Hs) as [Hnd Hok]. split; auto.
      intros a; split; auto. intros Ha. destruct (Hc _ _ Ha) as (s' & H1 & H2). congruence.
  Qed.

  Definition follow_initial : symbols_map T :=
    hash_map_from_iter (map (fun symbol => (symbol, [])) (get_non_terminal_symbols ho g)).

  Lemma follow_initial_get x :
    hash_map_get follow_initial x =
    if hash_set_contains (get_non_terminal_symbols ho g) x then Some [] else None.
  Proof.
    unfold follow_initial. rewrite from_iter_get.
    - apply (get_map_const (get_non_terminal_symbols ho g) (fun _ => [])).
    - rewrite (map_fst_const (get_non_terminal_symbols ho g) (fun _ => [])).
      apply (get_nts_NoDup G).
  Qed.

  Lemma follow_initial_inv : follow_inv follow_initial.
  Proof.
    constructor.
    - apply from_iter_NoDup.
    - intros x. rewrite <- get_keys, follow_initial_get, <- (get_nts_In G ho), <- contains_In.
      destruct (hash_set_contains _ x); split; eauto; [intros [s H]|intros H]; discriminate.
    - intros x s. rewrite follow_initial_get.
      destruct (hash_set_contains _ x); intros H; inversion H; subst.
      split; [constructor|contradiction].
  Qed.

  Definition follow_fuel : nat :=
    S (length (g_non_terminal_symbols_set g) * length (g_terminal_symbols_set g)).

  Lemma follow_inv_length m : follow_inv m -> length m = length (g_non_terminal_symbols_set g).
  Proof.
    intros Hm. rewrite <- (map_length fst m).
    apply Permutation_length. apply NoDup_Permutation.
    - apply (fo_nodup Hm).
    - apply (go_nts_nodup G).
    - intros x. rewrite (go_nts G). apply (fo_keys Hm).
  Qed.

  Lemma inner_get_follow_symbols_spec fuel :
    follow_fuel <= fuel ->
    exists m, inner_get_follow_symbols ho fuel g first = Done m /\ follow_exact m.
  Proof.
    intros Hfuel. unfold inner_get_follow_symbols. fold follow_initial.
    destruct (@converge_spec _ (follow_round ho g first (get_non_terminal_symbols ho g))
       follow_inv (fun m => forall p, In p ps -> follow_closed p m m) total
       (length (g_non_terminal_symbols_set g) * length (g_terminal_symbols_set g)))
      with (fuel := fuel) (round := 0) (m := follow_initial) as (m & -> & Hm & Hcl).
    - intros m Hm. rewrite <- (follow_inv_length Hm). now apply follow_inv_bound.
    - intros r m Hm. now apply follow_round_spec.
    - apply follow_initial_inv.
    - unfold follow_fuel in Hfuel. lia.
    - simpl. eexists; split; [reflexivity|].
      destruct (follow_closed_exact Hm Hcl) as [H1 H2].
      assert (Hget : forall x, hash_map_get (ref_map_to_symbols_map ho IterRefMapFollow m) x = hash_map_get m x).
      { intros x. unfold ref_map_to_symbols_map. apply from_iter_perm_get; [apply (fo_nodup Hm)|apply ho_perm]. }
      split; intros x; rewrite Hget; auto.
  Qed.

  Lemma inner_get_follow_symbols_mono fuel fuel' r :
    inner_get_follow_symbols ho fuel g first = r -> r <> OutOfFuel -> fuel <= fuel' ->
    inner_get_follow_symbols ho fuel' g first = r.
  Proof.
    unfold inner_get_follow_symbols. intros H Hr Hle.
    destruct (converge fuel 0 _ _) as [m|q|] eqn:Hc; simpl in H; [| |congruence];
      rewrite (@converge_mono _ _ fuel fuel' 0 _ _ Hc); auto; discriminate.
  Qed.

  (** ** completeness: what the repeated neighbours rule may lose *)
  Definition repeated_ok : Prop :=
    forall p u A v, In p ps -> p_output p = u ++ A :: A :: v -> non_terminal ps A ->
    forall a, can_start [A] a -> follow_rules A a.

  Lemma derives_n1 w w' : derives w w' -> clos_refl_trans_n1 _ (derive1 eps ps) w w'.
  Proof.
    intros H. apply clos_rt_rtn1. now apply clos_rt1n_rt.
  Qed.

  Lemma follow_rules_complete_form X w :
    repeated_ok -> non_terminal ps X -> derives [X] w ->
    forall u B v a, w = u ++ B :: v -> non_terminal ps B -> can_start v a -> follow_rules B a.
  Proof.
    intros Hrep HX Hd. apply derives_n1 in Hd.
    induction Hd as [|w w' Hstep Hd IH]; intros u B v a Hw HB Ha.
    - destruct u as [|y u]; simpl in Hw; inversion Hw; subst.
      + exfalso; eapply can_start_nil; eauto.
      + destruct u; discriminate.
    - destruct Hstep as [x y p Hp | x y].
      + apply app_cons_split in Hw as [(m & Hx & Hv)|(m & Hu & Hm)].
        * (* B in x *)
          eapply IH; [|exact HB|].
          -- rewrite Hx, <- app_assoc. reflexivity.
          -- rewrite Hv in Ha. eapply can_start_derives; [|exact Ha].
             apply derives_step. now constructor.
        * apply app_cons_split in Hm as [(o2 & Ho & Hv)|(m' & Ho & Hy)].
          -- (* B inside the output *)
             rewrite Hv in Ha. apply can_start_app in Ha as [Ha|[Hn Ha]].
             ++ apply can_start_split in Ha as (mid & Z & rest & Ho2 & Hmid & HZ).
                rewrite Ho2 in Ho.
                destruct (Forall_dec (eq B) (fun z => eq_dec B z) (mid ++ [Z])) as [Hall|Hall].
                ** (* a run of copies of B: by the hypothesis on repeated neighbours *)
                   assert (HZB : B = Z).
                   { rewrite Forall_app in Hall. destruct Hall as [_ Hall]. now inversion Hall. }
                   subst Z.
                   destruct mid as [|z mid].
                   --- eapply Hrep; eauto.
                   --- assert (B = z) by (inversion Hall; auto). subst z.
                       eapply (Hrep p m B (mid ++ B :: rest)); eauto.
                ** eapply follow_by_first; eauto.
             ++ assert (HI : non_terminal ps (p_input p)) by (exists p; auto).
                specialize (IH x (p_input p) y a eq_refl HI Ha).
                eapply follow_by_end with (p := p); eauto.
          -- (* B in y *)
             eapply IH with (u := x ++ p_input p :: m'); [|exact HB|exact Ha].
             rewrite Hy, <- app_assoc. reflexivity.
      + apply app_cons_split in Hw as [(m & Hx & Hv)|(m & Hu & Hm)].
        * eapply IH; [|exact HB|].
          -- rewrite Hx, <- app_assoc. reflexivity.
          -- rewrite Hv in Ha. eapply can_start_derives; [|exact Ha].
             apply derives_step. constructor.
        * eapply IH with (u := x ++ eps :: m); [|exact HB|exact Ha].
          rewrite Hm, <- app_assoc. reflexivity.
  Qed.

  Lemma follow_rules_complete A a :
    repeated_ok -> non_terminal ps A -> can_follow_somewhere eps ps A a -> follow_rules A a.
  Proof.
    intros Hrep HA (X & HX & He & Hn & u & v & Hd).
    eapply follow_rules_complete_form; eauto.
    repeat split; auto. exists v. apply derives_refl.
  Qed.

  Lemma no_repeated_neighbours_ok : no_repeated_neighbours ps -> repeated_ok.
  Proof. intros H p u A v Hp Ho HA. exfalso. eapply H; eauto. Qed.
End Follow.
