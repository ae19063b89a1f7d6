(** * FIRST: termination, absence of panics, exactness (proofs) *)

From Verif Require Import BaseFacts GrammarFacts DerivFacts.
From Verif Require Export Spec.

Set Implicit Arguments.

(** ** converge *)
Section Converge.
  Context {M : Type}.
  Variable callback : nat -> M -> outcome (M * bool).
  Variable I : M -> Prop.
  Variable Q : M -> Prop.
  Variable mu : M -> nat.
  Variable B : nat.
  Hypothesis mu_bound : forall m, I m -> mu m <= B.
  Hypothesis callback_spec : forall r m, I m ->
    exists m' b, callback r m = Done (m', b) /\ I m' /\
                 (b = true -> mu m < mu m') /\ (b = false -> m' = m /\ Q m).

  Lemma converge_spec fuel : forall round m,
    I m -> B < fuel + mu m ->
    exists m', converge fuel round callback m = Done m' /\ I m' /\ Q m'.
  Proof.
    induction fuel as [|fuel IH]; intros round m Hm HB; simpl.
    - apply mu_bound in Hm. lia.
    - destruct (callback_spec round Hm) as (m' & b & -> & Hm' & Ht & Hf). simpl.
      destruct b.
      + apply IH; auto. specialize (Ht eq_refl). lia.
      + destruct (Hf eq_refl) as [-> HQ]. eauto.
  Qed.
End Converge.

Lemma converge_mono {M} (callback : nat -> M -> outcome (M * bool)) fuel :
  forall fuel' round m r, converge fuel round callback m = r -> r <> OutOfFuel ->
  fuel <= fuel' -> converge fuel' round callback m = r.
Proof.
  induction fuel as [|fuel IH]; intros fuel' round m r H Hr Hle; simpl in H; [congruence|].
  destruct fuel' as [|fuel']; [lia|]. simpl.
  destruct (callback round m) as [[m' b]|p|]; simpl in *; auto.
  destruct b; auto. eapply IH; eauto. lia.
Qed.

Section Sets.
  Context {T : Type} {E : EqDec T}.

  (** ** insert_many *)
  Lemma insert_many_gen (l : list T) : forall s b s' b',
    fold_left (fun acc x => let '(s', b) := hash_set_insert (fst acc) x in
                            (s', snd acc || b)) l (s, b) = (s', b') ->
    (forall y, In y s' <-> In y s \/ In y l) /\
    (NoDup s -> NoDup s') /\
    ((s' = s /\ b' = b) \/ (length s < length s' /\ b' = true)).
  Proof.
    induction l as [|x l IH]; intros s b s' b' H; simpl in H.
    - inversion H; subst. repeat split; auto; simpl; tauto.
    - destruct (hash_set_insert s x) as [s1 b1] eqn:Hi.
      apply IH in H as (Hin & Hnd & Hlen). apply insert_spec in Hi as (Hin1 & Hnd1 & Hf & Ht).
      split; [|split].
      + intros y. rewrite Hin, Hin1. simpl. intuition congruence.
      + auto.
      + destruct b1.
        * right. destruct (Ht eq_refl) as [-> _]. rewrite orb_true_r in Hlen.
          rewrite app_length in Hlen; simpl in Hlen.
          destruct Hlen as [[-> ->]|[? ->]]; rewrite ?app_length; simpl; split; auto; lia.
        * destruct (Hf eq_refl) as [-> _]. now rewrite orb_false_r in Hlen.
  Qed.

  Lemma insert_many_spec (s l s' : list T) b :
    insert_many s l = (s', b) ->
    (forall y, In y s' <-> In y s \/ In y l) /\
    (NoDup s -> NoDup s') /\
    ((s' = s /\ b = false) \/ (length s < length s' /\ b = true)).
  Proof. apply insert_many_gen. Qed.

  (** ** total size of a symbols map *)
  Fixpoint total (m : symbols_map T) : nat :=
    match m with [] => 0 | (_, s) :: m' => length s + total m' end.

  Lemma total_insert (m : symbols_map T) k s s' :
    hash_map_get m k = Some s -> total (hash_map_insert m k s') + length s = total m + length s'.
  Proof.
    induction m as [|[k' v'] m IH]; simpl; [discriminate|].
    destruct (eqb k k'); intros H.
    - inversion H; subst; simpl. lia.
    - specialize (IH H). simpl. lia.
  Qed.

  Lemma total_bound (m : symbols_map T) ts :
    (forall k s, In (k, s) m -> NoDup s /\ incl s ts) -> total m <= length m * length ts.
  Proof.
    induction m as [|[k s] m IH]; simpl; intros H; [lia|].
    destruct (H k s (or_introl eq_refl)) as [Hnd Hin].
    apply (NoDup_incl_length Hnd) in Hin.
    specialize (IH (fun k s Hi => H k s (or_intror Hi))). lia.
  Qed.
End Sets.

Section First.
  Context {T : Type} {E : EqDec T}.
  Context {eps init : T} {ps : list (production T)} {g : grammar T}.
  Hypothesis G : grammar_of eps init ps g.
  Variable ho : hash_order T.

  Notation nullable := (nullable eps ps).
  Notation can_start := (can_start eps ps).
  Notation derives := (derives eps ps).

  (** a correct element of FIRST(x) *)
  Definition first_elem (x a : T) : Prop := (a = eps /\ nullable [x]) \/ can_start [x] a.

  Definition lk (m : symbols_map T) (x a : T) : Prop :=
    exists s, hash_map_get m x = Some s /\ In a s.

  Record first_inv (m : symbols_map T) : Prop := {
    fi_nodup : NoDup (map fst m);
    fi_keys : forall x, In x (map fst m) <-> symbol_of ps x;
    fi_sets : forall x s, hash_map_get m x = Some s -> NoDup s /\ forall a, In a s -> first_elem x a;
    fi_ts : forall t, terminal ps t -> hash_map_get m t = Some [t]
  }.

  Lemma first_elem_terminal x a : symbol_of ps x -> first_elem x a -> terminal ps a.
  Proof.
    intros Hx [[-> H]|H].
    - eapply nullable_terminal_eps; [apply (go_ok G)| |constructor; [exact Hx|constructor]|exact H].
      discriminate.
    - eapply can_start_terminal_of; eauto.
  Qed.

  Lemma first_inv_bound m : first_inv m ->
    total m <= length m * length (g_terminal_symbols_set g).
  Proof.
    intros Hm. apply total_bound. intros k s Hin.
    apply get_In in Hin; [|apply (fi_nodup Hm)].
    destruct (fi_sets Hm _ Hin) as [Hnd Hs]. split; auto. intros a Ha.
    apply (go_ts G). apply first_elem_terminal with (x := k); auto.
    apply (fi_keys Hm). apply get_keys. eauto.
  Qed.

  (** lookups with the set of [held] overridden by [cur] *)
  Definition lkc (m : symbols_map T) (held : T) (cur : list T) (x a : T) : Prop :=
    if eqb x held then In a cur else lk m x a.

  (** closure of the sets under the FIRST rules, for the symbols [out] of a
      production of [held] *)
  Definition closed_for (m : symbols_map T) (held : T) (cur cur' : list T) (out : list T) : Prop :=
    (forall a, fs (fun x => lkc m held cur x eps)
                  (fun x a => a <> eps /\ lkc m held cur x a) out a -> In a cur') /\
    (Forall (fun x => lkc m held cur x eps) out -> In eps cur').

  Lemma fs_ext (N N' : T -> Prop) (F F' : T -> T -> Prop) w a :
    (forall x, N x -> N' x) -> (forall x a, F x a -> F' x a) -> fs N F w a -> fs N' F' w a.
  Proof. intros HN HF H. induction H; [constructor; auto | apply fs_skip; auto]. Qed.

  Lemma lkc_incl m held cur cur' x a :
    incl cur cur' -> lkc m held cur x a -> lkc m held cur' x a.
  Proof. unfold lkc. intros H. destruct (eqb x held); auto. Qed.

  Lemma closed_for_incl m held c0 c cur cur' out :
    incl c0 c -> incl cur cur' -> closed_for m held c cur out -> closed_for m held c0 cur' out.
  Proof.
    intros H0 H1 [Ha Hb]. split.
    - intros a H. apply H1, Ha. eapply fs_ext; [| |exact H]; simpl.
      + intros x. now apply lkc_incl.
      + intros x b [Hn Hx]. split; auto. eapply lkc_incl; eauto.
    - intros H. apply H1, Hb. eapply Forall_impl; [|exact H]. simpl. intros x. now apply lkc_incl.
  Qed.

  Definition grew (cur cur' : list T) (upd upd' : bool) : Prop :=
    (cur' = cur /\ upd' = upd) \/ (length cur < length cur' /\ upd' = true).

  Lemma grew_trans c1 c2 c3 b1 b2 b3 : grew c1 c2 b1 b2 -> grew c2 c3 b2 b3 -> grew c1 c3 b1 b3.
  Proof.
    unfold grew. intros [[-> ->]|[? ->]] [[-> ->]|[? ->]]; auto; right; split; auto; lia.
  Qed.

  Lemma grew_or cur cur' b u : grew cur cur' false b -> grew cur cur' u (u || b).
  Proof.
    intros [[-> ->]|[? ->]]; [left; now rewrite orb_false_r | right; now rewrite orb_true_r].
  Qed.

  Lemma grew_same c1 c2 c3 b1 b2 b3 :
    grew c1 c2 b1 b2 -> grew c2 c3 b2 b3 -> c3 = c1 -> c2 = c1.
  Proof.
    intros [[-> ->]|[? ->]] [[-> ->]|[? ->]] He; auto; subst; lia.
  Qed.

  Definition set_ok (A : T) (cur : list T) : Prop :=
    NoDup cur /\ forall a, In a cur -> first_elem A a.

  (** one symbol of a production of [A] *)
  Lemma symbol_spec round m A cur x out :
    first_inv m -> non_terminal ps A -> set_ok A cur -> symbol_of ps x ->
    derives [A] (x :: out) -> (x = eps -> out = []) ->
    exists cur' upd stop,
      inner_get_first_symbols_process_production_symbol ho round g m A cur A x
        = Done (cur', upd, stop) /\
      set_ok A cur' /\ incl cur cur' /\ grew cur cur' false upd /\
      (stop = false -> nullable [x]) /\
      (forall a, a <> eps -> lkc m A cur x a -> In a cur') /\
      (stop = true -> (lkc m A cur x eps -> x = eps /\ In eps cur')).
  Proof.
    intros Hm HA [Hnd Hok] Hx Hd Halone.
    unfold inner_get_first_symbols_process_production_symbol.
    destruct (eqb x A) eqn:HxA.
    - apply eqb_iff in HxA; subst x.
      exists cur, false, (negb (hash_set_contains cur (get_epsilon_symbol g))).
      split; [reflexivity|]. split; [split; auto|]. split; [apply incl_refl|].
      split; [left; auto|]. unfold get_epsilon_symbol; rewrite (go_eps G).
      split.
      + intros H. apply negb_false_iff in H. apply contains_In in H.
        apply Hok in H as [[_ H]|H]; auto. apply can_start_real in H; tauto.
      + unfold lkc. rewrite eqb_self. split; auto.
        intros H Hin. apply negb_true_iff in H. apply contains_not_In in H. contradiction.
    - destruct (is_non_terminal g x) eqn:Hnt.
      + unfold inner_get_first_symbols_process_production_non_terminal_symbol, borrow_first.
        assert (Hk : exists s, hash_map_get m x = Some s)
          by (apply get_keys, (fi_keys Hm); auto).
        destruct Hk as [s Hs]. rewrite Hs; simpl. rewrite HxA. simpl.
        unfold get_epsilon_symbol; rewrite (go_eps G).
        destruct (fi_sets Hm _ Hs) as [Hsnd Hsok].
        assert (Hlk : forall a, lkc m A cur x a <-> In a s).
        { intros a. unfold lkc. rewrite HxA. unfold lk. split.
          - intros (s' & H1 & H2). congruence.
          - eauto. }
        assert (Hitems : forall a, In a (ho_iter ho (Site IterFirstOf round [A; x]) s) <-> In a s).
        { intros a. split; apply Permutation_in; [|apply Permutation_sym]; apply ho_perm. }
        assert (Hlift : forall a, In a s -> a <> eps -> first_elem A a).
        { intros a Ha Hne. right. apply Hsok in Ha as [[? _]|Ha]; [congruence|].
          eapply can_start_derives; [exact Hd|]. rewrite can_start_cons; auto. }
        destruct (hash_set_contains s eps) eqn:Heps.
        * apply contains_In in Heps.
          assert (Hnx : nullable [x]).
          { destruct (Hsok _ Heps) as [[_ H]|H]; auto. apply can_start_real in H; tauto. }
          destruct (insert_many cur _) as [cur' upd] eqn:Him.
          apply insert_many_spec in Him as (Hin & Hnd' & Hgr).
          exists cur', upd, false. split; [reflexivity|].
          split; [split; auto|].
          { intros a Ha. apply Hin in Ha as [Ha|Ha]; auto.
            apply filter_In in Ha as [Ha Hne]. apply Hitems in Ha.
            apply Hlift; auto. apply negb_true_iff, eqb_ne_iff in Hne. congruence. }
          split; [intros a Ha; apply Hin; auto|].
          split; [exact Hgr|]. split; [auto|].
          split; [|discriminate].
          intros a Hne Ha. apply Hlk in Ha. apply Hin. right.
          apply filter_In. split; [now apply Hitems|].
          apply negb_true_iff, eqb_ne_iff. congruence.
        * apply contains_not_In in Heps.
          destruct (insert_many cur _) as [cur' upd] eqn:Him.
          apply insert_many_spec in Him as (Hin & Hnd' & Hgr).
          exists cur', upd, true. split; [reflexivity|].
          split; [split; auto|].
          { intros a Ha. apply Hin in Ha as [Ha|Ha]; auto. apply Hitems in Ha.
            apply Hlift; auto. intros ->; contradiction. }
          split; [intros a Ha; apply Hin; auto|].
          split; [exact Hgr|]. split; [discriminate|].
          split.
          -- intros a Hne Ha. apply Hlk in Ha. apply Hin. right. now apply Hitems.
          -- intros _ H. apply Hlk in H. contradiction.
      + apply (is_non_terminal_false G) in Hnt.
        assert (Ht : terminal ps x) by (destruct Hx; tauto).
        destruct (hash_set_insert cur x) as [cur' upd] eqn:Hi.
        apply insert_spec in Hi as (Hin & Hnd' & Hf & Htr).
        exists cur', upd, true. split; [reflexivity|].
        split; [split; auto|].
        { intros a Ha. apply Hin in Ha as [Ha|Ha]; auto. subst a.
          destruct (eq_dec x eps) as [->|Hne].
          - left; split; auto. eapply derives_trans; [exact Hd|].
            rewrite (Halone eq_refl). apply derives_eps.
          - right. eapply can_start_derives; [exact Hd|]. rewrite can_start_cons. left.
            apply can_start_single. auto. }
        split; [intros a Ha; apply Hin; auto|].
        split.
        { destruct upd.
          - right. destruct (Htr eq_refl) as [-> _]. rewrite app_length; simpl. split; auto; lia.
          - left. destruct (Hf eq_refl) as [-> _]. auto. }
        split; [discriminate|].
        assert (Hlk : forall a, lkc m A cur x a <-> a = x).
        { intros a. unfold lkc. rewrite HxA. unfold lk. rewrite (fi_ts Hm Ht). split.
          - intros (s' & H1 & H2). inversion H1; subst. destruct H2 as [H2|[]]; auto.
          - intros ->. exists [x]; simpl; auto. }
        split.
        * intros a Hne Ha. apply Hlk in Ha; subst. apply Hin; auto.
        * intros _ Ha. apply Hlk in Ha; subst. split; auto. apply Hin; auto.
  Qed.

  Definition eps_alone (out : list T) : Prop := In eps out -> out = [eps].

  Lemma eps_alone_tail x out : eps_alone (x :: out) -> eps_alone out /\ (x = eps -> out = []).
  Proof.
    intros H. split.
    - intros Hin. specialize (H (or_intror Hin)). inversion H; subst. contradiction.
    - intros ->. specialize (H (or_introl eq_refl)). now inversion H.
  Qed.

  Lemma loop_spec round m A :
    first_inv m -> non_terminal ps A -> forall out cur updated,
    set_ok A cur -> Forall (symbol_of ps) out -> eps_alone out -> derives [A] out ->
    exists cur' upd',
      inner_get_first_symbols_process_production_loop ho round g m A A out cur updated
        = Done (cur', upd') /\
      set_ok A cur' /\ incl cur cur' /\ grew cur cur' updated upd' /\
      closed_for m A cur cur' out.
  Proof.
    intros Hm HA. induction out as [|x out IH]; intros cur updated Hcur Hout Halone Hd; simpl.
    - unfold get_epsilon_symbol; rewrite (go_eps G).
      destruct (hash_set_insert cur eps) as [cur' upd] eqn:Hi.
      apply insert_spec in Hi as (Hin & Hnd & Hf & Ht). destruct Hcur as [Hnd0 Hok].
      exists cur', (updated || upd). split; [reflexivity|].
      split; [split; auto|].
      { intros a Ha. apply Hin in Ha as [Ha|Ha]; auto. subst a. left; auto. }
      split; [intros a Ha; apply Hin; auto|]. split.
      { apply grew_or. destruct upd.
        - right. destruct (Ht eq_refl) as [-> _]. rewrite app_length; simpl. split; auto; lia.
        - left. destruct (Hf eq_refl) as [-> _]. auto. }
      split.
      + intros a Ha. inversion Ha.
      + intros _. apply Hin; auto.
    - apply Forall_cons_iff in Hout as [Hx Hout].
      destruct (eps_alone_tail Halone) as [Halone' Hxe].
      destruct (@symbol_spec round m A cur x out Hm HA Hcur Hx Hd Hxe)
        as (cur1 & upd1 & stop & -> & Hcur1 & Hinc1 & Hgr1 & Hstop & Hc1 & Hc2). simpl.
      apply grew_or with (u := updated) in Hgr1. destruct stop.
      + exists cur1, (updated || upd1). split; [reflexivity|]. repeat (split; auto).
        * intros a Ha.
          apply fs_cons_inv in Ha as [[Hne Ha]|[Hn Ha]]; auto.
          destruct (Hc2 eq_refl Hn) as [He _]. rewrite (Hxe He) in Ha. inversion Ha.
        * intros Ha.
          apply Forall_inv in Ha. now destruct (Hc2 eq_refl Ha).
      + destruct (IH cur1 (updated || upd1)) as (cur2 & upd2 & -> & Hcur2 & Hinc2 & Hgr2 & Hcl2); auto.
        { eapply derives_trans; [exact Hd|].
          exact (derives_app (Hstop eq_refl) (derives_refl eps ps out)). }
        exists cur2, upd2. split; [reflexivity|]. split; auto.
        split; [eapply incl_tran; eauto|]. split; [eapply grew_trans; eauto|].
        apply (closed_for_incl Hinc1 (incl_refl _)) in Hcl2. destruct Hcl2 as [Hc3 Hc4].
        split.
        * intros a Ha. apply fs_cons_inv in Ha as [[Hne Ha]|[Hn Ha]]; auto.
        * intros Ha. apply Forall_inv_tail in Ha. auto.
  Qed.

  (** all the productions of one non-terminal *)
  Lemma productions_spec round m A l :
    first_inv m -> non_terminal ps A ->
    (forall p, In p l -> In p ps /\ p_input p = A) -> forall cur,
    set_ok A cur ->
    exists cur' upd',
      for_each
        (fun acc p =>
           '(c, b) <- inner_get_first_symbols_process_production ho round g m A (fst acc) p ;;
           Done (c, snd acc || b)) (cur, false) l = Done (cur', upd') /\
      set_ok A cur' /\ incl cur cur' /\ grew cur cur' false upd' /\
      (forall p, In p l -> closed_for m A cur cur' (p_output p)).
  Proof.
    intros Hm HA Hl cur Hcur.
    destruct (@for_each_inv_prefix _ _
      (fun acc p =>
           '(c, b) <- inner_get_first_symbols_process_production ho round g m A (fst acc) p ;;
           Done (c, snd acc || b))
      (fun dn acc => set_ok A (fst acc) /\ incl cur (fst acc) /\
         grew cur (fst acc) false (snd acc) /\
         (forall p, In p dn -> closed_for m A cur (fst acc) (p_output p))) l (cur, false))
      as ([cur' upd'] & -> & H1 & H2 & H3 & H4).
    - simpl. split; auto. split; [apply incl_refl|]. split; [left; auto|]. simpl; tauto.
    - intros dn [c b] p Hp (H1 & H2 & H3 & H4). simpl in *.
      destruct (Hl p Hp) as [Hps Hi].
      destruct (@loop_spec round m A Hm HA (p_output p) c false)
        as (c' & b' & Heq & Hc' & Hinc & Hgr & Hcl); auto.
      + apply Forall_forall. intros x Hx. eapply output_symbol_of; eauto.
      + intros He. now apply (go_ok G) in Hps as (_ & _ & Ha); apply Ha.
      + rewrite <- Hi. now apply derives_production.
      + unfold inner_get_first_symbols_process_production. rewrite Hi, Heq. simpl.
        eexists; split; [reflexivity|]. simpl. split; auto.
        split; [eapply incl_tran; eauto|].
        apply grew_or with (u := b) in Hgr. split; [eapply grew_trans; eauto|].
        intros q Hq. apply in_app_iff in Hq as [Hq|[Hq|[]]].
        * eapply closed_for_incl; [apply incl_refl|exact Hinc|]. now apply H4.
        * subst q. eapply closed_for_incl; [exact H2|apply incl_refl|exact Hcl].
    - simpl in *. exists cur', upd'. auto.
  Qed.

  Lemma first_inv_insert m A cur :
    first_inv m -> non_terminal ps A -> set_ok A cur -> first_inv (hash_map_insert m A cur).
  Proof.
    intros Hm HA [Hnd Hok].
    assert (Hk : exists s, hash_map_get m A = Some s)
      by (apply get_keys, (fi_keys Hm); left; auto).
    destruct Hk as [s Hs]. constructor.
    - rewrite (insert_keys_existing _ _ _ Hs). apply (fi_nodup Hm).
    - rewrite (insert_keys_existing _ _ _ Hs). apply (fi_keys Hm).
    - intros x s'. rewrite get_insert. destruct (eqb x A) eqn:Hx.
      + apply eqb_iff in Hx; subst. intros H; inversion H; subst; auto.
      + apply (fi_sets Hm).
    - intros t Ht. rewrite get_insert. destruct (eqb t A) eqn:Hx.
      + apply eqb_iff in Hx; subst. destruct Ht; contradiction.
      + apply (fi_ts Hm); auto.
  Qed.

  (** closure of a whole map for one production: the facts of [m] give facts of [m'] *)
  Definition closed_map (m m' : symbols_map T) (p : production T) : Prop :=
    (forall a, fs (fun x => lk m x eps) (fun x a => a <> eps /\ lk m x a) (p_output p) a ->
               lk m' (p_input p) a) /\
    (Forall (fun x => lk m x eps) (p_output p) -> lk m' (p_input p) eps).

  Definition mle (m m' : symbols_map T) : Prop := forall x a, lk m x a -> lk m' x a.

  Lemma mle_insert m A cur cur' :
    hash_map_get m A = Some cur -> incl cur cur' -> mle m (hash_map_insert m A cur').
  Proof.
    intros Hg Hi x a (s & Hs & Ha). unfold lk. rewrite get_insert.
    destruct (eqb x A) eqn:Hx; [|eauto]. apply eqb_iff in Hx; subst.
    exists cur'. split; auto. apply Hi. congruence.
  Qed.

  Lemma closed_map_le m0 m m1 m2 p :
    mle m0 m -> mle m1 m2 -> closed_map m m1 p -> closed_map m0 m2 p.
  Proof.
    intros H0 H1 [Ha Hb]. split.
    - intros a H. apply H1, Ha. eapply fs_ext; [| |exact H]; simpl; auto.
      intros x b [Hn Hx]. auto.
    - intros H. apply H1, Hb. eapply Forall_impl; [|exact H]. simpl. auto.
  Qed.

  Lemma closed_for_map m A cur cur' p :
    hash_map_get m A = Some cur -> p_input p = A ->
    closed_for m A cur cur' (p_output p) -> closed_map m (hash_map_insert m A cur') p.
  Proof.
    intros Hg Hi [H1 H2].
    assert (Hlk : forall x a, lk m x a -> lkc m A cur x a).
    { intros x a (s & Hs & Ha). unfold lkc. destruct (eqb x A) eqn:Hx.
      - apply eqb_iff in Hx; subst. congruence.
      - exists s; auto. }
    split.
    - intros a Ha. rewrite Hi. exists cur'; split; [apply get_insert_same|]. apply H1.
      eapply fs_ext; [| |exact Ha]; simpl; intuition.
    - intros Ha. rewrite Hi. exists cur'; split; [apply get_insert_same|]. apply H2.
      eapply Forall_impl; [|exact Ha]. simpl; auto.
  Qed.

  (** one round of the FIRST loop: it ends, keeps the invariant, says truthfully whether
      something was added, and applies every rule to the facts known before *)
  Lemma first_round_step round m0 :
    first_inv m0 ->
    exists m' b, first_round ho g (get_non_terminal_symbols ho g) round m0 = Done (m', b) /\
      first_inv m' /\ (b = true -> total m0 < total m') /\ (b = false -> m' = m0) /\
      mle m0 m' /\ (forall p, In p ps -> closed_map m0 m' p).
  Proof.
    intros Hm0. unfold first_round.
    destruct (@for_each_inv_prefix _ _ (first_round_symbol ho round g)
      (fun dn st => first_inv (fst st) /\ total m0 <= total (fst st) /\
         (snd st = true -> total m0 < total (fst st)) /\
         (snd st = false -> fst st = m0) /\ mle m0 (fst st) /\
         (forall p, In p ps -> In (p_input p) dn -> closed_map m0 (fst st) p))
      (get_non_terminal_symbols ho g) (m0, false)) as ([m' b] & -> & H1 & H2 & H3 & H4 & H5 & H6).
    - simpl. split; auto. split; [lia|]. split; [discriminate|]. split; auto.
      split; [intros x a; auto|]. intros p _ [].
    - intros dn [m b] A HA (H1 & H2 & H3 & H4 & H5 & H6). simpl in *.
      apply (get_nts_In G) in HA. unfold first_round_symbol.
      rewrite (get_productions_nt G HA). simpl.
      assert (Hk : exists s, hash_map_get m A = Some s)
        by (apply get_keys, (fi_keys H1); left; auto).
      destruct Hk as [cur Hcur]. rewrite Hcur; simpl.
      destruct (@productions_spec round m A (productions_of ps A) H1 HA) with (cur := cur)
        as (cur' & upd & -> & Hc' & Hinc & Hgr & Hcl).
      + intros p. apply productions_of_In.
      + apply (fi_sets H1 _ Hcur).
      + simpl. eexists; split; [reflexivity|]. simpl.
        pose proof (total_insert m A cur' Hcur) as Htot.
        pose proof (@mle_insert m A cur cur' Hcur Hinc) as Hle.
        assert (Hrest : mle m0 (hash_map_insert m A cur') /\
          (forall p, In p ps -> In (p_input p) (dn ++ [A]) -> closed_map m0 (hash_map_insert m A cur') p)).
        { split; [intros x a Ha; auto|].
          intros p Hp Hi. apply in_app_iff in Hi as [Hi|[Hi|[]]].
          - eapply closed_map_le; [|exact Hle|apply H6; auto]. intros x a; auto.
          - eapply closed_map_le; [exact H5| |].
            + intros x a Ha. exact Ha.
            + eapply closed_for_map; [exact Hcur|symmetry; exact Hi|]. apply Hcl.
              apply productions_of_In; auto. }
        split; [now apply first_inv_insert|].
        destruct Hgr as [[-> ->]|[Hlt ->]].
        * rewrite orb_false_r. split; [lia|]. split; [intros Hb; specialize (H3 Hb); lia|].
          split; [|exact Hrest]. intros Hb. rewrite (insert_same _ _ Hcur). auto.
        * split; [lia|]. rewrite orb_true_r. split; [lia|]. split; [discriminate|exact Hrest].
    - simpl in *. exists m', b. split; [reflexivity|]. split; auto. split; auto. split; auto.
      split; auto. intros p Hp. apply H6; auto. apply (get_nts_In G). exists p; auto.
  Qed.

  Lemma first_round_spec round m0 :
    first_inv m0 ->
    exists m' b, first_round ho g (get_non_terminal_symbols ho g) round m0 = Done (m', b) /\
      first_inv m' /\ (b = true -> total m0 < total m') /\
      (b = false -> m' = m0 /\ forall p, In p ps -> closed_map m0 m0 p).
  Proof.
    intros Hm0. destruct (first_round_step round Hm0) as (m' & b & -> & H1 & H2 & H3 & _ & H4).
    exists m', b. split; [reflexivity|]. split; auto. split; auto.
    intros Hb. rewrite (H3 Hb) in *. auto.
  Qed.

  (** ** exactness of a closed map *)
  Definition first_exact (m : symbols_map T) : Prop :=
    (forall x, (exists s, hash_map_get m x = Some s) <-> symbol_of ps x) /\
    (forall x s, hash_map_get m x = Some s -> NoDup s /\ forall a, In a s <-> first_elem x a).

  Lemma closed_exact m :
    first_inv m -> (forall p, In p ps -> closed_map m m p) -> first_exact m.
  Proof.
    intros Hm Hcl.
    set (N := fun x => x = eps \/ lk m x eps).
    set (F := fun x a => a <> eps /\ (lk m x a \/ (~ symbol_of ps x /\ a = x))).
    assert (HlkN : forall x, symbol_of ps x -> N x -> lk m x eps).
    { intros x Hx [He|H]; auto. subst x. destruct Hx as [Hx|Hx].
      - exfalso. eapply eps_not_nt; eauto.
      - exists [eps]. split; [now apply (fi_ts Hm) | simpl; auto]. }
    assert (Hfs : forall w a, Forall (symbol_of ps) w -> fs N F w a ->
                  fs (fun x => lk m x eps) (fun x a => a <> eps /\ lk m x a) w a).
    { intros w a Hw H. induction H as [x v a [Hne HF]|x v a HN H IH].
      - constructor. split; auto. apply Forall_inv in Hw. destruct HF as [H|[H _]]; tauto.
      - apply Forall_cons_iff in Hw as [Hx Hv]. apply fs_skip; auto. }
    assert (HN : forall w, nullable w -> Forall N w).
    { apply closure_nullable.
      - left; auto.
      - intros p Hp Ho. right. apply (Hcl p Hp). rewrite Forall_forall in *.
        intros x Hx. apply HlkN; auto. eapply output_symbol_of; eauto. }
    assert (HF : forall w a, can_start w a -> fs N F w a).
    { apply closure_can_start.
      - left; auto.
      - intros p Hp Ho. right. apply (Hcl p Hp). rewrite Forall_forall in *.
        intros x Hx. apply HlkN; auto. eapply output_symbol_of; eauto.
      - intros p a Hp Ho.
        assert (Hne : a <> eps).
        { clear - Ho. induction Ho as [x v a [H _]|]; auto. }
        split; auto. left. apply (Hcl p Hp). apply Hfs; auto.
        apply Forall_forall. intros x Hx. eapply output_symbol_of; eauto.
      - intros a Hne Hnt. split; auto.
        destruct (in_dec eq_dec a (g_terminal_symbols_set g)) as [H|H].
        + apply (go_ts G) in H. left. exists [a]. split; [now apply (fi_ts Hm)|simpl; auto].
        + right. split; auto. intros [H'|H']; auto. apply H. now apply (go_ts G). }
    split.
    - intros x. rewrite get_keys. apply (fi_keys Hm).
    - intros x s Hs. destruct (fi_sets Hm _ Hs) as [Hnd Hok]. split; auto.
      assert (Hx : symbol_of ps x) by (apply (fi_keys Hm), get_keys; eauto).
      intros a; split; auto. intros [[-> H]|H].
      + apply HN in H. apply Forall_inv in H. apply HlkN in H; auto.
        destruct H as (s' & H1 & H2). congruence.
      + apply HF, Hfs, fs_cons_inv in H; [|constructor; auto].
        destruct H as [[_ H]|[_ H]]; [|inversion H].
        destruct H as (s' & H1 & H2). congruence.
  Qed.

  (** ** the initial map *)
  Definition first_initial : symbols_map T :=
    inner_get_first_symbols_initial_map (get_non_terminal_symbols ho g) (get_terminal_symbols ho g).

  Lemma first_initial_keys_nodup :
    NoDup (map fst (inner_get_first_symbols_non_terminal_map (get_non_terminal_symbols ho g)
       ++ inner_get_first_symbols_terminal_map (get_terminal_symbols ho g))).
  Proof.
    unfold inner_get_first_symbols_non_terminal_map, inner_get_first_symbols_terminal_map.
    rewrite map_app, !map_fst_const.
    assert (H : forall (a b : list T), NoDup a -> NoDup b -> (forall x, In x a -> ~ In x b) -> NoDup (a ++ b)).
    { induction a as [|x a IH]; intros b Ha Hb Hd; simpl; auto.
      inversion Ha; subst. constructor.
      - rewrite in_app_iff. intros [H|H]; auto. apply (Hd x); simpl; auto.
      - apply IH; auto. intros y Hy. apply Hd; simpl; auto. }
    apply H.
    - apply (get_nts_NoDup G).
    - apply (get_ts_NoDup G).
    - intros x Hx Hx'. apply (get_nts_In G) in Hx. apply (get_ts_In G) in Hx'.
      destruct Hx'; contradiction.
  Qed.

  Lemma first_initial_get x :
    hash_map_get first_initial x =
    if hash_set_contains (get_non_terminal_symbols ho g) x then Some []
    else if hash_set_contains (get_terminal_symbols ho g) x then Some [x] else None.
  Proof.
    unfold first_initial, inner_get_first_symbols_initial_map.
    rewrite from_iter_get by apply first_initial_keys_nodup.
    unfold inner_get_first_symbols_non_terminal_map, inner_get_first_symbols_terminal_map.
    rewrite get_app, !get_map_const. destruct (hash_set_contains _ x); auto.
  Qed.

  Lemma first_initial_inv : first_inv first_initial.
  Proof.
    constructor.
    - apply from_iter_NoDup.
    - intros x. rewrite <- get_keys, first_initial_get. unfold symbol_of.
      rewrite <- (get_nts_In G ho), <- (get_ts_In G ho), <- !contains_In.
      destruct (hash_set_contains (get_non_terminal_symbols ho g) x); [split; eauto|].
      destruct (hash_set_contains (get_terminal_symbols ho g) x); [split; eauto|].
      split; [intros [s H]; discriminate | intros [H|H]; discriminate].
    - intros x s. rewrite first_initial_get.
      destruct (hash_set_contains (get_non_terminal_symbols ho g) x) eqn:H1.
      { intros H; inversion H; subst. split; [constructor|contradiction]. }
      destruct (hash_set_contains (get_terminal_symbols ho g) x) eqn:H2; [|discriminate].
      intros H; inversion H; subst. split; [constructor; [intros []|constructor]|].
      intros a [Ha|[]]; subst a. apply contains_In, (get_ts_In G) in H2.
      destruct (eq_dec x eps) as [->|Hne].
      + left; split; auto. apply derives_eps.
      + right. apply can_start_single. destruct H2; auto.
    - intros t Ht. rewrite first_initial_get.
      destruct (hash_set_contains (get_non_terminal_symbols ho g) t) eqn:H1.
      + apply contains_In, (get_nts_In G) in H1. destruct Ht; contradiction.
      + apply (get_ts_In G ho), contains_In in Ht. now rewrite Ht.
  Qed.

  Definition first_fuel : nat :=
    S ((length (g_non_terminal_symbols_set g) + length (g_terminal_symbols_set g))
       * length (g_terminal_symbols_set g)).

  Lemma first_inv_length m : first_inv m ->
    length m = length (g_non_terminal_symbols_set g) + length (g_terminal_symbols_set g).
  Proof.
    intros Hm. rewrite <- (map_length fst m), <- app_length.
    apply Permutation_length. apply NoDup_Permutation.
    - apply (fi_nodup Hm).
    - assert (H : forall (a b : list T), NoDup a -> NoDup b -> (forall x, In x a -> ~ In x b) -> NoDup (a ++ b)).
      { induction a as [|x a IH]; intros b Ha Hb Hd; simpl; auto.
        inversion Ha; subst. constructor.
        - rewrite in_app_iff. intros [H|H]; auto. apply (Hd x); simpl; auto.
        - apply IH; auto. intros y Hy. apply Hd; simpl; auto. }
      apply H; [apply (go_nts_nodup G)|apply (go_ts_nodup G)|].
      intros x Hx Hx'. apply (go_nts G) in Hx. apply (go_ts G) in Hx'. destruct Hx'; contradiction.
    - intros x. rewrite in_app_iff, (go_nts G), (go_ts G). apply (fi_keys Hm).
  Qed.

  Theorem inner_get_first_symbols_spec fuel :
    first_fuel <= fuel ->
    exists m, inner_get_first_symbols ho fuel g = Done m /\ first_exact m.
  Proof.
    intros Hfuel. unfold inner_get_first_symbols. fold first_initial.
    destruct (@converge_spec _ (first_round ho g (get_non_terminal_symbols ho g))
       first_inv (fun m => forall p, In p ps -> closed_map m m p) total
       ((length (g_non_terminal_symbols_set g) + length (g_terminal_symbols_set g))
         * length (g_terminal_symbols_set g))) with (fuel := fuel) (round := 0) (m := first_initial)
      as (m & -> & Hm & Hcl).
    - intros m Hm. rewrite <- (first_inv_length Hm). now apply first_inv_bound.
    - intros r m Hm. now apply first_round_spec.
    - apply first_initial_inv.
    - unfold first_fuel in Hfuel. lia.
    - simpl. eexists; split; [reflexivity|].
      destruct (closed_exact Hm Hcl) as [H1 H2].
      assert (Hget : forall x, hash_map_get (ref_map_to_symbols_map ho IterRefMapFirst m) x = hash_map_get m x).
      { intros x. unfold ref_map_to_symbols_map. apply from_iter_perm_get; [apply (fi_nodup Hm)|apply ho_perm]. }
      split; intros x; rewrite Hget; auto.
  Qed.

  Lemma inner_get_first_symbols_mono fuel fuel' r :
    inner_get_first_symbols ho fuel g = r -> r <> OutOfFuel -> fuel <= fuel' ->
    inner_get_first_symbols ho fuel' g = r.
  Proof.
    unfold inner_get_first_symbols. intros H Hr Hle.
    destruct (converge fuel 0 _ _) as [m|p|] eqn:Hc; simpl in H; [| |congruence];
      rewrite (@converge_mono _ _ fuel fuel' 0 _ _ Hc); auto; discriminate.
  Qed.

  Lemma inner_get_first_symbols_exact fuel m :
    inner_get_first_symbols ho fuel g = Done m -> first_exact m.
  Proof.
    intros H. destruct (@inner_get_first_symbols_spec (fuel + first_fuel)) as (m' & H' & Hx); [lia|].
    rewrite (@inner_get_first_symbols_mono fuel (fuel + first_fuel) (Done m) H) in H';
      [|discriminate|lia].
    inversion H'; subst; auto.
  Qed.
End First.
