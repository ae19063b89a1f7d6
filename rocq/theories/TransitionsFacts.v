(** * Transition table: construction never fails, exact contents (proofs) *)

From Verif Require Import BaseFacts GrammarFacts DerivFacts FirstFacts FollowFacts.
From Verif Require Export Spec.

Set Implicit Arguments.

Section Trans.
  Context {T : Type} {E : EqDec T}.
  Context {eps init : T} {ps : list (production T)} {g : grammar T}.
  Hypothesis G : grammar_of eps init ps g.
  Variable ho : hash_order T.
  Variable ffs : first_follow_symbols T.

  (** the lookaheads that select production [p], in terms of the FIRST/FOLLOW maps *)
  Definition selects (p : production T) (a : T) : Prop :=
    exists X rest s, p_output p = X :: rest /\ get_first_symbols ffs X = Some s /\
      ((In a s /\ (In eps s -> a <> eps)) \/
       (In eps s /\ exists f,
          get_follow_symbols ffs (if eqb eps X then p_input p else X) = Some f /\ In a f)).

  Lemma production_first_spec p l :
    inner_from_get_production_first_symbols ho g p ffs = Done l ->
    NoDup l /\ forall a, In a l <-> selects p a.
  Proof.
    unfold inner_from_get_production_first_symbols. intros H.
    destruct (p_output p) as [|X rest] eqn:Ho; simpl in H; [discriminate|].
    destruct (get_first_symbols ffs X) as [s|] eqn:Hs; simpl in H; [|discriminate].
    revert H. unfold get_epsilon_symbol. rewrite (go_eps G).
    assert (Hperm : forall tag l0 a, In a (ho_iter ho (Site tag 0 l0) s) <-> In a s).
    { intros tag l0 a. split; apply Permutation_in; [|apply Permutation_sym]; apply ho_perm. }
    destruct (hash_set_contains s eps) eqn:He; intros H.
    - apply contains_In in He.
      unfold inner_from_get_production_first_symbols_on_epsilon_first, get_epsilon_symbol in H.
      rewrite (go_eps G) in H.
      assert (Hf : exists f, get_follow_symbols ffs (if eqb eps X then p_input p else X) = Some f /\
         Done (fst (insert_many (hash_set_from_iter (filter (fun s0 => negb (eqb eps s0))
                (ho_iter ho (Site IterTransFirst 0 [X]) s)))
                (ho_iter ho (Site IterTransFollow 0 [p_input p; X]) f))) = Done l).
      { destruct (eqb eps X).
        - destruct (get_follow_symbols ffs (p_input p)) as [f|]; simpl in H; [eauto|discriminate].
        - destruct (get_follow_symbols ffs X) as [f|]; simpl in H; [eauto|discriminate]. }
      destruct Hf as (f & Hf & Hl). inversion Hl as [Hl']; clear Hl.
      destruct (insert_many _ _) as [s' b] eqn:Him. simpl in *.
      apply insert_many_spec in Him as (Hin & Hnd & _). subst l.
      split; [apply Hnd, set_from_iter_NoDup|].
      intros a. rewrite Hin, set_from_iter_In, filter_In, Hperm, negb_true_iff, eqb_ne_iff.
      assert (Hpf : In a (ho_iter ho (Site IterTransFollow 0 [p_input p; X]) f) <-> In a f).
      { split; apply Permutation_in; [|apply Permutation_sym]; apply ho_perm. }
      rewrite Hpf. split.
      + intros [[Ha Hne]|Ha].
        * exists X, rest, s. split; [exact Ho|]. split; [exact Hs|]. left. split; auto.
        * exists X, rest, s. split; [exact Ho|]. split; [exact Hs|]. right. split; eauto.
      + intros (X' & rest' & s1 & Ho' & Hs1 & Hc). rewrite Ho in Ho'. inversion Ho'; subst X' rest'.
        assert (s1 = s) by congruence; subst s1.
        destruct Hc as [[Ha Hne]|(_ & f' & Hf' & Ha)].
        * left. split; auto. intros Heq. apply (Hne He). auto.
        * right. congruence.
    - apply contains_not_In in He.
      unfold inner_from_get_production_first_symbols_on_non_epsilon_first in H.
      inversion H; subst l. split; [apply set_from_iter_NoDup|].
      intros a. rewrite set_from_iter_In, Hperm. split.
      + intros Ha. exists X, rest, s. split; [exact Ho|]. split; [exact Hs|]. left. split; [exact Ha|].
        intros; contradiction.
      + intros (X' & rest' & s1 & Ho' & Hs1 & Hc). rewrite Ho in Ho'. inversion Ho'; subst X' rest'.
        assert (s1 = s) by congruence; subst s1.
        destruct Hc as [[Ha _]|[Ha _]]; [auto|contradiction].
  Qed.

  (** boolean version, to state cells as filters *)
  Definition selectsb (p : production T) (a : T) : bool :=
    match inner_from_get_production_first_symbols ho g p ffs with
    | Done l => hash_set_contains l a
    | _ => false
    end.

  (** ** one production into a row *)
  Definition push_body (p : production T) :=
    fun (r : row T) first_symbol =>
         ps <- unwrap (hash_map_get r first_symbol) ;;
         Done (hash_map_insert r first_symbol (ps ++ [p])).

  Lemma push_loop_spec p l : forall r r',
    NoDup l -> for_each (push_body p) r l = Done r' ->
    forall a, hash_map_get r' a =
      match hash_map_get r a with
      | Some c => Some (if hash_set_contains l a then c ++ [p] else c)
      | None => None
      end.
  Proof.
    induction l as [|b l IH]; intros r r' Hnd H a; simpl in H.
    - inversion H; subst. simpl. destruct (hash_map_get r' a); reflexivity.
    - unfold push_body at 1 in H. destruct (hash_map_get r b) as [c|] eqn:Hb; simpl in H; [|discriminate].
      inversion Hnd; subst. rewrite (IH _ _ H3 H a). rewrite get_insert. simpl.
      destruct (eqb a b) eqn:Hab; simpl.
      + apply eqb_iff in Hab; subst. rewrite Hb.
        apply contains_not_In in H2. now rewrite H2.
      + destruct (hash_map_get r a); reflexivity.
  Qed.

  Lemma push_loop_total p l : forall r,
    (forall a, In a l -> exists c, hash_map_get r a = Some c) ->
    exists r', for_each (push_body p) r l = Done r'.
  Proof.
    induction l as [|b l IH]; intros r Hk; simpl; [eauto|].
    destruct (Hk b (or_introl eq_refl)) as [c Hc]. unfold push_body at 1. rewrite Hc. simpl.
    apply IH. intros a Ha. rewrite get_insert. destruct (eqb a b); eauto.
    apply Hk; simpl; auto.
  Qed.

  (** ** one row *)
  Definition row_body :=
    fun (r : row T) p =>
      firsts <- inner_from_get_production_first_symbols ho g p ffs ;;
      push_production ho p firsts r.

  Lemma row_body_spec r p r' :
    row_body r p = Done r' ->
    forall a, hash_map_get r' a =
      match hash_map_get r a with
      | Some c => Some (if selectsb p a then c ++ [p] else c)
      | None => None
      end.
  Proof.
    intros H a. unfold row_body in H. unfold selectsb.
    destruct (inner_from_get_production_first_symbols ho g p ffs) as [l| |] eqn:Hl; simpl in H; try discriminate.
    destruct (production_first_spec p Hl) as [Hnd _].
    unfold push_production in H.
    apply (push_loop_spec p) with (a := a) in H.
    2:{ eapply Permutation_NoDup; [apply Permutation_sym, ho_perm|exact Hnd]. }
    rewrite H. destruct (hash_map_get r a); auto.
    assert (Hc : hash_set_contains (ho_iter ho (Site IterTransCells 0 (p_input p :: p_output p)) l) a
                 = hash_set_contains l a).
    { apply eq_true_iff_eq. rewrite !contains_In.
      split; apply Permutation_in; [|apply Permutation_sym]; apply ho_perm. }
    now rewrite Hc.
  Qed.

  Lemma row_loop_spec l : forall r r',
    for_each row_body r l = Done r' ->
    forall a, hash_map_get r' a =
      match hash_map_get r a with
      | Some c => Some (c ++ filter (fun p => selectsb p a) l)
      | None => None
      end.
  Proof.
    induction l as [|p l IH]; intros r r' H a; simpl in H.
    - inversion H; subst. simpl. destruct (hash_map_get r' a); [now rewrite app_nil_r|reflexivity].
    - apply bind_done in H as (r1 & H1 & H2). rewrite (IH _ _ H2 a).
      rewrite (row_body_spec _ _ H1 a). destruct (hash_map_get r a); auto. simpl.
      destruct (selectsb p a); auto. now rewrite <- app_assoc.
  Qed.

  (** ** the table *)
  Definition table_body :=
    fun (table : list (T * row T)) non_terminal_symbol =>
         symbol_productions <- unwrap (get_productions g non_terminal_symbol) ;;
         r <- unwrap (hash_map_get table non_terminal_symbol) ;;
         r' <- for_each row_body r symbol_productions ;;
         Done (hash_map_insert table non_terminal_symbol r').

  Lemma table_loop_spec nts : forall table table',
    NoDup nts -> for_each table_body table nts = Done table' ->
    (forall A, ~ In A nts -> hash_map_get table' A = hash_map_get table A) /\
    (forall A, In A nts -> exists l r r', get_productions g A = Some l /\
       hash_map_get table A = Some r /\ for_each row_body r l = Done r' /\
       hash_map_get table' A = Some r').
  Proof.
    induction nts as [|B nts IH]; intros table table' Hnd H; simpl in H.
    - inversion H; subst. split; [auto|intros A []].
    - inversion Hnd; subst. apply bind_done in H as (t1 & H1 & H4). unfold table_body in H1.
      destruct (get_productions g B) as [l|] eqn:Hl; simpl in H1; [|discriminate].
      destruct (hash_map_get table B) as [r|] eqn:Hr; simpl in H1; [|discriminate].
      apply bind_done in H1 as (r' & H1 & H5). inversion H5; subst t1; clear H5.
      destruct (IH _ _ H3 H4) as [Ho Hi]. split.
      + intros A HA. simpl in HA. rewrite Ho by tauto. apply get_insert_other. intuition.
      + intros A [HA|HA].
        * subst B. exists l, r, r'. repeat split; auto. rewrite Ho by auto. apply get_insert_same.
        * destruct (Hi A HA) as (l1 & r1 & r1' & Hl1 & Hr1 & Hf & Hg).
          exists l1, r1, r1'. repeat split; auto.
          rewrite get_insert_other in Hr1; auto. intros ->; contradiction.
  Qed.

  Lemma initial_row_get ts a : NoDup ts ->
    hash_map_get (hash_map_from_iter (map (fun s : T => (s, [] : list (production T))) ts)) a =
    if hash_set_contains ts a then Some [] else None.
  Proof.
    intros Hnd. rewrite from_iter_get.
    - apply (get_map_const ts (fun _ => [])).
    - rewrite (map_fst_const ts (fun _ => [])). exact Hnd.
  Qed.

  Lemma initial_table_get nts ts A : NoDup nts ->
    hash_map_get (inner_from_initial_table nts ts) A =
    if hash_set_contains nts A
    then Some (hash_map_from_iter (map (fun s : T => (s, [] : list (production T))) ts)) else None.
  Proof.
    intros Hnd. unfold inner_from_initial_table. rewrite from_iter_get.
    - apply (get_map_const nts (fun _ => _)).
    - rewrite (map_fst_const nts (fun _ => _)). exact Hnd.
  Qed.

  (** the cells of any table that was built, whatever the FIRST/FOLLOW maps *)
  Lemma transitions_cells t :
    transitions_from ho g ffs = Done t ->
    forall A a, transitions_get_productions t A a =
      if is_non_terminal g A && is_terminal g a
      then Some (filter (fun p => selectsb p a) (productions_of ps A)) else None.
  Proof.
    unfold transitions_from. intros H A a. apply bind_done in H as (table & H & Ht).
    inversion Ht; subst t; clear Ht. unfold transitions_get_productions; simpl.
    change (for_each table_body
              (inner_from_initial_table (get_non_terminal_symbols ho g) (get_terminal_symbols ho g))
              (get_non_terminal_symbols ho g) = Done table) in H.
    destruct (table_loop_spec _ (get_nts_NoDup G ho) H) as [Ho Hi].
    destruct (is_non_terminal g A) eqn:HA; simpl.
    - apply (is_non_terminal_spec G) in HA.
      destruct (Hi A) as (l & r & r' & Hl & Hr & Hf & ->); [now apply (get_nts_In G)|].
      rewrite (row_loop_spec _ _ Hf). rewrite initial_table_get in Hr by apply (get_nts_NoDup G).
      assert (Hc : hash_set_contains (get_non_terminal_symbols ho g) A = true)
        by (apply contains_In, (get_nts_In G); auto).
      rewrite Hc in Hr. inversion Hr; subst r. rewrite initial_row_get by apply (get_ts_NoDup G).
      rewrite (get_productions_nt G HA) in Hl. inversion Hl; subst l.
      assert (Hts : hash_set_contains (get_terminal_symbols ho g) a = is_terminal g a).
      { apply eq_true_iff_eq. rewrite contains_In, (get_ts_In G), (is_terminal_spec G). tauto. }
      rewrite Hts. destruct (is_terminal g a); reflexivity.
    - apply (is_non_terminal_false G) in HA.
      rewrite Ho by (rewrite (get_nts_In G); auto).
      rewrite initial_table_get by apply (get_nts_NoDup G).
      destruct (hash_set_contains (get_non_terminal_symbols ho g) A) eqn:Hc; auto.
      apply contains_In, (get_nts_In G) in Hc. contradiction.
  Qed.

  (** ** construction succeeds when every lookahead is a terminal of the grammar *)
  Lemma transitions_total :
    (forall p, In p ps -> exists l, inner_from_get_production_first_symbols ho g p ffs = Done l /\
                                    forall a, In a l -> terminal ps a) ->
    exists t, transitions_from ho g ffs = Done t.
  Proof.
    intros Hp. unfold transitions_from.
    assert (H : exists table, inner_from_process_productions ho g ffs
       (inner_from_initial_table (get_non_terminal_symbols ho g) (get_terminal_symbols ho g))
       (get_non_terminal_symbols ho g) = Done table).
    { change (exists table, for_each table_body
              (inner_from_initial_table (get_non_terminal_symbols ho g) (get_terminal_symbols ho g))
              (get_non_terminal_symbols ho g) = Done table).
      destruct (@for_each_inv _ _ table_body
        (fun table => forall A, non_terminal ps A -> exists r, hash_map_get table A = Some r /\
           forall a, terminal ps a -> exists c, hash_map_get r a = Some c)
        (get_non_terminal_symbols ho g)
        (inner_from_initial_table (get_non_terminal_symbols ho g) (get_terminal_symbols ho g)))
        as (t & Ht & _); eauto.
      - intros A HA. rewrite initial_table_get by apply (get_nts_NoDup G).
        assert (Hc : hash_set_contains (get_non_terminal_symbols ho g) A = true)
          by (apply contains_In, (get_nts_In G); auto).
        rewrite Hc. eexists; split; [reflexivity|]. intros a Ha.
        rewrite initial_row_get by apply (get_ts_NoDup G).
        assert (Hc' : hash_set_contains (get_terminal_symbols ho g) a = true)
          by (apply contains_In, (get_ts_In G); auto).
        rewrite Hc'. eauto.
      - intros table A HA Hinv. apply (get_nts_In G) in HA. unfold table_body.
        rewrite (get_productions_nt G HA). simpl.
        destruct (Hinv A HA) as (r & Hr & Hk). rewrite Hr. simpl.
        destruct (@for_each_inv _ _ row_body
          (fun r => forall a, terminal ps a -> exists c, hash_map_get r a = Some c)
          (productions_of ps A) r) as (r' & Hr' & Hk'); auto.
        + intros r1 p Hpin Hr1. apply productions_of_In in Hpin as [Hpin _].
          unfold row_body. destruct (Hp p Hpin) as (l & Hl & Hlt). rewrite Hl. simpl.
          unfold push_production.
          destruct (@push_loop_total p (ho_iter ho (Site IterTransCells 0 (p_input p :: p_output p)) l) r1)
            as [r2 Hr2].
          { intros a Ha. apply Hr1, Hlt. eapply Permutation_in; [apply ho_perm|exact Ha]. }
          exists r2. split; [exact Hr2|]. intros a Ha.
          assert (Hb : row_body r1 p = Done r2).
          { unfold row_body. rewrite Hl. simpl. exact Hr2. }
          rewrite (row_body_spec _ _ Hb a). destruct (Hr1 a Ha) as [c ->]. eauto.
        + rewrite Hr'. simpl. eexists; split; [reflexivity|].
          intros B HB. rewrite get_insert. destruct (eqb B A); eauto. }
    destruct H as [table ->]. simpl. eauto.
  Qed.

  (** ** tables built from the library's own FIRST/FOLLOW *)
  Section Exact.
    Hypothesis Hfirst : first_exact (eps := eps) (ps := ps) (ffs_first_symbols ffs).
    Hypothesis Hfollow : follow_exact (eps := eps) (ps := ps) (ffs_follow_symbols ffs).

    (** the lookaheads that select [p], without reference to the maps *)
    Definition selects_sem (p : production T) (a : T) : Prop :=
      exists X rest, p_output p = X :: rest /\
        (can_start eps ps [X] a \/
         (nullable eps ps [X] /\
          follow_rules (eps := eps) (ps := ps) (if eqb eps X then p_input p else X) a)).

    Lemma head_cases p : In p ps -> exists X rest, p_output p = X :: rest /\ symbol_of ps X.
    Proof.
      intros Hp. destruct (p_output p) as [|X rest] eqn:Ho.
      - apply (go_ok G) in Hp as (_ & H & _). congruence.
      - exists X, rest. split; auto. eapply output_symbol_of; [exact Hp|]. rewrite Ho; simpl; auto.
    Qed.

    Lemma production_first_total p : In p ps ->
      exists l, inner_from_get_production_first_symbols ho g p ffs = Done l.
    Proof.
      intros Hp. destruct (head_cases p Hp) as (X & rest & Ho & HX).
      unfold inner_from_get_production_first_symbols. rewrite Ho. simpl.
      destruct (proj2 (proj1 Hfirst X) HX) as [s Hs]. unfold get_first_symbols. rewrite Hs. simpl.
      unfold get_epsilon_symbol. rewrite (go_eps G).
      destruct (hash_set_contains s eps) eqn:He; [|eauto].
      unfold inner_from_get_production_first_symbols_on_epsilon_first, get_epsilon_symbol.
      rewrite (go_eps G). unfold get_follow_symbols.
      destruct (eqb eps X) eqn:HeX.
      - destruct (proj2 (proj1 Hfollow (p_input p))) as [f ->]; [exists p; auto|]. simpl. eauto.
      - apply eqb_ne_iff in HeX.
        destruct (proj2 (proj1 Hfollow X)) as [f ->].
        + destruct HX as [HX|[_ HX]]; auto. exfalso. apply HeX. symmetry.
          eapply nullable_terminal; [exact HX|].
          apply (first_contains Hfirst _ Hs); auto.
        + simpl. eauto.
    Qed.

    Lemma selects_exact p a : In p ps -> (selects p a <-> selects_sem p a).
    Proof.
      intros Hp. unfold selects, selects_sem, get_first_symbols, get_follow_symbols. split.
      - intros (X & rest & s & Ho & Hs & Hc). exists X, rest. split; auto.
        destruct (proj2 Hfirst X s Hs) as [_ Hin].
        destruct Hc as [[Ha Hne]|(He & f & Hf & Ha)].
        + left. apply Hin in Ha as [[-> Hn]|Ha]; auto.
          exfalso. apply Hne; auto. apply Hin. left; auto.
        + right. split.
          * apply (first_contains Hfirst _ Hs), contains_In; auto.
          * destruct (proj2 Hfollow _ f Hf) as [_ Hin']. now apply Hin'.
      - intros (X & rest & Ho & Hc).
        destruct (head_cases p Hp) as (X' & rest' & Ho' & HX).
        rewrite Ho in Ho'; inversion Ho'; subst X' rest'.
        destruct (proj2 (proj1 Hfirst X) HX) as [s Hs].
        exists X, rest, s. split; [exact Ho|]. split; [exact Hs|].
        destruct (proj2 Hfirst X s Hs) as [_ Hin].
        destruct Hc as [Ha|[Hn Ha]].
        + left. split; [apply Hin; right; auto|]. intros _. apply can_start_real in Ha; tauto.
        + right. split; [apply Hin; left; auto|].
          destruct (production_first_total p Hp) as [l Hl].
          assert (Hf : exists f, hash_map_get (ffs_follow_symbols ffs)
                         (if eqb eps X then p_input p else X) = Some f).
          { apply (proj1 Hfollow). destruct (eqb eps X) eqn:HeX; [exists p; auto|].
            apply eqb_ne_iff in HeX. destruct HX as [HX|[_ HX]]; auto. exfalso. apply HeX.
            symmetry. eapply nullable_terminal; eauto. }
          destruct Hf as [f Hf]. exists f. split; auto.
          destruct (proj2 Hfollow _ f Hf) as [_ Hin']. now apply Hin'.
    Qed.

    Lemma selectsb_spec p a : In p ps -> (selectsb p a = true <-> selects_sem p a).
    Proof.
      intros Hp. rewrite <- selects_exact by auto. unfold selectsb.
      destruct (production_first_total p Hp) as [l Hl]. rewrite Hl.
      rewrite contains_In. apply (production_first_spec p Hl).
    Qed.

    Lemma selects_sem_terminal p a : In p ps -> selects_sem p a -> terminal ps a /\ a <> eps.
    Proof.
      intros Hp (X & rest & Ho & [Ha|[Hn Ha]]).
      - split; [|apply can_start_real in Ha; tauto].
        eapply can_start_terminal_of; [|exact Ha]. eapply output_symbol_of; [exact Hp|].
        rewrite Ho; simpl; auto.
      - eapply follow_rules_terminal; eauto.
    Qed.

    Lemma transitions_exact_total : exists t, transitions_from ho g ffs = Done t.
    Proof.
      apply transitions_total. intros p Hp.
      destruct (production_first_total p Hp) as [l Hl]. exists l. split; auto.
      intros a Ha. apply (production_first_spec p Hl) in Ha.
      apply selects_exact in Ha; auto. eapply selects_sem_terminal; eauto.
    Qed.

    Lemma cell_In t A a l :
      transitions_from ho g ffs = Done t -> transitions_get_productions t A a = Some l ->
      forall p, In p l <-> In p ps /\ p_input p = A /\ selects_sem p a.
    Proof.
      intros Ht Hl p. rewrite (transitions_cells Ht) in Hl.
      destruct (is_non_terminal g A && is_terminal g a); inversion Hl; subst l.
      rewrite filter_In, productions_of_In. split.
      - intros [[Hp Hi] Hs]. repeat split; auto. now apply selectsb_spec.
      - intros (Hp & Hi & Hs). repeat split; auto. now apply selectsb_spec.
    Qed.
  End Exact.
End Trans.

(** ** FIRST/FOLLOW construction as a whole *)
Section FFS.
  Context {T : Type} {E : EqDec T}.
  Context {eps init : T} {ps : list (production T)} {g : grammar T}.
  Hypothesis G : grammar_of eps init ps g.
  Variable ho : hash_order T.

  Definition ffs_exact (ffs : first_follow_symbols T) : Prop :=
    first_exact (eps := eps) (ps := ps) (ffs_first_symbols ffs) /\
    follow_exact (eps := eps) (ps := ps) (ffs_follow_symbols ffs).

  Lemma ffs_from_total fuel :
    first_fuel (g := g) <= fuel -> exists ffs, ffs_from ho fuel g = Done ffs /\ ffs_exact ffs.
  Proof.
    intros Hfuel. unfold ffs_from.
    destruct (inner_get_first_symbols_spec G ho Hfuel) as (m & -> & Hm). simpl.
    destruct (@inner_get_follow_symbols_spec _ _ _ _ _ _ G ho m Hm fuel) as (m' & -> & Hm').
    - unfold follow_fuel, first_fuel in *.
      eapply Nat.le_trans; [|exact Hfuel]. apply le_n_S. apply Nat.mul_le_mono_r. lia.
    - simpl. eexists; split; [reflexivity|]. split; auto.
  Qed.

  Lemma ffs_from_mono fuel fuel' r :
    ffs_from ho fuel g = r -> r <> OutOfFuel -> fuel <= fuel' -> ffs_from ho fuel' g = r.
  Proof.
    unfold ffs_from. intros H Hr Hle.
    destruct (inner_get_first_symbols ho fuel g) as [m|q|] eqn:H1; simpl in H; [| |congruence].
    - rewrite (@inner_get_first_symbols_mono _ _ g ho fuel fuel' _ H1); [|discriminate|exact Hle]. simpl.
      destruct (inner_get_follow_symbols ho fuel g m) as [m'|q|] eqn:H2; simpl in H; [| |congruence].
      + rewrite (@inner_get_follow_symbols_mono _ _ g ho m fuel fuel' _ H2); [|discriminate|exact Hle]. exact H.
      + rewrite (@inner_get_follow_symbols_mono _ _ g ho m fuel fuel' _ H2); [|discriminate|exact Hle]. exact H.
    - rewrite (@inner_get_first_symbols_mono _ _ g ho fuel fuel' _ H1); [|discriminate|exact Hle]. exact H.
  Qed.

  Lemma ffs_from_exact fuel ffs : ffs_from ho fuel g = Done ffs -> ffs_exact ffs.
  Proof.
    intros H. destruct (@ffs_from_total (fuel + first_fuel (g := g))) as (ffs' & H' & Hx); [lia|].
    rewrite (@ffs_from_mono fuel (fuel + first_fuel (g := g)) (Done ffs) H) in H';
      [|discriminate|lia].
    inversion H'; subst; auto.
  Qed.
End FFS.
