(** * Facts about [ContextFreeGrammar::new] (proofs; statements are in Properties*.v) *)

From Verif Require Import BaseFacts.
From Verif Require Export Spec.

Set Implicit Arguments.

Section GrammarFacts.
  Context {T : Type} {E : EqDec T}.

  (** the declared productions with input [x], in declaration order *)
  Definition productions_of (ps : list (production T)) (x : T) : list (production T) :=
    filter (fun p => eqb (p_input p) x) ps.

  Definition some_if_nonempty {A} (l : list A) : option (list A) :=
    match l with [] => None | _ => Some l end.

  Lemma productions_of_In ps x p : In p (productions_of ps x) <-> In p ps /\ p_input p = x.
  Proof. unfold productions_of; rewrite filter_In; cbv beta; rewrite eqb_iff; tauto. Qed.

  Lemma productions_of_nonempty ps x : productions_of ps x <> [] <-> non_terminal ps x.
  Proof.
    split.
    - intros H. destruct (productions_of ps x) as [|p l] eqn:Hl; [congruence|].
      exists p. apply productions_of_In. rewrite Hl; simpl; auto.
    - intros (p & Hp & Hx) H. apply (in_nil (a := p)). rewrite <- H.
      apply productions_of_In; auto.
  Qed.

  Lemma non_terminal_dec (ps : list (production T)) x : {non_terminal ps x} + {~ non_terminal ps x}.
  Proof.
    destruct (productions_of ps x) eqn:H.
    - right. rewrite <- productions_of_nonempty. congruence.
    - left. rewrite <- productions_of_nonempty. congruence.
  Qed.

  (** ** the productions map *)
  Definition process_step (m : productions_map T) (p : production T) : productions_map T :=
    match hash_map_get m (p_input p) with
    | None => hash_map_insert m (p_input p) [p]
    | Some ps => hash_map_insert m (p_input p) (ps ++ [p])
    end.

  Lemma process_map_snoc ps p :
    new_process_productions_map (ps ++ [p]) =
    process_step (new_process_productions_map ps) p.
  Proof. unfold new_process_productions_map. rewrite fold_left_app; reflexivity. Qed.

  Lemma process_map_NoDup ps : NoDup (map fst (new_process_productions_map ps)).
  Proof.
    induction ps as [|p ps IH] using rev_ind; [constructor|].
    rewrite process_map_snoc. unfold process_step.
    destruct (hash_map_get _ _); now apply insert_keys_NoDup.
  Qed.

  Lemma process_map_get ps x :
    hash_map_get (new_process_productions_map ps) x =
    some_if_nonempty (productions_of ps x).
  Proof.
    induction ps as [|p ps IH] using rev_ind; [reflexivity|].
    rewrite process_map_snoc. unfold process_step.
    unfold productions_of in *. rewrite filter_app; simpl.
    destruct (eqb (p_input p) x) eqn:Hx.
    - apply eqb_iff in Hx; subst x.
      destruct (filter (fun p0 => eqb (p_input p0) (p_input p)) ps) as [|q l'];
        cbn [some_if_nonempty] in IH; rewrite IH, get_insert_same; reflexivity.
    - rewrite app_nil_r, <- IH. apply eqb_ne_iff in Hx.
      destruct (hash_map_get _ (p_input p)); apply get_insert_other; congruence.
  Qed.

  Lemma process_map_keys (ps : list (production T)) x :
    In x (map fst (new_process_productions_map ps)) <-> non_terminal ps x.
  Proof.
    rewrite <- get_keys, process_map_get, <- productions_of_nonempty.
    destruct (productions_of ps x); simpl; split.
    - intros [v H]; discriminate.
    - congruence.
    - congruence.
    - eauto.
  Qed.

  Lemma process_map_In ps x l :
    In (x, l) (new_process_productions_map ps) <->
    l = productions_of ps x /\ non_terminal ps x.
  Proof.
    rewrite <- get_In by apply process_map_NoDup. rewrite process_map_get.
    rewrite <- productions_of_nonempty.
    destruct (productions_of ps x); simpl; split; intros H.
    - discriminate.
    - destruct H; congruence.
    - inversion H; subst; split; congruence.
    - destruct H; congruence.
  Qed.

  (** ** the checks *)
  Lemma check_production_ok eps p :
    p_input p <> eps ->
    production_ok eps p -> check_production eps p = Done tt.
  Proof.
    intros _ (_ & Hne & Heps). unfold check_production.
    destruct (p_output p) as [|a l] eqn:Ho; [congruence|]. simpl Nat.eqb.
    destruct l as [|b l]; [reflexivity|].
    simpl (Nat.ltb 1 _).
    destruct (hash_set_contains (a :: b :: l) eps) eqn:Hc; [|now rewrite andb_false_r].
    apply contains_In in Hc. apply Heps in Hc. discriminate.
  Qed.

  (** the three documented panics *)
  Definition grammar_panic (q : panic) : Prop :=
    q = PanicEpsilonGenerates \/ q = PanicEmptyOutput \/ q = PanicEpsilonNotAlone.

  Lemma check_production_cases eps p :
    (check_production eps p = Done tt /\ p_output p <> [] /\
       (In eps (p_output p) -> p_output p = [eps])) \/
    (check_production eps p = Panicked PanicEmptyOutput /\ p_output p = []) \/
    (check_production eps p = Panicked PanicEpsilonNotAlone /\ In eps (p_output p) /\
       1 < length (p_output p)).
  Proof.
    unfold check_production.
    destruct (p_output p) as [|a l] eqn:Ho; simpl Nat.eqb; [right; left; auto|].
    destruct l as [|b l].
    - left. simpl. repeat split; try congruence. intros [H|[]]; subst; auto.
    - replace (1 <? length (a :: b :: l)) with true by reflexivity. cbn [andb].
      destruct (hash_set_contains (a :: b :: l) eps) eqn:Hc.
      + right; right. apply contains_In in Hc. split; [reflexivity|]. split; [exact Hc|]. simpl; lia.
      + left. apply contains_not_In in Hc. repeat split; congruence.
  Qed.

  Lemma for_each_unit_cases {A} (f : unit -> A -> outcome unit) (P : A -> Prop) (Q : panic -> A -> Prop) l :
    (forall x, In x l -> (f tt x = Done tt /\ P x) \/
                         (exists q, f tt x = Panicked q /\ ~ P x /\ Q q x)) ->
    (for_each f tt l = Done tt /\ forall x, In x l -> P x) \/
    (exists q x, for_each f tt l = Panicked q /\ In x l /\ ~ P x /\ Q q x).
  Proof.
    induction l as [|x l IH]; intros H; simpl.
    - left; split; [reflexivity|tauto].
    - destruct (H x (or_introl eq_refl)) as [[Hx Px]|(q & Hx & Px & Qx)]; rewrite Hx; simpl.
      + destruct IH as [[HD HP]|(q & y & Hq & Hy & Py)].
        * intros y Hy; apply H; simpl; auto.
        * left; split; auto. intros y [Hy|Hy]; subst; auto.
        * right. exists q, y. auto.
      + right. exists q, x. auto.
  Qed.

  (** which panic goes with which defect *)
  Definition defect (eps : T) (q : panic) (p : production T) : Prop :=
    match q with
    | PanicEpsilonGenerates => p_input p = eps
    | PanicEmptyOutput => p_output p = []
    | PanicEpsilonNotAlone => In eps (p_output p) /\ 1 < length (p_output p)
    | _ => False
    end.

  Lemma defect_not_ok eps q p : defect eps q p -> ~ production_ok eps p.
  Proof.
    intros H (H1 & H2 & H3). destruct q; simpl in H; try contradiction.
    destruct H as [Hin Hlen]. rewrite (H3 Hin) in Hlen. simpl in Hlen. lia.
  Qed.

  Lemma check_map_cases ho eps ps :
    (new_check_productions_map ho eps (new_process_productions_map ps) = Done tt /\
     productions_ok eps ps) \/
    (exists q p,
        new_check_productions_map ho eps (new_process_productions_map ps) = Panicked q /\
        In p ps /\ defect eps q p).
  Proof.
    set (P := fun kv : T * list (production T) => forall p, In p (snd kv) -> production_ok eps p).
    set (Q := fun q (kv : T * list (production T)) => exists p, In p (snd kv) /\ defect eps q p).
    unfold new_check_productions_map.
    destruct (@for_each_unit_cases _
      (fun _ kv => if eqb (fst kv) eps then Panicked PanicEpsilonGenerates
         else for_each (fun _ p => check_production eps p) tt (snd kv)) P Q
      (ho_iter ho (Site IterCheckProductions 0 []) (new_process_productions_map ps)))
      as [[HD HP]|(q & kv & Hq & Hin & HnP & p & Hp & Hd)].
    - intros [x l] Hin. apply (Permutation_in _ (ho_perm _ _ _)) in Hin.
      apply process_map_In in Hin as [Hl Hnt]. subst l. simpl.
      destruct (eqb x eps) eqn:Hx.
      + right. exists PanicEpsilonGenerates. split; [reflexivity|].
        apply eqb_iff in Hx; subst x. destruct Hnt as (p & Hp & Hi).
        split; [intros HP; destruct (HP p) as (H & _)|exists p]; unfold P, Q; simpl;
          rewrite ?productions_of_In; auto.
      + apply eqb_ne_iff in Hx.
        destruct (@for_each_unit_cases _ (fun _ p => check_production eps p)
                    (production_ok eps) (defect eps) (productions_of ps x))
          as [[HD HP]|(q & p & Hq & Hin & HnP & Hd)].
        * intros p Hp. apply productions_of_In in Hp as [Hp Hi].
          destruct (check_production_cases eps p) as [(H1 & H2 & H3)|[(H1 & H2)|(H1 & H2 & H3)]].
          -- left. split; auto. repeat split; auto. congruence.
          -- right. exists PanicEmptyOutput. repeat split; auto.
             apply defect_not_ok with (q := PanicEmptyOutput); exact H2.
          -- right. exists PanicEpsilonNotAlone. repeat split; auto.
             apply defect_not_ok with (q := PanicEpsilonNotAlone); split; auto.
        * left; split; auto.
        * right. exists q. split; auto. split.
          -- intros HP. apply HnP, HP; exact Hin.
          -- exists p; auto.
    - left. split; [exact HD|]. intros p Hp.
      apply (HP (p_input p, productions_of ps (p_input p))).
      + apply (Permutation_in _ (Permutation_sym (ho_perm _ _ _))).
        apply process_map_In. split; auto. exists p; auto.
      + simpl. apply productions_of_In; auto.
    - right. exists q, p. split; [exact Hq|]. split; auto.
      destruct kv as [x l]. apply (Permutation_in _ (ho_perm _ _ _)) in Hin.
      apply process_map_In in Hin as [Hl _]. subst l. simpl in Hp.
      apply productions_of_In in Hp. tauto.
  Qed.

  (** ** the terminal set *)
  Lemma build_ts_inner nts out : forall acc y,
    In y (fold_left (fun acc symbol =>
            if negb (hash_set_contains nts symbol)
            then fst (hash_set_insert acc symbol) else acc) out acc) <->
    In y acc \/ (In y out /\ ~ In y nts).
  Proof.
    induction out as [|x out IH]; intros acc y; simpl; [tauto|].
    rewrite IH. destruct (hash_set_contains nts x) eqn:Hx; simpl.
    - apply contains_In in Hx. split; [tauto|]. intros [H|[[H|H] Hn]]; subst; tauto.
    - apply contains_not_In in Hx. rewrite insert_fst_In.
      split; [intros [[H|H]|H]; subst; tauto|]. intros [H|[[H|H] Hn]]; subst; tauto.
  Qed.

  Lemma build_ts_inner_NoDup nts out : forall acc,
    NoDup acc ->
    NoDup (fold_left (fun acc symbol =>
            if negb (hash_set_contains nts symbol)
            then fst (hash_set_insert acc symbol) else acc) out acc).
  Proof.
    induction out as [|x out IH]; intros acc H; simpl; auto.
    apply IH. destruct (negb _); auto using insert_fst_NoDup.
  Qed.

  Lemma build_ts_mid nts (l : list (production T)) : forall acc y,
    In y (fold_left (fun acc p => fold_left (fun acc symbol =>
            if negb (hash_set_contains nts symbol)
            then fst (hash_set_insert acc symbol) else acc) (p_output p) acc) l acc) <->
    In y acc \/ (exists p, In p l /\ In y (p_output p) /\ ~ In y nts).
  Proof.
    induction l as [|p l IH]; intros acc y; simpl.
    - firstorder.
    - rewrite IH, build_ts_inner. split.
      + intros [[H|H]|(q & H)]; auto; right; [exists p; tauto|exists q; tauto].
      + intros [H|(q & [H|H] & H')]; subst; auto. right; exists q; tauto.
  Qed.

  Lemma build_ts_outer nts (ls : list (list (production T))) : forall acc y,
    In y (fold_left (fun acc l => fold_left (fun acc p => fold_left (fun acc symbol =>
            if negb (hash_set_contains nts symbol)
            then fst (hash_set_insert acc symbol) else acc) (p_output p) acc) l acc) ls acc) <->
    In y acc \/ (exists l p, In l ls /\ In p l /\ In y (p_output p) /\ ~ In y nts).
  Proof.
    induction ls as [|l ls IH]; intros acc y; simpl.
    - firstorder.
    - rewrite IH, build_ts_mid. split.
      + intros [[H|(p & H)]|(l' & p & H)]; auto; right;
          [exists l, p; tauto|exists l', p; tauto].
      + intros [H|(l' & p & [H|H] & H')]; subst; auto; [left; right; exists p; tauto|].
        right; exists l', p; tauto.
  Qed.

  Lemma build_ts_NoDup nts (ls : list (list (production T))) : forall acc,
    NoDup acc ->
    NoDup (fold_left (fun acc l => fold_left (fun acc p => fold_left (fun acc symbol =>
            if negb (hash_set_contains nts symbol)
            then fst (hash_set_insert acc symbol) else acc) (p_output p) acc) l acc) ls acc).
  Proof.
    induction ls as [|l ls IH]; intros acc H; simpl; auto. apply IH. clear IH.
    revert acc H; induction l as [|p l IH]; intros acc H; simpl; auto.
    apply IH. now apply build_ts_inner_NoDup.
  Qed.

  (** ** everything a constructed grammar satisfies *)
  Record grammar_of (eps init : T) (ps : list (production T)) (g : grammar T) : Prop := {
    go_ok : productions_ok eps ps;
    go_eps : g_epsilon_symbol g = eps;
    go_init : g_initial_symbol g = init;
    go_nts : forall x, In x (g_non_terminal_symbols_set g) <-> non_terminal ps x;
    go_nts_nodup : NoDup (g_non_terminal_symbols_set g);
    go_ts : forall x, In x (g_terminal_symbols_set g) <-> terminal ps x;
    go_ts_nodup : NoDup (g_terminal_symbols_set g);
    go_productions : forall x, get_productions g x = some_if_nonempty (productions_of ps x)
  }.

  Lemma cfg_new_cases ho eps init ps :
    (exists g, cfg_new ho eps init ps = Done g /\ grammar_of eps init ps g) \/
    (exists q p, cfg_new ho eps init ps = Panicked q /\ In p ps /\ defect eps q p).
  Proof.
    unfold cfg_new.
    destruct (check_map_cases ho eps ps) as [[HD Hok]|(q & p & Hq & Hp & Hd)].
    - left. rewrite HD; simpl. eexists; split; [reflexivity|].
      assert (Hnts : forall x, In x (hash_set_from_iter
                (map fst (ho_iter ho (Site IterProductionKeys 0 [])
                                   (new_process_productions_map ps)))) <-> non_terminal ps x).
      { intros x. rewrite set_from_iter_In, <- process_map_keys.
        split; intros H; eapply Permutation_in; try exact H; apply Permutation_map;
          [|apply Permutation_sym]; apply ho_perm. }
      constructor; simpl; auto.
      + apply set_from_iter_NoDup.
      + intros x. unfold build_terminal_symbols_set. rewrite build_ts_outer.
        unfold terminal, occurs_in_output. split.
        * intros [[]|(l & p & Hl & Hp & Hx & Hn)].
          rewrite Hnts in Hn. split; auto.
          apply in_map_iff in Hl as ([y l'] & Hy & Hin). simpl in Hy; subst l'.
          apply (Permutation_in _ (ho_perm _ _ _)) in Hin.
          apply process_map_In in Hin as [-> _]. apply productions_of_In in Hp.
          exists p; tauto.
        * intros [(p & Hp & Hx) Hn]. right. rewrite <- Hnts in Hn.
          exists (productions_of ps (p_input p)), p. repeat split; auto.
          -- apply in_map_iff. exists (p_input p, productions_of ps (p_input p)).
             split; auto. apply (Permutation_in _ (Permutation_sym (ho_perm _ _ _))).
             apply process_map_In. split; auto. exists p; auto.
          -- apply productions_of_In; auto.
      + unfold build_terminal_symbols_set. apply build_ts_NoDup. constructor.
      + intros x. unfold get_productions; simpl. apply process_map_get.
    - right. rewrite Hq; simpl. eauto.
  Qed.

  Lemma cfg_new_grammar_of ho eps init ps g :
    cfg_new ho eps init ps = Done g -> grammar_of eps init ps g.
  Proof.
    intros H. destruct (cfg_new_cases ho eps init ps) as [(g' & H' & Hg)|(q & p & H' & _)];
      congruence.
  Qed.

  Lemma cfg_new_ok ho eps init ps :
    productions_ok eps ps -> exists g, cfg_new ho eps init ps = Done g.
  Proof.
    intros Hok. destruct (cfg_new_cases ho eps init ps) as [(g & H & _)|(q & p & _ & Hp & Hd)];
      eauto.
    exfalso. eapply defect_not_ok; eauto.
  Qed.

  (** ** consequences used by the other files *)
  Section Of.
    Context {eps init : T} {ps : list (production T)} {g : grammar T}.
    Hypothesis G : grammar_of eps init ps g.

    Lemma is_non_terminal_spec x : is_non_terminal g x = true <-> non_terminal ps x.
    Proof. unfold is_non_terminal. rewrite contains_In. apply (go_nts G). Qed.

    Lemma is_non_terminal_false x : is_non_terminal g x = false <-> ~ non_terminal ps x.
    Proof. rewrite <- is_non_terminal_spec. destruct (is_non_terminal g x); split; congruence. Qed.

    Lemma is_terminal_spec x : is_terminal g x = true <-> terminal ps x.
    Proof. unfold is_terminal. rewrite contains_In. apply (go_ts G). Qed.

    Lemma eps_not_nt : ~ non_terminal ps eps.
    Proof. intros (p & Hp & Hi). apply (go_ok G) in Hp as (H & _). auto. Qed.

    Lemma get_productions_In x l p :
      get_productions g x = Some l -> (In p l <-> In p ps /\ p_input p = x).
    Proof.
      rewrite (go_productions G). intros H. rewrite <- productions_of_In.
      destruct (productions_of ps x); simpl in H; inversion H; subst; tauto.
    Qed.

    Lemma get_productions_nt x :
      non_terminal ps x -> get_productions g x = Some (productions_of ps x).
    Proof.
      intros H. rewrite (go_productions G). apply productions_of_nonempty in H.
      destruct (productions_of ps x); [congruence|reflexivity].
    Qed.

    Lemma get_nts_In ho x : In x (get_non_terminal_symbols ho g) <-> non_terminal ps x.
    Proof.
      rewrite <- (go_nts G). unfold get_non_terminal_symbols.
      split; apply Permutation_in; [|apply Permutation_sym]; apply ho_perm.
    Qed.

    Lemma get_ts_In ho x : In x (get_terminal_symbols ho g) <-> terminal ps x.
    Proof.
      rewrite <- (go_ts G). unfold get_terminal_symbols.
      split; apply Permutation_in; [|apply Permutation_sym]; apply ho_perm.
    Qed.

    Lemma get_nts_NoDup ho : NoDup (get_non_terminal_symbols ho g).
    Proof.
      eapply Permutation_NoDup; [apply Permutation_sym, ho_perm | apply (go_nts_nodup G)].
    Qed.

    Lemma get_ts_NoDup ho : NoDup (get_terminal_symbols ho g).
    Proof.
      eapply Permutation_NoDup; [apply Permutation_sym, ho_perm | apply (go_ts_nodup G)].
    Qed.

    Lemma output_symbol_cases p x :
      In p ps -> In x (p_output p) -> non_terminal ps x \/ terminal ps x.
    Proof.
      intros Hp Hx. destruct (non_terminal_dec ps x); auto. right; split; auto. exists p; auto.
    Qed.
  End Of.
End GrammarFacts.
