(** * The size of parse trees without left recursion (proofs) *)

From Verif Require Import BaseFacts GrammarFacts DerivFacts.
From Verif Require Export ParserTerm WorkSpec.

Set Implicit Arguments.

Lemma longest_output_ge (T : Type) (ps : list (production T)) p : In p ps ->
  length (p_output p) <= longest_output ps.
Proof.
  intros H. unfold longest_output.
  pose proof (proj1 (list_max_le (map (fun p => length (p_output p)) ps) _) (le_n _)) as Hf.
  rewrite Forall_forall in Hf. apply Hf. apply in_map_iff. eauto.
Qed.

Lemma full_tree_mono m n n' : n <= n' -> full_tree m n <= full_tree m n'.
Proof.
  revert n'; induction n as [|n IH]; intros n' H; simpl; [lia|].
  destruct n' as [|n']; [lia|]. simpl. apply le_n_S. apply Nat.mul_le_mono_l. apply IH. lia.
Qed.

Section TreeSize.
  Context {L T : Type} {E : EqDec T}.
  Variable eps init : T.
  Variable ps : list (production T).
  Hypothesis Hno : no_left_recursion_from eps ps init.

  Definition nts : nat := length (nodup eq_dec (map (@p_input T) ps)).
  Notation N := nts.
  Notation M := (longest_output ps).
  Notation z := (full_tree M).
  Definition per_node : nat := 1 + M * z N.
  Notation A := per_node.

  (** the symbols of [path] lead to [X] at the same position *)
  Definition on_path (X : T) (path : list T) : Prop :=
    NoDup (X :: path) /\ (forall Z, In Z (X :: path) -> non_terminal ps Z) /\
    (forall Z, In Z path -> lc_plus eps ps Z X).

  Lemma on_path_nil X : non_terminal ps X -> on_path X [].
  Proof.
    intros H. split; [constructor; [auto|constructor]|]. split; [intros Z [<-|[]]; auto|intros Z []].
  Qed.

  Lemma on_path_cons X path Y : on_path X path -> reachable_from eps ps init X -> lc eps ps X Y ->
    on_path Y (X :: path).
  Proof.
    intros (Hnd & Hnt & Hlc) HR Hl. pose proof (reachable_lc HR Hl) as HRY.
    split; [|split].
    - constructor; auto. intros [->|Hin].
      + apply (lc_acyclic Hno HRY). now apply Relation_Operators.t1n_step.
      + apply (lc_acyclic Hno HRY). apply clos_trans_t1n_iff.
        eapply Relation_Operators.t_trans; [apply clos_trans_t1n_iff; now apply Hlc|].
        now apply Relation_Operators.t_step.
    - intros Z [<-|HZ]; auto. apply Hl.
    - intros Z [->|HZ].
      + now apply Relation_Operators.t1n_step.
      + apply clos_trans_t1n_iff. eapply Relation_Operators.t_trans.
        * apply clos_trans_t1n_iff. now apply Hlc.
        * now apply Relation_Operators.t_step.
  Qed.

  Lemma on_path_short X path : on_path X path -> S (length path) <= N.
  Proof.
    intros (Hnd & Hnt & _). change (length (X :: path) <= N). apply NoDup_incl_length; auto.
    intros Z HZ. apply Hnt in HZ as (p & Hp & Hi). apply nodup_In. subst Z. now apply in_map.
  Qed.

  Definition weight (ns : list (node L T)) : nat := list_sum (map (@inner_nodes L T) ns).

  Lemma inner_nodes_node ns t : inner_nodes (Node ns t) <= 1 + weight ns.
  Proof. destruct ns; simpl; [lia|]. unfold weight. simpl. lia. Qed.

  Lemma leaf_size X n (w : list (token L T)) : tree_for eps ps X n w -> ~ non_terminal ps X -> inner_nodes n = 0.
  Proof.
    intros H HX. inversion H; subst; auto. exfalso. apply HX. eexists; eauto.
  Qed.

  (** [u] comes before [Xs] in a production of [X0] *)
  Definition placed (X0 : T) (u Xs : list T) : Prop :=
    exists p v, In p ps /\ p_input p = X0 /\ p_output p = u ++ Xs ++ v.

  Lemma placed_lc X0 u X Xs : placed X0 u (X :: Xs) -> nullable eps ps u -> non_terminal ps X -> lc eps ps X0 X.
  Proof.
    intros (p & v & Hp & Hi & Ho) Hu HX. split; auto. exists p, u, (Xs ++ v). auto.
  Qed.

  Lemma placed_next X0 u X Xs : placed X0 u (X :: Xs) -> placed X0 (u ++ [X]) Xs.
  Proof. intros (p & v & Hp & Hi & Ho). exists p, v. rewrite <- app_assoc. auto. Qed.

  Lemma placed_part X0 u X Xs : placed X0 u (X :: Xs) -> part ps X0 X.
  Proof.
    intros (p & v & Hp & Hi & Ho). exists p. repeat split; auto. rewrite Ho. apply in_or_app. right. simpl; auto.
  Qed.

  Lemma placed_length X0 u Xs : placed X0 u Xs -> length Xs <= M.
  Proof.
    intros (p & v & Hp & Hi & Ho). pose proof (longest_output_ge _ _ Hp) as H.
    rewrite Ho, !app_length in H. lia.
  Qed.

  Lemma empty_tree_size :
    (forall X n (w : list (token L T)), tree_for eps ps X n w -> w = [] -> reachable_from eps ps init X ->
       forall path, on_path X path -> inner_nodes n <= z (N - length path)) /\
    (forall Xs ns (w : list (token L T)), forest_for eps ps Xs ns w -> w = [] ->
       forall X0 u path, reachable_from eps ps init X0 -> on_path X0 path -> placed X0 u Xs ->
       nullable eps ps u -> weight ns <= length Xs * z (N - S (length path))).
  Proof.
    apply tree_forest_ind; try (intros; unfold weight; simpl; lia); try discriminate.
    - intros p children w Hp _ IH Hw HR path Hpath.
      assert (Hpl : placed (p_input p) [] (p_output p)).
      { exists p, []. rewrite app_nil_r. auto. }
      specialize (IH Hw (p_input p) [] path HR Hpath Hpl (nullable_nil eps ps)).
      pose proof (on_path_short Hpath) as Hs. pose proof (placed_length Hpl) as Hl.
      pose proof (inner_nodes_node children (Token None (p_input p))) as Hn.
      destruct (N - length path) as [|k] eqn:Hk; [lia|].
      replace (N - S (length path)) with k in IH by lia. change (z (S k)) with (1 + M * z k).
      assert (length (p_output p) * z k <= M * z k) by (apply Nat.mul_le_mono_r; lia). lia.
    - intros X Xs n ns w ws Ht IHt Hf IHf Hw X0 u path HR Hpath Hpl Hu.
      apply app_eq_nil in Hw as [-> ->].
      assert (HXn : nullable eps ps [X]).
      { apply tree_derives in Ht. exact Ht. }
      assert (Hsub : weight ns <= length Xs * z (N - S (length path))).
      { apply (IHf eq_refl X0 (u ++ [X]) path); auto.
        - now apply placed_next.
        - apply nullable_app; auto. }
      unfold weight in *. simpl.
      destruct (non_terminal_dec ps X) as [HX|HX].
      + pose proof (placed_lc Hpl Hu HX) as Hlc.
        pose proof (on_path_cons Hpath HR Hlc) as Hp'.
        pose proof (IHt eq_refl (reachable_lc HR Hlc) _ Hp') as H. simpl in H. lia.
      + rewrite (leaf_size Ht HX). lia.
  Qed.

  Lemma tree_size :
    (forall X n (w : list (token L T)), tree_for eps ps X n w -> w <> [] -> reachable_from eps ps init X ->
       forall path, on_path X path ->
       inner_nodes n <= A * ((N - length path) + (2 * length w - 2) * N)) /\
    (forall Xs ns (w : list (token L T)), forest_for eps ps Xs ns w ->
       forall X0 u, reachable_from eps ps init X0 -> placed X0 u Xs ->
       exists m, m <= length w /\ (w <> [] -> 1 <= m) /\
         weight ns <= length Xs * z N + A * N * (2 * length w - m) /\
         (m = 1 -> nullable eps ps u -> forall path, on_path X0 path ->
          weight ns <= length Xs * z N + A * ((N - S (length path)) + (2 * length w - 2) * N))).
  Proof.
    apply tree_forest_ind.
    - intros tok _ _ _ _ path _. change (inner_nodes (Node [] tok)) with 0. apply Nat.le_0_l.
    - intros H. now elim H.
    - intros p children w Hp _ IH Hw HR path Hpath.
      assert (Hpl : placed (p_input p) [] (p_output p)).
      { exists p, []. rewrite app_nil_r. auto. }
      destruct (IH (p_input p) [] HR Hpl) as (m & Hm & Hm1 & H1 & H2). specialize (Hm1 Hw).
      pose proof (on_path_short Hpath) as Hs. pose proof (placed_length Hpl) as Hl.
      pose proof (inner_nodes_node children (Token None (p_input p))) as Hn.
      assert (Hz : length (p_output p) * z N <= M * z N) by (apply Nat.mul_le_mono_r; lia).
      assert (Hlw : 1 <= length w) by (destruct w; simpl in *; [congruence|lia]).
      assert (HA : 1 + M * z N = A) by reflexivity.
      destruct (Nat.eq_dec m 1) as [->|Hne].
      + specialize (H2 eq_refl (nullable_nil eps ps) path Hpath).
        replace (N - length path + (2 * length w - 2) * N) with
          (S (N - S (length path) + (2 * length w - 2) * N)) by lia.
        rewrite Nat.mul_succ_r. lia.
      + assert (A * N * (2 * length w - m) <= A * (N * (2 * length w - 2))).
        { rewrite <- Nat.mul_assoc. apply Nat.mul_le_mono_l. apply Nat.mul_le_mono_l. lia. }
        assert (A * 1 <= A * (N - length path)) by (apply Nat.mul_le_mono_l; lia).
        rewrite Nat.mul_add_distr_l. rewrite (Nat.mul_comm (2 * length w - 2) N). lia.
    - intros X0 u HR Hpl. exists 0. split; [apply Nat.le_0_l|]. split; [congruence|]. split; [apply Nat.le_0_l|discriminate].
    - intros X Xs n ns w ws Ht IHt Hf IHf X0 u HR Hpl.
      pose proof (reachable_part HR (placed_part Hpl)) as HRX.
      destruct (IHf X0 (u ++ [X]) HR (placed_next Hpl)) as (m & Hm & Hm1 & H1 & H2).
      rewrite app_length. unfold weight in *. cbn [map list_sum length]. change (list_sum (inner_nodes n :: map (@inner_nodes L T) ns))
        with (inner_nodes n + list_sum (map (@inner_nodes L T) ns)).
      assert (Hwc : w = [] \/ w <> []) by (destruct w; [auto|right; discriminate]); destruct Hwc as [->|Hw].
      + simpl length in *.
        assert (Hn : inner_nodes n <= z N).
        { destruct (non_terminal_dec ps X) as [HX|HX].
          - pose proof (proj1 empty_tree_size _ _ _ Ht eq_refl HRX [] (on_path_nil HX)) as H. simpl in H.
            now rewrite Nat.sub_0_r in H.
          - rewrite (leaf_size Ht HX). lia. }
        exists m. rewrite Nat.add_0_l. split; auto. split; auto. split; [lia|].
        intros Hm' Hu path Hpath.
        assert (HXn : nullable eps ps [X]) by (apply tree_derives in Ht; exact Ht).
        specialize (H2 Hm' (proj2 (nullable_app eps ps u [X]) (conj Hu HXn)) path Hpath).
        lia.
      + assert (Hlw : 1 <= length w) by (destruct w; simpl in *; [congruence|lia]).
        exists (S m). split; [lia|]. split; [lia|]. split.
        * assert (Hn : inner_nodes n <= A * N * (2 * length w - 1)).
          { destruct (non_terminal_dec ps X) as [HX|HX].
            - pose proof (IHt Hw HRX [] (on_path_nil HX)) as H. simpl length in H.
              rewrite Nat.sub_0_r in H.
              replace (N + (2 * length w - 2) * N) with (N * (2 * length w - 1)) in H.
              + now rewrite Nat.mul_assoc in H.
              + replace (2 * length w - 1) with (S (2 * length w - 2)) by lia. lia.
            - rewrite (leaf_size Ht HX). apply Nat.le_0_l. }
          replace (2 * (length w + length ws) - S m) with ((2 * length w - 1) + (2 * length ws - m)) by lia.
          rewrite Nat.mul_add_distr_l. lia.
        * intros Hm' Hu path Hpath. assert (m = 0) by lia. subst m.
          assert (Hws : ws = []) by (destruct ws; [reflexivity|exfalso; specialize (Hm1 ltac:(discriminate)); lia]).
          subst ws. simpl length in *. rewrite Nat.add_0_r.
          replace (2 * 0 - 0) with 0 in H1 by lia. rewrite Nat.mul_0_r in H1.
          destruct (non_terminal_dec ps X) as [HX|HX].
          -- pose proof (placed_lc Hpl Hu HX) as Hlc.
             pose proof (IHt Hw HRX _ (on_path_cons Hpath HR Hlc)) as H. simpl length in H. lia.
          -- rewrite (leaf_size Ht HX).
             pose proof (Nat.le_0_l (A * (N - S (length path) + (2 * length w - 2) * N))). lia.
  Qed.
End TreeSize.
