(** * The size of trees and of error reports (proofs) *)

From Verif Require Import BaseFacts GrammarFacts DerivFacts.
From Verif Require Export ParserDepth WorkFacts SizeSpec.

Set Implicit Arguments.

Lemma tree_forest_count {L T : Type} (eps : T) (ps : list (production T)) :
  (forall X (n : node L T) w, tree_for eps ps X n w -> (forall p, In p ps -> p_output p <> []) ->
     node_count n <= 1 + longest_output ps * inner_nodes n) /\
  (forall Xs (ns : list (node L T)) w, forest_for eps ps Xs ns w -> (forall p, In p ps -> p_output p <> []) ->
     list_sum (map (@node_count L T) ns) <= length Xs + longest_output ps * weight ns /\
     length ns = length Xs).
Proof.
  apply tree_forest_ind.
  - intros tok _ _ _. simpl. lia.
  - simpl. lia.
  - intros p children w Hp Hf IH Hne. destruct (IH Hne) as [H1 H2].
    pose proof (longest_output_ge _ _ Hp) as Hl. specialize (Hne p Hp).
    destruct children as [|c cs]; [destruct (p_output p); [congruence|discriminate]|].
    change (inner_nodes (Node (c :: cs) (Token None (p_input p)))) with (1 + @weight L T (c :: cs)).
    change (node_count (Node (c :: cs) (Token None (p_input p)))) with
      (1 + list_sum (map (@node_count L T) (c :: cs))).
    rewrite Nat.mul_add_distr_l. lia.
  - intros _. simpl. lia.
  - intros X Xs n ns w ws _ IH1 _ IH2 Hne. specialize (IH1 Hne). destruct (IH2 Hne) as [IH3 IH4].
    unfold weight in *. simpl. rewrite Nat.mul_add_distr_l. simpl in *. lia.
Qed.

Section Height.
  Context {L T : Type} {E : EqDec T}.
  Variable eps init : T.
  Variable ps : list (production T).
  Hypothesis Hno : no_left_recursion_from eps ps init.
  Notation N := (nts ps).

  Lemma tree_height :
    (forall X (n : node L T) w, tree_for eps ps X n w -> reachable_from eps ps init X ->
       (non_terminal ps X -> forall path, on_path eps ps X path ->
          height n <= 1 + (N - length path) + length w * N) /\
       (~ non_terminal ps X -> height n <= 1)) /\
    (forall Xs (ns : list (node L T)) w, forest_for eps ps Xs ns w ->
       forall X0 u uw path, reachable_from eps ps init X0 -> on_path eps ps X0 path -> placed ps X0 u Xs ->
       (uw = 0 -> nullable eps ps u) ->
       list_max (map (@height L T) ns) <= (N - length path) + (uw + length w) * N).
  Proof.
    apply tree_forest_ind.
    - intros tok He Hnt HR. split; [intros HX; contradiction|]. simpl. lia.
    - intros HR. split; [|simpl; lia]. intros _ path _. simpl. lia.
    - intros p children w Hp _ IH HR. split.
      + intros _ path Hpath. simpl.
        assert (Hpl : placed ps (p_input p) [] (p_output p)).
        { exists p, []. rewrite app_nil_r. auto. }
        pose proof (IH (p_input p) [] 0 path HR Hpath Hpl (fun _ => nullable_nil eps ps)) as H.
        rewrite Nat.add_0_l in H. lia.
      + intros H. elim H. exists p; auto.
    - intros. simpl. lia.
    - intros X Xs n ns w ws Ht IHt _ IHf X0 u uw path HR Hpath Hpl Hu.
      pose proof (reachable_part HR (placed_part Hpl)) as HRX.
      change (list_max (map (@height L T) (n :: ns))) with (Nat.max (height n) (list_max (map (@height L T) ns))).
      rewrite app_length. apply Nat.max_lub.
      + destruct (IHt HRX) as [H1 H2]. pose proof (on_path_short Hpath) as Hs.
        destruct (non_terminal_dec ps X) as [HX|HX].
        * destruct (Nat.eq_dec uw 0) as [->|Huw].
          -- pose proof (placed_lc Hpl (Hu eq_refl) HX) as Hlc.
             pose proof (H1 HX _ (on_path_cons Hno Hpath HR Hlc)) as H. simpl length in H.
             rewrite Nat.add_0_l, Nat.mul_add_distr_r. lia.
          -- pose proof (H1 HX _ (on_path_nil eps HX)) as H. simpl length in H.
             assert (Hm : (1 + length w) * N <= (uw + (length w + length ws)) * N)
               by (apply Nat.mul_le_mono_r; lia). rewrite Nat.mul_add_distr_r in Hm at 1. lia.
        * specialize (H2 HX). lia.
      + pose proof (IHf X0 (u ++ [X]) (uw + length w) path HR Hpath (placed_next Hpl)) as H.
        rewrite <- Nat.add_assoc in H. apply H. intros H0.
        assert (uw = 0 /\ length w = 0) as [H1 H2] by lia. destruct w; [|discriminate].
        apply nullable_app. split; [auto|]. apply tree_derives in Ht. exact Ht.
  Qed.
End Height.

(** ** Error reports *)

(** at most [d] levels, at most [K] candidates each *)
Fixpoint narrow {L T : Type} (K d : nat) (f : failed_symbol L T) : Prop :=
  match d with
  | O => False
  | S d' =>
      match f with
      | FailedSymbol fps _ =>
          length fps <= K /\
          Forall (fun fp => match fp with FailedProduction g _ _ => narrow K d' g end) fps
      end
  end.

Lemma narrow_mono {L T : Type} K d : forall d' (f : failed_symbol L T), d <= d' ->
  narrow K d f -> narrow K d' f.
Proof.
  induction d as [|d IH]; intros d' f Hd H; [destruct H|]. destruct d' as [|d']; [lia|].
  destruct f as [fps X]. simpl in *. destruct H as [H1 H2]. split; auto.
  eapply Forall_impl; [|exact H2]. intros [g cs pend] Hg. apply IH; [lia|auto].
Qed.

Lemma narrow_count {L T : Type} K d : forall f : failed_symbol L T, narrow K d f ->
  failure_count f <= full_tree K d /\ failure_depth f <= d.
Proof.
  induction d as [|d IH]; intros f H; [destruct H|].
  destruct f as [fps X]. simpl in *. destruct H as [H1 H2].
  assert (Hs : list_sum (map (fun fp : failed_production L T => match fp with FailedProduction g _ _ => failure_count g end) fps)
               <= length fps * full_tree K d /\
               list_max (map (fun fp : failed_production L T => match fp with FailedProduction g _ _ => failure_depth g end) fps) <= d).
  { clear H1. induction H2 as [|[g cs pend] fps Hg _ IHf]; simpl; [lia|].
    destruct (IH g Hg) as [Ha Hb]. destruct IHf as [Hc Hd]. unfold list_max in *. lia. }
  destruct Hs as [Hs1 Hs2].
  assert (length fps * full_tree K d <= K * full_tree K d) by (apply Nat.mul_le_mono_r; auto). lia.
Qed.

Section Reports.
  Context {L T : Type} {E : EqDec T}.
  Variable eps init : T.
  Variable ps : list (production T).
  Variable self : parser L T.
  Hypothesis P : parser_of eps init ps self.
  Variable tokens : list (token L T).
  Hypothesis Hpr : progress_solver self.
  Hypothesis Hno : no_left_recursion_from eps ps init.
  Variable K : nat.
  Hypothesis HK : forall A a, length (inner_get_token_productions self A a) <= K.

  Notation stk := (@stack_ok L T eps ps self tokens).
  Notation good := (@good_prods T ps).
  Notation N := (nts ps).

  Definition at_level (X : T) (pos d : nat) : Prop :=
    exists path, reachable_from eps ps init X /\ on_path eps ps X path /\
      (length tokens - pos) * N <= d + length path.

  Lemma next_level X p0 d out states pos syms Y rest :
    at_level X p0 (S d) -> p0 < length tokens ->
    (exists p, In p ps /\ p_input p = X /\ p_output p = out) ->
    stk states p0 pos syms -> out = syms ++ Y :: rest -> non_terminal ps Y -> at_level Y pos d.
  Proof.
    intros (path & HR & Hpath & Hd) Hp0 Hout Hs Ho HY.
    pose proof (on_path_short Hpath) as Hshort.
    assert (HRY : reachable_from eps ps init Y) by (apply (reachable_part HR (dep_part ps Hout syms rest Y Ho))).
    destruct (@dep_smaller L T E eps ps self tokens Hpr X p0 0 _
                ltac:(intros; apply refines_refl) out Hout states pos syms Y rest Hs Ho HY) as [Hlt|[-> Hl]].
    - exists []. split; auto. split; [now apply on_path_nil|]. simpl.
      destruct (Nat.le_gt_cases (length tokens) pos) as [Hle|Hgt].
      + replace (length tokens - pos) with 0 by lia. lia.
      + assert ((length tokens - pos + 1) * N <= (length tokens - p0) * N) by (apply Nat.mul_le_mono_r; lia). nia.
    - exists (X :: path). split; auto. split; [apply (on_path_cons Hno Hpath HR Hl)|]. simpl. lia.
  Qed.

  Lemma level_pos X pos d : at_level X pos d -> pos < length tokens -> exists d', d = S d'.
  Proof.
    intros (path & _ & Hpath & Hd) Hp. pose proof (on_path_short Hpath) as Hs. destruct d; [|eauto].
    assert (1 * N <= (length tokens - pos) * N) by (apply Nat.mul_le_mono_r; lia). lia.
  Qed.

  Definition failed_narrow (d : nat) (fp : failed_production L T) : Prop :=
    match fp with FailedProduction g _ _ => narrow K d g end.

  Lemma report_narrow :
    (forall X pos prods single h r h', RSym self tokens X pos prods single h r h' ->
       forall d f, at_level X pos d -> pos < length tokens -> good X prods -> length prods <= K ->
       r = SymErr f -> narrow K (S d) f) /\
    (forall X pos child prods failed h r h', RTry self tokens X pos child prods failed h r h' ->
       forall d, at_level X pos (S d) -> pos < length tokens -> good X prods ->
       Forall (failed_narrow (S d)) failed ->
       match r with
       | inr fps => length fps <= length failed + length prods /\ Forall (failed_narrow (S d)) fps
       | inl (SymErr f) => False
       | _ => True
       end) /\
    (forall X out child states pos h pr pos' h', RProd self tokens X out child states pos h pr pos' h' ->
       forall d p0 syms rest, at_level X p0 (S d) -> p0 < length tokens ->
       (exists p, In p ps /\ p_input p = X /\ p_output p = out) ->
       stk states p0 pos syms -> out = syms ++ rest ->
       forall fp, pr = ProdErr fp -> failed_narrow (S d) fp) /\
    (forall Y pos child h r h', RStep self tokens Y pos child h r h' ->
       forall d f, (non_terminal ps Y -> at_level Y pos d) -> r = SymErr f -> narrow K (S d) f) /\
    (forall states child failed h states' popped h', RPop self tokens states child failed h states' popped h' ->
       True).
  Proof.
    apply run_mutind; auto.
    - intros X pos prods single h r h' _ IH d f HL Hp Hg Hk ->.
      destruct (level_pos HL Hp) as [d' ->]. destruct (IH _ HL Hp Hg (Forall_nil _)).
    - intros X pos prods single h failed h' fo h'' _ IH _ d f HL Hp Hg Hk Hf.
      destruct fo as [fr|]; [discriminate|]. simpl in Hf. inversion Hf; subst f.
      destruct (level_pos HL Hp) as [d' ->]. destruct (IH _ HL Hp Hg (Forall_nil _)) as [H1 H2].
      simpl in H1. split; [lia|exact H2].
    - intros X pos child failed h d HL Hp Hg Hf. simpl. split; [lia|auto].
    - intros X pos child out rest failed h fp pos' h' r h'' _ IH1 _ IH2 d HL Hp Hg Hf.
      assert (Hfp : failed_narrow (S d) fp).
      { apply (IH1 d pos [] out HL Hp); auto; [|constructor]. apply Hg. simpl; auto. }
      specialize (IH2 d HL Hp (good_prods_tail Hg) ltac:(apply Forall_app; auto)).
      destruct r as [[st|e|f]|fps]; auto. destruct IH2 as [H1 H2]. rewrite app_length in H1. simpl in *.
      split; [lia|auto].
    - intros X out child states pos h pr Hl Hb d p0 syms rest _ _ _ _ _ fp ->. exfalso.
      unfold inner_parse_from_tokens_production_build_node in Hb.
      destruct (existsb (@is_fixed L T) (rev states)); [discriminate|].
      apply bind_done in Hb as (ns & _ & Hb). discriminate.
    - intros X out child states pos h Y st h' pr pos' h'' HY Hst _ _ IH d p0 syms rest HL Hp0 Hout Hs Ho.
      apply (proj1 (proj2 (proj2 (proj2 (run_sound P tokens))))) in Hst. destruct Hst as [Hok _].
      rewrite Ho, (stack_ok_length Hs), nth_error_app2, Nat.sub_diag in HY by lia.
      destruct rest as [|y rest]; [discriminate|]. simpl in HY. inversion HY; subst y.
      apply (IH d p0 (syms ++ [Y]) rest HL Hp0 Hout); [|now rewrite <- app_assoc].
      eapply stack_parsing; eauto.
    - intros X out child states pos h Y fs h' pr pos' h'' HY Hst _ _ IH d p0 syms rest HL Hp0 Hout Hs Ho.
      apply (proj1 (proj2 (proj2 (proj2 (run_sound P tokens))))) in Hst.
      rewrite Ho, (stack_ok_length Hs), nth_error_app2, Nat.sub_diag in HY by lia.
      destruct rest as [|y rest]; [discriminate|]. simpl in HY. inversion HY; subst y.
      apply (IH d p0 (syms ++ [Y]) rest HL Hp0 Hout); [|now rewrite <- app_assoc].
      eapply stack_fixed; eauto.
    - intros X out child states pos h Y fs h' states' fstates h'' HY _ IH _ _ d p0 syms rest HL Hp0 Hout Hs Ho fp Hfp.
      rewrite Ho, (stack_ok_length Hs), nth_error_app2, Nat.sub_diag in HY by lia.
      destruct rest as [|y rest]; [discriminate|]. simpl in HY. inversion HY; subst y.
      unfold inner_parse_from_tokens_production_build_failed_symbol in Hfp. inversion Hfp; subst fp.
      simpl failed_narrow. apply IH; auto. intros HYn. eapply next_level; eauto.
    - intros X out child states pos h Y fs h' st states' h'' pr pos' h3 HY _ _ HRP _ _ IH d p0 syms rest HL Hp0 Hout Hs Ho.
      apply (proj2 (proj2 (proj2 (proj2 (run_sound P tokens))))) in HRP.
      destruct (HRP p0 pos syms Hs eq_refl) as (p' & syms' & rest' & Hsy & Hs').
      pose proof (stack_ok_top Hs') as Hp'. rewrite Hp' in Hs'.
      apply (IH d p0 syms' (rest' ++ rest) HL Hp0 Hout Hs'). rewrite Ho, Hsy. now rewrite <- app_assoc.
    - intros Y pos child h tok r h' Hnt Ht _ IH d f HL Hf.
      apply (is_non_terminal_spec (po_grammar P)) in Hnt.
      apply (IH d f); auto; [apply nth_error_Some; congruence|apply (token_productions_good P)].
    - intros Y pos child h Hnt d f _ Hf. unfold inner_parse_terminal_symbol, inner_parse_non_epsilon_terminal_symbol in Hf.
      destruct (eqb _ _); [discriminate|]. destruct (nth_error tokens pos) as [tok|];
        [destruct (eqb Y (tok_type tok)); [discriminate|]|]; inversion Hf; subst f; simpl; split; auto with arith; constructor.
  Qed.
End Reports.
