(** * Renaming: grammars and cells (proofs) *)

From Verif Require Import BaseFacts GrammarFacts DerivFacts FirstFacts FollowFacts TransitionsFacts.
From Verif Require Export RenameSpec MoreFacts.

Set Implicit Arguments.

Section RenGrammar.
  Context {T1 T2 : Type} {E1 : EqDec T1} {E2 : EqDec T2}.
  Variable g : T1 -> T2.
  Hypothesis Hinj : injective g.
  Variable eps : T1.
  Variable ps1 : list (production T1).
  Variable ps2 : list (production T2).
  Hypothesis HIn : forall q, In q ps2 <-> exists p, In p ps1 /\ q = ren_production g p.

  Lemma map_inj (u v : list T1) : map g u = map g v -> u = v.
  Proof.
    revert v. induction u as [|x u IH]; intros [|y v] H; simpl in H; inversion H; auto.
    f_equal; auto.
  Qed.

  Lemma eqb_ren x y : eqb (g x) (g y) = eqb x y.
  Proof.
    destruct (eqb x y) eqn:H.
    - apply eqb_iff in H as ->. apply eqb_self.
    - apply eqb_ne_iff in H. apply eqb_ne_iff. intros Hg. apply H. now apply Hinj.
  Qed.

  Lemma map_app_inv (w : list T1) u v : map g w = u ++ v ->
    exists u1 v1, w = u1 ++ v1 /\ u = map g u1 /\ v = map g v1.
  Proof.
    revert w. induction u as [|x u IH]; intros w H; simpl in H.
    - exists [], w. auto.
    - destruct w as [|y w]; [discriminate|]. simpl in H. inversion H; subst.
      destruct (IH w H2) as (u1 & v1 & -> & -> & ->). exists (y :: u1), v1. auto.
  Qed.

  Lemma ren_non_terminal A : non_terminal ps2 (g A) <-> non_terminal ps1 A.
  Proof.
    split; intros (p & Hp & Hi).
    - apply HIn in Hp as (q & Hq & ->). simpl in Hi. exists q. split; auto.
    - exists (ren_production g p). split; [apply HIn; eauto|]. simpl. congruence.
  Qed.

  Lemma ren_non_terminal_inv A : non_terminal ps2 A -> exists A1, A = g A1 /\ non_terminal ps1 A1.
  Proof.
    intros (p & Hp & Hi). apply HIn in Hp as (q & Hq & ->). simpl in Hi.
    exists (p_input q). split; auto. exists q; auto.
  Qed.

  Lemma ren_terminal a : terminal ps2 (g a) <-> terminal ps1 a.
  Proof.
    unfold terminal. rewrite ren_non_terminal. split; intros [(p & Hp & Ho) Hn]; split; auto.
    - apply HIn in Hp as (q & Hq & ->). simpl in Ho. apply in_map_iff in Ho as (x & Hx & Hox).
      apply Hinj in Hx. subst x. exists q; auto.
    - exists (ren_production g p). split; [apply HIn; eauto|]. simpl. now apply in_map.
  Qed.

  Lemma ren_derive1 u v : derive1 eps ps1 u v -> derive1 (g eps) ps2 (map g u) (map g v).
  Proof.
    intros [x y p Hp|x y]; rewrite !map_app; simpl.
    - apply (derive1_production (g eps) ps2 (map g x) (map g y) (ren_production g p)).
      apply HIn; eauto.
    - apply derive1_epsilon.
  Qed.

  Lemma ren_derives u v : derives eps ps1 u v -> derives (g eps) ps2 (map g u) (map g v).
  Proof.
    induction 1 as [|x y z Hs _ IH]; [constructor|]. econstructor; [|exact IH]. now apply ren_derive1.
  Qed.

  Lemma ren_derive1_inv w v : derive1 (g eps) ps2 (map g w) v ->
    exists v1, v = map g v1 /\ derive1 eps ps1 w v1.
  Proof.
    intros H. inversion H as [x y p Hp Hw Hv|x y Hw Hv]; clear H.
    - symmetry in Hw. apply map_app_inv in Hw as (x1 & r1 & -> & -> & Hr).
      destruct r1 as [|A y1]; [discriminate|]. simpl in Hr. inversion Hr as [[HA Hy']].
      apply HIn in Hp as (q & Hq & ->). simpl in HA. apply Hinj in HA. subst A.
      exists (x1 ++ p_output q ++ y1). split; [now rewrite !map_app|]. now constructor.
    - symmetry in Hw. apply map_app_inv in Hw as (x1 & r1 & -> & -> & Hr).
      destruct r1 as [|A y1]; [discriminate|]. simpl in Hr. inversion Hr as [[HA Hy]].
      apply Hinj in HA. subst A. exists (x1 ++ y1). split; [now rewrite map_app|]. constructor.
  Qed.

  Lemma ren_derives_inv w v : derives (g eps) ps2 (map g w) v ->
    exists v1, v = map g v1 /\ derives eps ps1 w v1.
  Proof.
    intros H. remember (map g w) as w2 eqn:Hw. revert w Hw.
    induction H as [x|x y z Hs _ IH]; intros w ->.
    - exists w. split; auto. constructor.
    - apply ren_derive1_inv in Hs as (v1 & -> & Hs). destruct (IH v1 eq_refl) as (v2 & -> & Hd).
      exists v2. split; auto. econstructor; eauto.
  Qed.

  Lemma ren_nullable w : nullable (g eps) ps2 (map g w) <-> nullable eps ps1 w.
  Proof.
    unfold nullable. split.
    - intros H. apply ren_derives_inv in H as ([|] & H & Hd); [exact Hd|discriminate].
    - exact (@ren_derives w []).
  Qed.

  Lemma ren_can_start w a : can_start (g eps) ps2 (map g w) (g a) <-> can_start eps ps1 w a.
  Proof.
    unfold can_start. rewrite ren_non_terminal. split; intros (H1 & H2 & v & H3).
    - split; [congruence|]. split; auto. apply ren_derives_inv in H3 as ([|b v1] & Hv & Hd); [discriminate|].
      simpl in Hv. inversion Hv as [[Hb Hv']]. apply Hinj in Hb. subst b. eauto.
    - split; [intros H; apply H1; now apply Hinj|]. split; auto. exists (map g v).
      exact (ren_derives H3).
  Qed.

  (** everything that starts a renamed form is renamed *)
  Lemma ren_can_start_inv w b : can_start (g eps) ps2 (map g w) b -> exists a, b = g a.
  Proof.
    intros (_ & _ & v & H). apply ren_derives_inv in H as ([|a v1] & Hv & _); [discriminate|].
    inversion Hv. eauto.
  Qed.

  Lemma ren_forall_eq A w : Forall (eq (g A)) (map g w) <-> Forall (eq A) w.
  Proof.
    rewrite Forall_map. split; intros H; eapply Forall_impl; try exact H; simpl; intros x Hx;
      [now apply Hinj|congruence].
  Qed.

  Lemma ren_follow A a : follow_rules (eps := eps) (ps := ps1) A a ->
    follow_rules (eps := g eps) (ps := ps2) (g A) (g a).
  Proof.
    induction 1 as [p u A mid Z v a Hp Ho HA Hn Hc Hf|p u A v a Hp Ho HA Hn _ IH].
    - eapply follow_by_first with (p := ren_production g p) (u := map g u) (mid := map g mid)
        (Z := g Z) (v := map g v).
      + apply HIn; eauto.
      + simpl. rewrite Ho, map_app. simpl. now rewrite map_app.
      + now apply ren_non_terminal.
      + now apply ren_nullable.
      + now apply (ren_can_start [Z]).
      + change [g Z] with (map g [Z]). rewrite <- map_app. now rewrite ren_forall_eq.
    - eapply follow_by_end with (p := ren_production g p) (u := map g u) (v := map g v).
      + apply HIn; eauto.
      + simpl. now rewrite Ho, map_app.
      + now apply ren_non_terminal.
      + now apply ren_nullable.
      + exact IH.
  Qed.

  Lemma ren_follow_inv A b : follow_rules (eps := g eps) (ps := ps2) A b ->
    exists A1 a, A = g A1 /\ b = g a /\ follow_rules (eps := eps) (ps := ps1) A1 a.
  Proof.
    induction 1 as [q u A mid Z v b Hq Ho HA Hn Hc Hf|q u A v b Hq Ho HA Hn _ IH].
    - apply HIn in Hq as (p & Hp & ->). simpl in Ho.
      apply map_app_inv in Ho as (u1 & r1 & Ho & -> & Hr).
      destruct r1 as [|A1 r1]; [discriminate|]. simpl in Hr. inversion Hr as [[HA1 Hr']]. clear Hr. subst A.
      symmetry in Hr'. apply map_app_inv in Hr' as (mid1 & r2 & -> & -> & Hr2).
      destruct r2 as [|Z1 v1]; [discriminate|]. simpl in Hr2. inversion Hr2; subst Z v.
      destruct (@ren_can_start_inv [Z1] b Hc) as [a ->].
      exists A1, a. split; auto. split; auto.
      eapply follow_by_first with (p := p); eauto.
      + now apply ren_non_terminal.
      + now apply ren_nullable.
      + now apply (ren_can_start [Z1]).
      + change [g Z1] with (map g [Z1]) in Hf. rewrite <- map_app, ren_forall_eq in Hf. exact Hf.
    - destruct IH as (B & a & HB & -> & HF). apply HIn in Hq as (p & Hp & ->). simpl in Ho, HB.
      apply Hinj in HB. subst B.
      apply map_app_inv in Ho as (u1 & r1 & Ho & -> & Hr).
      destruct r1 as [|A1 r1]; [discriminate|]. simpl in Hr. inversion Hr as [[HA1 Hr']]. subst A v.
      exists A1, a. split; auto. split; auto.
      eapply follow_by_end with (p := p); eauto.
      + now apply ren_non_terminal.
      + now apply ren_nullable.
  Qed.

  Lemma ren_follow_iff A a : follow_rules (eps := g eps) (ps := ps2) (g A) (g a) <->
    follow_rules (eps := eps) (ps := ps1) A a.
  Proof.
    split; [|apply ren_follow]. intros H. apply ren_follow_inv in H as (A1 & a1 & HA & Ha & H).
    apply Hinj in HA, Ha. now subst.
  Qed.

  Lemma ren_selects p a :
    selects_sem (eps := g eps) (ps := ps2) (ren_production g p) (g a) <->
    selects_sem (eps := eps) (ps := ps1) p a.
  Proof.
    unfold selects_sem. simpl. split; intros (X & rest & Ho & H).
    - destruct (p_output p) as [|X1 rest1] eqn:Ho1; [discriminate|]. simpl in Ho. inversion Ho; subst X rest.
      exists X1, rest1. split; auto. destruct H as [H|[Hn H]].
      + left. now apply (ren_can_start [X1]).
      + right. split; [now apply (ren_nullable [X1])|]. rewrite eqb_ren in H.
        destruct (eqb eps X1); now apply ren_follow_iff.
    - exists (g X), (map g rest). rewrite Ho. split; auto. destruct H as [H|[Hn H]].
      + left. now apply (ren_can_start [X]).
      + right. split; [now apply (ren_nullable [X])|]. rewrite eqb_ren.
        destruct (eqb eps X); now apply ren_follow_iff.
  Qed.
End RenGrammar.

(** ** cells of renamed grammars *)
Section RenCells.
  Context {L1 L2 T1 T2 : Type} {E1 : EqDec T1} {E2 : EqDec T2}.
  Variable g : T1 -> T2.
  Hypothesis Hinj : injective g.
  Variable eps init : T1.
  Variable ps1 : list (production T1).
  Variable ps2 : list (production T2).
  Hypothesis HIn : forall q, In q ps2 -> exists p, In p ps1 /\ p_input q = g (p_input p).
  Hypothesis Hdecl : forall A, declared_for ps2 (g A) = map (ren_production g) (declared_for ps1 A).

  Lemma declared_productions_of {T} {E : EqDec T} (ps : list (production T)) A :
    declared_for ps A = productions_of ps A.
  Proof.
    unfold declared_for, productions_of. apply filter_ext. intros p. unfold eqb. reflexivity.
  Qed.

  Lemma declared_In {T} {E : EqDec T} (ps : list (production T)) A p :
    In p (declared_for ps A) <-> In p ps /\ p_input p = A.
  Proof. rewrite declared_productions_of. apply productions_of_In. Qed.

  Lemma decl_In q : In q ps2 <-> exists p, In p ps1 /\ q = ren_production g p.
  Proof.
    split.
    - intros Hq. destruct (HIn _ Hq) as (p & Hp & Hi).
      assert (H : In q (declared_for ps2 (g (p_input p)))) by (apply declared_In; auto).
      rewrite Hdecl in H. apply in_map_iff in H as (p' & <- & Hp'). apply declared_In in Hp' as [Hp' _].
      eauto.
    - intros (p & Hp & ->).
      assert (H : In (ren_production g p) (map (ren_production g) (declared_for ps1 (p_input p)))).
      { apply in_map. apply declared_In; auto. }
      rewrite <- Hdecl in H. now apply declared_In in H.
  Qed.

  Variables (s1 : option (syntax_error_solver L1 T1)) (s2 : option (syntax_error_solver L2 T2)).
  Variables (self1 : parser L1 T1) (self2 : parser L2 T2).
  Hypothesis B1 : built_parser eps init ps1 s1 self1.
  Hypothesis B2 : built_parser (g eps) (g init) ps2 s2 self2.

  Lemma filter_map_ren {A B} (h : A -> B) (P : B -> bool) (Q : A -> bool) l :
    (forall x, In x l -> P (h x) = Q x) -> filter P (map h l) = map h (filter Q l).
  Proof.
    induction l as [|x l IH]; simpl; intros H; auto. rewrite (H x (or_introl eq_refl)).
    destruct (Q x); simpl; rewrite IH; auto.
  Qed.

  Lemma ren_cells A a :
    transitions_get_productions (pr_transitions self2) (g A) (g a) =
    option_map (map (ren_production g)) (transitions_get_productions (pr_transitions self1) A a).
  Proof.
    pose proof B1 as H. pose proof B2 as H'.
    apply built_inv in H as (ho1 & ho2 & fuel & g1 & ffs & Hg & Hf & Hs).
    apply built_inv in H' as (ho1' & ho2' & fuel' & g2 & ffs' & Hg' & Hf' & Hs').
    apply cfg_new_grammar_of in Hg as G. apply cfg_new_grammar_of in Hg' as G'.
    destruct (ffs_from_exact G _ _ Hf) as [Hx1 Hx2].
    destruct (ffs_from_exact G' _ _ Hf') as [Hx1' Hx2'].
    destruct (rdp_from_inv _ _ _ _ Hs) as (_ & _ & Ht).
    destruct (rdp_from_inv _ _ _ _ Hs') as (_ & _ & Ht').
    rewrite (transitions_cells G _ _ Ht), (transitions_cells G' _ _ Ht').
    assert (H1 : is_non_terminal g2 (g A) = is_non_terminal g1 A).
    { apply eq_true_iff_eq. rewrite (is_non_terminal_spec G), (is_non_terminal_spec G').
      apply ren_non_terminal; auto. apply decl_In. }
    assert (H2 : is_terminal g2 (g a) = is_terminal g1 a).
    { apply eq_true_iff_eq. rewrite (is_terminal_spec G), (is_terminal_spec G').
      apply ren_terminal; auto. apply decl_In. }
    rewrite H1, H2. destruct (is_non_terminal g1 A && is_terminal g1 a); auto. simpl.
    f_equal. rewrite <- !declared_productions_of, Hdecl. apply filter_map_ren.
    intros p Hp. apply declared_In in Hp as [Hp _].
    apply eq_true_iff_eq.
    rewrite (@selectsb_spec _ _ _ _ _ _ G ho2 ffs Hx1 Hx2 p a Hp).
    assert (Hp2 : In (ren_production g p) ps2) by (apply decl_In; eauto).
    rewrite (@selectsb_spec _ _ _ _ _ _ G' ho2' ffs' Hx1' Hx2' _ (g a) Hp2).
    apply ren_selects; auto. apply decl_In.
  Qed.

  Lemma ren_token_productions A a :
    inner_get_token_productions self2 (g A) (g a) =
    map (map g) (inner_get_token_productions self1 A a).
  Proof.
    unfold inner_get_token_productions. rewrite ren_cells.
    destruct (transitions_get_productions (pr_transitions self1) A a); simpl; auto.
    rewrite !map_map. reflexivity.
  Qed.

  Lemma ren_is_non_terminal A :
    is_non_terminal (pr_grammar self2) (g A) = is_non_terminal (pr_grammar self1) A.
  Proof.
    pose proof (po_grammar (bf_of (built_built B1))) as G.
    pose proof (po_grammar (bf_of (built_built B2))) as G'.
    apply eq_true_iff_eq. rewrite (is_non_terminal_spec G), (is_non_terminal_spec G').
    apply ren_non_terminal; auto. apply decl_In.
  Qed.
End RenCells.
