(** * Conflict-free tables: until it answers, a solver is asked about the first offending token (proofs) *)

From Verif Require Import BaseFacts GrammarFacts DerivFacts.
From Verif Require Import ParserCF ParserEscalate.
From Verif Require Export ParserErrPos.

Set Implicit Arguments.

Section Asked.
  Context {L T : Type} {E : EqDec T}.
  Variable eps init : T.
  Variable ps : list (production T).
  (** [self] asks the solver [sv]; [self0] is the same parser without solver *)
  Variables self self0 : parser L T.
  Variable sv : syntax_error_solver L T.
  Hypothesis P0 : parser_of eps init ps self0.
  Hypothesis Hsv : pr_solver self = Some sv.
  Hypothesis Hns : pr_solver self0 = None.
  Hypothesis Hgr : pr_grammar self0 = pr_grammar self.
  Hypothesis Hcells : forall A a, inner_get_token_productions self0 A a =
                                  inner_get_token_productions self A a.
  Hypothesis Hcf : forall A a, length (inner_get_token_productions self A a) <= 1.
  Variable tokens : list (token L T).

  Notation psr := (parse_symbol_result L T).
  Notation types := (map (@tok_type L T)).
  Notation stok := (stack_ok (eps := eps) (ps := ps) (self := self0) tokens).
  Notation agr := (agree tokens).
  Notation eform := (eform eps ps tokens).

  Definition inner_fp (fp : failed_production L T) : T :=
    match fp with FailedProduction f _ _ => innermost f end.

  (** every call of [seg], made after [base], was refused *)
  Definition clean (base seg : list (solver_call L T)) : Prop :=
    forall s1 c s2, seg = s1 ++ c :: s2 -> sv (base ++ s1) c = Reply None.

  (** the calls of [seg] before and at the first answer are at or before [p], and their
      reports end at [X] *)
  Definition asked (p : nat) (X : T) (base seg : list (solver_call L T)) : Prop :=
    forall s1 c s2, seg = s1 ++ c :: s2 -> clean base s1 ->
      call_position c <= p /\ forall fp rest, call_failures c = fp :: rest -> inner_fp fp = X.

  Lemma clean_app base a b : clean base (a ++ b) -> clean base a /\ clean (base ++ a) b.
  Proof.
    intros H. split.
    - intros s1 c s2 ->. apply (H s1 c (s2 ++ b)). now rewrite <- app_assoc.
    - intros s1 c s2 ->. rewrite <- app_assoc. apply (H (a ++ s1) c s2). now rewrite <- app_assoc.
  Qed.

  Lemma asked_nil p X base : asked p X base [].
  Proof. intros s1 c s2 H. destruct s1; discriminate. Qed.

  Lemma asked_app p X base a b : asked p X base a -> (clean base a -> asked p X (base ++ a) b) ->
    asked p X base (a ++ b).
  Proof.
    intros Ha Hb s1 c s2 H Hc.
    destruct (@app_cons_split _ _ _ _ _ _ H) as [(m & -> & ->)|(m & -> & ->)].
    - eapply Ha; eauto.
    - apply clean_app in Hc as [H1 H2]. eapply Hb; eauto.
  Qed.

  Lemma asked_one p X base c : call_position c <= p ->
    (forall fp rest, call_failures c = fp :: rest -> inner_fp fp = X) -> asked p X base [c].
  Proof.
    intros H1 H2 s1 d s2 H _. destruct s1 as [|x s1]; simpl in H; inversion H; subst; auto.
    now destruct s1.
  Qed.

  Lemma asked_empty p X base seg : Forall (fun c => call_position c <= p /\ call_failures c = []) seg ->
    asked p X base seg.
  Proof.
    intros H s1 c s2 -> _. apply Forall_app in H as [_ H]. inversion H as [|? ? [H1 H2]]; subst.
    split; auto. rewrite H2. discriminate.
  Qed.

  Lemma not_clean_last base a c fr : sv (base ++ a) c = Reply (Some fr) -> ~ clean base (a ++ [c]).
  Proof. intros H Hc. specialize (Hc a c [] eq_refl). congruence. Qed.

  (** without solver, [X] fails at [p] with the report [f], whatever comes after [p] *)
  Definition fails (X : T) (pos p : nat) (f : failed_symbol L T)
             (run : list (token L T) -> bool -> history L T -> Prop) : Prop :=
    pos <= p /\ eform [X] pos p f /\ forall ts' single h, agr p ts' -> run ts' single h.

  Definition KSym (X : T) (pos : nat) (r : psr) (base seg : list (solver_call L T))
             (run : failed_symbol L T -> list (token L T) -> bool -> history L T -> Prop) : Prop :=
    match r with
    | SymOk _ => True
    | _ => exists p f, fails X pos p f (run f) /\ asked p (innermost f) base seg /\
             match r with
             | SymErr f' => clean base seg -> innermost f' = innermost f
             | _ => ~ clean base seg
             end
    end.

  Definition low (n : nat) (s : state L T) : Prop :=
    match s with StParsing st => ps_initial_token_position st <= n | StFixed _ => True end.

  Definition QSym X pos prods (single : bool) h r h' : Prop :=
    length prods <= 1 -> good_prods (ps := ps) X prods -> pos < length tokens ->
    exists seg, h' = h ++ seg /\
      KSym X pos r h seg (fun f ts' single' h1 => RSym self0 ts' X pos prods single' h1 (SymErr f) h1).
  Definition QTry X pos (child : bool) prods (failed : list (failed_production L T)) h
             (r : psr + list (failed_production L T)) h' : Prop :=
    length prods <= 1 -> failed = [] -> good_prods (ps := ps) X prods -> pos < length tokens ->
    exists seg, h' = h ++ seg /\
    match r with
    | inl r => KSym X pos r h seg (fun f ts' child' h1 =>
                 exists fps, f = FailedSymbol fps X /\ RTry self0 ts' X pos child' prods [] h1 (inr fps) h1)
    | inr fps' => (prods = [] -> fps' = []) /\
        KSym X pos (SymErr (FailedSymbol fps' X)) h seg (fun f ts' child' h1 =>
                 exists fps, f = FailedSymbol fps X /\ RTry self0 ts' X pos child' prods [] h1 (inr fps) h1)
    end.
  Definition QProd X out (child : bool) states pos h (pr : parse_production_result L T) (pos' : nat) h' : Prop :=
    forall p0 syms rest, stok states p0 pos syms -> Forall (@cfstate L T) states -> Forall (low pos) states ->
    out = syms ++ rest ->
    exists seg, h' = h ++ seg /\
    match pr with
    | ProdOk _ => True
    | _ => exists p f a b, pos <= p /\ eform out p0 p f /\
             (forall ts' child' h1, agr p ts' -> exists q,
                RProd self0 ts' X out child' states pos h1 (ProdErr (FailedProduction f a b)) q h1) /\
             asked p (innermost f) h seg /\
             match pr with
             | ProdErr fp => clean h seg -> inner_fp fp = innermost f
             | _ => ~ clean h seg
             end
    end.
  Definition QStep Y pos (child : bool) h r h' : Prop :=
    exists seg, h' = h ++ seg /\
      KSym Y pos r h seg (fun f ts' child' h1 => RStep self0 ts' Y pos child' h1 (SymErr f) h1).
  Definition QPop states (child : bool) (failed : list (state L T)) (h : history L T) (states' : list (state L T))
             (popped : option (list (state L T))) (h' : history L T) : Prop :=
    forall n, Forall (@cfstate L T) states -> Forall (low n) states ->
    popped <> None /\
    exists seg, h' = h ++ seg /\ Forall (fun c : solver_call L T => call_position c <= n /\ call_failures c = []) seg.

  Lemma pop_none states : Forall (@cfstate L T) states -> forall failed,
    exists fstates, forall ts' child h, RPop self0 ts' states child failed h [] (Some fstates) h.
  Proof.
    induction 1 as [|[st|fs] states Hs Hf IH]; intros failed.
    - exists failed. constructor.
    - destruct Hs as [Hs|Hs].
      + destruct (IH (StParsing st :: failed)) as [x Hx]. exists x. intros. now apply RPop_leaf.
      + destruct (IH failed) as [x Hx]. exists x. intros ts' child h.
        eapply RPop_skip; [exact Hs| | |apply Hx].
        * exact (RSym_failed _ (RTry_nil self0 ts' _ _ _ _ _) (fix_none_done self0 Hns _ _ _ _ _ _)).
        * discriminate.
    - destruct Hs.
  Qed.

  Lemma cf_frozen states : Forall (@cfstate L T) states -> Forall (@frozen L T) states.
  Proof. induction 1 as [|[st|fs] states Hs Hf IH]; constructor; auto. destruct Hs. Qed.

  Lemma Hcf0 A a : length (inner_get_token_productions self0 A a) <= 1.
  Proof. rewrite Hcells. apply Hcf. Qed.

  Lemma calls_grow child h h' K : rest_of child h h' K -> exists seg : list (solver_call L T), h' = h ++ seg.
  Proof. intros (seg & -> & _). eauto. Qed.

  Lemma asked_run :
    (forall X pos prods single h r h', RSym self tokens X pos prods single h r h' ->
       QSym X pos prods single h r h') /\
    (forall X pos child prods failed h r h', RTry self tokens X pos child prods failed h r h' ->
       QTry X pos child prods failed h r h') /\
    (forall X out child states pos h pr pos' h',
       RProd self tokens X out child states pos h pr pos' h' ->
       QProd X out child states pos h pr pos' h') /\
    (forall Y pos child h r h', RStep self tokens Y pos child h r h' -> QStep Y pos child h r h') /\
    (forall states child failed h states' popped h',
       RPop self tokens states child failed h states' popped h' ->
       QPop states child failed h states' popped h').
  Proof.
    assert (Hsound := run_sound P0 tokens).
    assert (Hloc := local_run P0 Hns Hcf0 tokens).
    destruct (@cf_all L T E self self0 Hgr Hcells Hcf tokens tokens (fun _ _ H => H))
      as (CSym & CTry & CProd & CStep & CPop).
    pose proof (escalate_all self tokens Hsv Hcf) as (ESym & ETry & EProd & EStep & EPop).
    apply run_mutind; unfold QSym, QTry, QProd, QStep, QPop.
    - (* RSym_done *)
      intros X pos prods single h r h' Htry IH Hl Hg Hpos.
      destruct (IH Hl eq_refl Hg Hpos) as (seg & -> & Hk). exists seg. split; auto.
      destruct r as [st|f'|fs]; simpl in *; auto;
        destruct Hk as (p & f & (H1 & H2 & H3) & H4 & H5); exists p, f; split; auto; split; auto; split; auto;
        intros ts' single' h1 Ha;
        destruct (H3 ts' (is_child_single_path single' prods) h1 Ha) as (fps & -> & HR);
        exact (RSym_failed single' HR (fix_none_done self0 Hns _ _ _ _ _ _)).
    - (* RSym_failed *)
      intros X pos prods single h failed h' fo h'' Htry IH Hfix Hl Hg Hpos.
      destruct (IH Hl eq_refl Hg Hpos) as (seg & -> & Hemp & p & f & (H1 & H2 & H3) & H4 & H5).
      assert (Hfails : fails X pos p f (fun ts' single' h1 =>
                RSym self0 ts' X pos prods single' h1 (SymErr f) h1)).
      { split; auto; split; auto. intros ts' single' h1 Ha.
        destruct (H3 ts' (is_child_single_path single' prods) h1 Ha) as (fps & -> & HR).
        exact (RSym_failed single' HR (fix_none_done self0 Hns _ _ _ _ _ _)). }
      unfold inner_parse_from_tokens_try_fix_productions in Hfix. rewrite Hsv in Hfix.
      assert (Hcall : forall c, call_position c = pos -> call_failures c = failed ->
                forall fo', sv (h ++ seg) c = Reply fo' -> 
                exists seg', (h ++ seg) ++ [c] = h ++ seg' /\
                KSym X pos (inner_parse_from_tokens_fix_option_to_parse_symbol_result failed fo' X) h seg'
                  (fun f0 ts' single' h1 => RSym self0 ts' X pos prods single' h1 (SymErr f0) h1)).
      { intros c Hc1 Hc2 fo' Hre. exists (seg ++ [c]). split; [now rewrite app_assoc|].
        assert (Has : asked p (innermost f) h (seg ++ [c])).
        { apply asked_app; auto. intros Hcl. apply asked_one; [lia|].
          rewrite Hc2. intros fp rest ->. specialize (H5 Hcl). destruct fp. exact H5. }
        destruct fo' as [fr|]; simpl; exists p, f; split; auto; split; auto.
        - eapply not_clean_last; eauto.
        - intros Hcl. apply clean_app in Hcl as [Hcl _]. exact (H5 Hcl). }
      destruct single.
      + destruct (is_child_single_path true prods).
        * destruct failed as [|fp failed]; [discriminate|].
          apply await_done in Hfix as [Hre ->]. apply Hcall; auto. simpl.
          assert (failed = []); [|now subst].
          destruct (ETry _ _ _ _ _ _ _ _ Htry Hl) as (sg & _ & _ & Hk).
          destruct prods; [destruct Hk as [_ Hk]; discriminate|].
          destruct Hk as (fp' & Hk & _). simpl in Hk. now inversion Hk.
        * apply await_done in Hfix as [Hre ->]. apply Hcall; auto.
      + inversion Hfix; subst. exists seg. split; auto. simpl. exists p, f. split; auto.
    - (* RTry_nil *)
      intros X pos child failed h Hl -> Hg Hpos. exists []. rewrite app_nil_r. split; auto. split; auto.
      exists pos, (FailedSymbol [] X). split; [|split; [apply asked_nil|auto]].
      split; auto. split.
      + exists [], []. simpl. splits3; [apply derives_refl|apply span_nil|constructor].
      + intros ts' single' h1 _. exists []. split; auto. constructor.
    - (* RTry_ok *)
      intros X pos child out rest failed h n pos' h' HR _ Hl -> Hg Hpos.
      destruct (CProd _ _ _ _ _ _ _ _ _ HR (Forall_nil _) n eq_refl) as (_ & -> & _).
      exists []. rewrite app_nil_r. simpl. auto.
    - (* RTry_err *)
      intros X pos child out rest failed h fp pos' h' r h'' Hrun IH Htry _ Hl -> Hg Hpos.
      assert (rest = []) by (destruct rest; auto; simpl in Hl; lia). subst rest.
      inversion Htry; subst. simpl.
      destruct (IH pos [] out (stack_nil _ _) (Forall_nil _) (Forall_nil _) eq_refl)
        as (seg & -> & p & f & a0 & b0 & H1 & (w & v & Hd & Hsp & Hr) & H3 & H4 & H5).
      exists seg. split; auto. split; [discriminate|]. exists p.
      assert (Hd' : derives eps ps [X] (types w ++ innermost f :: v)).
      { destruct (proj1 Hg out) as (q & Hq & Hqi & Hqo); [simpl; auto|].
        eapply derives_trans; [subst X; now apply derives_production|]. now rewrite Hqo. }
      exists (FailedSymbol [FailedProduction f a0 b0] X). split; [|split; [exact H4|]].
      + split; auto. split; [exists w, v; simpl; auto|].
        intros ts' child' h1 Ha. exists [FailedProduction f a0 b0]. split; auto.
        destruct (H3 ts' child' h1 Ha) as (q2 & HR2).
        eapply RTry_err; [exact HR2|constructor].
      + simpl. destruct fp as [f' a b]. exact H5.
    - (* RTry_fix *)
      intros X pos child out rest failed h fp pos' h' HR IH Hl -> Hg Hpos.
      assert (rest = []) by (destruct rest; auto; simpl in Hl; lia). subst rest.
      destruct (IH pos [] out (stack_nil _ _) (Forall_nil _) (Forall_nil _) eq_refl)
        as (seg & -> & p & f & a0 & b0 & H1 & (w & v & Hd & Hsp & Hr) & H3 & H4 & H5).
      exists seg. split; auto. simpl. exists p.
      assert (Hd' : derives eps ps [X] (types w ++ innermost f :: v)).
      { destruct (proj1 Hg out) as (q & Hq & Hqi & Hqo); [simpl; auto|].
        eapply derives_trans; [subst X; now apply derives_production|]. now rewrite Hqo. }
      exists (FailedSymbol [FailedProduction f a0 b0] X). split; [|split; auto].
      split; auto. split; [exists w, v; simpl; auto|].
      intros ts' child' h1 Ha. exists [FailedProduction f a0 b0]. split; auto.
      destruct (H3 ts' child' h1 Ha) as (q2 & HR2).
      eapply RTry_err; [exact HR2|constructor].
    - (* RProd_done *)
      intros X out child states pos h pr Hlen Hb p0 syms rest Hs Hc Hlow Ho.
      exists []. rewrite app_nil_r. split; auto.
      unfold inner_parse_from_tokens_production_build_node in Hb.
      destruct (existsb (@is_fixed L T) (rev states)) eqn:Hrev.
      { apply existsb_exists in Hrev as (x & Hx & Hxf). apply in_rev in Hx.
        assert (existsb (@is_fixed L T) states = true) by (apply existsb_exists; eauto).
        pose proof (cf_unfixed Hc) as Hu. unfold unfixed in Hu. congruence. }
      apply bind_done in Hb as (ns & Hn & Hb'). inversion Hb'; subst pr. exact I.
    - (* RProd_ok *)
      intros X out child states pos h Y st h' pr pos' h'' HY Hstep _ Hprod IH2 p0 syms rest Hs Hc Hlow Ho.
      destruct (CStep _ _ _ _ _ _ Hstep st eq_refl) as (Hfr & -> & Hst0).
      pose proof (Hst0 child []) as Hstep0.
      pose proof (proj1 (proj2 (proj2 (proj2 Hloc))) _ _ _ _ _ _ Hstep0) as (Hc1 & Hle & _).
      pose proof (stack_ok_length Hs) as Hl.
      pose proof (proj1 (proj2 (proj2 (proj2 Hsound))) _ _ _ _ _ _ Hstep0) as [Hst _].
      assert (Hrest : exists rest', rest = Y :: rest').
      { subst out. rewrite Hl, nth_error_app2, Nat.sub_diag in HY by lia.
        destruct rest as [|y rest]; [discriminate|]. simpl in HY. inversion HY; eauto. }
      destruct Hrest as [rest' ->].
      assert (Hs' : stok (StParsing st :: states) p0 (ps_final_token_position st) (syms ++ [Y]))
        by (eapply stack_parsing; eauto).
      assert (Hlow' : Forall (low (ps_final_token_position st)) (StParsing st :: states)).
      { constructor.
        - simpl. destruct Hst as (_ & -> & _). exact Hle.
        - eapply Forall_impl; [|exact Hlow]. intros [s|s]; simpl; auto; lia. }
      destruct (IH2 p0 (syms ++ [Y]) rest' Hs' (Forall_cons (StParsing st) Hc1 Hc) Hlow') as (seg & -> & Hk).
      { subst out. now rewrite <- app_assoc. }
      exists seg. split; auto. destruct pr as [n|fp|fp]; auto;
        destruct Hk as (p & f & a & b & H1 & H2 & H3 & H4 & H5); exists p, f, a, b;
        (split; [lia|]); (split; [exact H2|]); (split; [|split; auto]);
        intros ts' child' h1 Ha; destruct (H3 ts' child' h1 Ha) as (q & HR); exists q;
        (eapply RProd_ok; [exact HY| |exact HR]);
        destruct (proj1 (proj2 (proj2 (proj2 Hloc))) _ _ _ _ _ _ (Hst0 child' h1)) as (_ & _ & Hag);
        apply Hag; eapply agree_le; eauto.
    - (* RProd_fix *)
      intros X out child states pos h Y fs h' pr pos' h'' HY Hstep IH1 Hprod _ p0 syms rest Hs Hc Hlow Ho.
      destruct IH1 as (seg & -> & p & f & (H1 & (w & v & Hd & Hsp & Hr) & H3) & H4 & H5).
      assert (Hfr2 : Forall (@frozen L T) (StFixed fs :: states))
        by (constructor; [exact I|now apply cf_frozen]).
      destruct (calls_grow (EProd _ _ _ _ _ _ _ _ _ Hprod Hfr2)) as (seg2 & ->).
      exists (seg ++ seg2). split; [now rewrite app_assoc|].
      assert (Hnc : ~ clean h (seg ++ seg2)) by (intros Hcl; apply clean_app in Hcl as [Hcl _]; auto).
      pose proof (stack_ok_length Hs) as Hl.
      assert (Hrest : exists rest', rest = Y :: rest').
      { subst out. rewrite Hl, nth_error_app2, Nat.sub_diag in HY by lia.
        destruct rest as [|y rest]; [discriminate|]. simpl in HY. inversion HY; eauto. }
      destruct Hrest as [rest' ->].
      destruct (@pop_none states Hc []) as [fstates Hpop].
      assert (Hgoal : exists p f a b, pos <= p /\ eform out p0 p f /\
             (forall ts' child' h1, agr p ts' -> exists q,
                RProd self0 ts' X out child' states pos h1 (ProdErr (FailedProduction f a b)) q h1) /\
             asked p (innermost f) h (seg ++ seg2)).
      { exists p, f. do 2 eexists. split; auto. split; [|split].
        - destruct (stack_derives Hs (cf_unfixed Hc)) as (w0 & Hd0 & Hsp0 & Hr0).
          exists (w0 ++ w), (v ++ rest'). splits3.
          + subst out. rewrite map_app, <- app_assoc. apply (derives_app Hd0).
            replace (types w ++ innermost f :: v ++ rest') with ((types w ++ innermost f :: v) ++ rest')
              by now rewrite <- app_assoc.
            exact (derives_app Hd (derives_refl _ _ rest')).
          + eapply span_app; eauto.
          + apply Forall_app; auto.
        - intros ts' child' h1 Ha. exists pos. eapply RProd_failed; [exact HY|apply H3; auto|apply Hpop].
        - apply asked_app; auto. intros Hcl. contradiction. }
      destruct Hgoal as (p' & f' & a & b & G1 & G2 & G3 & G4).
      destruct pr as [n|fp|fp]; auto; exists p', f', a, b; split; auto; split; auto; split; auto; split; auto.
      intros Hcl. contradiction.
    - (* RProd_failed *)
      intros X out child states pos h Y f' h' states' fstates h'' HY Hstep IH1 _ IH2 p0 syms rest Hs Hc Hlow Ho.
      destruct IH1 as (seg & -> & p & f & (H1 & (w & v & Hd & Hsp & Hr) & H3) & H4 & H5).
      destruct (IH2 pos Hc Hlow) as [_ (seg2 & -> & Hempty)].
      exists (seg ++ seg2). split; [now rewrite app_assoc|].
      pose proof (stack_ok_length Hs) as Hl.
      assert (Hrest : exists rest', rest = Y :: rest').
      { subst out. rewrite Hl, nth_error_app2, Nat.sub_diag in HY by lia.
        destruct rest as [|y rest]; [discriminate|]. simpl in HY. inversion HY; eauto. }
      destruct Hrest as [rest' ->].
      destruct (@pop_none states Hc []) as [fstates0 Hpop].
      exists p, f. do 2 eexists. split; auto. split; [|split; [|split]].
      + destruct (stack_derives Hs (cf_unfixed Hc)) as (w0 & Hd0 & Hsp0 & Hr0).
        exists (w0 ++ w), (v ++ rest'). splits3.
        * subst out. rewrite map_app, <- app_assoc. apply (derives_app Hd0).
          replace (types w ++ innermost f :: v ++ rest') with ((types w ++ innermost f :: v) ++ rest')
            by now rewrite <- app_assoc.
          exact (derives_app Hd (derives_refl _ _ rest')).
        * eapply span_app; eauto.
        * apply Forall_app; auto.
      + intros ts' child' h1 Ha. exists pos. eapply RProd_failed; [exact HY|apply H3; auto|apply Hpop].
      + apply asked_app; auto. intros _. apply asked_empty. eapply Forall_impl; [|exact Hempty].
        simpl. intros c [Hq Hf]. split; auto. lia.
      + intros Hcl. apply clean_app in Hcl as [Hcl _]. simpl. auto.
    - (* RProd_retry *)
      intros X out child states pos h Y f h' st states' h'' pr pos' h3 HY _ _ _ IHpop _ _ p0 syms rest Hs Hc Hlow Ho.
      destruct (IHpop pos Hc Hlow) as [Hn _]. congruence.
    - (* RStep_nt *)
      intros Y pos child h tok r h' Hnt Htok _ IH.
      assert (Hpos : pos < length tokens) by (apply nth_error_Some; congruence).
      destruct IH as (seg & -> & Hk); auto.
      { rewrite <- Hcells. apply (token_productions_good P0). }
      exists seg. split; auto.
      assert (Hstep : forall p f, pos <= p -> forall ts' child' h1, agr p ts' ->
                RSym self0 ts' Y pos (inner_get_token_productions self Y (tok_type tok)) child' h1 (SymErr f) h1 ->
                RStep self0 ts' Y pos child' h1 (SymErr f) h1).
      { intros p f Hp ts' child' h1 Ha HR. apply RStep_nt with (tok := tok).
        - now rewrite Hgr.
        - now rewrite Ha.
        - now rewrite Hcells. }
      destruct r as [st|f'|fs]; simpl in *; auto;
        destruct Hk as (p & f & (H1 & H2 & H3) & H4 & H5); exists p, f; (split; [|auto]);
        split; auto; split; auto; intros; eapply Hstep; eauto.
    - (* RStep_t *)
      intros Y pos child h Hnt. exists []. rewrite app_nil_r. split; auto.
      assert (Hnt0 : is_non_terminal (pr_grammar self0) Y = false) by now rewrite Hgr.
      assert (Hrun : RStep self0 tokens Y pos child h (inner_parse_terminal_symbol self Y tokens pos) h).
      { replace (inner_parse_terminal_symbol self Y tokens pos)
          with (inner_parse_terminal_symbol self0 Y tokens pos); [now apply RStep_t|].
        unfold inner_parse_terminal_symbol. now rewrite Hgr. }
      pose proof (proj1 (proj2 (proj2 (proj2 Hloc))) _ _ _ _ _ _ Hrun) as Hl.
      destruct (inner_parse_terminal_symbol self Y tokens pos) as [st|f|fs]; simpl in *; [exact I| |destruct Hl].
      destruct Hl as (p & H1 & H2 & H3). exists p, f. split; [|split; [apply asked_nil|auto]].
      split; auto. split; auto. intros ts' child' h1 Ha. specialize (H3 ts' Ha). clear - H3 Hnt0.
      inversion H3; subst; [congruence|]. now apply RStep_t.
    - intros child failed h n _ _. split; [discriminate|]. exists []. rewrite app_nil_r. auto.
    - intros fs states child failed h states' popped h' _ _ n Hc _. inversion Hc as [|? ? Hf]; destruct Hf.
    - intros st states child failed h states' popped h' Hit _ IH n Hc Hlow. inversion Hc; inversion Hlow; subst. auto.
    - intros st it states child failed h st' h' Hit Hrun _ n Hc Hlow. exfalso.
      inversion Hc as [|? ? Hst]; subst. simpl in Hst. destruct Hst as [Hst|Hst]; [congruence|].
      assert (it = []) by congruence. subst it. exact (sym_nil_err Hrun).
    - intros st it states child failed h r h' states' popped h'' Hit Hrun _ Hr _ IH n Hc Hlow.
      inversion Hc as [|? ? Hst Hrest]; subst. inversion Hlow as [|? ? Hl1 Hl2]; subst. simpl in Hl1.
      destruct (IH n Hrest Hl2) as [H3 (seg & -> & Hseg)]. split; auto.
      assert (it = []) by (destruct Hst as [Hst|Hst]; simpl in Hst; congruence). subst it.
      assert (Hone : exists one, h' = h ++ one /\
                Forall (fun c : solver_call L T => call_position c <= n /\ call_failures c = []) one).
      { clear - Hrun Hsv Hl1. inversion Hrun as [? ? ? ? ? ? ? HT|? ? ? ? ? failed0 h1 fo ? HT Hfix]; subst; inversion HT; subst.
        unfold inner_parse_from_tokens_try_fix_productions in Hfix. rewrite Hsv in Hfix.
        destruct child; [|inversion Hfix; subst; exists []; rewrite app_nil_r; auto].
        simpl in Hfix. apply await_done in Hfix as [_ ->]. eexists [_]. split; [reflexivity|]. auto. }
      destruct Hone as (one & -> & Ho). exists (one ++ seg). split; [now rewrite app_assoc|].
      apply Forall_app. auto.
  Qed.
End Asked.
