(** * Conflict-free tables: errors are found at the first offending token (proofs) *)

From Verif Require Import BaseFacts GrammarFacts DerivFacts.
From Verif Require Export ParserTrunc.

Set Implicit Arguments.

Ltac splits3 := lazymatch goal with |- _ /\ _ => split; [|splits3] | _ => idtac end.

Section ErrPos.
  Context {L T : Type} {E : EqDec T}.
  Variable eps init : T.
  Variable ps : list (production T).
  Variable self : parser L T.
  Hypothesis P : parser_of eps init ps self.
  Hypothesis Hns : pr_solver self = None.
  Hypothesis Hcf : forall A a, length (inner_get_token_productions self A a) <= 1.
  Variable tokens : list (token L T).

  Notation psr := (parse_symbol_result L T).
  Notation types := (map (@tok_type L T)).
  Notation real := (fun t : token L T => real_terminal eps ps (tok_type t)).
  Notation stok := (stack_ok (eps := eps) (ps := ps) (self := self) tokens).

  (** [ts'] has the same tokens at the positions up to [n] *)
  Definition agree (n : nat) (ts' : list (token L T)) : Prop :=
    forall i, i <= n -> nth_error ts' i = nth_error tokens i.

  Lemma agree_le m n ts' : m <= n -> agree n ts' -> agree m ts'.
  Proof. intros H Ha i Hi. apply Ha. lia. Qed.

  (** from [q] the symbols [Xs] derive the tokens up to [p] followed by the
      innermost failed symbol *)
  Definition eform (Xs : list T) (q p : nat) (f : failed_symbol L T) : Prop :=
    exists w v, derives eps ps Xs (types w ++ innermost f :: v) /\ span tokens q w p /\ Forall real w.

  Definition cfstate (s : state L T) : Prop :=
    match s with
    | StParsing st => ps_prod_iter_option st = None \/ ps_prod_iter_option st = Some []
    | StFixed _ => False
    end.

  Lemma cf_unfixed states : Forall cfstate states -> unfixed states.
  Proof.
    unfold unfixed. induction 1 as [|[st|fs] states H _ IH]; simpl; auto. destruct H.
  Qed.

  (** what a result of a symbol at [pos] needs of the input *)
  Definition local_sym (X : T) (pos : nat) (r : psr)
             (run : list (token L T) -> Prop) : Prop :=
    match r with
    | SymOk st => cfstate (StParsing st) /\ pos <= ps_final_token_position st /\
                  forall ts', agree (ps_final_token_position st) ts' -> run ts'
    | SymErr f => exists p, pos <= p /\ eform [X] pos p f /\ forall ts', agree p ts' -> run ts'
    | SymFix _ => False
    end.

  Definition QSym X pos prods single h r h' : Prop :=
    length prods <= 1 -> good_prods (ps := ps) X prods -> pos < length tokens ->
    local_sym X pos r (fun ts' => RSym self ts' X pos prods single h r h').
  Definition QTry X pos child prods (failed : list (failed_production L T)) h
             (r : psr + list (failed_production L T)) h' : Prop :=
    length prods <= 1 -> failed = [] -> good_prods (ps := ps) X prods -> pos < length tokens ->
    match r with
    | inl r => local_sym X pos r (fun ts' => RTry self ts' X pos child prods failed h (inl r) h')
    | inr fps => exists p, pos <= p /\ eform [X] pos p (FailedSymbol fps X) /\
                   forall ts', agree p ts' -> RTry self ts' X pos child prods failed h (inr fps) h'
    end.
  Definition QProd X out child states pos h (pr : parse_production_result L T) pos' h' : Prop :=
    forall p0 syms rest, stok states p0 pos syms -> Forall cfstate states -> out = syms ++ rest ->
    match pr with
    | ProdOk _ => pos <= pos' /\
        forall ts', agree pos' ts' -> RProd self ts' X out child states pos h pr pos' h'
    | ProdErr (FailedProduction f _ _) =>
        exists p, pos <= p /\ eform out p0 p f /\
        forall ts', agree p ts' -> RProd self ts' X out child states pos h pr pos' h'
    | ProdFix _ => False
    end.
  Definition QStep Y pos child h r h' : Prop :=
    local_sym Y pos r (fun ts' => RStep self ts' Y pos child h r h').
  Definition QPop states child failed h (states' : list (state L T)) popped h' : Prop :=
    Forall cfstate states ->
    popped <> None /\ forall ts', RPop self ts' states child failed h states' popped h'.

  Lemma fix_none ts pos single child failed h fo h' :
    inner_parse_from_tokens_try_fix_productions self ts pos single child failed h = Done (fo, h') ->
    fo = None /\ h' = h.
  Proof.
    unfold inner_parse_from_tokens_try_fix_productions. rewrite Hns. intros H; inversion H; auto.
  Qed.

  Lemma fix_none_done ts pos single child failed h :
    inner_parse_from_tokens_try_fix_productions self ts pos single child failed h = Done (None, h).
  Proof. unfold inner_parse_from_tokens_try_fix_productions. now rewrite Hns. Qed.

  Lemma sym_nil_err ts X pos single h st h' :
    RSym self ts X pos [] single h (SymOk st) h' -> False.
  Proof.
    inversion 1 as [? ? ? ? ? ? ? Ht|? ? ? ? ? ? ? fo]; subst.
    - inversion Ht.
    - destruct fo; discriminate.
  Qed.

  Lemma local_run :
    (forall X pos prods single h r h', RSym self tokens X pos prods single h r h' ->
       QSym X pos prods single h r h') /\
    (forall X pos child prods failed h r h', RTry self tokens X pos child prods failed h r h' ->
       QTry X pos child prods failed h r h') /\
    (forall X out child states pos h pr pos' h',
       RProd self tokens X out child states pos h pr pos' h' ->
       QProd X out child states pos h pr pos' h') /\
    (forall Y pos child h r h', RStep self tokens Y pos child h r h' -> QStep Y pos child h r h') /\
    (forall states child failed h states' popped h',
       RPop self tokens states child failed h states' popped h' ->
       QPop states child failed h states' popped h').
  Proof.
    assert (Hsound := run_sound P tokens).
    apply run_mutind; unfold QSym, QTry, QProd, QStep, QPop.
    - intros X pos prods single h r h' _ IH Hl Hg Hpos. specialize (IH Hl eq_refl Hg Hpos).
      destruct r as [st|f|fs]; simpl in *; auto.
      + destruct IH as (H1 & H2 & H3). splits3; auto. intros ts' Ha. apply RSym_done; auto.
      + destruct IH as (p & H1 & H2 & H3). exists p. splits3; auto.
        intros ts' Ha. apply RSym_done; auto.
    - intros X pos prods single h failed h' fo h'' _ IH Hfix Hl Hg Hpos.
      apply fix_none in Hfix as [-> ->]. specialize (IH Hl eq_refl Hg Hpos). simpl.
      destruct IH as (p & H1 & H2 & H3). exists p. splits3; auto.
      intros ts' Ha. exact (RSym_failed _ (H3 ts' Ha) (fix_none_done _ _ _ _ _ _)).
    - intros X pos child failed h Hl -> Hg Hpos. exists pos. split; auto. split.
      + exists [], []. simpl. splits3; [apply derives_refl|apply span_nil|constructor].
      + intros ts' _. constructor.
    - intros X pos child out rest failed h n pos' h' _ IH Hl -> Hg Hpos.
      destruct (IH pos [] out (stack_nil _ _) (Forall_nil _) eq_refl) as [H1 H2].
      assert (rest = []) by (destruct rest; auto; simpl in Hl; lia). subst rest.
      simpl. splits3; auto. intros ts' Ha. apply RTry_ok; auto.
    - intros X pos child out rest failed h fp pos' h' r h'' Hrun IH Htry _ Hl -> Hg Hpos.
      assert (rest = []) by (destruct rest; auto; simpl in Hl; lia). subst rest.
      inversion Htry; subst. simpl.
      specialize (IH pos [] out (stack_nil _ _) (Forall_nil _) eq_refl).
      destruct fp as [f a b]. destruct IH as (p & H1 & (w & v & Hd & Hsp & Hr) & H3).
      exists p. split; auto. split.
      + exists w, v. splits3; auto. simpl.
        destruct (proj1 Hg out) as (q & Hq & Hqi & Hqo); [simpl; auto|].
        eapply derives_trans; [subst X; now apply derives_production|]. now rewrite Hqo.
      + intros ts' Ha. eapply RTry_err; [apply H3; auto|constructor].
    - intros X pos child out rest failed h fp pos' h' _ IH Hl -> Hg Hpos.
      exact (IH pos [] out (stack_nil _ _) (Forall_nil _) eq_refl).
    - intros X out child states pos h pr Hlen Hb p0 syms rest Hs Hc Ho.
      unfold inner_parse_from_tokens_production_build_node in Hb.
      destruct (existsb (@is_fixed L T) (rev states)) eqn:Hrev.
      { apply existsb_exists in Hrev as (x & Hx & Hxf). apply in_rev in Hx.
        assert (existsb (@is_fixed L T) states = true) by (apply existsb_exists; eauto).
        pose proof (cf_unfixed Hc) as Hu. unfold unfixed in Hu. congruence. }
      pose proof Hb as Hb'. apply bind_done in Hb' as (ns & Hn & Hb'). inversion Hb'; subst pr.
      split; auto. intros ts' _. apply RProd_done; auto.
      unfold inner_parse_from_tokens_production_build_node. rewrite Hrev. exact Hb.
    - intros X out child states pos h Y st h' pr pos' h'' HY Hstep IH1 _ IH2 p0 syms rest Hs Hc Ho.
      destruct IH1 as (Hc1 & Hle & Hag).
      pose proof (stack_ok_length Hs) as Hl.
      pose proof (proj1 (proj2 (proj2 (proj2 Hsound))) _ _ _ _ _ _ Hstep) as [Hst _].
      assert (Hrest : exists rest', rest = Y :: rest').
      { subst out. rewrite Hl, nth_error_app2, Nat.sub_diag in HY by lia.
        destruct rest as [|y rest]; [discriminate|]. simpl in HY. inversion HY; eauto. }
      destruct Hrest as [rest' ->].
      assert (Hs' : stok (StParsing st :: states) p0 (ps_final_token_position st) (syms ++ [Y]))
        by (eapply stack_parsing; eauto).
      specialize (IH2 p0 (syms ++ [Y]) rest' Hs' (Forall_cons _ Hc1 Hc)).
      assert (Ho' : out = (syms ++ [Y]) ++ rest') by now rewrite <- app_assoc.
      specialize (IH2 Ho').
      destruct pr as [n|[f a b]|fp]; auto.
      + destruct IH2 as [H1 H2]. split; [lia|]. intros ts' Ha. eapply RProd_ok; eauto.
        apply Hag. eapply agree_le; eauto.
      + destruct IH2 as (p & H1 & H2 & H3). exists p. splits3; auto; [lia|].
        intros ts' Ha. eapply RProd_ok; eauto. apply Hag. eapply agree_le; eauto.
    - intros X out child states pos h Y fs h' pr pos' h'' HY Hstep IH1 _ IH2 p0 syms rest Hs Hc Ho.
      destruct IH1.
    - intros X out child states pos h Y f h' states' fstates h'' HY Hstep IH1 _ IH2 p0 syms rest Hs Hc Ho.
      destruct IH1 as (p & Hle & (w & v & Hd & Hsp & Hr) & Hag). destruct (IH2 Hc) as [_ Hpop].
      unfold inner_parse_from_tokens_production_build_failed_symbol.
      exists p. split; auto.
      pose proof (stack_ok_length Hs) as Hl.
      assert (Hrest : exists rest', rest = Y :: rest').
      { subst out. rewrite Hl, nth_error_app2, Nat.sub_diag in HY by lia.
        destruct rest as [|y rest]; [discriminate|]. simpl in HY. inversion HY; eauto. }
      destruct Hrest as [rest' ->]. split.
      + destruct (stack_derives Hs (cf_unfixed Hc)) as (w0 & Hd0 & Hsp0 & Hr0).
        exists (w0 ++ w), (v ++ rest'). splits3.
        * subst out. rewrite map_app, <- app_assoc. apply (derives_app Hd0).
          replace (types w ++ innermost f :: v ++ rest') with ((types w ++ innermost f :: v) ++ rest')
            by now rewrite <- app_assoc.
          exact (derives_app Hd (derives_refl _ _ rest')).
        * eapply span_app; eauto.
        * apply Forall_app; auto.
      + intros ts' Ha. eapply RProd_failed; eauto.
    - intros X out child states pos h Y f h' st states' h'' pr pos' h3 HY _ _ _ IHpop _ _ p0 syms rest Hs Hc Ho.
      destruct (IHpop Hc) as [Hn _]. congruence.
    - intros Y pos child h tok r h' Hnt Htok _ IH.
      assert (Hpos : pos < length tokens) by (apply nth_error_Some; congruence).
      specialize (IH (Hcf _ _) (token_productions_good P _ _) Hpos).
      destruct r as [st|f|fs]; simpl in *; auto.
      + destruct IH as (H1 & H2 & H3). splits3; auto. intros ts' Ha. eapply RStep_nt; eauto.
        rewrite Ha; auto.
      + destruct IH as (p & H1 & H2 & H3). exists p. splits3; auto.
        intros ts' Ha. eapply RStep_nt; eauto. rewrite Ha; auto.
    - intros Y pos child h Hnt.
      assert (Hrun : forall ts', agree pos ts' ->
                RStep self ts' Y pos child h (inner_parse_terminal_symbol self Y tokens pos) h).
      { intros ts' Ha.
        replace (inner_parse_terminal_symbol self Y tokens pos)
          with (inner_parse_terminal_symbol self Y ts' pos); [now apply RStep_t|].
        unfold inner_parse_terminal_symbol, inner_parse_non_epsilon_terminal_symbol.
        now rewrite (Ha pos (le_n _)). }
      assert (Herr : eform [Y] pos pos (FailedSymbol [] Y)).
      { exists [], []. simpl. splits3; [apply derives_refl|apply span_nil|constructor]. }
      revert Hrun. unfold inner_parse_terminal_symbol.
      destruct (eqb _ _).
      + intros Hrun. simpl. splits3; auto.
      + unfold inner_parse_non_epsilon_terminal_symbol.
        destruct (nth_error tokens pos) as [tok|].
        * destruct (eqb Y (tok_type tok)); intros Hrun; simpl.
          -- splits3; auto; [lia|]. intros ts' Ha. apply Hrun. eapply agree_le; [|exact Ha]. lia.
          -- exists pos. splits3; auto.
        * intros Hrun. simpl. exists pos. splits3; auto.
    - intros child failed h _. split; [discriminate|]. intros. constructor.
    - intros fs states child failed h states' popped h' _ _ Hc. inversion Hc as [|? ? Hf]; destruct Hf.
    - intros st states child failed h states' popped h' Hit _ IH Hc. inversion Hc; subst.
      destruct (IH H2) as [H3 H4]. split; auto. intros ts'. apply RPop_leaf; auto.
    - intros st it states child failed h ps' h' Hit Hrun _ Hc. inversion Hc as [|? ? Hst]; subst.
      simpl in Hst. exfalso. destruct Hst as [Hst|Hst]; [congruence|].
      assert (it = []) by congruence. subst it. exact (sym_nil_err Hrun).
    - intros st it states child failed h r h' states' popped h'' Hit Hrun _ Hr _ IH Hc.
      inversion Hc as [|? ? Hst Hrest]; subst. destruct (IH Hrest) as [H3 H4]. split; auto.
      intros ts'. eapply RPop_skip; eauto.
      assert (it = []) by (destruct Hst as [Hst|Hst]; simpl in Hst; congruence). subst it.
      inversion Hrun; subst.
      + inversion H.
      + apply fix_none in H0 as [-> ->]. inversion H; subst.
        exact (RSym_failed _ (RTry_nil self ts' _ _ _ _ _) (fix_none_done _ _ _ _ _ _)).
  Qed.
End ErrPos.
