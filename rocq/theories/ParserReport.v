(** * Shape of error reports, fixes and solver calls (proofs) *)

From Verif Require Import BaseFacts GrammarFacts DerivFacts.
From Verif Require Export ParserSound ReportSpec.

Set Implicit Arguments.

Lemma prefix_refl (A : Type) (l : list A) : prefix l l.
Proof. exists []. now rewrite app_nil_r. Qed.
Lemma prefix_trans (A : Type) (a b c : list A) : prefix a b -> prefix b c -> prefix a c.
Proof. intros [x ->] [y ->]. exists (x ++ y). now rewrite app_assoc. Qed.
Lemma prefix_app (A : Type) (a b : list A) : prefix a (a ++ b).
Proof. now exists b. Qed.

Section Report.
  Context {L T : Type} {E : EqDec T}.
  Context {eps init : T} {ps : list (production T)} {self : parser L T}.
  Hypothesis P : parser_of eps init ps self.
  Variable tokens : list (token L T).
  Let G := po_grammar P.

  Lemma fix_prefix pos single child failed h fo h' :
    inner_parse_from_tokens_try_fix_productions self tokens pos single child failed h = Done (fo, h') ->
    prefix h h'.
  Proof.
    unfold inner_parse_from_tokens_try_fix_productions.
    destruct (pr_solver self); [|intros H; inversion H; subst; apply prefix_refl].
    destruct single; [|intros H; inversion H; subst; apply prefix_refl].
    destruct child.
    - destruct failed; [discriminate|]. intros H; apply await_done in H as [_ ->]; apply prefix_app.
    - intros H; apply await_done in H as [_ ->]; apply prefix_app.
  Qed.

  Lemma hist_ext :
    (forall X pos prods single h r h', RSym self tokens X pos prods single h r h' -> prefix h h') /\
    (forall X pos child prods failed h r h', RTry self tokens X pos child prods failed h r h' -> prefix h h') /\
    (forall X out child states pos h pr pos' h',
       RProd self tokens X out child states pos h pr pos' h' -> prefix h h') /\
    (forall Y pos child h r h', RStep self tokens Y pos child h r h' -> prefix h h') /\
    (forall states child failed h states' popped h',
       RPop self tokens states child failed h states' popped h' -> prefix h h').
  Proof.
    apply run_mutind; intros; eauto using prefix_refl, prefix_trans, fix_prefix.
  Qed.

  Variable H : list (solver_call L T).
  Notation cands := (inner_get_token_productions self).
  Notation answer := (answered cands (pr_solver self) H).
  Notation fixed := (fixed_for eps ps tokens cands answer).
  Notation parts_for := (fixed_parts eps ps tokens cands answer).
  Notation pprefix := (parsed_prefix eps ps tokens cands answer).
  Notation freport := (failed_report eps ps tokens cands answer).
  Notation flist := (failed_list eps ps tokens cands answer).
  Notation fprod := (failed_production_report eps ps tokens cands answer).
  Notation cok := (call_ok eps init ps tokens cands answer).
  Notation spath := (single_path eps init ps tokens cands answer).

  Definition suffix_ok (X : T) (pos : nat) (prods : list (list T)) : Prop :=
    exists tok before, nth_error tokens pos = Some tok /\
      cands X (tok_type tok) = before ++ prods.

  Lemma suffix_tail X pos out prods : suffix_ok X pos (out :: prods) -> suffix_ok X pos prods.
  Proof.
    intros (tok & before & H1 & H2). exists tok, (before ++ [out]). split; auto.
    rewrite H2, <- app_assoc. reflexivity.
  Qed.

  Lemma suffix_prod X pos out prods : suffix_ok X pos (out :: prods) ->
    exists p tok, In p ps /\ p_input p = X /\ p_output p = out /\
      nth_error tokens pos = Some tok /\ In out (cands X (tok_type tok)).
  Proof.
    intros (tok & before & H1 & H2).
    assert (Hin : In out (cands X (tok_type tok))).
    { rewrite H2. apply in_app_iff; simpl; auto. }
    destruct (proj1 (token_productions_good P X (tok_type tok)) out Hin) as (p & Hp & Hi & Ho).
    exists p, tok. auto.
  Qed.

  Definition rsok (X : T) (st : parsing_state L T) (p1 : nat) : Prop :=
    (exists w, tree_for eps ps X (ps_node st) w /\ between tokens p1 w (ps_final_token_position st)) /\
    ps_initial_token_position st = p1 /\
    match ps_prod_iter_option st with
    | None => ~ non_terminal ps X
    | Some it => non_terminal ps X /\ tok_type (node_token (ps_node st)) = X /\ suffix_ok X p1 it
    end.

  Inductive pstack : list (state L T) -> nat -> nat -> list T -> Prop :=
  | pstack_nil p0 : pstack [] p0 p0 []
  | pstack_parsing st states p0 p1 syms X :
      pstack states p0 p1 syms -> rsok X st p1 ->
      pstack (StParsing st :: states) p0 (ps_final_token_position st) (syms ++ [X])
  | pstack_fixed fs states p0 p1 syms X :
      pstack states p0 p1 syms -> non_terminal ps X ->
      fixed X p1 (fst_fixed_symbol fs) (fst_final_token_position fs) ->
      pstack (StFixed fs :: states) p0 (fst_final_token_position fs) (syms ++ [X]).

  Lemma pstack_length states p0 p syms : pstack states p0 p syms -> length states = length syms.
  Proof. induction 1; simpl; rewrite ?app_length; simpl; lia. Qed.

  Lemma pstack_top st states p0 p syms :
    pstack (st :: states) p0 p syms -> p = state_final_token_position st.
  Proof. inversion 1; subst; reflexivity. Qed.

  Lemma pstack_parsing_inv st states p0 p syms :
    pstack (StParsing st :: states) p0 p syms ->
    exists p1 syms0 X, syms = syms0 ++ [X] /\ p = ps_final_token_position st /\
      pstack states p0 p1 syms0 /\ rsok X st p1.
  Proof. inversion 1; subst. eauto 10. Qed.

  Lemma pstack_fixed_inv fs states p0 p syms :
    pstack (StFixed fs :: states) p0 p syms ->
    exists p1 syms0 X, syms = syms0 ++ [X] /\ p = fst_final_token_position fs /\
      pstack states p0 p1 syms0 /\ non_terminal ps X /\ fixed X p1 (fst_fixed_symbol fs) (fst_final_token_position fs).
  Proof. inversion 1; subst. eauto 10. Qed.

  Lemma parts_app Xs Ys : forall p q r parts parts',
    parts_for Xs p parts q -> parts_for Ys q parts' r -> parts_for (Xs ++ Ys) p (parts ++ parts') r.
  Proof.
    induction Xs as [|X Xs IH]; intros p q r parts parts' Ha Hb; inversion Ha; subst; simpl; auto.
    - eapply fixed_parts_ok; eauto.
    - eapply fixed_parts_fixed; eauto.
  Qed.

  Lemma pprefix_app Xs : forall Ys p q r parts parts',
    pprefix Xs p parts q -> pprefix Ys q parts' r -> pprefix (Xs ++ Ys) p (parts ++ parts') r.
  Proof.
    intros Ys p q r parts parts' Ha. revert r parts'.
    induction Ha; intros r' parts' Hb; simpl; auto.
    - eapply parsed_terminal; eauto.
    - eapply parsed_non_terminal; eauto.
    - eapply parsed_fixed; eauto.
  Qed.

  Lemma pstack_parts states p0 p syms : pstack states p0 p syms ->
    parts_for syms p0 (map (@state_to_fixed_part L T) (rev states)) p.
  Proof.
    induction 1 as [p0|st states p0 p1 syms X Hs IH Hok|fs states p0 p1 syms X Hs IH HX Hf]; simpl.
    - constructor.
    - rewrite map_app. eapply parts_app; eauto. destruct Hok as ((w & Hw & Hb) & _). simpl.
      eapply fixed_parts_ok; eauto. constructor.
    - rewrite map_app. eapply parts_app; eauto. simpl.
      eapply fixed_parts_fixed; eauto. constructor.
  Qed.

  Lemma pstack_forest states p0 p syms : pstack states p0 p syms ->
    existsb (@is_fixed L T) states = false -> forall ns,
    states_to_nodes (rev states) = Done ns ->
    exists w, forest_for eps ps syms ns w /\ between tokens p0 w p.
  Proof.
    induction 1 as [p0|st states p0 p1 syms X Hs IH Hok|fs states p0 p1 syms X Hs IH];
      intros Hf ns Hn; simpl in *.
    - inversion Hn; subst. exists []. split; [constructor|apply span_nil].
    - apply states_to_nodes_snoc in Hn as (ns' & Hn & ->).
      destruct (IH Hf ns' Hn) as (w & Hw & Hsp). destruct Hok as ((v & Hv & Hsp') & _).
      exists (w ++ v). split; [|eapply span_app; eauto].
      apply forest_app; auto. rewrite <- (app_nil_r v). constructor; [auto|constructor].
    - discriminate.
  Qed.

  Definition sym_shape (X : T) (pos : nat) (prods : list (list T))
             (r : parse_symbol_result L T) : Prop :=
    match r with
    | SymOk st => rsok X st pos /\ exists it, ps_prod_iter_option st = Some it
    | SymErr fs => exists fps, fs = FailedSymbol fps X /\ flist prods pos fps
    | SymFix fs => fixed X pos (fst_fixed_symbol fs) (fst_final_token_position fs)
    end.

  Definition step_shape (Y : T) (pos : nat) (r : parse_symbol_result L T) : Prop :=
    match r with
    | SymOk st => rsok Y st pos
    | SymErr fs => freport Y pos fs
    | SymFix fs => non_terminal ps Y /\ fixed Y pos (fst_fixed_symbol fs) (fst_final_token_position fs)
    end.

  Definition calls_ok (h h' : history L T) : Prop := Forall cok h -> Forall cok h'.

  Lemma calls_trans a b c : calls_ok a b -> calls_ok b c -> calls_ok a c.
  Proof. unfold calls_ok; auto. Qed.
  Lemma calls_refl a : calls_ok a a.
  Proof. unfold calls_ok; auto. Qed.

  Definition QSym X pos prods (single : bool) h r h' : Prop :=
    suffix_ok X pos prods -> (single = true -> spath X pos prods) -> prefix h' H ->
    sym_shape X pos prods r /\ calls_ok h h'.
  Definition QTry X pos (child : bool) prods (failed : list (failed_production L T)) h
             (r : parse_symbol_result L T + list (failed_production L T)) h' : Prop :=
    suffix_ok X pos prods -> (child = true -> forall out, In out prods -> spath X pos [out]) ->
    prefix h' H -> calls_ok h h' /\
    match r with
    | inl (SymErr _) => False
    | inl r => sym_shape X pos prods r
    | inr failed' => exists fps, failed' = failed ++ fps /\ flist prods pos fps
    end.
  Definition QProd X out (child : bool) states pos h pr pos' h' : Prop :=
    forall p0 syms rest, pstack states p0 pos syms -> out = syms ++ rest ->
    (child = true -> spath X p0 [out]) -> prefix h' H ->
    calls_ok h h' /\
    match pr with
    | ProdOk n => exists ns w, n = Node ns (Token None X) /\ forest_for eps ps out ns w /\ between tokens p0 w pos'
    | ProdErr fp => fprod out p0 fp
    | ProdFix (FixedProduction parts) =>
        parts_for out p0 parts pos' /\ exists fs, In (FPartFixed fs) parts
    end.
  Definition QStep Y pos (child : bool) h r h' : Prop :=
    (child = true -> non_terminal ps Y -> forall tok, nth_error tokens pos = Some tok ->
       spath Y pos (cands Y (tok_type tok))) ->
    prefix h' H -> step_shape Y pos r /\ calls_ok h h'.
  Definition QPop states (child : bool) (failed : list (state L T)) h
             states' (popped : option (list (state L T))) h' : Prop :=
    forall p0 p syms X rest0, pstack states p0 p syms ->
    (child = true -> spath X p0 [syms ++ rest0]) -> prefix h' H -> calls_ok h h' /\
    match popped with
    | None => exists p' syms' rest, syms = syms' ++ rest /\ pstack states' p0 p' syms'
    | Some fstates => exists kept, fstates = kept ++ failed /\
                        pprefix syms p0 (map (@state_to_parsed_symbol L T) kept) p
    end.

  Lemma flist_report_on prods pos failed : flist prods pos failed -> Forall2 report_on prods failed.
  Proof.
    revert pos failed. induction prods as [|out prods IH]; intros pos failed Hf; inversion Hf; subst; constructor.
    - match goal with Hr : fprod _ _ _ |- _ => inversion Hr as [u Y v p q parsed fs Hpp Hfr]; subst end.
      assert (Hfs : exists fps, fs = FailedSymbol fps Y) by (inversion Hfr; eauto).
      destruct Hfs as [fps0 ->]. exists u, Y, v, fps0, parsed. auto.
    - eapply IH; eauto.
  Qed.

  Lemma try_fix_shape X pos prods single failed h fo h' :
    suffix_ok X pos prods -> (single = true -> spath X pos prods) -> prefix h' H -> flist prods pos failed ->
    inner_parse_from_tokens_try_fix_productions self tokens pos single
      (is_child_single_path single prods) failed h = Done (fo, h') ->
    sym_shape X pos prods
      (inner_parse_from_tokens_fix_option_to_parse_symbol_result failed fo X) /\ calls_ok h h'.
  Proof.
    intros Hs Hsp Hpre Hfl Hfix.
    assert (Hnone : sym_shape X pos prods (SymErr (FailedSymbol failed X))) by (exists failed; auto).
    pose proof (flist_report_on Hfl) as Hon.
    unfold inner_parse_from_tokens_try_fix_productions in Hfix.
    destruct (pr_solver self) as [solver|] eqn:Hsol;
      [|inversion Hfix; subst; split; [exact Hnone|apply calls_refl]].
    destruct single; [|inversion Hfix; subst; split; [exact Hnone|apply calls_refl]].
    specialize (Hsp eq_refl).
    destruct Hs as (tok & before & Htok & Hcand).
    assert (Habout : forall c, call_tokens c = tokens -> call_position c = pos -> call_failures c = failed ->
       call_about cands X c).
    { intros c H1 H2 H3. exists tok, before, prods. rewrite H1, H2, H3. split; [exact Htok|].
      split; [exact Hcand|]. exact Hon. }
    assert (Hans : forall c fr, call_tokens c = tokens -> call_failures c = failed ->
       call_position c = pos -> solver h c = Reply (Some fr) -> h' = h ++ [c] ->
       sym_shape X pos prods (inner_parse_from_tokens_fix_option_to_parse_symbol_result failed (Some fr) X)).
    { intros c fr Hct Hcf Hc Hfr ->. simpl. apply fixed_by_solver. destruct Hpre as [h2 HH].
      exists solver, h, c, h2. split; auto. split; [rewrite HH, <- app_assoc; reflexivity|].
      split; [now apply Habout|]. split; auto. destruct fr; auto. }
    unfold is_child_single_path in Hfix. simpl in Hfix.
    destruct (length prods =? 1) eqn:Hlen.
    - apply Nat.eqb_eq in Hlen. destruct failed as [|fp failed]; [discriminate|].
      assert (Hone : failed = []).
      { destruct prods as [|? [|? ?]]; simpl in Hlen; try lia. inversion Hon as [|? ? ? ? ? Hon2]; subst. now inversion Hon2. }
      subst failed. apply await_done in Hfix as [Hfr Hh']. subst h'. split.
      + destruct fo as [fr|]; [|exact Hnone]. eapply Hans; eauto; reflexivity.
      + intros Hall. apply Forall_app. split; auto. constructor; auto.
        exists X, tok, before, prods. simpl. rewrite Hsol in *. auto 10.
    - apply Nat.eqb_neq in Hlen. apply await_done in Hfix as [Hfr Hh']. subst h'. split.
      + destruct fo as [fr|]; [|exact Hnone]. eapply Hans; eauto; reflexivity.
      + intros Hall. apply Forall_app. split; auto. constructor; auto.
        exists X, tok, before, prods. simpl. rewrite Hsol in *. auto 10.
  Qed.

  Lemma child_path X pos prods single :
    (single = true -> spath X pos prods) ->
    is_child_single_path single prods = true -> forall out, In out prods -> spath X pos [out].
  Proof.
    unfold is_child_single_path. intros Hsp Hch out Hin. apply andb_true_iff in Hch as [Hs Hl].
    apply Nat.eqb_eq in Hl. destruct prods as [|o [|]]; simpl in Hl; try discriminate.
    destruct Hin as [->|[]]. auto.
  Qed.

  Lemma again_path X child states p0 p1 syms Y rest it :
    pstack states p0 p1 syms -> (child = true -> spath X p0 [syms ++ Y :: rest]) ->
    child = true -> non_terminal ps Y -> suffix_ok Y p1 it -> spath Y p1 it.
  Proof.
    intros Hs Hsp Hch HY (tok & before & Htok & Hc).
    eapply single_path_inside; eauto. eapply pstack_parts; eauto.
  Qed.

  Lemma step_path X child states p0 p1 syms Y rest tok :
    pstack states p0 p1 syms -> (child = true -> spath X p0 [syms ++ Y :: rest]) ->
    child = true -> non_terminal ps Y -> nth_error tokens p1 = Some tok ->
    spath Y p1 (cands Y (tok_type tok)).
  Proof.
    intros Hs Hsp Hch HY Htok. eapply again_path; eauto. exists tok, []. auto.
  Qed.

  Lemma run_shape :
    (forall X pos prods single h r h', RSym self tokens X pos prods single h r h' ->
       QSym X pos prods single h r h') /\
    (forall X pos child prods failed h r h', RTry self tokens X pos child prods failed h r h' ->
       QTry X pos child prods failed h r h') /\
    (forall X out child states pos h pr pos' h',
       RProd self tokens X out child states pos h pr pos' h' ->
       QProd X out child states pos h pr pos' h') /\
    (forall Y pos child h r h', RStep self tokens Y pos child h r h' -> QStep Y pos child h r h') /\
    (forall states child failed h states' popped h',
       RPop self tokens states child failed h states' popped h' ->
       QPop states child failed h states' popped h').
  Proof.
    pose proof hist_ext as (XSym & XTry & XProd & XStep & XPop).
    apply run_mutind; unfold QSym, QTry, QProd, QStep, QPop.
    - intros X pos prods single h r h' _ IH Hs Hsp Hpre.
      destruct (IH Hs (child_path Hsp) Hpre) as [Hc Hr]. split; auto. destruct r; auto. destruct Hr.
    - intros X pos prods single h failed h' fo h'' HR IH Hfix Hs Hsp Hpre.
      destruct (IH Hs (child_path Hsp)) as (Hc & fps & Hf & Hfl); [eapply prefix_trans; [|exact Hpre]; eapply fix_prefix; eauto|].
      simpl in Hf. subst fps.
      destruct (try_fix_shape _ Hs Hsp Hpre Hfl Hfix). split; auto. eapply calls_trans; eauto.
    - intros X pos child failed h _ _ _. split; [apply calls_refl|]. exists [].
      rewrite app_nil_r. split; auto. constructor.
    - intros X pos child out rest failed h n pos' h' _ IH Hs Hsp Hpre.
      destruct (suffix_prod Hs) as (p & tok & Hp & Hi & Ho & _ & _).
      destruct (IH pos [] out) as (Hc & ns & w & -> & Hf & Hb); auto; [constructor|intros Hch; apply Hsp; simpl; auto|].
      split; auto. simpl. split; [|eauto].
      split; [|split; simpl; auto].
      + exists w. simpl. split; auto. subst X. constructor; auto. now rewrite Ho.
      + split; [exists p; auto|]. split; auto. eapply suffix_tail; eauto.
    - intros X pos child out rest failed h fp pos' h' r h'' _ IH1 HR2 IH2 Hs Hsp Hpre.
      destruct (IH1 pos [] out) as (Hc1 & Hfp); auto.
      { constructor. }
      { intros Hch; apply Hsp; simpl; auto. }
      { eapply prefix_trans; [|exact Hpre]. eapply XTry; eauto. }
      destruct (IH2 (suffix_tail Hs) ltac:(intros Hch o Ho; apply Hsp; simpl; auto) Hpre) as (Hc2 & Hr). split; [eapply calls_trans; eauto|].
      destruct r as [[st|e|f]|failed']; auto.
      destruct Hr as (fps & -> & Hfl). exists (fp :: fps). split; [now rewrite <- app_assoc|].
      constructor; auto.
    - intros X pos child out rest failed h [parts] pos' h' _ IH Hs Hsp Hpre.
      destruct (suffix_prod Hs) as (p & tok & Hp & Hi & Ho & Htok & Hin).
      destruct (IH pos [] out) as (Hc & Hparts & Hx); auto; [constructor|intros Hch; apply Hsp; simpl; auto|].
      split; auto. simpl. subst X out. eapply fixed_inside; eauto.
    - intros X out child states pos h pr Hlen Hb p0 syms rest Hs Ho Hsp Hpre.
      split; [apply calls_refl|].
      pose proof (pstack_length Hs) as Hl.
      assert (Hrest : rest = []).
      { destruct rest as [|y rest]; auto. subst out. rewrite app_length in Hlen. simpl in Hlen. lia. }
      subst rest. rewrite app_nil_r in Ho. subst out.
      unfold inner_parse_from_tokens_production_build_node in Hb.
      assert (Hrev : existsb (@is_fixed L T) (rev states) = existsb (@is_fixed L T) states).
      { apply eq_true_iff_eq. rewrite !existsb_exists.
        split; intros (x & Hx & Hxf); exists x; split; auto; [now apply in_rev|now apply in_rev in Hx]. }
      rewrite Hrev in Hb.
      destruct (existsb (@is_fixed L T) states) eqn:Hfx.
      + inversion Hb; subst. split; [now apply pstack_parts|].
        apply existsb_exists in Hfx as ([st|fs] & Hin & Hf); [discriminate|].
        exists (fst_fixed_symbol fs). apply in_map_iff. exists (StFixed fs). split; auto. now apply in_rev in Hin.
      + apply bind_done in Hb as (ns & Hn & Hb). inversion Hb; subst.
        destruct (pstack_forest Hs Hfx Hn) as (w & Hw & Hspan). exists ns, w. auto.
    - intros X out child states pos h Y st h' pr pos' h'' HY HR1 IH1 HR2 IH2 p0 syms rest Hs Ho Hsp Hpre.
      pose proof (pstack_length Hs) as Hl. subst out.
      rewrite Hl, nth_error_app2, Nat.sub_diag in HY by lia.
      destruct rest as [|y rest]; [discriminate|]. simpl in HY. inversion HY; subst y.
      destruct IH1 as (Hst & Hc1); [intros Hch HYn tok Htok; eapply step_path; eauto|eapply prefix_trans; [eapply XProd; eauto|exact Hpre]|].
      destruct (IH2 p0 (syms ++ [Y]) rest) as (Hc2 & Hr); auto.
      { eapply pstack_parsing; eauto. }
      { now rewrite <- app_assoc. }
      split; auto. eapply calls_trans; eauto.
    - intros X out child states pos h Y fs h' pr pos' h'' HY HR1 IH1 HR2 IH2 p0 syms rest Hs Ho Hsp Hpre.
      pose proof (pstack_length Hs) as Hl. subst out.
      rewrite Hl, nth_error_app2, Nat.sub_diag in HY by lia.
      destruct rest as [|y rest]; [discriminate|]. simpl in HY. inversion HY; subst y.
      destruct IH1 as (Hst & Hc1); [intros Hch HYn tok Htok; eapply step_path; eauto|eapply prefix_trans; [eapply XProd; eauto|exact Hpre]|].
      destruct (IH2 p0 (syms ++ [Y]) rest) as (Hc2 & Hr); auto.
      { destruct Hst as [HYn Hst]. eapply pstack_fixed; eauto. }
      { now rewrite <- app_assoc. }
      split; auto. eapply calls_trans; eauto.
    - intros X out child states pos h Y fs h' states' fstates h'' HY HR1 IH1 HR2 IH2 p0 syms rest Hs Ho Hsp Hpre.
      pose proof (pstack_length Hs) as Hl. subst out.
      rewrite Hl, nth_error_app2, Nat.sub_diag in HY by lia.
      destruct rest as [|y rest]; [discriminate|]. simpl in HY. inversion HY; subst y.
      destruct IH1 as (Hst & Hc1); [intros Hch HYn tok Htok; eapply step_path; eauto|eapply prefix_trans; [eapply XPop; eauto|exact Hpre]|].
      destruct (IH2 p0 pos syms X (Y :: rest) Hs Hsp Hpre) as (Hc2 & kept & Hk & Hpp). rewrite app_nil_r in Hk. subst kept.
      split; [eapply calls_trans; eauto|].
      simpl. eapply failed_at; eauto.
    - intros X out child states pos h Y fs h' st states' h'' pr pos' h3 HY HR1 IH1 HR2 IHpop HR3 IH
        p0 syms rest Hs Ho Hsp Hpre.
      pose proof (pstack_length Hs) as Hl. subst out.
      rewrite Hl, nth_error_app2, Nat.sub_diag in HY by lia.
      destruct rest as [|y rest]; [discriminate|]. simpl in HY. inversion HY; subst y.
      assert (Hp2 : prefix h'' H) by (eapply prefix_trans; [eapply XProd; eauto|exact Hpre]).
      destruct IH1 as (_ & Hc1); [intros Hch HYn tok Htok; eapply step_path; eauto|eapply prefix_trans; [eapply XPop; eauto|exact Hp2]|].
      destruct (IHpop p0 pos syms X (Y :: rest) Hs Hsp Hp2) as (Hc2 & p' & syms' & rest' & Hsy & Hs').
      pose proof (pstack_top Hs') as Hp'. rewrite Hp' in Hs'.
      destruct (IH p0 syms' (rest' ++ Y :: rest)) as (Hc3 & Hr); auto.
      { subst. now rewrite <- app_assoc. }
      split; auto. eapply calls_trans; [eapply calls_trans|]; eauto.
    - intros Y pos child h tok r h' Hnt Htok _ IH Hsp Hpre.
      apply (is_non_terminal_spec G) in Hnt.
      destruct IH as (Hr & Hc); auto.
      { exists tok, []. auto. }
      split; auto. destruct r as [st|e|f]; simpl in *; auto.
      + tauto.
      + destruct Hr as (fps & -> & Hfl). eapply failed_non_terminal; eauto.
    - intros Y pos child h Hnt _ _. apply (is_non_terminal_false G) in Hnt.
      split; [|apply calls_refl].
      unfold inner_parse_terminal_symbol, get_epsilon_symbol. rewrite (go_eps G).
      destruct (eqb eps Y) eqn:He.
      + apply eqb_iff in He; subst Y.
        split; [|split; simpl; auto].
        exists []. simpl. split; [constructor|apply span_nil].
      + apply eqb_ne_iff in He. unfold inner_parse_non_epsilon_terminal_symbol.
        destruct (nth_error tokens pos) as [tok|] eqn:Htok; simpl.
        * destruct (eqb Y (tok_type tok)) eqn:Ht; simpl.
          -- apply eqb_iff in Ht; subst Y.
             split; [|split; simpl; auto]. exists [tok]. simpl. split; [|now apply span_one].
             constructor; auto.
          -- apply eqb_ne_iff in Ht. apply failed_terminal; auto.
             intros tok' Htok'. rewrite Htok in Htok'. inversion Htok'; subst. auto.
        * apply failed_terminal; auto. intros tok' Htok'. congruence.
    - intros child failed h p0 p syms X0 rest0 Hs _ _. split; [apply calls_refl|].
      exists []. split; auto. inversion Hs; subst. constructor.
    - intros fs states child failed h states' popped h' _ IH p0 p syms X0 rest0 Hs Hsp Hpre.
      apply pstack_fixed_inv in Hs as (p1 & syms0 & X & -> & -> & Hs & HX & Hf).
      destruct (IH _ _ _ X0 (X :: rest0) Hs ltac:(intros Hch; specialize (Hsp Hch); rewrite <- app_assoc in Hsp; exact Hsp) Hpre) as (Hc & Hr). split; auto. destruct popped as [fstates|].
      + destruct Hr as (kept & -> & Hpp). exists (kept ++ [StFixed fs]). split; [now rewrite <- app_assoc|].
        rewrite map_app. eapply pprefix_app; eauto. simpl. eapply parsed_fixed; eauto. constructor.
      + destruct Hr as (p' & syms' & rest & -> & Hs').
        exists p', syms', (rest ++ [X]). rewrite <- app_assoc; auto.
    - intros st states child failed h states' popped h' Hit _ IH p0 p syms X0 rest0 Hs Hsp Hpre.
      apply pstack_parsing_inv in Hs as (p1 & syms0 & X & -> & -> & Hs & Hok).
      destruct (IH _ _ _ X0 (X :: rest0) Hs ltac:(intros Hch; specialize (Hsp Hch); rewrite <- app_assoc in Hsp; exact Hsp) Hpre) as (Hc & Hr). split; auto. destruct popped as [fstates|].
      + destruct Hr as (kept & -> & Hpp). exists (kept ++ [StParsing st]). split; [now rewrite <- app_assoc|].
        rewrite map_app. eapply pprefix_app; eauto. simpl.
        destruct Hok as ((w & Hw & Hb) & _ & Hm). rewrite Hit in Hm.
        eapply parsed_terminal; eauto. constructor.
      + destruct Hr as (p' & syms' & rest & -> & Hs').
        exists p', syms', (rest ++ [X]). rewrite <- app_assoc; auto.
    - intros st it states child failed h ps' h' Hit _ IH p0 p syms X0 rest0 Hs Hsp Hpre.
      apply pstack_parsing_inv in Hs as (p1 & syms0 & X & -> & -> & Hs & Hok).
      destruct Hok as (Ht & Hi & Hm). rewrite Hit in Hm. destruct Hm as (HX & HX' & Hg).
      rewrite Hi, HX' in IH. destruct (IH Hg ltac:(intros Hch; eapply again_path with (X := X0); eauto; intros _; specialize (Hsp Hch); rewrite <- app_assoc in Hsp; exact Hsp) Hpre) as ((Hr & _) & Hc). split; auto.
      exists (ps_final_token_position ps'), (syms0 ++ [X]), []. rewrite app_nil_r. split; auto.
      eapply pstack_parsing; eauto.
    - intros st it states child failed h r h' states' popped h'' Hit _ IH1 Hr HR2 IH p0 p syms X0 rest0 Hs Hsp Hpre.
      apply pstack_parsing_inv in Hs as (p1 & syms0 & X & -> & -> & Hs & Hok).
      destruct Hok as ((w & Hw & Hb) & Hi & Hm). rewrite Hit in Hm. destruct Hm as (HX & HX' & Hg).
      rewrite Hi, HX' in IH1.
      destruct (IH1 Hg ltac:(intros Hch; eapply again_path with (X := X0); eauto; intros _; specialize (Hsp Hch); rewrite <- app_assoc in Hsp; exact Hsp)) as (_ & Hc1); [eapply prefix_trans; [eapply XPop; eauto|exact Hpre]|].
      destruct (IH _ _ _ X0 (X :: rest0) Hs ltac:(intros Hch; specialize (Hsp Hch); rewrite <- app_assoc in Hsp; exact Hsp) Hpre) as (Hc & Hpop). split; [eapply calls_trans; eauto|].
      destruct popped as [fstates|].
      + destruct Hpop as (kept & -> & Hpp). exists kept. split; auto.
        rewrite <- (app_nil_r (map _ kept)).
        eapply pprefix_app; eauto. eapply parsed_non_terminal; eauto. constructor.
      + destruct Hpop as (p' & syms' & rest & -> & Hs').
        exists p', syms', (rest ++ [X]). rewrite <- app_assoc; auto.
  Qed.
End Report.

Section ReportTop.
  Context {L T : Type} {E : EqDec T}.
  Context {eps init : T} {ps : list (production T)} {self : parser L T}.
  Hypothesis P : parser_of eps init ps self.
  Variable tokens : list (token L T).
  Notation cands := (inner_get_token_productions self).

  Lemma parse_shape fuel res h :
    parse_from_tokens fuel self tokens = Done (res, h) ->
    exists tok rest, tokens = tok :: rest /\
    Forall (call_ok eps init ps tokens cands (answered cands (pr_solver self) h)) h /\
    match res with
    | ResultOk root => non_terminal ps init /\ exists w, tree_for eps ps init root w /\ prefix w tokens
    | ResultErr f => exists fps, f = FailedSymbol fps init /\
        failed_list eps ps tokens cands (answered cands (pr_solver self) h) (cands init (tok_type tok)) 0 fps
    | ResultFix f => exists q, fixed_for eps ps tokens cands (answered cands (pr_solver self) h) init 0 f q
    end.
  Proof.
    intros Hp. apply parse_run in Hp as (tok & rest & r & Ht & Hres & Hrun).
    exists tok, rest. split; auto.
    unfold get_initial_symbol in Hrun. rewrite (go_init (po_grammar P)) in Hrun.
    apply (proj1 (run_shape P tokens h)) in Hrun.
    destruct Hrun as (Hr & Hc).
    { exists tok, []. rewrite Ht. auto. }
    { intros _. apply single_path_initial. now rewrite Ht. }
    { apply prefix_refl. }
    split; [apply Hc; constructor|].
    destruct r as [st|e|f]; simpl in Hres; subst res; simpl in Hr.
    - destruct Hr as (((w & Hw & [_ Hb]) & _ & Hm) & it & Hit). rewrite Hit in Hm.
      split; [tauto|]. exists w. auto.
    - destruct Hr as (fps & -> & Hfl). eauto.
    - eauto.
  Qed.
End ReportTop.
