(** * Conflict-free tables: refused fixes escalate (proofs) *)

From Verif Require Import BaseFacts ParserRel ParserCF.
From Verif Require Export ContractSpec.

Set Implicit Arguments.

Section Escalate.
  Context {L T : Type} {E : EqDec T}.
  Variable self : parser L T.
  Variable tokens : list (token L T).
  Variable sv : syntax_error_solver L T.
  Hypothesis Hsv : pr_solver self = Some sv.
  Hypothesis Hsize : forall A a, length (inner_get_token_productions self A a) <= 1.

  (** a call without reports: a sibling was tried again and had no candidate left *)
  Definition no_candidate (c : solver_call L T) : Prop :=
    exists q, c = FixFailedProductions tokens q [].

  (** after [c], in [s2], but for calls without reports the next call is about the production
      in which the symbol occurs that [c] was about *)
  Definition reported (c : solver_call L T) (s2 : list (solver_call L T)) : Prop :=
    exists empty p fp s3, s2 = empty ++ FixFailedProduction tokens p fp :: s3 /\
      Forall no_candidate empty /\
      (call_failures c = [] \/
       exists Y parsed pending, fp = FailedProduction (FailedSymbol (call_failures c) Y) parsed pending).

  Lemma reported_app c s2 s3 : reported c s2 -> reported c (s2 ++ s3).
  Proof.
    intros (empty & p & fp & s4 & -> & He & Hc). exists empty, p, fp, (s4 ++ s3).
    rewrite <- app_assoc. auto.
  Qed.

  (** every refused call of [seg], made after [base], is [reported] in [seg]; [last]: except
      that the last call of [seg] may be a refused one about the reports [fps] *)
  Definition followed (last : option (list (failed_production L T))) (base seg : list (solver_call L T)) : Prop :=
    forall s1 c s2, seg = s1 ++ c :: s2 -> sv (base ++ s1) c = Reply None ->
    reported c s2 \/ (s2 = [] /\ last = Some (call_failures c)).

  Lemma followed_nil last base : followed last base [].
  Proof. intros s1 c s2 H. destruct s1; discriminate H. Qed.

  Lemma app_cons_split {A : Type} (a b s1 : list A) c s2 : a ++ b = s1 ++ c :: s2 ->
    (exists m, a = s1 ++ c :: m /\ s2 = m ++ b) \/ (exists m, s1 = a ++ m /\ b = m ++ c :: s2).
  Proof.
    revert s1. induction a as [|x a IH]; intros s1 H; simpl in H.
    - right. exists s1. auto.
    - destruct s1 as [|y s1]; simpl in H; inversion H; subst.
      + left. exists a. auto.
      + destruct (IH s1 H2) as [(m & -> & ->)|(m & -> & ->)]; [left|right]; exists m; auto.
  Qed.

  Lemma followed_app last base a b : followed None base a -> followed last (base ++ a) b ->
    followed last base (a ++ b).
  Proof.
    intros Ha Hb s1 c s2 H Hd.
    destruct (@app_cons_split _ _ _ _ _ _ H) as [(m & -> & ->)|(m & -> & ->)].
    - destruct (Ha s1 c m eq_refl Hd) as [Hc|[_ Hc]]; [|discriminate]. left. now apply reported_app.
    - rewrite app_assoc in Hd. apply (Hb m c s2 eq_refl Hd).
  Qed.

  (** the calls while a production fails: those up to the failure of a symbol with the reports
      [fps], then those of trying its siblings again *)
  Definition while_failing (fps : list (failed_production L T)) (base seg : list (solver_call L T)) : Prop :=
    exists a empty, seg = a ++ empty /\ Forall no_candidate empty /\ followed (Some fps) base a.

  Lemma while_app fps base a b : followed None base a -> while_failing fps (base ++ a) b ->
    while_failing fps base (a ++ b).
  Proof.
    intros Ha (x & empty & -> & He & Hx). exists (a ++ x), empty. split; [now rewrite app_assoc|].
    split; auto. now apply followed_app.
  Qed.

  (** the call for the production settles everything before it *)
  Lemma followed_snoc last base a p fps Y parsed pending :
    while_failing fps base a ->
    let c := FixFailedProduction tokens p (FailedProduction (FailedSymbol fps Y) parsed pending) in
    (sv (base ++ a) c = Reply None -> last = Some (call_failures c)) -> followed last base (a ++ [c]).
  Proof.
    intros (x & empty & -> & He & Hx) c Hn s1 d s2 H Hd.
    destruct (@app_cons_split _ _ _ _ _ _ H) as [(m & H1 & ->)|(m & -> & Hm)].
    - left. destruct (@app_cons_split _ _ _ _ _ _ H1) as [(m' & -> & ->)|(m' & -> & Hm)].
      + destruct (Hx s1 d m' eq_refl Hd) as [Hr|[-> Hf]].
        * rewrite <- app_assoc. now apply reported_app.
        * inversion Hf; subst fps. exists empty, p, (FailedProduction (FailedSymbol (call_failures d) Y) parsed pending), [].
          simpl. split; auto. split; auto. right. eauto.
      + rewrite Hm in He. apply Forall_app in He as [_ He]. inversion He as [|? ? Hz He2]; subst.
        exists m, p, (FailedProduction (FailedSymbol fps Y) parsed pending), []. split; auto. split; auto.
        left. destruct Hz as (q & ->). reflexivity.
    - destruct m as [|y m]; simpl in Hm; inversion Hm; subst; [|now destruct m].
      rewrite app_nil_r in Hd. right. split; auto.
  Qed.

  Lemma followed_one last base c :
    (sv base c = Reply None -> last = Some (call_failures c)) -> followed last base [c].
  Proof.
    intros Hn s1 d s2 H Hd.
    destruct s1 as [|x s1]; simpl in H; inversion H; subst.
    - rewrite app_nil_r in Hd. auto.
    - now destruct s1.
  Qed.

  Definition rest_of (child : bool) (h h' : history L T) (K : list (solver_call L T) -> Prop) : Prop :=
    exists seg, h' = h ++ seg /\ (child = false -> seg = []) /\ K seg.

  Lemma rest_nil child h (K : list (solver_call L T) -> Prop) : K [] -> rest_of child h h K.
  Proof. intros HK. exists []. rewrite app_nil_r. auto. Qed.

  Lemma rest_app child h h1 h2 (K1 K2 K : list (solver_call L T) -> Prop) :
    rest_of child h h1 K1 -> rest_of child h1 h2 K2 ->
    (forall a b, h1 = h ++ a -> K1 a -> K2 b -> K (a ++ b)) -> rest_of child h h2 K.
  Proof.
    intros (a & -> & Ha & Ka) (b & -> & Hb & Kb) HK. exists (a ++ b).
    split; [now rewrite app_assoc|]. split; auto. intros Hc. now rewrite (Ha Hc), (Hb Hc).
  Qed.

  Lemma rest_weaken child h h' (K K' : list (solver_call L T) -> Prop) :
    (forall seg, K seg -> K' seg) -> rest_of child h h' K -> rest_of child h h' K'.
  Proof. intros HK (seg & H1 & H2 & H3). exists seg. auto. Qed.

  Definition sym_calls (h : history L T) (r : parse_symbol_result L T) (seg : list (solver_call L T)) : Prop :=
    match r with
    | SymOk _ => seg = []
    | SymErr (FailedSymbol fps _) => followed (Some fps) h seg
    | SymFix _ => followed None h seg
    end.

  Definition failing (h : history L T) (fp : failed_production L T) (seg : list (solver_call L T)) : Prop :=
    match fp with FailedProduction (FailedSymbol fps _) _ _ => while_failing fps h seg end.

  Lemma escalate_all :
    (forall X pos prods single h r h', RSym self tokens X pos prods single h r h' ->
       length prods <= 1 -> rest_of single h h' (sym_calls h r)) /\
    (forall X pos child prods failed h r h', RTry self tokens X pos child prods failed h r h' ->
       length prods <= 1 -> rest_of child h h' (fun seg =>
         match r with
         | inl r => sym_calls h r seg
         | inr failed' => match prods with [] => seg = [] /\ failed' = failed
                          | _ => exists fp, failed' = failed ++ [fp] /\ failing h fp seg end
         end)) /\
    (forall X out child states pos h pr pos' h',
       RProd self tokens X out child states pos h pr pos' h' -> Forall (@frozen L T) states ->
       rest_of child h h' (fun seg =>
         match pr with ProdOk _ => seg = [] | ProdErr fp => failing h fp seg | ProdFix _ => followed None h seg end)) /\
    (forall Y pos child h r h', RStep self tokens Y pos child h r h' ->
       rest_of child h h' (sym_calls h r)) /\
    (forall states child failed h states' popped h',
       RPop self tokens states child failed h states' popped h' ->
       Forall (@frozen L T) states -> rest_of child h h' (Forall no_candidate)).
  Proof.
    destruct (@cf_all L T E self self eq_refl (fun _ _ => eq_refl) Hsize tokens tokens (fun _ _ H => H))
      as (CSym & CTry & CProd & CStep & CPop).
    apply run_mutind.
    - intros X pos prods single h r h' _ IH Hl. destruct (IH Hl) as (seg & -> & Hc & Hk).
      exists seg. split; auto. split; auto. intros ->. apply Hc. reflexivity.
    - intros X pos prods single h failed h' fo h'' _ IH Hfix Hl.
      destruct (IH Hl) as (seg & -> & Hc & Hk). clear IH.
      unfold inner_parse_from_tokens_try_fix_productions in Hfix. rewrite Hsv in Hfix.
      destruct single.
      2:{ inversion Hfix; subst. simpl. exists seg. split; auto. split; auto.
          rewrite (Hc eq_refl). apply followed_nil. }
      unfold is_child_single_path in *. simpl in Hc, Hfix.
      destruct (length prods =? 1) eqn:Hlen.
      + destruct prods as [|out prods]; [discriminate|]. destruct Hk as ([[fps Y] parsed pending] & -> & Hk).
        simpl in Hfix. apply await_done in Hfix as [Ha ->]. eexists (seg ++ [_]).
        split; [now rewrite app_assoc|]. split; [discriminate|].
        destruct fo as [fr|]; simpl; (apply followed_snoc; [exact Hk|]); [|auto].
        rewrite Ha. discriminate.
      + destruct prods as [|out prods]; [|simpl in Hl, Hlen; destruct prods; [discriminate|simpl in Hl; lia]].
        destruct Hk as [-> ->].
        apply await_done in Hfix as [Ha ->]. rewrite app_nil_r in *.
        eexists [_]. split; [reflexivity|]. split; [discriminate|].
        destruct fo as [fr|]; simpl; apply followed_one; [|auto].
        rewrite Ha. discriminate.
    - intros. apply rest_nil. auto.
    - intros X pos child out rest failed h n pos' h' HR IH Hl.
      apply (IH (Forall_nil _)).
    - intros X pos child out rest failed h fp pos' h' r h'' HR1 IH1 HR2 IH2 Hl.
      simpl in Hl. destruct rest; [|simpl in Hl; lia].
      inversion HR2; subst. eapply rest_weaken; [|apply IH1; constructor]. simpl. eauto.
    - intros X pos child out rest failed h fp pos' h' HR IH Hl.
      apply (IH (Forall_nil _)).
    - intros X out child states pos h pr Hlen Hb Hfr. apply rest_nil.
      unfold inner_parse_from_tokens_production_build_node in Hb.
      destruct pr; auto; [|apply followed_nil]. exfalso.
      destruct (existsb _ _); [discriminate|]. destruct (states_to_nodes _); discriminate.
    - intros X out child states pos h Y st h' pr pos' h'' HY HR1 IH1 HR2 IH2 Hfr.
      destruct (CStep _ _ _ _ _ _ HR1 st eq_refl) as (Hf & -> & _).
      apply IH2. constructor; auto.
    - intros X out child states pos h Y fs h' pr pos' h'' HY HR1 IH1 HR2 IH2 Hfr.
      assert (Hfr2 : Forall (@frozen L T) (StFixed fs :: states)) by (constructor; simpl; auto).
      eapply rest_app; [exact IH1|exact (IH2 Hfr2)|]. simpl.
      intros a b -> Ha Hb. destruct pr as [n|[[fps Z] parsed pending]|fp]; auto.
      + exfalso. destruct (CProd _ _ _ _ _ _ _ _ _ HR2 Hfr2 n eq_refl) as (Hx & _).
        simpl in Hx. discriminate Hx.
      + simpl in *. now apply while_app.
      + apply followed_app; auto.
    - intros X out child states pos h Y fs h' states' fstates h'' HY HR1 IH1 HR2 IH2 Hfr.
      eapply rest_app; [exact IH1|exact (IH2 Hfr)|]. destruct fs as [fps Z]. simpl.
      intros a b _ Ha Hb. exists a, b. auto.
    - intros X out child states pos h Y fs h' st states' h'' pr pos' h3 HY HR1 IH1 HR2 IH2 HR3 IH3 Hfr.
      exfalso. now apply (CPop _ _ _ _ _ _ _ HR2).
    - intros Y pos child h tok r h' Hnt Htok HR IH. apply IH. apply Hsize.
    - intros Y pos child h Hnt. apply rest_nil.
      destruct (inner_parse_terminal_symbol self Y tokens pos) as [st|[fps Z]|f]; simpl; auto; apply followed_nil.
    - intros. now apply rest_nil.
    - intros fs states child failed h states' popped h' HR IH Hfr. inversion Hfr; auto.
    - intros st states child failed h states' popped h' Hit HR IH Hfr. inversion Hfr; auto.
    - intros st it states child failed h st' h' Hit HR IH Hfr. inversion Hfr as [|? ? Hst Hfr2]; subst.
      simpl in Hst. destruct Hst as [Hst|Hst]; rewrite Hst in Hit; inversion Hit; subst it.
      destruct (CSym _ _ _ _ _ _ _ HR ltac:(simpl; lia) st' eq_refl) as (Hne & _). congruence.
    - intros st it states child failed h r h' states' popped h'' Hit HR1 IH1 Hr HR2 IH2 Hfr.
      inversion Hfr as [|? ? Hst Hfr2]; subst.
      simpl in Hst. destruct Hst as [Hst|Hst]; rewrite Hst in Hit; inversion Hit; subst it.
      assert (Hone : rest_of child h h' (Forall no_candidate)).
      { clear - HR1 Hsv. inversion HR1 as [? ? ? ? ? ? ? HT|? ? ? ? ? failed0 h1 fo ? HT Hfix]; subst; inversion HT; subst.
        unfold inner_parse_from_tokens_try_fix_productions in Hfix. rewrite Hsv in Hfix.
        destruct child; [|inversion Hfix; subst; now apply rest_nil].
        simpl in Hfix. apply await_done in Hfix as [_ ->]. eexists [_]. split; [reflexivity|].
        split; [discriminate|]. constructor; [|constructor]. eexists. reflexivity. }
      eapply rest_app; [exact Hone|exact (IH2 Hfr2)|]. intros a b _ Ha Hb. apply Forall_app; auto.
  Qed.

  (** the failed symbol of a failed run is the symbol itself *)
  Lemma sym_error X pos prods single h fps Y h' :
    RSym self tokens X pos prods single h (SymErr (FailedSymbol fps Y)) h' -> Y = X.
  Proof.
    intros H. remember (SymErr (FailedSymbol fps Y)) as r.
    destruct H as [X pos prods single h r h' Hr|X pos prods single h failed h1 fo h'' Hr Hf]; subst.
    - exfalso. remember (inl (SymErr (FailedSymbol fps Y))) as r0. clear -Hr Heqr0.
      induction Hr; discriminate || auto.
    - destruct fo as [fr|]; [discriminate|]. simpl in Heqr. now inversion Heqr.
  Qed.
End Escalate.
