(** * The parser with any solver computes [RecoverSpec] (proofs) *)

From Verif Require Import BaseFacts GrammarFacts.
From Verif Require Export ParserSound ParserReport ParserStop RecoverSpec.

Set Implicit Arguments.

Section Recover.
  Context {L T : Type} {E : EqDec T}.
  Context {eps init : T} {ps : list (production T)} {self : parser L T}.
  Hypothesis P : parser_of eps init ps self.
  Variable tokens : list (token L T).
  Let G := po_grammar P.
  Notation cands := (inner_get_token_productions self).
  Notation derive := (derive eps ps tokens cands (pr_solver self)).
  Notation attempt := (attempt eps ps tokens cands (pr_solver self)).
  Notation parse := (RecoverSpec.parse eps ps tokens cands (pr_solver self)).
  Notation branch := (branch eps ps tokens cands (pr_solver self)).
  Notation retry := (retry eps ps tokens cands (pr_solver self)).
  Notation s2p := (@state_to_parsed_symbol L T).

  Scheme derive_mut := Minimality for RecoverSpec.derive Sort Prop
  with attempt_mut := Minimality for RecoverSpec.attempt Sort Prop
  with parse_mut := Minimality for RecoverSpec.parse Sort Prop
  with branch_mut := Minimality for RecoverSpec.branch Sort Prop
  with retry_mut := Minimality for RecoverSpec.retry Sort Prop.
  Combined Scheme recover_mutind from derive_mut, attempt_mut, parse_mut, branch_mut, retry_mut.

  (** ** code to spec *)

  Inductive cstack : list (state L T) -> list T -> Prop :=
  | cstack_nil : cstack [] []
  | cstack_fixed fs states X syms :
      cstack states syms -> cstack (StFixed fs :: states) (X :: syms)
  | cstack_leaf st states X syms :
      cstack states syms -> ps_prod_iter_option st = None ->
      cstack (StParsing st :: states) (X :: syms)
  | cstack_choice st states X syms it :
      cstack states syms -> ps_prod_iter_option st = Some it -> non_terminal ps X ->
      tok_type (node_token (ps_node st)) = X ->
      cstack (StParsing st :: states) (X :: syms).

  Lemma cstack_length states syms : cstack states syms -> length states = length syms.
  Proof. induction 1; simpl; lia. Qed.

  Definition parts_of (states : list (state L T)) : list (fixed_production_part L T) :=
    map (@state_to_fixed_part L T) (rev states).

  Lemma parts_cons s states l :
    parts_of (s :: states) ++ l = parts_of states ++ state_to_fixed_part s :: l.
  Proof. unfold parts_of. simpl. rewrite map_app, <- app_assoc. reflexivity. Qed.

  Lemma trees_states (l : list (state L T)) :
    match trees (map (@state_to_fixed_part L T) l) with
    | Some ns => existsb (@is_fixed L T) l = false /\ states_to_nodes l = Done ns
    | None => existsb (@is_fixed L T) l = true
    end.
  Proof.
    induction l as [|[st|fs] l IH]; simpl; auto.
    destruct (trees (map (@state_to_fixed_part L T) l)) as [ns|].
    - destruct IH as [-> ->]. auto.
    - auto.
  Qed.

  Lemma build_parts X states :
    inner_parse_from_tokens_production_build_node X (rev states) =
    Done match trees (parts_of states) with
         | Some ns => ProdOk (Node ns (Token None X))
         | None => ProdFix (FixedProduction (parts_of states))
         end.
  Proof.
    unfold inner_parse_from_tokens_production_build_node, parts_of.
    pose proof (trees_states (rev states)) as H.
    destruct (trees _) as [ns|]; [destruct H as [-> ->]; reflexivity|now rewrite H].
  Qed.

  Inductive resume (child : bool) : list (state L T) -> list T -> list T ->
            parsed L T -> history L T -> parsed L T -> history L T -> Prop :=
  | resume_ok states syms rest parts q h :
      resume child states syms rest (PParts parts q) h (PParts (parts_of states ++ parts) q) h
  | resume_fail rest f b h : resume child [] [] rest (PFailed f b) h (PFailed f b) h
  | resume_leaf st states X syms rest f b h r h' :
      ps_prod_iter_option st = None ->
      resume child states syms (X :: rest) (PFailed f (ParsedOk (ps_node st) :: b)) h r h' ->
      resume child (StParsing st :: states) (X :: syms) rest (PFailed f b) h r h'
  | resume_fixed fs states X syms rest f b h r h' :
      resume child states syms (X :: rest) (PFailed f (ParsedFix (fst_fixed_symbol fs) :: b)) h r h' ->
      resume child (StFixed fs :: states) (X :: syms) rest (PFailed f b) h r h'
  | resume_branch st states X syms rest it f b h o h1 r h' :
      ps_prod_iter_option st = Some it ->
      retry child X (ps_initial_token_position st) it rest f b h o h1 ->
      resume child states syms (X :: rest) o h1 r h' ->
      resume child (StParsing st :: states) (X :: syms) rest (PFailed f b) h r h'.

  Definition dsym (r : parse_symbol_result L T) (d : derived L T) : Prop :=
    match r with
    | SymOk st => exists it, ps_prod_iter_option st = Some it /\
                             d = DTree (ps_node st) (ps_final_token_position st) it
    | SymErr f => d = DFailed f
    | SymFix fs => d = DFixed (fst_fixed_symbol fs) (fst_final_token_position fs)
    end.

  Definition placed (X : T) (pos : nat) (r : parse_symbol_result L T) : Prop :=
    forall st, r = SymOk st -> ps_initial_token_position st = pos /\
                               tok_type (node_token (ps_node st)) = X.

  Definition CSym X pos prods single h r h' : Prop :=
    placed X pos r /\ exists d, derive single X pos prods h d h' /\ dsym r d.
  Definition CTry X pos child prods (failed : list (failed_production L T)) h
             (r : parse_symbol_result L T + list (failed_production L T)) h' : Prop :=
    match r with
    | inl r => placed X pos r /\ exists d, attempt child X pos prods failed h (inl d) h' /\ dsym r d
    | inr fps => attempt child X pos prods failed h (inr fps) h' /\
                 length fps = length failed + length prods
    end.
  Definition CProd X out child states pos h pr pos' h' : Prop :=
    forall syms rest, cstack states syms -> out = rev syms ++ rest ->
    exists o h1 r, parse child rest pos h o h1 /\ resume child states syms rest o h1 r h' /\
    match pr with
    | ProdOk n => exists parts ns, r = PParts parts pos' /\ trees parts = Some ns /\
                                   n = Node ns (Token None X)
    | ProdFix fp => exists parts, r = PParts parts pos' /\ trees parts = None /\ fp = FixedProduction parts
    | ProdErr fp => exists f b, r = PFailed f b /\ fp = production_report out f b
    end.
  Definition CStep Y pos child h (r : parse_symbol_result L T) h' : Prop :=
    match r with
    | SymOk st =>
        ps_initial_token_position st = pos /\
        match ps_prod_iter_option st with
        | None => forall Xs o h'', parse child Xs (ps_final_token_position st) h' o h'' ->
                                   parse child (Y :: Xs) pos h (after_leaf (ps_node st) o) h''
        | Some it => non_terminal ps Y /\ tok_type (node_token (ps_node st)) = Y /\
            exists tok, nth_error tokens pos = Some tok /\
            derive child Y pos (cands Y (tok_type tok)) h
                   (DTree (ps_node st) (ps_final_token_position st) it) h'
        end
    | SymErr fs => forall Xs, parse child (Y :: Xs) pos h (PFailed fs []) h'
    | SymFix fs => non_terminal ps Y /\
            exists tok, nth_error tokens pos = Some tok /\
            derive child Y pos (cands Y (tok_type tok)) h
                   (DFixed (fst_fixed_symbol fs) (fst_final_token_position fs)) h'
    end.
  Definition CPop states child failed h states' popped h' : Prop :=
    forall syms rest f, cstack states syms ->
    match popped with
    | Some fstates =>
        resume child states syms rest (PFailed f (map s2p failed)) h (PFailed f (map s2p fstates)) h'
    | None => exists st' states'' syms' rest',
        states' = st' :: states'' /\ cstack states' syms' /\
        rev syms ++ rest = rev syms' ++ rest' /\
        forall o h1 r h2, parse child rest' (state_final_token_position st') h' o h1 ->
                    resume child states' syms' rest' o h1 r h2 ->
                    resume child states syms rest (PFailed f (map s2p failed)) h r h2
    end.

  Lemma is_child_eq single (prods : list (list T)) :
    is_child_single_path single prods = (single && Nat.eqb (length prods) 1)%bool.
  Proof. reflexivity. Qed.

  Lemma code_to_spec :
    (forall X pos prods single h r h', RSym self tokens X pos prods single h r h' ->
       CSym X pos prods single h r h') /\
    (forall X pos child prods failed h r h', RTry self tokens X pos child prods failed h r h' ->
       CTry X pos child prods failed h r h') /\
    (forall X out child states pos h pr pos' h',
       RProd self tokens X out child states pos h pr pos' h' ->
       CProd X out child states pos h pr pos' h') /\
    (forall Y pos child h r h', RStep self tokens Y pos child h r h' -> CStep Y pos child h r h') /\
    (forall states child failed h states' popped h',
       RPop self tokens states child failed h states' popped h' ->
       CPop states child failed h states' popped h').
  Proof.
    apply run_mutind; unfold CSym, CTry, CProd, CStep, CPop.
    - intros X pos prods single h r h' _ (Hp & d & Ha & Hd). split; auto. exists d. split; auto.
      now apply derive_done.
    - intros X pos prods single h failed h' fo h'' _ (Ha & Hlen) Hfix. simpl in Hlen.
      rewrite is_child_eq in *.
      unfold inner_parse_from_tokens_try_fix_productions in Hfix.
      destruct (pr_solver self) as [s|] eqn:Hs.
      2:{ inversion Hfix; subst. split; [discriminate|]. eexists. split; [|reflexivity].
          eapply derive_failed; eauto. }
      destruct single.
      2:{ inversion Hfix; subst. split; [discriminate|]. eexists. split; [|reflexivity].
          eapply derive_failed; eauto. }
      simpl in Ha, Hfix.
      assert (Hcall : s h' (fix_call tokens pos failed) = Reply fo /\ h'' = h' ++ [fix_call tokens pos failed]).
      { destruct (Nat.eqb (length prods) 1) eqn:He.
        - apply Nat.eqb_eq in He. destruct failed as [|fp [|fp' failed]]; simpl in Hlen; try lia.
          now apply await_done in Hfix.
        - apply Nat.eqb_neq in He. apply await_done in Hfix.
          destruct failed as [|fp [|fp' failed]]; simpl in Hlen; [exact Hfix|lia|exact Hfix]. }
      destruct Hcall as [Hreply ->].
      destruct fo as [[q fp]|]; simpl.
      + split; [discriminate|]. eexists. split; [|reflexivity].
        eapply derive_fixed; eauto.
      + split; [discriminate|]. eexists. split; [|reflexivity].
        eapply derive_refused; eauto.
    - intros X pos child failed h. split; [constructor|simpl; lia].
    - intros X pos child out rest failed h n pos' h' _ IH. split.
      { intros st Hst. inversion Hst; subst. simpl. split; auto.
        destruct (IH [] out) as (o & h1 & r & _ & _ & parts & ns & _ & _ & ->);
          [constructor|reflexivity|]. reflexivity. }
      destruct (IH [] out) as (o & h1 & r & Hs & Hr & parts & ns & -> & Ht & ->); [constructor|reflexivity|].
      inversion Hr as [states syms rest' ns' q h0 Ha Hb Hc Hd Hf| | | | ]; subst.
      exists (built X parts pos' rest). split; [eapply attempt_first; eauto|].
      unfold built. rewrite Ht. simpl. eauto.
    - intros X pos child out rest failed h fp pos' h' r h'' _ IH1 _ IH2.
      destruct (IH1 [] out) as (o & h1 & r' & Hs & Hr & f & b & -> & ->); [constructor|reflexivity|].
      inversion Hr; subst.
      destruct r as [r|failed'].
      + destruct IH2 as (Hp & d & Ha & Hd). split; auto. exists d. split; auto.
        eapply attempt_next; eauto.
      + destruct IH2 as (Ha & Hl). split; [eapply attempt_next; eauto|].
        rewrite app_length in Hl. simpl in *. lia.
    - intros X pos child out rest failed h fp pos' h' _ IH. split; [discriminate|].
      destruct (IH [] out) as (o & h1 & r & Hs & Hr & parts & -> & Ht & ->); [constructor|reflexivity|].
      inversion Hr as [states syms rest' ns' q h0 Ha Hb Hc Hd Hf| | | | ]; subst.
      exists (built X parts pos' rest). split; [eapply attempt_first; eauto|].
      unfold built. rewrite Ht. reflexivity.
    - intros X out child states pos h pr Hlen Hb syms rest Hs Ho.
      pose proof (cstack_length Hs) as Hl.
      assert (Hrest : rest = []).
      { destruct rest as [|y rest]; auto. subst out. rewrite app_length, rev_length in Hlen. simpl in Hlen. lia. }
      subst rest. rewrite build_parts in Hb. inversion Hb as [Hpr].
      exists (PParts [] pos), h, (PParts (parts_of states) pos).
      split; [constructor|]. split.
      { pose proof (resume_ok child states syms [] [] pos h) as Hro. now rewrite app_nil_r in Hro. }
      destruct (trees (parts_of states)) as [ns|] eqn:Ht; eauto.
    - intros X out child states pos h Y st h' pr pos' h'' HY _ (Hi & IH1) _ IH2 syms rest Hs Ho.
      pose proof (cstack_length Hs) as Hl. subst out.
      rewrite Hl, <- (rev_length syms), nth_error_app2, Nat.sub_diag in HY by lia.
      destruct rest as [|y rest]; [discriminate|]. simpl in HY. inversion HY; subst y.
      destruct (ps_prod_iter_option st) as [it|] eqn:Hit.
      + destruct IH1 as (Hnt & Htt & tok & Htok & Hd).
        destruct (IH2 (Y :: syms) rest) as (o & h1 & r & Hse & Hre & Hpr).
        { eapply cstack_choice; eauto. }
        { simpl. now rewrite <- app_assoc. }
        destruct o as [parts q|f b].
        * exists (PParts (FPartOk (ps_node st) :: parts) q), h1, r. split; [|split; auto].
          -- eapply parse_non_terminal; eauto. eapply branch_tree; eauto.
          -- inversion Hre; subst. rewrite parts_cons. apply resume_ok.
        * inversion Hre as [ | |? ? ? ? ? ? ? ? ? ? Hit' | |st' states' X' syms' rest' it' f0 b0 h0 o h2 r' h3 Hit' Hbr Hre']; subst.
          { congruence. }
          exists o, h2, r. split; [|split; auto].
          eapply parse_non_terminal; eauto. eapply branch_retry; eauto.
          assert (it' = it) by congruence. now subst it'.
      + destruct (IH2 (Y :: syms) rest) as (o & h1 & r & Hse & Hre & Hpr).
        { eapply cstack_leaf; eauto. }
        { simpl. now rewrite <- app_assoc. }
        exists (after_leaf (ps_node st) o), h1, r. split; [auto|]. split; auto.
        destruct o as [parts q|f b]; simpl.
        * inversion Hre; subst. rewrite parts_cons. apply resume_ok.
        * inversion Hre; subst; auto. congruence.
    - intros X out child states pos h Y fs h' pr pos' h'' HY _ (Hnt & tok & Htok & Hd) _ IH2 syms rest Hs Ho.
      pose proof (cstack_length Hs) as Hl. subst out.
      rewrite Hl, <- (rev_length syms), nth_error_app2, Nat.sub_diag in HY by lia.
      destruct rest as [|y rest]; [discriminate|]. simpl in HY. inversion HY; subst y.
      destruct (IH2 (Y :: syms) rest) as (o & h1 & r & Hse & Hre & Hpr).
      { eapply cstack_fixed; eauto. }
      { simpl. now rewrite <- app_assoc. }
      exists (after_fixed (fst_fixed_symbol fs) o), h1, r. split.
      { eapply parse_non_terminal; eauto. eapply branch_fixed; eauto. }
      split; auto. destruct o as [parts q|f b]; simpl.
      + inversion Hre; subst. rewrite parts_cons. apply resume_ok.
      + inversion Hre; subst; auto.
    - intros X out child states pos h Y fs h' states' fstates h'' HY _ IH1 _ IH2 syms rest Hs Ho.
      pose proof (cstack_length Hs) as Hl. subst out.
      rewrite Hl, <- (rev_length syms), nth_error_app2, Nat.sub_diag in HY by lia.
      destruct rest as [|y rest]; [discriminate|]. simpl in HY. inversion HY; subst y.
      exists (PFailed fs []), h', (PFailed fs (map s2p fstates)). split; [auto|].
      split; [exact (IH2 syms (Y :: rest) fs Hs)|]. do 2 eexists. split; reflexivity.
    - intros X out child states pos h Y fs h' st states' h'' pr pos' h3 HY _ IH1 _ IHpop _ IH syms rest Hs Ho.
      pose proof (cstack_length Hs) as Hl.
      assert (HYr : exists rest0, rest = Y :: rest0).
      { subst out. rewrite Hl, <- (rev_length syms), nth_error_app2, Nat.sub_diag in HY by lia.
        destruct rest as [|y rest]; [discriminate|]. simpl in HY. inversion HY; subst y. eauto. }
      destruct HYr as (rest0 & ->).
      destruct (IHpop syms (Y :: rest0) fs Hs) as (st' & states'' & syms' & rest' & Heq & Hs' & Hout & Hk).
      inversion Heq; subst st' states''.
      destruct (IH syms' rest' Hs') as (o & h1 & r & Hse & Hre & Hpr); [congruence|].
      exists (PFailed fs []), h', r. split; [auto|]. split; auto. eapply Hk; eauto.
    - intros Y pos child h tok r h' Hnt Htok _ (Hp & d & Hd & Hdr).
      apply (is_non_terminal_spec G) in Hnt.
      destruct r as [st|e|f]; simpl in Hdr.
      + destruct Hdr as (it & Hit & ->). destruct (Hp st eq_refl) as [Hp1 Hp2]. split; auto.
        rewrite Hit. split; auto. split; auto. eauto.
      + subst d. intros Xs. eapply parse_non_terminal; eauto. now apply branch_failed.
      + subst d. eauto.
    - intros Y pos child h Hnt. apply (is_non_terminal_false G) in Hnt.
      unfold inner_parse_terminal_symbol, get_epsilon_symbol. rewrite (go_eps G).
      destruct (eqb eps Y) eqn:He.
      + apply eqb_iff in He; subst Y. simpl. split; auto. intros. now apply parse_epsilon.
      + apply eqb_ne_iff in He. unfold inner_parse_non_epsilon_terminal_symbol.
        destruct (nth_error tokens pos) as [tok|] eqn:Htok; simpl.
        * destruct (eqb Y (tok_type tok)) eqn:Ht; simpl.
          -- apply eqb_iff in Ht; subst Y. split; auto. intros. apply parse_token; auto.
          -- apply eqb_ne_iff in Ht. intros Xs. apply parse_mismatch; auto.
             intros tok' Htok'. rewrite Htok in Htok'. inversion Htok'; subst. auto.
        * intros Xs. apply parse_mismatch; auto. intros tok' Htok'. congruence.
    - intros child failed h syms rest f Hs. inversion Hs; subst. constructor.
    - intros fs states child failed h states' popped h' _ IH syms rest f Hs.
      inversion Hs as [|fs0 states0 X syms0 Hs0| |]; subst.
      specialize (IH syms0 (X :: rest) f Hs0). destruct popped as [fstates|].
      + now apply resume_fixed.
      + destruct IH as (st' & states'' & syms' & rest' & Heq & Hs' & Hout & Hk).
        exists st', states'', syms', rest'. split; auto. split; auto. split.
        * simpl. rewrite <- app_assoc. exact Hout.
        * intros o h1 r h2 Ha Hb. apply resume_fixed; auto. eapply Hk; eauto.
    - intros st states child failed h states' popped h' Hit _ IH syms rest f Hs.
      inversion Hs as [| |st0 states0 X syms0 Hs0 Hit0|st0 states0 X syms0 it0 Hs0 Hit0]; subst;
        [|congruence].
      specialize (IH syms0 (X :: rest) f Hs0). destruct popped as [fstates|].
      + now apply resume_leaf.
      + destruct IH as (st' & states'' & syms' & rest' & Heq & Hs' & Hout & Hk).
        exists st', states'', syms', rest'. split; auto. split; auto. split.
        * simpl. rewrite <- app_assoc. exact Hout.
        * intros o h1 r h2 Ha Hb. apply resume_leaf; auto. eapply Hk; eauto.
    - intros st it states child failed h ps' h' Hit _ (Hp & d & Hd & Hdr) syms rest f Hs.
      inversion Hs as [| |st0 states0 X syms0 Hs0 Hit0|st0 states0 X syms0 it0 Hs0 Hit0 Hnt HX]; subst;
        [congruence|].
      assert (it0 = it) by congruence. subst it0.
      simpl in Hdr. destruct Hdr as (it' & Hit' & ->). destruct (Hp ps' eq_refl) as [Hp1 Hp2].
      set (X := tok_type (node_token (ps_node st))) in *.
      exists (StParsing ps'), states, (X :: syms0), rest. split; auto. split; [eapply cstack_choice; eauto|].
      split; auto. intros o h1 r h2 Ha Hb. simpl in Ha.
      destruct o as [parts q|f' b'].
      + inversion Hb; subst. rewrite parts_cons. simpl.
        eapply resume_branch with (it := it) (o := PParts (FPartOk (ps_node ps') :: parts) q); auto.
        * eapply retry_tree; eauto.
        * apply resume_ok.
      + inversion Hb as [ | |? ? ? ? ? ? ? ? ? ? Hit1 | |? ? ? ? ? it1 ? ? ? o1 h3 ? ? Hit1 Hbr Hre']; subst; [congruence|].
        assert (it1 = it') by congruence. subst it1.
        eapply resume_branch with (it := it) (o := o1); auto; [|exact Hre'].
        eapply retry_again; eauto. now rewrite <- Hp1.
    - intros st it states child failed h r h' states' popped h'' Hit _ (Hp & d & Hd & Hdr) Hr _ IH syms rest f Hs.
      inversion Hs as [| |st0 states0 X syms0 Hs0 Hit0|st0 states0 X syms0 it0 Hs0 Hit0 Hnt HX]; subst;
        [congruence|].
      assert (it0 = it) by congruence. subst it0.
      assert (Hnd : forall n q lft, d <> DTree n q lft).
      { destruct r as [st1|e|g]; simpl in Hdr; [exfalso; now apply (Hr st1)| |]; subst d; discriminate. }
      specialize (IH syms0 (tok_type (node_token (ps_node st)) :: rest) f Hs0).
      destruct popped as [fstates|].
      + eapply resume_branch; eauto. eapply retry_failed; eauto.
      + destruct IH as (st' & states'' & syms' & rest' & Heq & Hs' & Hout & Hk).
        exists st', states'', syms', rest'. split; auto. split; auto. split.
        * simpl. rewrite <- app_assoc. exact Hout.
        * intros o h1 r' h2 Ha Hb. eapply resume_branch; eauto. eapply retry_failed; eauto.
  Qed.

  (** ** spec to code *)

  (** the panic considered, when the computation stops *)
  Variable why_panic : panic.
  Definition ending : Type := option (parsed L T * history L T).

  Definition finishes X out child states pos h (e : ending) : Prop :=
    match e with
    | Some (PParts parts q, h') => RProd self tokens X out child states pos h
        (match trees parts with
         | Some ns => ProdOk (Node ns (Token None X))
         | None => ProdFix (FixedProduction parts)
         end) q h'
    | Some (PFailed f b, h') => exists pos',
        RProd self tokens X out child states pos h (ProdErr (production_report out f b)) pos' h'
    | None => QProd self tokens why_panic X out child states pos h
    end.

  Definition pops X out child states f b h (e : ending) : Prop :=
    (exists fstates h', e = Some (PFailed f (map s2p fstates ++ b), h') /\ forall failed,
       RPop self tokens states child failed h [] (Some (fstates ++ failed)) h') \/
    (e = None /\ forall failed, QPop self tokens why_panic states child failed h) \/
    (exists st states' h1,
       (forall failed, RPop self tokens states child failed h (st :: states') None h1) /\
       finishes X out child (st :: states') (state_final_token_position st) h1 e).

  Lemma fail_finishes X out child states pos h Y fs h1 e :
    nth_error out (length states) = Some Y ->
    RStep self tokens Y pos child h (SymErr fs) h1 ->
    pops X out child states fs [] h1 e -> finishes X out child states pos h e.
  Proof.
    intros HY HS [(fstates & h' & -> & Hp)|[[-> Hp]|(st & states' & h2 & Hp & Hf)]].
    - simpl. eexists. rewrite app_nil_r.
      eapply (@RProd_failed _ _ _ self) with (fstates := fstates); eauto.
      specialize (Hp []). rewrite app_nil_r in Hp. exact Hp.
    - simpl. eapply QProd_pop; eauto.
    - destruct e as [[[parts q|f b] h']|]; simpl in *.
      + eapply RProd_retry; eauto.
      + destruct Hf as (pos' & Hf). exists pos'. eapply RProd_retry; eauto.
      + eapply QProd_retry; eauto.
  Qed.

  Lemma ok_finishes X out child states pos h Y st h1 e :
    nth_error out (length states) = Some Y ->
    RStep self tokens Y pos child h (SymOk st) h1 ->
    finishes X out child (StParsing st :: states) (ps_final_token_position st) h1 e ->
    finishes X out child states pos h e.
  Proof.
    intros HY HS Hf. destruct e as [[[parts q|f b] h']|]; simpl in *.
    - eapply RProd_ok; eauto.
    - destruct Hf as (pos' & Hf). exists pos'. eapply RProd_ok; eauto.
    - eapply QProd_ok; eauto.
  Qed.

  Lemma fix_finishes X out child states pos h Y fs h1 e :
    nth_error out (length states) = Some Y ->
    RStep self tokens Y pos child h (SymFix fs) h1 ->
    finishes X out child (StFixed fs :: states) (fst_final_token_position fs) h1 e ->
    finishes X out child states pos h e.
  Proof.
    intros HY HS Hf. destruct e as [[[parts q|f b] h']|]; simpl in *.
    - eapply RProd_fix; eauto.
    - destruct Hf as (pos' & Hf). exists pos'. eapply RProd_fix; eauto.
    - eapply QProd_fix; eauto.
  Qed.

  Lemma leaf_pops X out child st states f b h e :
    ps_prod_iter_option st = None ->
    pops X out child states f (ParsedOk (ps_node st) :: b) h e ->
    pops X out child (StParsing st :: states) f b h e.
  Proof.
    intros Hit [(fstates & h' & -> & Hp)|[[-> Hp]|(st' & states' & h1 & Hp & Hf)]].
    - left. exists (fstates ++ [StParsing st]), h'. split.
      { now rewrite map_app, <- app_assoc. }
      intros failed. apply RPop_leaf; auto. rewrite <- app_assoc. apply Hp.
    - right; left. split; auto. intros. now apply QPop_leaf.
    - right; right. exists st', states', h1. split; auto. intros. now apply RPop_leaf.
  Qed.

  Lemma fixed_pops X out child fs states f b h e :
    pops X out child states f (ParsedFix (fst_fixed_symbol fs) :: b) h e ->
    pops X out child (StFixed fs :: states) f b h e.
  Proof.
    intros [(fstates & h' & -> & Hp)|[[-> Hp]|(st' & states' & h1 & Hp & Hf)]].
    - left. exists (fstates ++ [StFixed fs]), h'. split.
      { now rewrite map_app, <- app_assoc. }
      intros failed. apply RPop_fixed; auto. rewrite <- app_assoc. apply Hp.
    - right; left. split; auto. intros. now apply QPop_fixed.
    - right; right. exists st', states', h1. split; auto. intros. now apply RPop_fixed.
  Qed.

  Lemma nth_after (A : Type) (syms : list A) (Y : A) rest n :
    n = length syms -> nth_error (rev syms ++ Y :: rest) n = Some Y.
  Proof.
    intros ->. rewrite <- (rev_length syms), nth_error_app2, Nat.sub_diag by lia. reflexivity.
  Qed.

  Definition psr_of (p : nat) (d : derived L T) : parse_symbol_result L T :=
    match d with
    | DTree n q lft => SymOk {| ps_initial_token_position := p; ps_final_token_position := q;
                                 ps_prod_iter_option := Some lft; ps_node := n |}
    | DFixed fs q => SymFix {| fst_final_token_position := q; fst_fixed_symbol := fs |}
    | DFailed f => SymErr f
    end.
  Definition rooted (X : T) (d : derived L T) : Prop :=
    forall n q lft, d = DTree n q lft -> tok_type (node_token n) = X.

  Definition SDerive single X p outs h d h' : Prop :=
    rooted X d /\ RSym self tokens X p outs single h (psr_of p d) h'.
  Definition SAttempt single X p outs fps h (r : derived L T + list (failed_production L T)) h' : Prop :=
    match r with
    | inl d => rooted X d /\ RTry self tokens X p single outs fps h (inl (psr_of p d)) h'
    | inr fps' => RTry self tokens X p single outs fps h (inr fps') h' /\
                  length fps' = length fps + length outs
    end.
  Definition SParse child Xs p h (o : parsed L T) h1 : Prop :=
    forall X out states syms, cstack states syms -> out = rev syms ++ Xs ->
    match o with
    | PParts parts q => finishes X out child states p h (Some (PParts (parts_of states ++ parts) q, h1))
    | PFailed f b => forall e, pops X out child states f b h1 e -> finishes X out child states p h e
    end.
  Definition SBranch child X p outs Xs h o h' : Prop :=
    non_terminal ps X -> forall tok, nth_error tokens p = Some tok -> outs = cands X (tok_type tok) ->
    SParse child (X :: Xs) p h o h'.
  Definition SRetry child X p outs Xs f b h (o : parsed L T) h' : Prop :=
    non_terminal ps X ->
    forall X0 out st states syms,
      ps_prod_iter_option st = Some outs -> ps_initial_token_position st = p ->
      tok_type (node_token (ps_node st)) = X ->
      cstack states syms -> out = rev syms ++ X :: Xs ->
      match o with
      | PParts parts q =>
          pops X0 out child (StParsing st :: states) f b h (Some (PParts (parts_of states ++ parts) q, h'))
      | PFailed f' b' => forall e, pops X0 out child states f' b' h' e ->
                                   pops X0 out child (StParsing st :: states) f b h e
      end.

  Lemma leaf_parse child Y Xs p h st h1 o h2 :
    RStep self tokens Y p child h (SymOk st) h1 -> ps_prod_iter_option st = None ->
    SParse child Xs (ps_final_token_position st) h1 o h2 ->
    SParse child (Y :: Xs) p h (after_leaf (ps_node st) o) h2.
  Proof.
    intros HR Hit IH X out states syms Hs Ho. subst out.
    assert (Hs' : cstack (StParsing st :: states) (Y :: syms)) by now apply cstack_leaf.
    specialize (IH X (rev syms ++ Y :: Xs) (StParsing st :: states) (Y :: syms) Hs').
    simpl rev in IH. rewrite <- app_assoc in IH. specialize (IH eq_refl).
    destruct o as [parts q|f b]; simpl after_leaf.
    - eapply ok_finishes; [apply nth_after, cstack_length; auto|exact HR|].
      rewrite parts_cons in IH. exact IH.
    - intros e Hp. eapply ok_finishes; [apply nth_after, cstack_length; auto|exact HR|].
      apply IH. now apply leaf_pops.
  Qed.

  Lemma spec_to_code :
    (forall single X p outs h d h', derive single X p outs h d h' -> SDerive single X p outs h d h') /\
    (forall single X p outs fps h r h', attempt single X p outs fps h r h' ->
       SAttempt single X p outs fps h r h') /\
    (forall child Xs p h o h', parse child Xs p h o h' -> SParse child Xs p h o h') /\
    (forall child X p outs Xs h o h', branch child X p outs Xs h o h' ->
       SBranch child X p outs Xs h o h') /\
    (forall child X p outs Xs f b h o h', retry child X p outs Xs f b h o h' ->
       SRetry child X p outs Xs f b h o h').
  Proof.
    assert (Hcall : forall p (outs : list (list T)) fps h' s fo, pr_solver self = Some s ->
      length fps = length outs -> s h' (fix_call tokens p fps) = Reply fo ->
      inner_parse_from_tokens_try_fix_productions self tokens p true
        (Nat.eqb (length outs) 1) fps h' = Done (fo, h' ++ [fix_call tokens p fps])).
    { intros p outs fps h' s fo Hs Hlen Hr.
      unfold inner_parse_from_tokens_try_fix_productions. rewrite Hs.
      rewrite <- Hlen. destruct fps as [|fp [|fp' fps]]; simpl in *; rewrite Hr; reflexivity. }
    apply recover_mutind; unfold SDerive, SAttempt.
    - intros single X p outs h d h' _ [Hr IH]. split; auto. now apply RSym_done.
    - intros single X p outs h fps h' _ [IH Hlen] Hno. split; [discriminate|]. simpl.
      eapply (@RSym_failed _ _ _ self) with (fo := None); eauto.
      unfold inner_parse_from_tokens_try_fix_productions.
      destruct Hno as [->|Hn]; [|now rewrite Hn]. destruct (pr_solver self); reflexivity.
    - intros X p outs h fps h' s _ [IH Hlen] Hs Hr. split; [discriminate|]. simpl.
      eapply (@RSym_failed _ _ _ self) with (fo := None); eauto.
    - intros X p outs h fps h' s fp q _ [IH Hlen] Hs Hr. split; [discriminate|]. simpl.
      eapply (@RSym_failed _ _ _ self) with (fo := Some (FixResult q fp)); eauto.
    - intros single X p fps h. split; [constructor|simpl; lia].
    - intros single X p out outs fps h parts q h' _ IH.
      specialize (IH X out [] [] cstack_nil eq_refl). simpl in IH. unfold built.
      destruct (trees parts) as [ns|].
      + split; [intros ? ? ? Heq; inversion Heq; reflexivity|]. now apply RTry_ok.
      + split; [discriminate|]. simpl. eapply RTry_fix; eauto.
    - intros single X p out outs fps h f b h' r h'' _ IH1 _ IH2.
      destruct (IH1 X out [] [] cstack_nil eq_refl (Some (PFailed f b, h'))) as [pos' HP].
      { left. exists [], h'. split; auto. intros. constructor. }
      destruct r as [d|fps'].
      + destruct IH2 as [Hr IH2]. split; auto. eapply RTry_err; eauto.
      + destruct IH2 as [IH2 Hlen]. split; [eapply RTry_err; eauto|].
        rewrite app_length in Hlen. simpl in *. lia.
    - intros child p h X out states syms Hs Ho. simpl. rewrite !app_nil_r in *. subst out.
      apply RProd_done.
      + rewrite rev_length, (cstack_length Hs). lia.
      + apply build_parts.
    - intros child Xs p h o h' _ IH.
      assert (HN : is_non_terminal (pr_grammar self) eps = false)
        by (apply (is_non_terminal_false G); apply (eps_not_nt G)).
      pose proof (RStep_t self tokens eps p child h HN) as HR.
      unfold inner_parse_terminal_symbol, get_epsilon_symbol in HR. rewrite (go_eps G), eqb_self in HR.
      exact (leaf_parse HR eq_refl IH).
    - intros child Xs p tok h o h' Hnt He Htok _ IH.
      assert (HN : is_non_terminal (pr_grammar self) (tok_type tok) = false)
        by now apply (is_non_terminal_false G).
      pose proof (RStep_t self tokens (tok_type tok) p child h HN) as HR.
      unfold inner_parse_terminal_symbol, get_epsilon_symbol in HR. rewrite (go_eps G) in HR.
      assert (He' : eqb eps (tok_type tok) = false) by (apply eqb_ne_iff; congruence).
      rewrite He' in HR. unfold inner_parse_non_epsilon_terminal_symbol in HR.
      rewrite Htok, eqb_self in HR.
      exact (leaf_parse HR eq_refl IH).
    - intros child X Xs p h Hnt He Hno X0 out states syms Hs Ho e Hp. subst out.
      assert (HN : is_non_terminal (pr_grammar self) X = false)
        by now apply (is_non_terminal_false G).
      pose proof (RStep_t self tokens X p child h HN) as HR.
      unfold inner_parse_terminal_symbol, get_epsilon_symbol in HR. rewrite (go_eps G) in HR.
      assert (He' : eqb eps X = false) by (apply eqb_ne_iff; congruence).
      rewrite He' in HR. unfold inner_parse_non_epsilon_terminal_symbol in HR.
      eapply fail_finishes; [apply nth_after, cstack_length; eauto| |exact Hp].
      destruct (nth_error tokens p) as [tok|] eqn:Htok; [|exact HR].
      assert (Hx : eqb X (tok_type tok) = false).
      { apply eqb_ne_iff. intros ->. now apply (Hno tok). }
      rewrite Hx in HR. exact HR.
    - intros child X Xs p tok h o h' Hnt Htok _ IH. exact (IH Hnt tok Htok eq_refl).
    - (* branch_failed *)
      intros child X p outs Xs h f h' _ [_ IH] Hnt tok Htok -> X0 out states syms Hs Ho e Hp. subst out.
      eapply fail_finishes; [apply nth_after, cstack_length; auto| |exact Hp].
      eapply RStep_nt; eauto. now apply (is_non_terminal_spec G).
    - (* branch_fixed *)
      intros child X p outs Xs h fs q h' o h'' _ [_ IH1] _ IH2 Hnt tok Htok -> X0 out states syms Hs Ho. subst out.
      set (fst := {| fst_final_token_position := q; fst_fixed_symbol := fs |}) in *.
      assert (HR : RStep self tokens X p child h (SymFix fst) h').
      { eapply RStep_nt; eauto. now apply (is_non_terminal_spec G). }
      assert (Hs' : cstack (StFixed fst :: states) (X :: syms)) by now apply cstack_fixed.
      specialize (IH2 X0 (rev syms ++ X :: Xs) (StFixed fst :: states) (X :: syms) Hs').
      simpl rev in IH2. rewrite <- app_assoc in IH2. specialize (IH2 eq_refl).
      destruct o as [parts q'|f b]; simpl after_fixed.
      + eapply fix_finishes; [apply nth_after, cstack_length; auto|exact HR|].
        rewrite parts_cons in IH2. exact IH2.
      + intros e Hp. eapply fix_finishes; [apply nth_after, cstack_length; auto|exact HR|].
        apply IH2. now apply fixed_pops.
    - (* branch_tree *)
      intros child X p outs Xs h n q lft h' parts q' h'' _ [Hr IH1] _ IH2 Hnt tok Htok -> X0 out states syms Hs Ho.
      subst out. simpl in IH1.
      set (st' := {| ps_initial_token_position := p; ps_final_token_position := q;
                     ps_prod_iter_option := Some lft; ps_node := n |}) in *.
      eapply ok_finishes with (st := st'); [apply nth_after, cstack_length; auto| |].
      + eapply RStep_nt; eauto. now apply (is_non_terminal_spec G).
      + change (FPartOk n) with (state_to_fixed_part (StParsing st')). rewrite <- parts_cons.
        apply (IH2 X0 _ (StParsing st' :: states) (X :: syms)).
        * eapply cstack_choice; [exact Hs|reflexivity|exact Hnt|exact (Hr _ _ _ eq_refl)].
        * simpl. now rewrite <- app_assoc.
    - (* branch_retry *)
      intros child X p outs Xs h n q lft h' f b h'' o h3 _ [Hr IH1] _ IH2 _ IH3 Hnt tok Htok -> X0 out states syms Hs Ho.
      subst out. simpl in IH1.
      set (st' := {| ps_initial_token_position := p; ps_final_token_position := q;
                     ps_prod_iter_option := Some lft; ps_node := n |}) in *.
      assert (HR : RStep self tokens X p child h (SymOk st') h').
      { eapply RStep_nt; eauto. now apply (is_non_terminal_spec G). }
      assert (Hs' : cstack (StParsing st' :: states) (X :: syms)).
      { eapply cstack_choice; [exact Hs|reflexivity|exact Hnt|exact (Hr _ _ _ eq_refl)]. }
      assert (Hcont : forall e, pops X0 (rev syms ++ X :: Xs) child (StParsing st' :: states) f b h'' e ->
                finishes X0 (rev syms ++ X :: Xs) child states p h e).
      { intros e Hp. eapply ok_finishes; [apply nth_after, cstack_length; auto|exact HR|].
        apply (IH2 X0 _ (StParsing st' :: states) (X :: syms)); auto.
        simpl. now rewrite <- app_assoc. }
      specialize (IH3 Hnt X0 (rev syms ++ X :: Xs) st' states syms eq_refl eq_refl (Hr _ _ _ eq_refl) Hs eq_refl).
      destruct o as [parts q2|f2 b2]; auto.
    - (* retry_failed *)
      intros child X p outs Xs f b h d h' _ [_ IH] Hd Hnt X0 out st states syms Hit Hi HX Hs Ho e Hp.
      assert (Hpd : forall st', psr_of p d <> SymOk st').
      { destruct d as [n q lft| |]; simpl; try discriminate. exfalso. eapply Hd; eauto. }
      destruct Hp as [(fstates & h2 & -> & Hp)|[[-> Hp]|(st' & states' & h1 & Hp & Hf)]].
      + left. exists fstates, h2. split; auto. intros failed.
        eapply RPop_skip; [exact Hit|rewrite HX, Hi; exact IH|exact Hpd|apply Hp].
      + right; left. split; auto. intros failed.
        eapply QPop_skip; [exact Hit|rewrite HX, Hi; exact IH|exact Hpd|apply Hp].
      + right; right. exists st', states', h1. split; auto. intros failed.
        eapply RPop_skip; [exact Hit|rewrite HX, Hi; exact IH|exact Hpd|apply Hp].
    - (* retry_tree *)
      intros child X p outs Xs f b h n q lft h' parts q' h'' _ [Hr IH1] _ IH2 Hnt X0 out st states syms Hit Hi HX Hs Ho.
      subst out. simpl in IH1.
      set (st' := {| ps_initial_token_position := p; ps_final_token_position := q;
                     ps_prod_iter_option := Some lft; ps_node := n |}) in *.
      right; right. exists (StParsing st'), states, h'. split.
      + intros failed. eapply RPop_ok; eauto. rewrite HX, Hi. exact IH1.
      + change (FPartOk n) with (state_to_fixed_part (StParsing st')). rewrite <- parts_cons.
        apply (IH2 X0 _ (StParsing st' :: states) (X :: syms)).
        * eapply cstack_choice; [exact Hs|reflexivity|exact Hnt|exact (Hr _ _ _ eq_refl)].
        * simpl. now rewrite <- app_assoc.
    - (* retry_again *)
      intros child X p outs Xs f b h n q lft h' f' b' h'' o h3 _ [Hr IH1] _ IH2 _ IH3 Hnt X0 out st states syms Hit Hi HX Hs Ho.
      subst out. simpl in IH1.
      set (st' := {| ps_initial_token_position := p; ps_final_token_position := q;
                     ps_prod_iter_option := Some lft; ps_node := n |}) in *.
      assert (Hs' : cstack (StParsing st' :: states) (X :: syms)).
      { eapply cstack_choice; [exact Hs|reflexivity|exact Hnt|exact (Hr _ _ _ eq_refl)]. }
      assert (Hcont : forall e, pops X0 (rev syms ++ X :: Xs) child (StParsing st' :: states) f' b' h'' e ->
                pops X0 (rev syms ++ X :: Xs) child (StParsing st :: states) f b h e).
      { intros e Hp. right; right. exists (StParsing st'), states, h'. split.
        { intros failed. eapply RPop_ok; eauto. rewrite HX, Hi. exact IH1. }
        apply (IH2 X0 _ (StParsing st' :: states) (X :: syms)); auto.
        simpl. now rewrite <- app_assoc. }
      specialize (IH3 Hnt X0 (rev syms ++ X :: Xs) st' states syms eq_refl eq_refl (Hr _ _ _ eq_refl) Hs eq_refl).
      destruct o as [parts q2|f2 b2]; auto.
  Qed.
End Recover.
