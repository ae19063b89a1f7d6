(** * Termination of parsing without left recursion (proofs) *)

From Verif Require Import BaseFacts GrammarFacts DerivFacts.
From Verif Require Export ParserPanic.

Set Implicit Arguments.

(** ** the left-corner relation *)
Section LeftCorner.
  Context {T : Type} {E : EqDec T}.
  Variable eps : T.
  Variable ps : list (production T).

  (** [Y] is a non-terminal that can be asked for at the position where [X] starts *)
  Definition lc (X Y : T) : Prop :=
    non_terminal ps Y /\
    exists p u v, In p ps /\ p_input p = X /\ p_output p = u ++ Y :: v /\ nullable eps ps u.

  Definition lc_plus (X Y : T) : Prop := clos_trans_1n _ lc X Y.

  Lemma lc_derives X Y : lc X Y ->
    exists w v, derive1 eps ps [X] w /\ derives eps ps w (Y :: v).
  Proof.
    intros (_ & p & u & v & Hp & Hi & Ho & Hu). exists (p_output p), v. split.
    - subst X. pose proof (derive1_production eps ps [] [] p Hp) as H. simpl in H.
      now rewrite app_nil_r in H.
    - rewrite Ho. exact (derives_app Hu (derives_refl eps ps (Y :: v))).
  Qed.

  Lemma lc_plus_derives X Y : lc_plus X Y ->
    exists w v, derive1 eps ps [X] w /\ derives eps ps w (Y :: v).
  Proof.
    induction 1 as [x y H|x y z H _ IH].
    - now apply lc_derives.
    - apply lc_derives in H as (w & v & Hw & Hv). destruct IH as (w' & v' & Hw' & Hv').
      exists w, (v' ++ v). split; auto. eapply derives_trans; [exact Hv|].
      apply (@derives_ctx _ eps ps [] v [y] (z :: v')). eapply derives_trans; [apply derives_step; exact Hw'|exact Hv'].
  Qed.

  Variable init : T.
  Hypothesis Hno : no_left_recursion_from eps ps init.

  (** [Y] is in a production of [X] *)
  Definition part (X Y : T) : Prop := exists p, In p ps /\ p_input p = X /\ In Y (p_output p).

  Lemma reachable_part X Y : reachable_from eps ps init X -> part X Y -> reachable_from eps ps init Y.
  Proof.
    intros (u & v & Hd) (p & Hp & Hi & Hin). apply in_split in Hin as (u' & v' & Ho).
    exists (u ++ u'), (v' ++ v). eapply derives_trans; [exact Hd|].
    replace ((u ++ u') ++ Y :: v' ++ v) with (u ++ (u' ++ Y :: v') ++ v)
      by (rewrite <- !app_assoc; reflexivity).
    apply (@derives_ctx _ eps ps u v [X]). rewrite <- Ho, <- Hi. now apply derives_production.
  Qed.

  Lemma reachable_lc X Y : reachable_from eps ps init X -> lc X Y -> reachable_from eps ps init Y.
  Proof.
    intros HX (_ & p & u & v & Hp & Hi & Ho & _). apply (reachable_part HX).
    exists p. repeat split; auto. rewrite Ho. apply in_elt.
  Qed.

  Lemma lc_acyclic X : reachable_from eps ps init X -> ~ lc_plus X X.
  Proof.
    intros HR H. assert (Hnt : non_terminal ps X).
    { inversion H as [? H1|? ? H1]; subst; destruct H1 as (_ & p & _ & _ & Hp & Hi & _); exists p; auto. }
    apply (Hno Hnt HR). destruct (lc_plus_derives H) as (w & v & Hw & Hv). exists w, v. auto.
  Qed.

  Lemma lc_acc_path n : forall path X,
    reachable_from eps ps init X -> NoDup (X :: path) -> (forall Z, In Z path -> lc_plus Z X) ->
    (forall Z, In Z (X :: path) -> non_terminal ps Z) ->
    length (map (@p_input T) ps) < n + length (X :: path) ->
    Acc (fun Y X => lc X Y) X.
  Proof.
    induction n as [|n IH]; intros path X HR Hnd Hpath Hnt Hlen.
    - exfalso. assert (Hle : length (X :: path) <= length (map (@p_input T) ps)).
      { apply NoDup_incl_length; auto. intros Z HZ. apply Hnt in HZ as (p & Hp & Hi).
        subst Z. now apply in_map. }
      simpl in *. lia.
    - constructor. intros Y HY. pose proof (reachable_lc HR HY) as HRY. apply (IH (X :: path)); auto.
      + constructor; auto. intros [->|Hin].
        * apply (lc_acyclic HRY). now apply Relation_Operators.t1n_step.
        * apply (lc_acyclic HRY). apply clos_trans_t1n_iff.
          eapply Relation_Operators.t_trans; [apply clos_trans_t1n_iff; now apply Hpath|].
          now apply Relation_Operators.t_step.
      + intros Z [->|HZ].
        * now apply Relation_Operators.t1n_step.
        * apply clos_trans_t1n_iff. eapply Relation_Operators.t_trans.
          -- apply clos_trans_t1n_iff. now apply Hpath.
          -- now apply Relation_Operators.t_step.
      + intros Z [<-|HZ]; [apply HY|now apply Hnt].
      + simpl in *. lia.
  Qed.

  Lemma lc_acc X : reachable_from eps ps init X -> Acc (fun Y X => lc X Y) X.
  Proof.
    intros HR. constructor. intros Y HY.
    apply (@lc_acc_path (S (length (map (@p_input T) ps))) []).
    - now apply (reachable_lc HR).
    - constructor; [auto|constructor].
    - intros Z [].
    - intros Z [<-|[]]. apply HY.
    - simpl. lia.
  Qed.
End LeftCorner.

Section Term.
  Context {L T : Type} {E : EqDec T}.
  Variable eps init : T.
  Variable ps : list (production T).
  Variable self : parser L T.
  Hypothesis P : parser_of eps init ps self.
  Variable tokens : list (token L T).
  (** the number of answers in a history that do not advance *)
  Variable bad : history L T -> nat.
  Definition returns : Prop := forall s h c, pr_solver self = Some s -> s h c <> ReplyNever.
  Hypothesis Hret : returns.
  Hypothesis Hbm : forall h c, bad h <= bad (h ++ [c]).
  Definition counts : Prop := forall s h c fr, pr_solver self = Some s -> s h c = Reply (Some fr) ->
    fr_final_token_position fr <= call_position c -> bad h < bad (h ++ [c]).
  Hypothesis Hbad : counts.

  (** [h'] continues [h] with calls on [tokens] *)
  Definition own_call (c : solver_call L T) : Prop :=
    call_tokens c = tokens /\ call_position c < length tokens.
  Definition ext (h h' : history L T) : Prop := exists k, h' = h ++ k /\ Forall own_call k.
  (** no endless history has infinitely many answers that do not advance *)
  Hypothesis HN : well_founded (fun h' h => ext h h' /\ bad h < bad h').

  Lemma ext_refl h : ext h h.
  Proof. exists []. rewrite app_nil_r. auto. Qed.
  Lemma ext_trans h1 h2 h3 : ext h1 h2 -> ext h2 h3 -> ext h1 h3.
  Proof. intros [k [-> Hk]] [k' [-> Hk']]. exists (k ++ k'). rewrite app_assoc. split; auto.
    apply Forall_app; auto. Qed.
  Lemma ext_one h c : own_call c -> ext h (h ++ [c]).
  Proof. intros H. exists [c]. auto. Qed.
  Lemma ext_bad h h' : ext h h' -> bad h <= bad h'.
  Proof.
    intros [k [-> _]]. induction k as [|c k IH] using rev_ind; [now rewrite app_nil_r|].
    rewrite app_assoc. pose proof (Hbm (h ++ k) c). lia.
  Qed.
  Hint Resolve ext_refl ext_trans ext_one : core.
  Ltac elia := repeat match goal with H : ext _ _ |- _ => apply ext_bad in H end; lia.

    Lemma await_ends sv hh c (A : Type) (k : option (fix_result L T) * history L T -> outcome A) :
      pr_solver self = Some sv -> (forall x, k x <> OutOfFuel) ->
      bind (answer <- await (sv hh c) ;; Done (answer, hh ++ [c])) k <> OutOfFuel.
    Proof.
      intros Hsv Hk. pose proof (Hret hh c Hsv) as Hn.
      destruct (sv hh c); simpl; auto; congruence.
    Qed.

  Let inner n := inner_parse_from_tokens n self tokens.
  Let prodf n m := inner_parse_from_tokens_production self tokens (inner n) m.

  Definition TSym X pos prods single h : Prop := exists n, inner n X pos prods single h <> OutOfFuel.

  Lemma inner_ref n n' X pos prods single h : n <= n' ->
    refines (inner n X pos prods single h) (inner n' X pos prods single h).
  Proof. apply inner_refines. Qed.

  (** below [X] at [p0] *)
  Definition smaller (X : T) (p0 : nat) (Y : T) (p1 : nat) : Prop :=
    p0 < p1 \/ (p1 = p0 /\ lc eps ps X Y).

  Notation stk := (@stack_ok L T eps ps self tokens).
  Notation good := (@good_prods T ps).

  (** *** positions only decrease through answers that do not advance *)
  Definition below_pos (p0 : nat) (states : list (state L T)) : nat :=
    match states with [] => p0 | s :: _ => state_final_token_position s end.

  Fixpoint smono (p0 : nat) (states : list (state L T)) : Prop :=
    match states with
    | [] => True
    | StFixed fs :: r => below_pos p0 r < fst_final_token_position fs /\ smono p0 r
    | StParsing _ :: r => smono p0 r
    end.

  Lemma smono_tail p0 s states : smono p0 (s :: states) -> smono p0 states.
  Proof. destruct s; simpl; tauto. Qed.

  Lemma stk_below states p0 p syms : stk states p0 p syms -> p = below_pos p0 states.
  Proof. intros H. destruct states; [inversion H; reflexivity|]. exact (stack_ok_top H). Qed.

  Lemma smono_le states p0 p syms : stk states p0 p syms -> smono p0 states ->
    p0 <= p /\ (existsb (@is_fixed L T) states = true -> p0 < p).
  Proof.
    induction 1 as [p0|st states p0 p1 syms X Hs IH Hok|fs states p0 p1 syms X Hs IH Hf]; simpl; intros Hm.
    - split; [lia|discriminate].
    - destruct (IH Hm) as [IH1 IH2]. destruct Hok as ((w & _ & [Hw _]) & _). split; [lia|].
      intros H. specialize (IH2 H). lia.
    - destruct Hm as [Hlt Hm]. destruct (IH Hm) as [IH1 _]. rewrite <- (stk_below Hs) in Hlt.
      split; [lia|]. intros _; lia.
  Qed.

  Definition fix_adv (pos : nat) (r : parse_symbol_result L T) : Prop :=
    match r with SymFix fs => pos < fst_final_token_position fs | _ => True end.

  Lemma bad_run :
    (forall X pos prods single h r h', RSym self tokens X pos prods single h r h' ->
       good X prods -> pos < length tokens ->
       ext h h' /\ (bad h' = bad h -> fix_adv pos r)) /\
    (forall X pos child prods failed h r h', RTry self tokens X pos child prods failed h r h' ->
       good X prods -> pos < length tokens ->
       ext h h' /\ (bad h' = bad h -> match r with inl r => fix_adv pos r | inr _ => True end)) /\
    (forall X out child states pos h pr pos' h',
       RProd self tokens X out child states pos h pr pos' h' ->
       forall p0 syms rest, stk states p0 pos syms -> out = syms ++ rest ->
       ext h h' /\
       (bad h' = bad h -> smono p0 states -> match pr with ProdFix _ => p0 < pos' | _ => True end)) /\
    (forall Y pos child h r h', RStep self tokens Y pos child h r h' ->
       ext h h' /\ (bad h' = bad h -> fix_adv pos r)) /\
    (forall states child failed h states' popped h',
       RPop self tokens states child failed h states' popped h' ->
       forall p0 p syms, stk states p0 p syms ->
       ext h h' /\ (popped = None -> smono p0 states -> smono p0 states')).
  Proof.
    assert (Hso := run_sound P tokens).
    apply run_mutind.
    - intros X pos prods single h r h' _ IH. auto.
    - intros X pos prods single h failed h' fo h'' _ IH Hfix Hg Hpos.
      destruct (IH Hg Hpos) as [IH1 _].
      unfold inner_parse_from_tokens_try_fix_productions in Hfix.
      assert (Hcase : forall s c, pr_solver self = Some s -> call_tokens c = tokens -> call_position c = pos ->
        (answer <- await (s h' c) ;; Done (answer, h' ++ [c])) = Done (fo, h'') ->
        ext h h'' /\ (bad h'' = bad h ->
          fix_adv pos (inner_parse_from_tokens_fix_option_to_parse_symbol_result failed fo X))).
      { intros s c Hs Hct Hp Hf. apply await_done in Hf as [Hr ->].
        assert (He : ext h' (h' ++ [c])) by (apply ext_one; split; [auto|lia]).
        split; [eauto|].
        intros Heq. destruct fo as [fr|]; simpl; auto.
        destruct (Nat.lt_ge_cases pos (fr_final_token_position fr)) as [|Hge]; auto.
        pose proof (@Hbad _ _ _ _ Hs Hr). subst pos. elia. }
      destruct (pr_solver self) as [s|] eqn:Hsol; [|inversion Hfix; subst; simpl; auto].
      destruct single; [|inversion Hfix; subst; simpl; auto].
      destruct (is_child_single_path true prods).
      + destruct failed as [|fp failed]; [discriminate|].
        eapply Hcase; [reflexivity| | |exact Hfix]; reflexivity.
      + eapply Hcase; [reflexivity| | |exact Hfix]; reflexivity.
    - auto.
    - simpl. intros X pos child out rest failed h n pos' h' _ IH Hg Hp.
      destruct (IH pos [] out (@stack_nil L T eps ps self tokens pos) eq_refl) as [IH1 _]. auto.
    - intros X pos child out rest failed h fp pos' h' r h'' _ IH _ IH' Hg Hp.
      destruct (IH pos [] out (@stack_nil L T eps ps self tokens pos) eq_refl) as [IH1 _].
      destruct (IH' (good_prods_tail Hg) Hp) as [IH2 IH3].
      split; [eauto|]. intros Heq. apply IH3. elia.
    - simpl. intros X pos child out rest failed h fp pos' h' _ IH Hg Hp.
      destruct (IH pos [] out (@stack_nil L T eps ps self tokens pos) eq_refl) as [IH1 IH2]. split; auto.

    - intros X out child states pos h pr Hlen Hb p0 syms rest Hs Ho. split; auto. intros _ Hm.
      destruct pr as [n|fp|fp]; auto.
      apply (smono_le Hs Hm). unfold inner_parse_from_tokens_production_build_node in Hb.
      destruct (existsb (@is_fixed L T) (rev states)) eqn:Hrev.
      + apply existsb_exists in Hrev as (x & Hx & Hxf). apply existsb_exists. exists x.
        split; auto. now apply in_rev.
      + apply bind_done in Hb as (ns & _ & Hb). discriminate.
    - intros X out child states pos h Y st h' pr pos' h'' HY Hst [IH1 _] _ IH p0 syms rest Hs Ho.
      apply (proj1 (proj2 (proj2 (proj2 Hso)))) in Hst as [Hst _].
      pose proof (stack_ok_length Hs) as Hl. subst out.
      rewrite Hl, nth_error_app2, Nat.sub_diag in HY by lia.
      destruct rest as [|y rest]; [discriminate|]. simpl in HY. inversion HY; subst y.
      destruct (IH p0 (syms ++ [Y]) rest) as [IH2 IH3]; [|now rewrite <- app_assoc|].
      + eapply stack_parsing; eauto.
      + split; [eauto|]. intros Heq Hm. apply IH3; [elia|exact Hm].
    - intros X out child states pos h Y fs h' pr pos' h'' HY Hst [IH1 IHa] _ IH p0 syms rest Hs Ho.
      apply (proj1 (proj2 (proj2 (proj2 Hso)))) in Hst.
      pose proof (stack_ok_length Hs) as Hl. subst out.
      rewrite Hl, nth_error_app2, Nat.sub_diag in HY by lia.
      destruct rest as [|y rest]; [discriminate|]. simpl in HY. inversion HY; subst y.
      destruct (IH p0 (syms ++ [Y]) rest) as [IH2 IH3]; [|now rewrite <- app_assoc|].
      + eapply stack_fixed; eauto.
      + split; [eauto|]. intros Heq Hm. apply IH3; [elia|].
        simpl. split; auto. rewrite <- (stk_below Hs). apply IHa. elia.
    - intros X out child states pos h Y fs h' states' fstates h'' HY _ [IH1 _] _ IH p0 syms rest Hs Ho.
      destruct (IH p0 pos syms Hs) as [IH2 _].
      split; [eauto|]. simpl. auto.
    - intros X out child states pos h Y fs h' st states' h'' pr pos' h3 HY _ [IH1 _] Hpop IH _ IH' p0 syms rest Hs Ho.
      destruct (IH p0 pos syms Hs) as [IH2 IH3].
      apply (proj2 (proj2 (proj2 (proj2 Hso)))) in Hpop.
      destruct (Hpop p0 pos syms Hs eq_refl) as (p' & syms' & rest' & Hsy & Hs').
      pose proof (stack_ok_top Hs') as Hp'. rewrite Hp' in Hs'.
      destruct (IH' p0 syms' (rest' ++ rest)) as [IH4 IH5]; auto.
      { subst. now rewrite <- app_assoc. }
      split; [eauto|]. intros Heq Hm. apply IH5; [elia|auto].
    - intros Y pos child h tok r h' Hnt Htok _ IH. apply IH.
      + apply (token_productions_good P).
      + apply nth_error_Some; congruence.
    - intros Y pos child h Hnt. split; auto. intros _. unfold inner_parse_terminal_symbol.
      unfold inner_parse_non_epsilon_terminal_symbol.
      destruct (eqb _ _); simpl; [exact I|].
      destruct (nth_error tokens pos) as [tok|]; simpl; try (destruct (eqb _ _)); simpl; auto.
    - intros child failed h p0 p syms Hs. split; [auto|discriminate].
    - intros fs states child failed h states' popped h' _ IH p0 p syms Hs.
      apply stack_fixed_inv in Hs as (p2 & syms0 & Y & -> & _ & Hs).
      destruct (IH _ _ _ Hs) as [IH1 IH2]. split; auto.
      intros Hn Hm. apply IH2; auto. exact (@smono_tail _ _ _ Hm).
    - intros st states child failed h states' popped h' _ _ IH p0 p syms Hs.
      apply stack_parsing_inv in Hs as (p2 & syms0 & Y & -> & _ & Hs & Ht & Hi & Hm).
      destruct (IH _ _ _ Hs) as [IH1 IH2]. split; auto.
    - intros st it states child failed h st' h' Hit _ IH p0 p syms Hs.
      apply stack_parsing_inv in Hs as (p2 & syms0 & Y & -> & _ & Hs & Ht & Hi & Hm).
      rewrite Hit in Hm. destruct Hm as (HY & Hg & Hpos & HYn). rewrite HY, Hi in IH.
      destruct (IH Hg Hpos) as [IH1 _]. split; auto.
    - intros st it states child failed h r h' states' popped h'' Hit _ IH Hr _ IH' p0 p syms Hs.
      apply stack_parsing_inv in Hs as (p2 & syms0 & Y & -> & _ & Hs & Ht & Hi & Hm).
      rewrite Hit in Hm. destruct Hm as (HY & Hg & Hpos & HYn). rewrite HY, Hi in IH.
      destruct (IH Hg Hpos) as [IH1 _]. destruct (IH' _ _ _ Hs) as [IH2 IH3].
      split; [eauto|]. auto.
  Qed.

  Lemma nullable_stack states p0 syms : stk states p0 p0 syms -> smono p0 states -> nullable eps ps syms.
  Proof.
    intros Hs Hmono. destruct (smono_le Hs Hmono) as [_ Hf].
    assert (Hnf : existsb (@is_fixed L T) states = false).
    { destruct (existsb (@is_fixed L T) states); auto. specialize (Hf eq_refl). lia. }
    assert (Hnf' : existsb (@is_fixed L T) (rev states) = false).
    { apply not_true_iff_false. rewrite existsb_exists. intros (x & Hx & Hxf).
      apply in_rev in Hx. apply not_true_iff_false in Hnf. apply Hnf.
      rewrite existsb_exists. eauto. }
    destruct (@states_to_nodes_total L T (rev states) Hnf') as [ns Hn].
    destruct (stack_forest Hs Hnf Hn) as (w & Hw & [Hsp _]).
    destruct w; [|simpl in Hsp; lia]. apply (proj2 (@tree_derives_all L T eps ps)) in Hw. tauto.
  Qed.

  Section Prod.
    Variable X : T.
    Variable p0 : nat.
    Variable out : list T.
    Hypothesis Hout : exists p, In p ps /\ p_input p = X /\ p_output p = out.
    Hypothesis Hp0 : p0 < length tokens.
    (** the history when [X] was called *)
    Variable h0 : history L T.
    Hypothesis Hcall : forall Y p1 prods single h, ext h0 h -> part ps X Y ->
      (bad h = bad h0 -> smaller X p0 Y p1) ->
      good Y prods -> p1 < length tokens -> TSym Y p1 prods single h.

    Lemma part_of syms rest Y : out = syms ++ Y :: rest -> part ps X Y.
    Proof.
      intros Ho. destruct Hout as (p & Hp & Hi & Hpo). exists p. repeat split; auto.
      rewrite Hpo, Ho. apply in_elt.
    Qed.

    Lemma stack_smaller states p1 syms Y rest :
      stk states p0 p1 syms -> smono p0 states ->
      out = syms ++ Y :: rest -> non_terminal ps Y -> smaller X p0 Y p1.
    Proof.
      intros Hs Hm Ho HY. destruct (smono_le Hs Hm) as [Hle _].
      destruct (Nat.eq_dec p1 p0) as [->|Hne]; [|left; lia].
      right. split; auto. split; auto. destruct Hout as (p & Hp & Hi & Hpo).
      exists p, syms, rest. subst. repeat split; auto. eapply nullable_stack; eauto.
    Qed.

    Definition stepf n := inner_parse_from_tokens_production_symbol self tokens (inner n).

    Lemma step_term states p1 syms Y rest child h :
      stk states p0 p1 syms -> ext h0 h -> (bad h = bad h0 -> smono p0 states) ->
      out = syms ++ Y :: rest ->
      exists n, stepf n Y p1 child h <> OutOfFuel.
    Proof.
      intros Hs Hb Hmono Ho. unfold stepf, inner_parse_from_tokens_production_symbol,
        inner_parse_from_tokens_production_non_terminal.
      destruct (is_non_terminal (pr_grammar self) Y) eqn:HY; [|exists 0; discriminate].
      apply (is_non_terminal_spec (po_grammar P)) in HY.
      destruct (nth_error tokens p1) as [tok|] eqn:Ht; [|exists 0; discriminate].
      apply Hcall; auto.
      - now apply (part_of syms rest).
      - intros Heq. eapply stack_smaller; eauto.
      - apply (token_productions_good P).
      - apply nth_error_Some; congruence.
    Qed.

    Lemma pop_term states : forall p1 syms rest child failed h,
      stk states p0 p1 syms -> ext h0 h -> (bad h = bad h0 -> smono p0 states) ->
      out = syms ++ rest ->
      exists n, inner_parse_pop_states (inner n) states child failed h <> OutOfFuel.
    Proof.
      induction states as [|[st|fs] states IH]; intros p1 syms rest child failed h Hs Hb Hmono Ho.
      - exists 0. discriminate.
      - apply stack_parsing_inv in Hs as (p2 & syms0 & Y & -> & _ & Hs & Ht & Hi & Hm).
        rewrite <- app_assoc in Ho. simpl in Ho.
        simpl. destruct (ps_prod_iter_option st) as [it|] eqn:Hit.
        + destruct Hm as (HY & Hg & Hpos & HYn).
          assert (Hr : TSym (tok_type (node_token (ps_node st))) (ps_initial_token_position st) it child h).
          { destruct it as [|o it].
            - exists 1. unfold inner. simpl. unfold inner_parse_from_tokens_step. simpl.
              unfold inner_parse_from_tokens_try_fix_productions, is_child_single_path. simpl.
              destruct (pr_solver self) as [sv|] eqn:Hsv; simpl; [|discriminate].
              rewrite andb_false_r. destruct child; simpl; [|discriminate].
              apply await_ends; [exact Hsv|intros [[o|] hh]; discriminate].
            - assert (Hnt : non_terminal ps Y).
              { destruct (proj1 Hg o (or_introl eq_refl)) as (p & Hp & Hpi & _). exists p; auto. }
              apply Hcall; auto.
              + rewrite HY. now apply (part_of syms0 rest).
              + intros Heq. rewrite Hi, HY. apply (@stack_smaller states p2 syms0 Y rest Hs (Hmono Heq) Ho Hnt).
              + rewrite HY. exact Hg.
              + rewrite Hi. exact Hpos. }
          destruct Hr as [n1 Hn1].
          destruct (inner n1 (tok_type (node_token (ps_node st))) (ps_initial_token_position st) it child h)
            as [[r h1]|q|] eqn:Hr; [| |congruence].
          * assert (Hbr : ext h h1) by (apply (proj1 bad_run _ _ _ _ _ _ _ (rel_sound _ _ _ _ _ _ _ _ Hr)); rewrite ?HY, ?Hi; auto).
            assert (Hmono' : bad h1 = bad h0 -> smono p0 states) by (intros Heq; apply Hmono; elia).
            destruct r as [st'|e|f].
            -- exists n1. rewrite Hr. discriminate.
            -- destruct (IH p2 syms0 (Y :: rest) child failed h1 Hs ltac:(eauto) Hmono' Ho) as [n2 Hn2].
               exists (n1 + n2).
               destruct (@inner_ref n1 (n1 + n2) (tok_type (node_token (ps_node st)))
                           (ps_initial_token_position st) it child h) as [Hx|Hx]; [lia|congruence|].
               rewrite Hx, Hr. simpl.
               destruct (@pop_refines L T (inner n2) (inner (n1 + n2))
                           (fun X pos prods single h => @inner_ref n2 (n1 + n2) X pos prods single h ltac:(lia))
                           states child failed h1); congruence.
            -- destruct (IH p2 syms0 (Y :: rest) child failed h1 Hs ltac:(eauto) Hmono' Ho) as [n2 Hn2].
               exists (n1 + n2).
               destruct (@inner_ref n1 (n1 + n2) (tok_type (node_token (ps_node st)))
                           (ps_initial_token_position st) it child h) as [Hx|Hx]; [lia|congruence|].
               rewrite Hx, Hr. simpl.
               destruct (@pop_refines L T (inner n2) (inner (n1 + n2))
                           (fun X pos prods single h => @inner_ref n2 (n1 + n2) X pos prods single h ltac:(lia))
                           states child failed h1); congruence.
          * exists n1. rewrite Hr. discriminate.
        + apply (IH p2 syms0 (Y :: rest) child (StParsing st :: failed) h Hs Hb Hmono Ho).
      - apply stack_fixed_inv in Hs as (p2 & syms0 & Y & -> & _ & Hs).
        rewrite <- app_assoc in Ho. simpl in Ho. simpl.
        apply (IH p2 syms0 (Y :: rest) child (StFixed fs :: failed) h Hs Hb (fun H => proj2 (Hmono H)) Ho).
    Qed.

    (** the measure of a state stack *)
    Definition digit (s : state L T) : nat :=
      match s with
      | StFixed _ => 0
      | StParsing st => match ps_prod_iter_option st with Some it => length it | None => 0 end
      end.

    Definition base : nat := length ps + 2.

    Fixpoint fval (states : list (state L T)) : nat :=
      match states with [] => 0 | s :: states' => fval states' * base + digit s end.

    Definition meas (states : list (state L T)) : nat :=
      (fval states + 1) * base ^ (length out - length states).

    Lemma meas_push s states : digit s <= length ps -> length states < length out ->
      meas (s :: states) < meas states.
    Proof.
      intros Hd Hl. unfold meas. simpl.
      replace (length out - length states) with (S (length out - S (length states))) by lia.
      rewrite Nat.pow_succ_r'.
      assert (0 < base ^ (length out - S (length states))).
      { apply Nat.neq_0_lt_0. apply Nat.pow_nonzero. unfold base; lia. }
      set (K := base ^ (length out - S (length states))) in *.
      rewrite Nat.mul_assoc. apply Nat.mul_lt_mono_pos_r; auto.
      unfold base in *. nia.
    Qed.

    (** a lower bound: every extension of a stack is worth at least its value *)
    Lemma meas_ge l states : length l + length states <= length out ->
      fval states * base ^ (length out - length states) < meas (l ++ states).
    Proof.
      intros Hl.
      assert (H : forall l, length l + length states <= length out ->
                  fval states * base ^ (length out - length states) <=
                  fval (l ++ states) * base ^ (length out - length (l ++ states))).
      { clear l Hl. induction l as [|s l IH]; intros Hl; simpl in *; [lia|].
        specialize (IH ltac:(lia)). rewrite app_length in *.
        replace (length out - (length l + length states)) with
          (S (length out - S (length l + length states))) in IH by lia.
        rewrite Nat.pow_succ_r' in IH.
        set (K := base ^ (length out - S (length l + length states))) in *. nia. }
      specialize (H l Hl). unfold meas.
      assert (0 < base ^ (length out - length (l ++ states))).
      { apply Nat.neq_0_lt_0. apply Nat.pow_nonzero. unfold base; lia. }
      nia.
    Qed.

    Lemma meas_pop s s' l states : length l + S (length states) <= length out ->
      digit s' < digit s -> meas (s' :: states) < meas (l ++ s :: states).
    Proof.
      intros Hl Hd. eapply Nat.le_lt_trans; [|apply meas_ge; simpl; lia].
      unfold meas. simpl. apply Nat.mul_le_mono_r. lia.
    Qed.

    (** a successful pop rewrites one state with a shorter iterator *)
    Lemma pop_shape states child failed h states' h' :
      RPop self tokens states child failed h states' None h' ->
      forall p1 syms, stk states p0 p1 syms ->
      exists l s s' below, states = l ++ s :: below /\ states' = s' :: below /\ digit s' < digit s.
    Proof.
      intros H. remember None as popped eqn:Hn.
      induction H as [child failed h|fs states child failed h states' popped h' H IH
        |st states child failed h states' popped h' Hit H IH
        |st it states child failed h st' h' Hit HR
        |st it states child failed h r h' states' popped h'' Hit HR Hr H IH];
        intros p1 syms Hs.
      - discriminate.
      - apply stack_fixed_inv in Hs as (p2 & syms0 & Y & -> & _ & Hs).
        destruct (IH Hn _ _ Hs) as (l & s & s' & below & -> & -> & Hd).
        exists (StFixed fs :: l), s, s', below. auto.
      - apply stack_parsing_inv in Hs as (p2 & syms0 & Y & -> & _ & Hs & _).
        destruct (IH Hn _ _ Hs) as (l & s & s' & below & -> & -> & Hd).
        exists (StParsing st :: l), s, s', below. auto.
      - apply stack_parsing_inv in Hs as (p2 & syms0 & Y & -> & _ & Hs & Ht & Hi & Hm).
        rewrite Hit in Hm. destruct Hm as (HY & Hg & Hpos & HYn).
        exists [], (StParsing st), (StParsing st'), states. split; auto. split; auto.
        simpl. rewrite Hit. apply (proj1 (run_sound P tokens)) in HR.
        rewrite HY, Hi in HR. destruct (HR Hg Hpos) as (_ & it' & -> & Hlt). exact Hlt.
      - apply stack_parsing_inv in Hs as (p2 & syms0 & Y & -> & _ & Hs & _).
        destruct (IH Hn _ _ Hs) as (l & s & s' & below & -> & -> & Hd).
        exists (StParsing st :: l), s, s', below. auto.
    Qed.

    Lemma prod_term m : forall states pos syms rest child h,
      meas states <= m ->
      stk states p0 pos syms -> ext h0 h -> (bad h = bad h0 -> smono p0 states) ->
      out = syms ++ rest ->
      exists n, prodf n n X out child states pos h <> OutOfFuel.
    Proof.
      induction m as [|m IH]; intros states pos syms rest child h Hm Hs Hb Hmono Ho.
      { exfalso. unfold meas in Hm.
        assert (0 < base ^ (length out - length states)).
        { apply Nat.neq_0_lt_0. apply Nat.pow_nonzero. unfold base; lia. }
        nia. }
      pose proof (stack_ok_length Hs) as Hl.
      destruct rest as [|Y rest].
      { exists 1. unfold prodf. simpl.
        assert (Hlt : (length states <? length out) = false).
        { apply Nat.ltb_ge. rewrite Ho, app_nil_r. lia. }
        rewrite Hlt. unfold inner_parse_from_tokens_production_build_node.
        destruct (existsb (@is_fixed L T) (rev states)) eqn:Hf; simpl; [discriminate|].
        destruct (@states_to_nodes_total L T (rev states) Hf) as [ns ->]. discriminate. }
      assert (Hlt : (length states <? length out) = true).
      { apply Nat.ltb_lt. rewrite Ho, app_length. simpl. lia. }
      assert (HY : nth_error out (length states) = Some Y).
      { rewrite Ho, Hl, nth_error_app2, Nat.sub_diag by lia. reflexivity. }
      assert (Hlt' : length states < length out) by now apply Nat.ltb_lt.
      destruct (@step_term states pos syms Y rest child h Hs Hb Hmono Ho) as [n1 Hn1].
      assert (Hstep : forall n, n1 <= n -> stepf n Y pos child h = stepf n1 Y pos child h).
      { intros n Hn. destruct (@step_refines L T E self tokens (inner n1) (inner n)
          (fun X pos prods single h => @inner_ref n1 n X pos prods single h Hn) Y pos child h);
          [contradiction|auto]. }
      unfold stepf in *.
      destruct (inner_parse_from_tokens_production_symbol self tokens (inner n1) Y pos child h)
        as [[r h1]|q|] eqn:Hr; [| |congruence].
      2:{ exists (S n1). unfold prodf. simpl. rewrite Hlt, HY. simpl.
          rewrite Hstep by lia. discriminate. }
      assert (HRS : RStep self tokens Y pos child h r h1).
      { eapply step_sound; [|exact Hr]. apply rel_sound. }
      destruct (proj1 (proj2 (proj2 (proj2 bad_run))) _ _ _ _ _ _ HRS) as [Hb1 Hadv].
      assert (Hb1' : ext h0 h1) by eauto.
      apply (proj1 (proj2 (proj2 (proj2 (run_sound P tokens))))) in HRS.
      unfold SStep in HRS.
      assert (Hlift : forall states' pos' h',
        (exists n, prodf n n X out child states' pos' h' <> OutOfFuel) ->
        exists n0, forall n m, n0 <= n -> n0 <= m -> prodf n m X out child states' pos' h' <> OutOfFuel).
      { intros states' pos' h' [n0 Hn0]. exists n0. intros n k Hn Hk. unfold prodf in *.
        destruct (@prod_refines L T E self tokens (inner n0) (inner n)
          (fun X pos prods single h => @inner_ref n0 n X pos prods single h Hn)
          n0 k X out child states' pos' h' Hk); congruence. }
      destruct r as [st|e|fs].
      - destruct HRS as [Hok Hit].
        destruct (Hlift (StParsing st :: states) (ps_final_token_position st) h1) as [n2 Hn2].
        { apply (IH _ _ (syms ++ [Y]) rest).
          - apply Nat.lt_succ_r. eapply Nat.lt_le_trans; [|exact Hm]. apply meas_push; auto.
            simpl. destruct (ps_prod_iter_option st) as [it|]; [|lia].
            specialize (Hit it eq_refl). lia.
          - eapply stack_parsing; eauto.
          - exact Hb1'.
          - intros Heq. apply Hmono. elia.
          - now rewrite <- app_assoc. }
        exists (S (n1 + n2)). unfold prodf. simpl. rewrite Hlt, HY. simpl.
        rewrite Hstep by lia. simpl. apply Hn2; lia.
      - destruct (@pop_term states pos syms (Y :: rest) child [] h1 Hs Hb1' (fun H => Hmono ltac:(elia)) Ho) as [n2 Hn2].
        destruct (inner_parse_pop_states (inner n2) states child [] h1) as [[[states' popped] h2]|q|] eqn:Hpop;
          [| |congruence].
        2:{ exists (S (n1 + n2)). unfold prodf. simpl. rewrite Hlt, HY. simpl.
            rewrite Hstep by lia. simpl.
            destruct (@pop_refines L T (inner n2) (inner (S (n1 + n2)))
              (fun X pos prods single h => @inner_ref n2 (S (n1 + n2)) X pos prods single h ltac:(lia))
              states child [] h1) as [Hx|Hx]; [congruence|]. rewrite Hx, Hpop. discriminate. }
        assert (Hpop' : forall n, n2 <= n -> inner_parse_pop_states (inner n) states child [] h1
                          = Done (states', popped, h2)).
        { intros n Hn. destruct (@pop_refines L T (inner n2) (inner n)
            (fun X pos prods single h => @inner_ref n2 n X pos prods single h Hn)
            states child [] h1); congruence. }
        destruct popped as [fstates|].
        { exists (S (n1 + n2)). unfold prodf. simpl. rewrite Hlt, HY. simpl.
          rewrite Hstep by lia. simpl. rewrite Hpop' by lia. discriminate. }
        assert (HRP : RPop self tokens states child [] h1 states' None h2).
        { eapply pop_sound; [|exact Hpop]. intros *; apply rel_sound. }
        destruct (proj2 (proj2 (proj2 (proj2 bad_run))) _ _ _ _ _ _ _ HRP p0 pos syms Hs) as [Hb2 Hpm].
        destruct (pop_shape HRP Hs) as (l & s & s' & below & Hst & -> & Hd).
        apply (proj2 (proj2 (proj2 (proj2 (run_sound P tokens))))) in HRP.
        destruct (HRP p0 pos syms Hs eq_refl) as (p' & syms' & rest' & Hsy & Hs').
        pose proof (stack_ok_top Hs') as Hp'. rewrite Hp' in Hs'.
        destruct (Hlift (s' :: below) (state_final_token_position s') h2) as [n3 Hn3].
        { apply (IH _ _ syms' (rest' ++ Y :: rest)).
          - apply Nat.lt_succ_r. eapply Nat.lt_le_trans; [|exact Hm]. rewrite Hst.
            apply meas_pop; auto. rewrite Hst, app_length in Hlt'. simpl in Hlt'. lia.
          - exact Hs'.
          - eauto.
          - intros Heq. apply Hpm; auto. apply Hmono. elia.
          - rewrite Ho, Hsy. now rewrite <- app_assoc. }
        exists (S (n1 + n2 + n3)). unfold prodf. simpl. rewrite Hlt, HY. simpl.
        rewrite Hstep by lia. simpl. rewrite Hpop' by lia. simpl. apply Hn3; lia.
      - destruct (Hlift (StFixed fs :: states) (fst_final_token_position fs) h1) as [n2 Hn2].
        { apply (IH _ _ (syms ++ [Y]) rest).
          - apply Nat.lt_succ_r. eapply Nat.lt_le_trans; [|exact Hm]. apply meas_push; auto.
            simpl. lia.
          - eapply stack_fixed; eauto.
          - exact Hb1'.
          - intros Heq. simpl. split; [|apply Hmono; elia]. rewrite <- (stk_below Hs).
            apply Hadv. elia.
          - now rewrite <- app_assoc. }
        exists (S (n1 + n2)). unfold prodf. simpl. rewrite Hlt, HY. simpl.
        rewrite Hstep by lia. simpl. apply Hn2; lia.
    Qed.
  End Prod.

  Lemma try_term X p0 h0 : p0 < length tokens ->
    (forall Y p1 prods single h, ext h0 h -> part ps X Y -> (bad h = bad h0 -> smaller X p0 Y p1) ->
      good Y prods -> p1 < length tokens -> TSym Y p1 prods single h) ->
    forall prods child failed h, ext h0 h -> good X prods ->
    exists n, try_parse_productions_loop self tokens (inner n) n X p0 child prods failed h <> OutOfFuel.
  Proof.
    intros Hp0 Hcall. induction prods as [|out prods IH]; intros child failed h Hb Hg.
    - exists 0. discriminate.
    - destruct (@prod_term X p0 out (proj1 Hg out (or_introl eq_refl)) Hp0 h0 Hcall
                  (meas out []) [] p0 [] out child h (le_n _) (@stack_nil L T eps ps self tokens p0)
                  Hb (fun _ => I) eq_refl) as [n1 Hn1].
      unfold prodf in Hn1.
      destruct (inner_parse_from_tokens_production self tokens (inner n1) n1 X out child [] p0 h)
        as [[[pr pos'] h1]|q|] eqn:Hr; [| |congruence].
      2:{ exists n1. simpl. rewrite Hr. discriminate. }
      assert (Hb1 : ext h h1).
      { assert (HRP : RProd self tokens X out child [] p0 h pr pos' h1).
        { eapply prod_sound; [|exact Hr]. intros *; apply rel_sound. }
        exact (proj1 (proj1 (proj2 (proj2 bad_run)) _ _ _ _ _ _ _ _ _ HRP p0 [] out
                 (@stack_nil L T eps ps self tokens p0) eq_refl)). }
      assert (Hlift : forall n, n1 <= n ->
        inner_parse_from_tokens_production self tokens (inner n) n X out child [] p0 h = Done (pr, pos', h1)).
      { intros n Hn. destruct (@prod_refines L T E self tokens (inner n1) (inner n)
          (fun X pos prods single h => @inner_ref n1 n X pos prods single h Hn)
          n1 n X out child [] p0 h Hn); congruence. }
      destruct pr as [nd|fp|fp].
      + exists n1. simpl. rewrite Hr. discriminate.
      + destruct (IH child (failed ++ [fp]) h1 ltac:(eauto) (good_prods_tail Hg)) as [n2 Hn2].
        exists (n1 + n2). simpl. rewrite Hlift by lia. simpl.
        destruct (@try_refines L T E self tokens (inner n2) (inner (n1 + n2))
          (fun X pos prods single h => @inner_ref n2 (n1 + n2) X pos prods single h ltac:(lia))
          n2 (n1 + n2) prods ltac:(lia) X p0 child (failed ++ [fp]) h1); congruence.
      + exists n1. simpl. rewrite Hr. discriminate.
  Qed.

  Lemma sym_term_step X p0 h : p0 < length tokens ->
    (forall Y p1 prods single h', ext h h' -> part ps X Y -> (bad h' = bad h -> smaller X p0 Y p1) ->
      good Y prods -> p1 < length tokens -> TSym Y p1 prods single h') ->
    forall prods single, good X prods -> TSym X p0 prods single h.
  Proof.
    intros Hp0 Hcall prods single Hg.
    destruct (@try_term X p0 h Hp0 Hcall prods (is_child_single_path single prods) [] h (ext_refl h) Hg) as [n Hn].
    exists (S n). unfold inner. simpl. unfold inner_parse_from_tokens_step,
      inner_parse_from_tokens_try_parse_productions. fold (inner n).
    destruct (try_parse_productions_loop self tokens (inner n) n X p0
                (is_child_single_path single prods) prods [] h) as [[[r|failed] h1]|q|]; simpl;
      try discriminate; [|congruence].
    unfold inner_parse_from_tokens_try_fix_productions.
    destruct (pr_solver self) as [sv|] eqn:Hsv; simpl; [|discriminate].
    destruct single; [|simpl; discriminate].
    destruct (is_child_single_path true prods); [|apply await_ends; [exact Hsv|intros [[o|] hh]; discriminate]].
    destruct failed; simpl; [discriminate|apply await_ends; [exact Hsv|intros [[o|] hh]; discriminate]].
  Qed.

  Hypothesis Hno : no_left_recursion_from eps ps init.

  (** induction on the answers still allowed not to advance, then on the tokens
      left, then on the left-corner order *)
  Lemma sym_term h : forall X p0 prods single,
    reachable_from eps ps init X -> p0 < length tokens -> good X prods -> TSym X p0 prods single h.
  Proof.
    induction (HN h) as [h1 _ IHh].
    assert (Hk : forall k X p0 prods single h, ext h1 h -> bad h = bad h1 -> length tokens - p0 <= k ->
       reachable_from eps ps init X ->
       p0 < length tokens -> good X prods -> TSym X p0 prods single h).
    { induction k as [|k IH]; [intros; lia|].
      intros X p0 prods single h2 He Hb Hk HX. pose proof (lc_acc Hno HX) as Hacc.
      revert p0 prods single h2 He Hb Hk HX. induction Hacc as [X _ IHX].
      intros p0 prods single h2 He Hb Hk HX Hp0 Hg. apply sym_term_step; auto.
      intros Y p1 prods' single' h' Hle Hpt Hsm Hg' Hp1.
      pose proof (reachable_part HX Hpt) as HY.
      destruct (Nat.eq_dec (bad h') (bad h2)) as [Heq|Hne].
      - destruct (Hsm Heq) as [Hlt|[-> Hlc]].
        + apply IH; eauto; lia.
        + apply IHX; eauto. lia.
      - apply (IHh h'); auto. split; eauto. elia. }
    intros X p0 prods single HX Hp0 Hg. apply (Hk (length tokens)); auto. lia.
  Qed.

  Lemma parse_term : exists n, parse_from_tokens n self tokens <> OutOfFuel.
  Proof.
    assert (Hst : 0 < length tokens -> forall a, exists n,
      inner_parse_from_tokens n self tokens (get_initial_symbol (pr_grammar self)) 0
        (inner_get_token_productions self (get_initial_symbol (pr_grammar self)) a) true [] <> OutOfFuel).
    { intros Hlen a. apply sym_term; auto; [|apply (token_productions_good P)].
      unfold get_initial_symbol. rewrite (go_init (po_grammar P)). exists [], []. apply derives_refl. }
    unfold parse_from_tokens. destruct tokens as [|tok rest]; [exists 0; discriminate|].
    destruct (Hst ltac:(simpl; lia) (tok_type tok)) as [n Hn]. exists n.
    destruct (inner_parse_from_tokens n self (tok :: rest) _ _ _ _ _) as [[r h]|q|]; simpl;
      try discriminate. congruence.
  Qed.
End Term.

(** solvers that always advance *)
Lemma parse_term_progress {L T : Type} {E : EqDec T} (eps init : T) ps (self : parser L T) tokens :
  parser_of eps init ps self -> progress_solver self -> no_left_recursion_from eps ps init ->
  exists n, parse_from_tokens n self tokens <> OutOfFuel.
Proof.
  intros P Hpr Hno.
  apply (@parse_term L T E eps init ps self P tokens (fun _ => 0)); auto.
  - intros s h c Hs. exact (proj1 (Hpr s h c Hs)).
  - intros s h c fr Hs Hr Hle. pose proof (proj2 (Hpr s h c Hs) fr Hr). lia.
  - intros h. constructor. intros h' [_ Hlt]. lia.
Qed.
