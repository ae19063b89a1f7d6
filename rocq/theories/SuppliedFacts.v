(** * Tables from supplied FIRST and FOLLOW sets (proofs) *)

From Verif Require Import BaseFacts GrammarFacts DerivFacts FirstFacts FollowFacts TransitionsFacts.
From Verif Require Export SuppliedSpec ParserBuild.

Set Implicit Arguments.

(** the only way to fail is an [unwrap] *)
Definition unwraps {A : Type} (o : outcome A) : Prop :=
  (exists a, o = Done a) \/ o = Panicked PanicUnwrapNone.

Lemma unwraps_bind {A B : Type} (o : outcome A) (f : A -> outcome B) :
  unwraps o -> (forall a, o = Done a -> unwraps (f a)) -> unwraps (bind o f).
Proof. intros [[a ->]| ->] H; simpl; [now apply H|right; reflexivity]. Qed.

Lemma unwraps_unwrap {A : Type} (o : option A) : unwraps (unwrap o).
Proof. destruct o; [left; eexists; reflexivity|right; reflexivity]. Qed.

Lemma unwraps_done {A : Type} (a : A) : unwraps (Done a).
Proof. left. eauto. Qed.

Lemma unwraps_for_each {A S : Type} (f : S -> A -> outcome S) l :
  (forall s x, unwraps (f s x)) -> forall s, unwraps (for_each f s l).
Proof.
  intros H. induction l as [|x l IH]; intros s; simpl; [apply unwraps_done|].
  apply unwraps_bind; auto.
Qed.

Global Hint Resolve unwraps_unwrap unwraps_done : unwraps.

Lemma for_each_all_done {A S : Type} (f : S -> A -> outcome S) l : forall s s',
  for_each f s l = Done s' -> forall x, In x l -> exists s1 s2, f s1 x = Done s2.
Proof.
  induction l as [|y l IH]; intros s s' H x Hx; [destruct Hx|]. simpl in H.
  apply bind_done in H as (s1 & H1 & H2). destruct Hx as [<-|Hx]; eauto.
Qed.

Section Supplied.
  Context {T : Type} {E : EqDec T}.
  Context {eps init : T} {ps : list (production T)} {g : grammar T}.
  Hypothesis G : grammar_of eps init ps g.
  Variable ho : hash_order T.
  Variable ffs : first_follow_symbols T.

  Lemma production_first_unwraps p :
    unwraps (inner_from_get_production_first_symbols ho g p ffs).
  Proof.
    unfold inner_from_get_production_first_symbols.
    apply unwraps_bind; auto with unwraps. intros X _.
    apply unwraps_bind; auto with unwraps. intros s _.
    destruct (hash_set_contains _ _); auto with unwraps.
    unfold inner_from_get_production_first_symbols_on_epsilon_first.
    apply unwraps_bind; auto with unwraps.
  Qed.

  Lemma transitions_unwraps : unwraps (transitions_from ho g ffs).
  Proof.
    unfold transitions_from. apply unwraps_bind; auto with unwraps.
    unfold inner_from_process_productions. apply unwraps_for_each. intros table A.
    apply unwraps_bind; auto with unwraps. intros l _.
    apply unwraps_bind; auto with unwraps. intros r _.
    apply unwraps_bind; auto with unwraps.
    apply unwraps_for_each. intros r' p. apply unwraps_bind; auto using production_first_unwraps.
    intros firsts _. unfold push_production. apply unwraps_for_each. intros r'' a.
    apply unwraps_bind; auto with unwraps.
  Qed.

  Lemma follow_key_eq p X Y :
    follow_key eps p X Y <-> Y = if eqb eps X then p_input p else X.
  Proof.
    split.
    - intros [|X' HX]; [now rewrite eqb_self|].
      assert (H : eqb eps X' = false) by (apply eqb_ne_iff; congruence). now rewrite H.
    - intros ->. destruct (eqb eps X) eqn:He.
      + apply eqb_iff in He. subst X. constructor.
      + apply eqb_ne_iff in He. constructor. congruence.
  Qed.

  Lemma chosen_selects p a : chosen_on eps ffs p a <-> selects (eps := eps) ffs p a.
  Proof.
    split.
    - intros [X rest s Ho Hs Ha Hne|X rest s Y f Ho Hs He HY Hf Ha].
      + exists X, rest, s. split; auto.
      + apply follow_key_eq in HY. subst Y. exists X, rest, s. split; auto. split; auto. right. eauto.
    - intros (X & rest & s & Ho & Hs & [[Ha Hne]|(He & f & Hf & Ha)]).
      + eapply chosen_first; eauto. intros ->. now apply Hne.
      + eapply chosen_follow; eauto. now apply follow_key_eq.
  Qed.

  (** the sets a production looks up *)
  Lemma production_first_done_iff p X rest : p_output p = X :: rest ->
    (exists l, inner_from_get_production_first_symbols ho g p ffs = Done l) <->
    (exists first, get_first_symbols ffs X = Some first /\
       (In eps first -> forall Y, follow_key eps p X Y ->
          exists follow, get_follow_symbols ffs Y = Some follow)).
  Proof.
    intros Ho. unfold inner_from_get_production_first_symbols. rewrite Ho. simpl.
    destruct (get_first_symbols ffs X) as [s|]; simpl.
    2:{ split; [intros [l Hl]; discriminate|intros (f & Hf & _); discriminate]. }
    unfold get_epsilon_symbol. rewrite (go_eps G).
    destruct (hash_set_contains s eps) eqn:He.
    - apply contains_In in He.
      unfold inner_from_get_production_first_symbols_on_epsilon_first, get_epsilon_symbol.
      rewrite (go_eps G). split.
      + intros [l Hl]. exists s. split; auto. intros _ Y HY. apply follow_key_eq in HY. subst Y.
        destruct (eqb eps X); [destruct (get_follow_symbols ffs (p_input p))|
          destruct (get_follow_symbols ffs X)]; simpl in Hl; eauto; discriminate.
      + intros (first & Hf & H). inversion Hf; subst first.
        destruct (H He (if eqb eps X then p_input p else X)) as [f Hfol]; [now apply follow_key_eq|].
        destruct (eqb eps X); rewrite Hfol; simpl; eauto.
    - apply contains_not_In in He. split; intros _; [|eauto].
      exists s. split; auto. intros; contradiction.
  Qed.

  (** the keys of a row never change *)
  Definition keys_ok (r : row T) : Prop :=
    forall a c, hash_map_get r a = Some c -> terminal ps a.

  Lemma row_body_keys r p r' : keys_ok r -> row_body (g := g) ho ffs r p = Done r' -> keys_ok r'.
  Proof.
    intros Hk H a c Ha. rewrite (row_body_spec G _ _ _ _ H a) in Ha.
    destruct (hash_map_get r a) as [c'|] eqn:Hc; [eapply Hk; eauto|discriminate].
  Qed.

  Lemma push_loop_keys p l : forall r r', for_each (push_body p) r l = Done r' ->
    forall a, In a l -> exists c, hash_map_get r a = Some c.
  Proof.
    induction l as [|b l IH]; intros r r' H a Ha; [destruct Ha|]. simpl in H.
    unfold push_body at 1 in H. destruct (hash_map_get r b) as [c|] eqn:Hb; simpl in H; [|discriminate].
    destruct Ha as [<-|Ha]; [eauto|].
    destruct (IH _ _ H a Ha) as [c' Hc']. rewrite get_insert in Hc'.
    destruct (eqb a b) eqn:Hab; eauto. apply eqb_iff in Hab. subst. eauto.
  Qed.

  Lemma transitions_done_iff :
    (exists t, transitions_from ho g ffs = Done t) <-> sufficient_sets eps ps ffs.
  Proof.
    split.
    - intros [t H]. unfold transitions_from in H. apply bind_done in H as (table & H & _).
      change (for_each (table_body (g := g) ho ffs)
                (inner_from_initial_table (get_non_terminal_symbols ho g) (get_terminal_symbols ho g))
                (get_non_terminal_symbols ho g) = Done table) in H.
      destruct (table_loop_spec ho ffs _ (get_nts_NoDup G ho) H) as [_ Hi].
      intros p X rest Hp Ho.
      assert (HA : non_terminal ps (p_input p)) by (exists p; auto).
      destruct (Hi (p_input p)) as (l & r & r' & Hl & Hr & Hf & _); [now apply (get_nts_In G)|].
      rewrite (get_productions_nt G HA) in Hl. inversion Hl; subst l; clear Hl.
      assert (Hk0 : keys_ok r).
      { rewrite initial_table_get in Hr by apply (get_nts_NoDup G).
        destruct (hash_set_contains _ _); inversion Hr; subst r. intros a c Ha.
        rewrite initial_row_get in Ha by apply (get_ts_NoDup G).
        destruct (hash_set_contains (get_terminal_symbols ho g) a) eqn:Hc; [|discriminate].
        apply contains_In, (get_ts_In G) in Hc. exact Hc. }
      assert (Hrow : exists r1 r2, keys_ok r1 /\ row_body (g := g) ho ffs r1 p = Done r2).
      { assert (Hin : In p (productions_of ps (p_input p))) by (apply productions_of_In; auto).
        clear Hr Hi H. revert r Hk0 Hf. induction (productions_of ps (p_input p)) as [|q l IH]; intros r Hk0 Hf;
          [destruct Hin|]. simpl in Hf. apply bind_done in Hf as (r1 & H1 & H2).
        destruct Hin as [<-|Hin]; eauto using row_body_keys. }
      destruct Hrow as (r1 & r2 & Hk1 & Hb). unfold row_body in Hb. apply bind_done in Hb as (fl & Hfl & Hb).
      split.
      + apply (production_first_done_iff _ Ho). eauto.
      + intros a Ha. apply chosen_selects, (production_first_spec G _ _ _ Hfl) in Ha.
        unfold push_production in Hb.
        destruct (push_loop_keys p _ _ Hb a) as [c Hc]; [|eapply Hk1; eauto].
        eapply Permutation_in; [apply Permutation_sym, ho_perm|exact Ha].
    - intros Hs. apply (transitions_total G ho ffs). intros p Hp.
      destruct (p_output p) as [|X rest] eqn:Ho.
      { apply (go_ok G) in Hp as (_ & H & _). congruence. }
      destruct (Hs p X rest Hp Ho) as [H1 H2].
      apply (production_first_done_iff _ Ho) in H1 as [l Hl]. exists l. split; auto.
      intros a Ha. apply H2, chosen_selects. now apply (production_first_spec G _ _ _ Hl).
  Qed.

  Lemma supplied_cells t : transitions_from ho g ffs = Done t ->
    forall A a l, transitions_get_productions t A a = Some l ->
    exists keep, l = filter keep (productions_of ps A) /\
      forall p, In p ps -> (keep p = true <-> chosen_on eps ffs p a).
  Proof.
    intros Ht A a l Hl. rewrite (transitions_cells G _ _ Ht) in Hl.
    destruct (is_non_terminal g A && is_terminal g a); inversion Hl; subst l.
    exists (fun p => selectsb (g := g) ho ffs p a). split; auto. intros p Hp. unfold selectsb.
    destruct (p_output p) as [|X rest] eqn:Ho.
    { apply (go_ok G) in Hp as (_ & H & _). congruence. }
    assert (Hs : sufficient_sets eps ps ffs) by (apply transitions_done_iff; eauto).
    destruct (Hs p X rest Hp Ho) as [H1 _].
    apply (production_first_done_iff _ Ho) in H1 as [fl Hfl]. rewrite Hfl.
    rewrite contains_In, chosen_selects. apply (production_first_spec G _ _ _ Hfl).
  Qed.

  (** sets that are at least the textbook's cover *)
  Lemma supplied_chosen S p u v a : at_least_textbook eps ps ffs S -> sufficient_sets eps ps ffs ->
    In p ps -> derives eps ps [S] (u ++ p_input p :: v) ->
    can_start eps ps (p_output p ++ v) a -> chosen_on eps ffs p a.
  Proof.
    intros (T1 & T2 & T3) Hs Hp Hctx Ha. pose proof (go_ok G p Hp) as (Hie & Hne & Halone).
    destruct (p_output p) as [|X rest] eqn:Ho; [congruence|].
    destruct (Hs p X rest Hp Ho) as [(first & Hfirst & Hfol) _].
    assert (HsX : non_terminal ps X \/ terminal ps X).
    { apply (@output_symbol_of _ _ ps p X Hp). rewrite Ho. now left. }
    assert (Hreal : a <> eps /\ ~ non_terminal ps a) by (destruct Ha as (? & ? & _); auto).
    destruct Hreal as [Hae Hant].
    simpl in Ha. change (X :: rest ++ v) with ([X] ++ (rest ++ v)) in Ha.
    apply can_start_app in Ha as [Ha|[Hn Ha]].
    - eapply chosen_first; eauto.
    - assert (Hef : In eps first) by (eapply T2; eauto).
      destruct (Hfol Hef (if eqb eps X then p_input p else X)) as [f Hf]; [now apply follow_key_eq|].
      eapply chosen_follow; eauto; [now apply follow_key_eq|].
      destruct Ha as (_ & _ & z & Hz).
      destruct (eqb eps X) eqn:HeX.
      + apply eqb_iff in HeX. subst X. specialize (Halone (or_introl eq_refl)). inversion Halone; subst rest.
        eapply T3; [exists p; auto|exact Hf| |].
        * eapply derives_trans; [now apply derives_production|]. rewrite Ho. exact Hn.
        * split; auto. split; auto. exists u, z. eapply derives_trans; [exact Hctx|].
          change (p_input p :: v) with ([p_input p] ++ v).
          change (p_input p :: a :: z) with ([p_input p] ++ a :: z).
          apply derives_app; [apply derives_refl|]. apply derives_app; [apply derives_refl|exact Hz].
      + assert (HXn : non_terminal ps X).
        { destruct HsX as [HsX|[_ HsX]]; auto. exfalso. apply eqb_ne_iff in HeX. apply HeX. symmetry.
          eapply nullable_terminal; eauto. }
        eapply T3; [exact HXn|exact Hf|exact Hn|]. split; auto. split; auto. exists u, z.
        eapply derives_trans; [exact Hctx|]. apply derives_app; [apply derives_refl|].
        change (p_input p :: v) with ([p_input p] ++ v).
        eapply derives_trans; [apply derives_app; [now apply derives_production|apply derives_refl]|].
        rewrite Ho. simpl. change (X :: rest ++ v) with ([X] ++ (rest ++ v)).
        change (X :: a :: z) with ([X] ++ a :: z). apply derives_app; [apply derives_refl|exact Hz].
  Qed.
End Supplied.

(** ** The textbook rules suffice *)
Section Rules.
  Context {T : Type} {E : EqDec T}.
  Variables eps : T.
  Variable ps : list (production T).
  Variable ffs : first_follow_symbols T.
  Hypothesis R : textbook_rules eps ps ffs.
  Notation in_first := (in_first ffs).
  Notation in_follow := (in_follow ffs).

  Let N (x : T) : Prop := in_first x eps \/ x = eps.
  Let F (x a : T) : Prop := a <> eps /\ (in_first x a \/ (x = a /\ ~ non_terminal ps a)).

  Hypothesis Hok : productions_ok eps ps.

  Lemma rules_eps : ~ non_terminal ps eps.
  Proof. intros (p & Hp & Hi). apply Hok in Hp as (H & _). congruence. Qed.

  Lemma rules_N p out : In p ps -> incl out (p_output p) -> Forall N out ->
    Forall (fun X => in_first X eps) out.
  Proof.
    intros Hp Hi H. apply Forall_forall. intros X HX. eapply Forall_forall in H; eauto.
    destruct H as [H|H]; auto. subst X. apply (tr_terminal R). split; [|exact rules_eps].
    exists p. split; auto.
  Qed.

  Lemma rules_Nclosed p : In p ps -> Forall N (p_output p) -> N (p_input p).
  Proof. intros Hp H. left. apply (tr_first_epsilon R); auto. eapply rules_N; eauto. apply incl_refl. Qed.

  Lemma rules_F p X a : In p ps -> In X (p_output p) -> F X a -> in_first X a /\ a <> eps.
  Proof.
    intros Hp HX [He [H|[-> Hn]]]; auto. split; auto. apply (tr_terminal R). split; auto. exists p; auto.
  Qed.

  Lemma rules_fs w a : fs N F w a -> exists u Z v, w = u ++ Z :: v /\ Forall N u /\ F Z a.
  Proof.
    induction 1 as [x v a H|x v a Hx H (u & Z & v' & -> & Hu & HZ)].
    - exists [], x, v. auto.
    - exists (x :: u), Z, v'. auto.
  Qed.

  Lemma rules_Fclosed p a : In p ps -> fs N F (p_output p) a -> F (p_input p) a.
  Proof.
    intros Hp H. apply rules_fs in H as (u & Z & v & Ho & Hu & HZ).
    apply (@rules_F p) in HZ as [HZ He]; auto; [|rewrite Ho, in_app_iff; simpl; auto].
    split; auto. left. eapply (tr_first R); eauto. eapply rules_N; eauto.
    rewrite Ho. apply incl_appl, incl_refl.
  Qed.

  Lemma rules_can_start w a : can_start eps ps w a -> fs N F w a.
  Proof.
    apply closure_can_start.
    - right. reflexivity.
    - exact rules_Nclosed.
    - exact rules_Fclosed.
    - intros b Hb Hn. split; auto.
  Qed.

  Lemma rules_nullable w : nullable eps ps w -> Forall N w.
  Proof.
    apply closure_nullable.
    - right. reflexivity.
    - exact rules_Nclosed.
  Qed.

  Lemma rules_follow X w : derives eps ps [X] w ->
    forall u B v a, w = u ++ B :: v -> non_terminal ps B -> can_start eps ps v a -> in_follow B a.
  Proof.
    intros Hd. apply derives_n1 in Hd.
    induction Hd as [|w w' Hstep Hd IH]; intros u B v a Hw HB Ha.
    - destruct u as [|y u]; simpl in Hw; inversion Hw; subst.
      + exfalso; eapply can_start_nil; eauto.
      + destruct u; discriminate.
    - destruct Hstep as [x y p Hp | x y].
      + apply app_cons_split in Hw as [(m & Hx & Hv)|(m & Hu & Hm)].
        * eapply IH; [|exact HB|].
          -- rewrite Hx, <- app_assoc. reflexivity.
          -- rewrite Hv in Ha. eapply can_start_derives; [|exact Ha].
             apply derives_step. now constructor.
        * apply app_cons_split in Hm as [(o2 & Ho & Hv)|(m' & Ho & Hy)].
          -- rewrite Hv in Ha. apply can_start_app in Ha as [Ha|[Hn Ha]].
             ++ apply rules_can_start, rules_fs in Ha as (mid & Z & rest & Ho2 & Hmid & HZ).
                rewrite Ho2 in Ho.
                assert (Hin : forall z, In z (mid ++ [Z]) -> In z (p_output p)).
                { intros z Hz. rewrite Ho, in_app_iff. right. right.
                  apply in_app_iff in Hz as [Hz|[<-|[]]]; apply in_app_iff; simpl; auto. }
                apply (@rules_F p) in HZ as [HZ He]; auto; [|apply Hin; rewrite in_app_iff; simpl; auto].
                eapply (tr_follow_first R); eauto. eapply rules_N; eauto.
                intros z Hz. apply Hin. rewrite in_app_iff; auto.
             ++ assert (HI : non_terminal ps (p_input p)) by (exists p; auto).
                specialize (IH x (p_input p) y a eq_refl HI Ha).
                eapply (tr_follow_end R p); eauto. apply (@rules_N p); auto.
                ** rewrite Ho. intros z Hz. rewrite in_app_iff. simpl. auto.
                ** now apply rules_nullable.
          -- eapply IH with (u := x ++ p_input p :: m'); [|exact HB|exact Ha].
             rewrite Hy, <- app_assoc. reflexivity.
      + apply app_cons_split in Hw as [(m & Hx & Hv)|(m & Hu & Hm)].
        * eapply IH; [|exact HB|].
          -- rewrite Hx, <- app_assoc. reflexivity.
          -- rewrite Hv in Ha. eapply can_start_derives; [|exact Ha].
             apply derives_step. constructor.
        * eapply IH with (u := x ++ eps :: m); [|exact HB|exact Ha].
          rewrite Hm, <- app_assoc. reflexivity.
  Qed.

  Lemma rules_textbook S : at_least_textbook eps ps ffs S.
  Proof.
    split; [|split].
    - intros X first a HX Hf Ha. apply rules_can_start in Ha.
      assert (H : in_first X a).
      { inversion Ha as [? ? ? [He [H|[-> Hn]]]|? ? ? _ H]; subst; auto.
        - apply (tr_terminal R). destruct HX; [contradiction|auto].
        - inversion H. }
      destruct H as (s & Hs & Hin). congruence.
    - intros X first HX Hf Hn. apply rules_nullable in Hn. inversion Hn as [|? ? [H|H] _]; subst.
      + destruct H as (s & Hs & Hin). congruence.
      + assert (H : in_first eps eps).
        { apply (tr_terminal R). destruct HX as [HX|HX]; auto. now apply rules_eps in HX. }
        destruct H as (s & Hs & Hin). congruence.
    - intros A follow a HA Hf _ (He & Hn & u & v & Hd).
      assert (H : in_follow A a).
      { eapply rules_follow; eauto. split; auto. split; auto. exists v. apply derives_refl. }
      destruct H as (s & Hs & Hin). congruence.
  Qed.
End Rules.

Lemma supplied_constructed {L T : Type} {E : EqDec T} (eps init : T) ps ffs (self : parser L T) :
  supplied_parser eps init ps ffs self -> constructed_parser eps init ps None self.
Proof. intros (ho1 & ho2 & g & Hg & H). exists ho1, ho2, g. split; eauto. Qed.

Lemma supplied_covering {L T : Type} {E : EqDec T} (eps init : T) ps ffs (self : parser L T) :
  supplied_parser eps init ps ffs self -> at_least_textbook eps ps ffs init ->
  covering eps init ps (candidates self).
Proof.
  intros B Ht p u v a Hp Hctx Ha. pose proof (constructed_built (supplied_constructed B)) as F.
  destruct B as (ho1 & ho2 & g & Hg & H). apply rdp_from_inv in H as (Hgr & _ & Htr).
  apply cfg_new_grammar_of in Hg as G.
  assert (Hs : sufficient_sets eps ps ffs) by (apply (transitions_done_iff G ho2); eauto).
  pose proof (supplied_chosen G p u v Ht Hs Hp Hctx Ha) as Hc.
  unfold candidates.
  destruct (transitions_get_productions (pr_transitions self) (p_input p) a) as [l|] eqn:Hl.
  - apply in_map. destruct (supplied_cells G _ _ Htr _ _ Hl) as (keep & -> & Hk).
    apply filter_In. split; [apply productions_of_In; auto|]. now apply Hk.
  - exfalso. apply (bf_none F) in Hl. apply Hl. split; [exists p; auto|].
    destruct (p_output p) as [|X rest] eqn:Ho.
    { apply (go_ok G) in Hp as (_ & H & _). congruence. }
    now apply (Hs p X rest).
Qed.
