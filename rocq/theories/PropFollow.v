(** * FOLLOW exactly, and growing grammars: C52, C53 *)

From Verif Require Import BaseFacts GrammarFacts DerivFacts FirstFacts FollowFacts FollowRepeat TransitionsFacts.
From Verif Require Import FollowSpec MoreFacts Examples PropFirstFollow PropTable.

Set Implicit Arguments.

(** ** C52: FOLLOW is exactly what the rules give *)
Theorem C52_follow_exact :
  forall (T : Type) (E : EqDec T) (ho ho' : hash_order T) (eps init : T)
         (ps : list (production T)) (g : grammar T) (fuel : nat)
         (ffs : first_follow_symbols T) (A : T) (s : list T),
    cfg_new ho eps init ps = Done g -> ffs_from ho' fuel g = Done ffs ->
    get_follow_symbols ffs A = Some s ->
    forall a, In a s <-> follow_by_rules eps ps A a.
Proof.
  intros T E ho ho' eps init ps g fuel ffs A s Hg Hf Hs a. apply cfg_new_grammar_of in Hg as G.
  destruct (ffs_from_exact G _ _ Hf) as [_ [_ Hx]].
  destruct (Hx A s Hs) as [_ Hin]. rewrite follow_by_rules_iff. apply Hin.
Qed.
Print Assumptions C52_follow_exact.

(** ** C08, for the symbols whose FOLLOW set the parser uses (those that derive the
    empty word): FOLLOW is complete exactly when repetitions do no harm *)
Theorem C08_nullable_complete_partial :
  forall (T : Type) (E : EqDec T) (ho ho' : hash_order T) (eps init : T)
         (ps : list (production T)) (g : grammar T) (fuel : nat)
         (ffs : first_follow_symbols T),
    cfg_new ho eps init ps = Done g -> ffs_from ho' fuel g = Done ffs -> non_terminal ps init ->
    ((forall A a, non_terminal ps A -> nullable eps ps [A] -> can_follow eps ps init A a ->
        exists s, get_follow_symbols ffs A = Some s /\ In a s)
     <-> repeats_harmless eps ps init).
Proof.
  intros T E ho ho' eps init ps g fuel ffs Hg Hf Hi. apply cfg_new_grammar_of in Hg as G.
  destruct (ffs_from_exact G _ _ Hf) as [_ [Hk Hx]].
  rewrite <- (@repeats_harmless_iff _ E eps ps init Hi).
  split; intros H A a HA Hn Ha; specialize (H A a HA Hn Ha).
  - destruct H as (s & Hs & Hin). apply follow_by_rules_iff. destruct (Hx A s Hs) as [_ Hx']. now apply Hx'.
  - apply Hk in HA as [s Hs]. exists s. split; auto. destruct (Hx A s Hs) as [_ Hx'].
    apply Hx'. now apply follow_by_rules_iff.
Qed.
Print Assumptions C08_nullable_complete_partial.

(** S = 1 -> B B $; B = 2 -> b C; C = 3 -> c | epsilon: here the repetition does harm *)
Example C08_nullable_case : ~ repeats_harmless 0 twice_productions 1.
Proof.
  destruct (cfg_new (insertion_order nat) 0 1 twice_productions) as [g| |] eqn:Hg; try discriminate.
  destruct (ffs_from (insertion_order nat) 200 g) as [ffs| |] eqn:Hf;
    [|vm_compute in Hg; inversion Hg; subst g; vm_compute in Hf; discriminate..].
  assert (Hi : non_terminal twice_productions 1) by (apply non_terminalb_spec; reflexivity).
  intros H0. pose proof (proj2 (@C08_nullable_complete_partial _ _ _ _ _ _ _ _ _ _ Hg Hf Hi) H0) as H.
  destruct (H 3 4) as (s & Hs & Hin).
  - apply non_terminalb_spec. reflexivity.
  - eapply derives_trans.
    + apply (@derives_production _ 0 twice_productions (Production 3 [0])). simpl; auto 10.
    + apply derives_step. apply (@derive1_epsilon _ 0 twice_productions [] []).
  - split; [discriminate|]. split; [apply non_terminalb_false; reflexivity|].
    exists [4], [3; 6]. eapply derives_trans.
    + apply (@derives_production _ 0 twice_productions (Production 1 [2; 2; 6])). simpl; auto.
    + simpl. apply (@derives_app _ 0 twice_productions [2] [4; 3]).
      * apply (@derives_production _ 0 twice_productions (Production 2 [4; 3])). simpl; auto.
      * apply (@derives_app _ 0 twice_productions [2] [4; 3] [6] [6]); [|apply derives_refl].
        apply (@derives_production _ 0 twice_productions (Production 2 [4; 3])). simpl; auto.
  - vm_compute in Hg. inversion Hg; subst g. vm_compute in Hf. inversion Hf; subst ffs.
    vm_compute in Hs. inversion Hs; subst s. simpl in Hin. intuition discriminate.
Qed.

(** S = 1 -> B B $: FIRST(B) = {b} does not reach FOLLOW(B) *)
Example C52_case : exists g ffs s,
  cfg_new (insertion_order nat) 0 1 twice_productions = Done g /\
  ffs_from (insertion_order nat) 200 g = Done ffs /\
  get_follow_symbols ffs 2 = Some s /\ In 6 s /\ ~ In 4 s.
Proof.
  eexists. eexists. eexists. split; [vm_compute; reflexivity|].
  split; [vm_compute; reflexivity|]. split; [vm_compute; reflexivity|].
  simpl. intuition discriminate.
Qed.

(** ** C53: adding productions only adds *)
Section Extend.
  Context {T : Type} {E : EqDec T}.
  Variables eps : T.
  Variables ps ps' : list (production T).
  Hypothesis Hext : extends_grammar ps ps'.

  Lemma sublist_In {A : Type} (l l' : list A) x : sublist l l' -> In x l -> In x l'.
  Proof. induction 1; simpl; intuition. Qed.

  Lemma ext_In p : In p ps -> In p ps'.
  Proof. apply sublist_In, Hext. Qed.

  Lemma ext_non_terminal A : non_terminal ps A -> non_terminal ps' A.
  Proof. intros (p & Hp & Hi). exists p. split; auto. now apply ext_In. Qed.

  Lemma ext_derives u v : derives eps ps u v -> derives eps ps' u v.
  Proof.
    induction 1 as [|x y z Hs _ IH]; [constructor|]. econstructor; [|exact IH].
    destruct Hs as [u v p Hp|u v]; [|constructor]. constructor. now apply ext_In.
  Qed.

  Lemma ext_terminal a : terminal ps a -> terminal ps' a.
  Proof.
    intros [(p & Hp & Ho) Hn]. split; [exists p; split; auto; now apply ext_In|].
    apply (proj2 Hext). split; auto. exists p; auto.
  Qed.

  Lemma ext_can_start X a : symbol_of ps X -> can_start eps ps [X] a -> can_start eps ps' [X] a.
  Proof.
    intros HX H. pose proof (can_start_terminal_of HX H) as Ht.
    destruct H as (He & Hn & v & Hd). split; auto. split; [now apply ext_terminal in Ht as [_ Ht]|].
    exists v. now apply ext_derives.
  Qed.

  Lemma ext_follow A a : follow_rules (eps := eps) (ps := ps) A a ->
    follow_rules (eps := eps) (ps := ps') A a.
  Proof.
    induction 1 as [p u A mid Z v a Hp Ho HA Hm HZ Hr|p u A v a Hp Ho HA Hv Hf IH].
    - eapply follow_by_first; eauto.
      + now apply ext_In.
      + now apply ext_non_terminal.
      + now apply ext_derives.
      + apply ext_can_start; auto. eapply output_symbol_of; [exact Hp|].
        rewrite Ho, in_app_iff; simpl. rewrite in_app_iff; simpl. auto.
    - eapply follow_by_end; [apply ext_In; eauto|eauto|now apply ext_non_terminal|now apply ext_derives|auto].
  Qed.

  Lemma sublist_filter {A : Type} (f f' : A -> bool) l l' : sublist l l' ->
    (forall x, In x l -> f x = true -> f' x = true) -> sublist (filter f l) (filter f' l').
  Proof.
    induction 1 as [|x l l' _ IH|x l l' _ IH]; intros H; simpl.
    - constructor.
    - specialize (IH (fun y Hy => H y (or_intror Hy))). specialize (H x (or_introl eq_refl)).
      destruct (f x); [rewrite (H eq_refl); now constructor|]. destruct (f' x); [now constructor|auto].
    - specialize (IH H). destruct (f' x); [now constructor|auto].
  Qed.

  Lemma sublist_filter_eq {A : Type} (f : A -> bool) l l' : sublist l l' ->
    sublist (filter f l) (filter f l').
  Proof. intros H. apply sublist_filter; auto. Qed.
End Extend.

Theorem C53_more_productions_more_candidates :
  forall (T : Type) (E : EqDec T) (ho1 ho2 ho3 ho1' ho2' ho3' : hash_order T)
         (eps init init' : T) (ps ps' : list (production T)) (g g' : grammar T)
         (fuel fuel' : nat) (ffs ffs' : first_follow_symbols T) (t t' : transitions T),
    extends_grammar ps ps' ->
    cfg_new ho1 eps init ps = Done g -> ffs_from ho2 fuel g = Done ffs ->
    transitions_from ho3 g ffs = Done t ->
    cfg_new ho1' eps init' ps' = Done g' -> ffs_from ho2' fuel' g' = Done ffs' ->
    transitions_from ho3' g' ffs' = Done t' ->
    (forall X s, get_first_symbols ffs X = Some s ->
       exists s', get_first_symbols ffs' X = Some s' /\ incl s s') /\
    (forall X s, get_follow_symbols ffs X = Some s ->
       exists s', get_follow_symbols ffs' X = Some s' /\ incl s s') /\
    (forall A a l, transitions_get_productions t A a = Some l ->
       exists l', transitions_get_productions t' A a = Some l' /\ sublist l l').
Proof.
  intros T E ho1 ho2 ho3 ho1' ho2' ho3' eps init init' ps ps' g g' fuel fuel' ffs ffs' t t'
    Hext Hg Hf Ht Hg' Hf' Ht'.
  apply cfg_new_grammar_of in Hg as G. apply cfg_new_grammar_of in Hg' as G'.
  destruct (ffs_from_exact G _ _ Hf) as [[Hk1 Hx1] [Hk2 Hx2]].
  destruct (ffs_from_exact G' _ _ Hf') as [[Hk1' Hx1'] [Hk2' Hx2']].
  assert (Hsym : forall X, symbol_of ps X -> symbol_of ps' X).
  { intros X [HX|HX]; [left; now apply (ext_non_terminal Hext)|right; now apply (ext_terminal Hext)]. }
  assert (H1 : forall X s, get_first_symbols ffs X = Some s ->
       exists s', get_first_symbols ffs' X = Some s' /\ incl s s').
  { intros X s Hs.
    assert (HX : symbol_of ps X) by (apply Hk1; eauto).
    destruct (proj2 (Hk1' X) (Hsym X HX)) as [s' Hs']. exists s'. split; [exact Hs'|].
    destruct (Hx1 X s Hs) as [_ Hin]. destruct (Hx1' X s' Hs') as [_ Hin'].
    intros a Ha. apply Hin'. apply Hin in Ha. destruct Ha as [[He Hn]|Ha].
    - left. split; auto. now apply (ext_derives Hext).
    - right. now apply (ext_can_start Hext). }
  assert (H2 : forall X s, get_follow_symbols ffs X = Some s ->
       exists s', get_follow_symbols ffs' X = Some s' /\ incl s s').
  { intros X s Hs.
    assert (HX : non_terminal ps X) by (apply Hk2; eauto).
    destruct (proj2 (Hk2' X) (ext_non_terminal Hext HX)) as [s' Hs']. exists s'. split; [exact Hs'|].
    destruct (Hx2 X s Hs) as [_ Hin]. destruct (Hx2' X s' Hs') as [_ Hin'].
    intros a Ha. apply Hin', (ext_follow Hext), Hin, Ha. }
  split; [exact H1|]. split; [exact H2|].
  intros A a l Hl.
  destruct (@C11_table_contents T E ho1 ho2 ho3 eps init ps g fuel ffs t A a Hg Hf Ht) as [Hn Hc].
  destruct (@C11_table_contents T E ho1' ho2' ho3' eps init' ps' g' fuel' ffs' t' A a Hg' Hf' Ht') as [Hn' Hc'].
  destruct (transitions_get_productions t' A a) as [l'|] eqn:Hl'.
  2:{ exfalso. apply (proj1 Hn' eq_refl).
      assert (H : ~ ~ (non_terminal ps A /\ terminal ps a)).
      { intros H. apply Hn in H. congruence. }
      destruct (non_terminal_dec ps A) as [HA|HA]; [|exfalso; apply H; tauto].
      destruct (is_terminal g a) eqn:Hta.
      - apply (is_terminal_spec G) in Hta. split; [now apply (ext_non_terminal Hext)|now apply (ext_terminal Hext)].
      - exfalso. apply H. intros [_ Hta']. apply (is_terminal_spec G) in Hta'. congruence. }
  exists l'. split; auto.
  destruct (Hc l Hl) as (keep & -> & Hkeep). destruct (Hc' l' eq_refl) as (keep' & -> & Hkeep').
  apply sublist_filter.
  - apply sublist_filter_eq. apply Hext.
  - intros p Hp Hk. apply filter_In in Hp as [Hp Hi].
    destruct (eq_dec (p_input p) A) as [HiA|]; [|discriminate].
    apply Hkeep in Hk; auto. apply Hkeep'; auto; [now apply (ext_In Hext)|].
    destruct Hk as (X & rest & Ho & Hb). exists X, rest. split; auto.
    assert (Hf1 : forall X a, in_set (get_first_symbols ffs X) a -> in_set (get_first_symbols ffs' X) a).
    { intros Y b (s & Hs & Hb'). destruct (H1 Y s Hs) as (s' & Hs' & Hi'). exists s'. auto. }
    assert (Hf2 : forall X a, in_set (get_follow_symbols ffs X) a -> in_set (get_follow_symbols ffs' X) a).
    { intros Y b (s & Hs & Hb'). destruct (H2 Y s Hs) as (s' & Hs' & Hi'). exists s'. auto. }
    intuition auto.
Qed.
Print Assumptions C53_more_productions_more_candidates.

(** the expression grammar with a production for unary plus *)
Definition unary_productions : list (production sym) :=
  expr_productions ++ [Production Factor [Plus; Factor]].

Example C53_case :
  extends_grammar expr_productions unary_productions /\
  (exists g, cfg_new (insertion_order sym) Eps Prog unary_productions = Done g /\
   exists ffs, ffs_from (insertion_order sym) 200 g = Done ffs /\
   exists t, transitions_from (insertion_order sym) g ffs = Done t /\
     transitions_get_productions t Expr Plus = Some [Production Expr [Term; ExprTail]] /\
     transitions_get_productions expr_transitions Expr Plus = Some []).
Proof.
  split.
  - split; [repeat constructor|].
    intros x [_ Hx] H. apply Hx. unfold unary_productions in H.
    destruct H as (p & Hp & Hi). apply in_app_or in Hp as [Hp|[<-|[]]]; [exists p; auto|].
    simpl in Hi. subst x. exists (Production Factor [Id]). simpl. auto 20.
  - eexists. split; [vm_compute; reflexivity|]. eexists. split; [vm_compute; reflexivity|].
    eexists. split; [vm_compute; reflexivity|]. split; vm_compute; reflexivity.
Qed.
