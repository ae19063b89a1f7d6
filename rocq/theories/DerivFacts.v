(** * Facts about derivations (no code involved) *)

From Verif Require Import BaseFacts GrammarFacts.
From Verif Require Export Spec.

Set Implicit Arguments.

Section Deriv.
  Context {T : Type} {E : EqDec T}.
  Variable eps : T.
  Variable ps : list (production T).

  Notation derive1 := (derive1 eps ps).
  Notation derives := (derives eps ps).
  Notation nullable := (nullable eps ps).
  Notation can_start := (can_start eps ps).

  Lemma derives_refl w : derives w w.
  Proof. constructor. Qed.

  Lemma derives_trans u v w : derives u v -> derives v w -> derives u w.
  Proof.
    intros H H'. induction H as [|x y z H1 _ IH]; auto.
    eapply Relation_Operators.rt1n_trans; [exact H1 | apply IH, H'].
  Qed.

  Lemma derives_step u v : derive1 u v -> derives u v.
  Proof. intros H. eapply Relation_Operators.rt1n_trans; [exact H | constructor]. Qed.

  Lemma derive1_ctx u v w w' : derive1 w w' -> derive1 (u ++ w ++ v) (u ++ w' ++ v).
  Proof.
    intros H; destruct H as [x y p Hp | x y].
    - replace (u ++ (x ++ p_input p :: y) ++ v) with ((u ++ x) ++ p_input p :: (y ++ v)).
      + replace (u ++ (x ++ p_output p ++ y) ++ v) with ((u ++ x) ++ p_output p ++ (y ++ v)).
        * now constructor.
        * now rewrite <- !app_assoc.
      + now rewrite <- !app_assoc.
    - replace (u ++ (x ++ eps :: y) ++ v) with ((u ++ x) ++ eps :: (y ++ v)).
      + replace (u ++ (x ++ y) ++ v) with ((u ++ x) ++ (y ++ v)).
        * apply derive1_epsilon.
        * now rewrite <- !app_assoc.
      + now rewrite <- !app_assoc.
  Qed.

  Lemma derives_ctx u v w w' : derives w w' -> derives (u ++ w ++ v) (u ++ w' ++ v).
  Proof.
    intros H; induction H as [|x y z H1 _ IH]; [apply derives_refl|].
    eapply Relation_Operators.rt1n_trans; [apply derive1_ctx, H1 | exact IH].
  Qed.

  Lemma derives_app u u' v v' : derives u u' -> derives v v' -> derives (u ++ v) (u' ++ v').
  Proof.
    intros Hu Hv. apply derives_trans with (u' ++ v).
    - exact (derives_ctx [] v Hu).
    - pose proof (derives_ctx u' [] Hv) as H. now rewrite !app_nil_r in H.
  Qed.

  Lemma derives_production p : In p ps -> derives [p_input p] (p_output p).
  Proof.
    intros Hp. apply derives_step. pose proof (derive1_production eps ps [] [] p Hp) as H.
    simpl in H. now rewrite app_nil_r in H.
  Qed.

  Lemma derives_eps : derives [eps] [].
  Proof. apply derives_step. exact (derive1_epsilon eps ps [] []). Qed.

  (** splitting lists *)
  Lemma app_eq_mid (A : Type) (a b c d : list A) :
    a ++ b = c ++ d ->
    (exists m, a = c ++ m /\ d = m ++ b) \/ (exists m, c = a ++ m /\ b = m ++ d).
  Proof.
    revert c; induction a as [|x a IH]; intros c H; simpl in *.
    - right; exists c; auto.
    - destruct c as [|y c]; simpl in *.
      + left. exists (x :: a). auto.
      + inversion H; subst. destruct (IH c H2) as [(m & -> & ->)|(m & -> & ->)].
        * left; exists m; auto.
        * right; exists m; auto.
  Qed.

  Lemma app_cons_split (A : Type) (a b c d : list A) x :
    a ++ b = c ++ x :: d ->
    (exists m, a = c ++ x :: m /\ d = m ++ b) \/ (exists m, c = a ++ m /\ b = m ++ x :: d).
  Proof.
    intros H. destruct (app_eq_mid _ _ _ _ H) as [(m & Ha & Hd)|(m & Hc & Hb)].
    - destruct m as [|y m]; simpl in *.
      + right. exists []. rewrite app_nil_r in *. subst; auto.
      + inversion Hd; subst. left. exists m; auto.
    - right; exists m; auto.
  Qed.

  Lemma derive1_app_inv u v w :
    derive1 (u ++ v) w ->
    (exists u', derive1 u u' /\ w = u' ++ v) \/ (exists v', derive1 v v' /\ w = u ++ v').
  Proof.
    intros H. remember (u ++ v) as s eqn:Hs. destruct H as [x y p Hp | x y]; symmetry in Hs.
    - apply app_cons_split in Hs as [(m & -> & ->)|(m & -> & ->)].
      + left. exists (x ++ p_output p ++ m). split; [now constructor|].
        now rewrite <- !app_assoc.
      + right. exists (m ++ p_output p ++ y). split; [now constructor|].
        now rewrite <- !app_assoc.
    - apply app_cons_split in Hs as [(m & -> & ->)|(m & -> & ->)].
      + left. exists (x ++ m). split; [apply derive1_epsilon|]. now rewrite <- !app_assoc.
      + right. exists (m ++ y). split; [apply derive1_epsilon|]. now rewrite <- !app_assoc.
  Qed.

  Lemma derives_app_inv u v w :
    derives (u ++ v) w -> exists u' v', w = u' ++ v' /\ derives u u' /\ derives v v'.
  Proof.
    intros H. remember (u ++ v) as s eqn:Hs. revert u v Hs.
    induction H as [x|x y z H1 _ IH]; intros u v ->.
    - exists u, v; repeat split; apply derives_refl.
    - apply derive1_app_inv in H1 as [(u' & H1 & ->)|(v' & H1 & ->)].
      + destruct (IH _ _ eq_refl) as (u2 & v2 & -> & Hu & Hv).
        exists u2, v2; repeat split; auto. eapply derives_trans; eauto using derives_step.
      + destruct (IH _ _ eq_refl) as (u2 & v2 & -> & Hu & Hv).
        exists u2, v2; repeat split; auto. eapply derives_trans; eauto using derives_step.
  Qed.

  Lemma nullable_nil : nullable [].
  Proof. apply derives_refl. Qed.

  Lemma nullable_app u v : nullable (u ++ v) <-> nullable u /\ nullable v.
  Proof.
    unfold Spec.nullable. split.
    - intros H. apply derives_app_inv in H as (u' & v' & Hw & Hu & Hv).
      symmetry in Hw. apply app_eq_nil in Hw as [-> ->]. auto.
    - intros [Hu Hv]. exact (derives_app Hu Hv).
  Qed.

  Lemma nullable_cons x w : nullable (x :: w) <-> nullable [x] /\ nullable w.
  Proof. apply (nullable_app [x] w). Qed.

  Lemma nullable_forall w : nullable w <-> Forall (fun x => nullable [x]) w.
  Proof.
    induction w as [|x w IH].
    - split; intros _; [constructor | apply nullable_nil].
    - rewrite nullable_cons, IH, Forall_cons_iff. tauto.
  Qed.

  Lemma derive1_single x w :
    derive1 [x] w ->
    (exists p, In p ps /\ p_input p = x /\ w = p_output p) \/ (x = eps /\ w = []).
  Proof.
    intros H. remember [x] as s eqn:Hs. destruct H as [u v p Hp|u v].
    - destruct u as [|y u]; simpl in Hs; inversion Hs; subst.
      + left. exists p. rewrite app_nil_r; auto.
      + destruct u; discriminate.
    - destruct u as [|y u]; simpl in Hs; inversion Hs; subst.
      + right; auto.
      + destruct u; discriminate.
  Qed.

  Lemma nullable_single x :
    nullable [x] <-> x = eps \/ exists p, In p ps /\ p_input p = x /\ nullable (p_output p).
  Proof.
    split.
    - intros H. remember [x] as s eqn:Hs. unfold Spec.nullable in H.
      inversion H; subst; [discriminate|].
      apply derive1_single in H0 as [(p & Hp & Hi & ->)|[-> ->]]; auto.
      right. exists p; auto.
    - intros [->|(p & Hp & <- & Hn)].
      + apply derives_eps.
      + eapply derives_trans; [now apply derives_production | exact Hn].
  Qed.

  Lemma nullable_terminal x : ~ non_terminal ps x -> nullable [x] -> x = eps.
  Proof.
    intros Hn H. apply nullable_single in H as [H|(p & Hp & Hi & _)]; auto.
    exfalso. apply Hn. exists p; auto.
  Qed.

  Lemma can_start_nil a : ~ can_start [] a.
  Proof.
    intros (_ & _ & v & H). remember [] as s eqn:Hs. inversion H; subst; [discriminate|].
    remember [] as s eqn:Hs'. destruct H0; destruct u; discriminate.
  Qed.

  Lemma derives_nil_inv w : derives [] w -> w = [].
  Proof.
    intros H. inversion H; subst; auto.
    remember [] as s eqn:Hs'. destruct H0; destruct u; discriminate.
  Qed.

  Lemma can_start_app u v a :
    can_start (u ++ v) a <-> can_start u a \/ (nullable u /\ can_start v a).
  Proof.
    split.
    - intros (He & Hn & w & H). apply derives_app_inv in H as (u' & v' & Hw & Hu & Hv).
      destruct u' as [|b u']; simpl in Hw.
      + right. split; auto. repeat split; auto. exists w. congruence.
      + inversion Hw; subst. left. repeat split; auto. exists u'; auto.
    - intros [(He & Hn & w & H)|[Hu (He & Hn & w & H)]]; repeat split; auto.
      + exists (w ++ v). exact (derives_app H (derives_refl v)).
      + exists w. exact (derives_app Hu H).
  Qed.

  Lemma can_start_cons x v a :
    can_start (x :: v) a <-> can_start [x] a \/ (nullable [x] /\ can_start v a).
  Proof. apply (can_start_app [x] v). Qed.

  Lemma can_start_single x a :
    can_start [x] a <->
    (a <> eps /\ ~ non_terminal ps a) /\
    (a = x \/ exists p, In p ps /\ p_input p = x /\ can_start (p_output p) a).
  Proof.
    split.
    - intros (He & Hn & v & H). split; auto. inversion H; subst.
      + left; auto.
      + apply derive1_single in H0 as [(p & Hp & Hi & ->)|[-> ->]].
        * right. exists p. repeat split; auto. exists v; auto.
        * apply derives_nil_inv in H1; discriminate.
    - intros [[He Hn] [->|(p & Hp & <- & (_ & _ & v & H))]]; repeat split; auto.
      + exists []. apply derives_refl.
      + exists v. eapply derives_trans; [now apply derives_production | exact H].
  Qed.

  Lemma can_start_terminal x a : ~ non_terminal ps x -> can_start [x] a -> a = x.
  Proof.
    intros Hn H. apply can_start_single in H as [_ [H|(p & Hp & Hi & _)]]; auto.
    exfalso; apply Hn; exists p; auto.
  Qed.

  Lemma can_start_real w a : can_start w a -> a <> eps /\ ~ non_terminal ps a.
  Proof. intros (? & ? & _); auto. Qed.

  Lemma can_start_derives w w' a : derives w w' -> can_start w' a -> can_start w a.
  Proof.
    intros H (He & Hn & v & H'). repeat split; auto. exists v. eapply derives_trans; eauto.
  Qed.

  (** decomposition of [can_start] on a string *)
  Lemma can_start_split w a :
    can_start w a <->
    exists u x v, w = u ++ x :: v /\ nullable u /\ can_start [x] a.
  Proof.
    split.
    - induction w as [|x w IH]; intros H; [exfalso; eapply can_start_nil; eauto|].
      apply can_start_cons in H as [H|[Hx H]].
      + exists [], x, w. repeat split; auto using nullable_nil; apply H.
      + destruct (IH H) as (u & y & v & -> & Hu & Hy).
        exists (x :: u), y, v. split; [reflexivity|]. split; [|exact Hy].
        rewrite nullable_cons; auto.
    - intros (u & x & v & -> & Hu & Hx). rewrite can_start_app. right; split; auto.
      rewrite can_start_cons; auto.
  Qed.

  (** ** symbols of the grammar *)
  Definition symbol_of (x : T) : Prop := non_terminal ps x \/ terminal ps x.

  Lemma output_symbol_of p x : In p ps -> In x (p_output p) -> symbol_of x.
  Proof.
    intros Hp Hx. unfold symbol_of. destruct (non_terminal_dec ps x); auto.
    right; split; auto. exists p; auto.
  Qed.

  Lemma derives_symbols w w' :
    derives w w' -> Forall symbol_of w -> Forall symbol_of w'.
  Proof.
    intros H; induction H as [|x y z H1 _ IH]; auto.
    intros Hx; apply IH. destruct H1 as [u v p Hp|u v].
    - rewrite !Forall_app in *. rewrite Forall_cons_iff in Hx. destruct Hx as (? & ? & ?).
      repeat split; auto. apply Forall_forall. intros s Hs. eapply output_symbol_of; eauto.
    - rewrite !Forall_app in *. rewrite Forall_cons_iff in Hx. tauto.
  Qed.

  Lemma can_start_terminal_of x a : symbol_of x -> can_start [x] a -> terminal ps a.
  Proof.
    intros Hx (He & Hn & v & H). apply derives_symbols in H.
    - apply Forall_inv in H. destruct H; tauto.
    - constructor; auto.
  Qed.

  (** an epsilon that derives something is written in the grammar *)
  Lemma nullable_terminal_eps w :
    productions_ok eps ps -> w <> [] -> Forall symbol_of w -> nullable w -> terminal ps eps.
  Proof.
    intros Hok Hne Hs H. unfold Spec.nullable in H.
    remember [] as z eqn:Hz. induction H as [x|x y z H1 H2 IH]; [congruence|].
    subst z. destruct y as [|b y].
    - clear IH. remember [] as z eqn:Hz. destruct H1 as [u v p Hp|u v].
      + apply app_eq_nil in Hz as [_ Hz]. apply app_eq_nil in Hz as [Hz _].
        apply Hok in Hp as (_ & H & _). congruence.
      + rewrite Forall_app, Forall_cons_iff in Hs. destruct Hs as (_ & [H|H] & _); auto.
        destruct H as (q & Hq & Hi). apply Hok in Hq as (H & _). congruence.
    - apply IH; auto; [discriminate|].
      eapply derives_symbols; [apply derives_step, H1 | exact Hs].
  Qed.

  (** ** closure of sets under the FIRST rules implies completeness *)
  Section FirstClosure.
    Variable N : T -> Prop.
    Variable F : T -> T -> Prop.

    Inductive fs : list T -> T -> Prop :=
    | fs_here x v a : F x a -> fs (x :: v) a
    | fs_skip x v a : N x -> fs v a -> fs (x :: v) a.

    Lemma fs_app_l u v a : fs u a -> fs (u ++ v) a.
    Proof. induction 1; simpl; [now constructor | now apply fs_skip]. Qed.

    Lemma fs_app_r u v a : Forall N u -> fs v a -> fs (u ++ v) a.
    Proof. induction 1; simpl; auto. intros; apply fs_skip; auto. Qed.

    Lemma fs_app_inv u v a : fs (u ++ v) a -> fs u a \/ (Forall N u /\ fs v a).
    Proof.
      induction u as [|x u IH]; simpl; intros H; auto.
      inversion H; subst.
      - left; now constructor.
      - destruct (IH H4) as [H'|[H' H'']]; [left; now apply fs_skip | right; auto].
    Qed.

    Lemma fs_cons_inv x v a : fs (x :: v) a -> F x a \/ (N x /\ fs v a).
    Proof. inversion 1; subst; auto. Qed.

    Hypothesis Neps : N eps.
    Hypothesis Nclosed : forall p, In p ps -> Forall N (p_output p) -> N (p_input p).
    Hypothesis Fclosed : forall p a, In p ps -> fs (p_output p) a -> F (p_input p) a.
    Hypothesis Fterm : forall a, a <> eps -> ~ non_terminal ps a -> F a a.

    Lemma closure_nullable w : nullable w -> Forall N w.
    Proof.
      unfold Spec.nullable. intros H. remember [] as z eqn:Hz.
      induction H as [x|x y z H1 _ IH]; subst; [constructor|].
      specialize (IH eq_refl). destruct H1 as [u v p Hp|u v].
      - rewrite !Forall_app in *. rewrite Forall_cons_iff. destruct IH as (? & ? & ?). auto.
      - rewrite !Forall_app in *. rewrite Forall_cons_iff. tauto.
    Qed.

    Lemma closure_can_start w a : can_start w a -> fs w a.
    Proof.
      intros (He & Hn & v & H). remember (a :: v) as z eqn:Hz.
      induction H as [x|x y z H1 _ IH]; subst.
      - constructor. auto.
      - specialize (IH eq_refl). destruct H1 as [u w p Hp|u w].
        + apply fs_app_inv in IH as [IH|[Hu IH]]; [now apply fs_app_l|].
          apply fs_app_r; auto. apply fs_app_inv in IH as [IH|[Ho IH]].
          * constructor; auto.
          * apply fs_skip; auto.
        + apply fs_app_inv in IH as [IH|[Hu IH]]; [now apply fs_app_l|].
          apply fs_app_r; auto. now apply fs_skip.
    Qed.
  End FirstClosure.
End Deriv.
