(** * Every LL(1) grammar can be prepared for the parser: C100 *)

From Verif Require Import BaseFacts GrammarFacts DerivFacts FollowRepeat FollowSpec ParserSound ParserBuild MoreFacts.
From Verif Require Import TransitionsFacts Examples LL1Check PropFirstFollow PropParse PropUseful PropRecipe LanguageSpec.
From Verif Require Import LastSpec ProductiveSpec LeftRecFacts PropLeftRec PropGuided SplitFacts PropSplit PropQuiet.
From Verif Require Export WrapSpec.

Set Implicit Arguments.

(** ** symbols of derived strings *)
Section Symbols.
  Context {T : Type} (eps : T) (ps : list (production T)).

  Lemma derives_in s t x : derives eps ps s t -> In x t -> In x s \/ occurs_in_output ps x.
  Proof.
    induction 1 as [|s y t Hs _ IH]; auto. intros Hx. destruct (IH Hx) as [Hy|Hy]; auto.
    destruct Hs as [u v p Hp|u v].
    - apply in_app_or in Hy as [Hy|Hy]; [left; apply in_or_app; auto|].
      apply in_app_or in Hy as [Hy|Hy]; [right; exists p; auto|]. left. apply in_or_app. right. now right.
    - left. apply in_app_or in Hy as [Hy|Hy]; apply in_or_app; [auto|right; now right].
  Qed.

  Lemma derives_more ps' s t : (forall p, In p ps -> In p ps') -> derives eps ps s t -> derives eps ps' s t.
  Proof.
    intros H. induction 1 as [|s y t Hs _ IH]; [apply derives_refl|].
    eapply derives_trans; [|exact IH]. apply derives_step. destruct Hs; constructor; auto.
  Qed.

  Lemma derives_fixed a t : a <> eps -> ~ non_terminal ps a -> derives eps ps [a] t -> t = [a].
  Proof.
    intros He Hn H. inversion H as [|y z Hs Hr]; subst; auto.
    apply derive1_single in Hs as [(p & Hp & Hi & _)|[Ha _]]; [|congruence].
    exfalso. apply Hn. exists p. auto.
  Qed.
End Symbols.

(** ** the useful productions of an LL(1) grammar are a reduced LL(1) grammar *)
Section Core.
  Context {T : Type} {E : EqDec T} (eps init : T) (ps ps' : list (production T)).
  Hypothesis H : useful_part_of eps init ps ps'.
  Hypothesis Heps : ~ non_terminal ps' eps.

  Lemma core_in p : In p ps -> In p ps'.
  Proof. exact (@useful_In _ _ _ _ _ H p). Qed.

  Lemma core_nt A : non_terminal ps A -> non_terminal ps' A.
  Proof. intros (p & Hp & Hi). exists p. split; auto. now apply core_in. Qed.

  Lemma core_real a : a <> eps /\ ~ non_terminal ps' a -> a <> eps /\ ~ non_terminal ps a.
  Proof. intros [H1 H2]. split; auto. intros H3. apply H2. now apply core_nt. Qed.

  (** derivations that can be completed use useful productions only *)
  Lemma core_derives x s w :
    derives eps ps' [init] x -> derives eps ps' x s ->
    derives eps ps' s w -> Forall (fun a => a <> eps /\ ~ non_terminal ps' a) w ->
    derives eps ps x s.
  Proof.
    intros Hx Hd Hw Hf. induction Hd as [x|x y s Hs Hd IH]; [apply derives_refl|].
    assert (Hy : derives eps ps' [init] y) by (eapply derives_trans; [exact Hx|now apply derives_step]).
    eapply derives_trans; [|exact (IH Hy Hw)]. apply derives_step.
    destruct Hs as [u v p Hp|u v]; [|constructor]. constructor. apply (proj2 H p Hp).
    exists u, v, w. split; auto. split; auto. eapply derives_trans; eauto.
  Qed.

  Lemma core_reduced : reduced eps ps init.
  Proof.
    intros A (p & Hp & Hi). subst A. pose proof (core_in p Hp) as Hp'.
    apply (proj2 H p Hp') in Hp as (u & v & w & Hd & Hw & Hf).
    assert (Hstep : derives eps ps' (u ++ p_input p :: v) w).
    { eapply derives_trans; [|exact Hw]. apply derives_step. now constructor. }
    split.
    - exists u, v. apply core_derives with w; auto. apply derives_refl.
    - assert (Hd' : derives eps ps (u ++ [p_input p] ++ v) w) by (apply core_derives with w; auto; apply derives_refl).
      apply derives_app_inv in Hd' as (w1 & w23 & -> & _ & Hd').
      apply derives_app_inv in Hd' as (w2 & w3 & -> & Hd' & _).
      exists w2. split; auto. apply Forall_app in Hf as [_ Hf]. apply Forall_app in Hf as [Hf _].
      eapply Forall_impl; [|exact Hf]. intros a. apply core_real.
  Qed.

  Lemma core_terminal a : occurs_in_output ps a -> ~ non_terminal ps a -> ~ non_terminal ps' a.
  Proof. intros Ho Hn. apply (proj2 (useful_extends H Heps)). split; auto. Qed.

  Lemma core_cell A a p : textbook_cell eps ps init A a p -> textbook_cell eps ps' init A a p.
  Proof.
    intros (Hp & Hi & Hc). pose proof (core_in p Hp) as Hp'. split; auto. split; auto.
    assert (Hin : non_terminal ps A) by (exists p; auto).
    destruct Hc as [(He & Hn & v & Hd)|(Hnull & He & Hn & u & v & Hd)]; [left|right].
    - split; auto. split; [|exists v; now apply derives_more with ps; [apply core_in|]].
      apply core_terminal; auto. destruct (derives_in a Hd); [now left| |auto].
      exists p. auto.
    - split; [now apply derives_more with ps; [apply core_in|]|]. split; auto.
      split; [|exists u, v; now apply derives_more with ps; [apply core_in|]].
      apply core_terminal; auto. destruct (derives_in a Hd) as [[Hx|[]]|Hx]; auto.
      + apply in_or_app. right. right. now left.
      + exfalso. inversion Hd as [Hl|y z Hs Hr].
        * destruct u as [|? [|? u]]; discriminate.
        * apply derive1_single in Hs as [(q & Hq & Hi' & _)|[Hx' _]]; [|congruence].
          apply Hn. exists q. split; auto. congruence.
  Qed.

  Lemma core_ll1 : ll1_to_end eps ps' init -> ll1_to_end eps ps init.
  Proof.
    intros [Hll Hend]. split.
    - intros A a p q Hp Hq. apply (Hll A a); now apply core_cell.
    - assert (Hc : forall A p, textbook_cell_at_end eps ps init A p -> textbook_cell_at_end eps ps' init A p).
      { intros A p (Hp & Hi & Hn & u & Hu). split; [now apply core_in|]. split; auto.
        split; [now apply derives_more with ps; [apply core_in|]|].
        exists u. now apply derives_more with ps; [apply core_in|]. }
      intros A p q Hp Hq. apply (Hend A); auto.
  Qed.

  Lemma core_ok : productions_ok eps ps' -> productions_ok eps ps.
  Proof. intros Hok p Hp. apply Hok. now apply core_in. Qed.

  Lemma core_trees {L : Type} n w : non_terminal ps init ->
    (tree_for (L := L) eps ps init n w <-> tree_for eps ps' init n w).
  Proof.
    intros Hinit. split; intros Ht.
    - assert (Hall : (forall X n w, tree_for (L := L) eps ps X n w ->
                        non_terminal ps X \/ occurs_in_output ps X -> tree_for eps ps' X n w) /\
                     (forall Xs ns w, forest_for (L := L) eps ps Xs ns w ->
                        Forall (occurs_in_output ps) Xs -> forest_for eps ps' Xs ns w)).
      { apply tree_forest_ind.
        - intros tok He Hn [Hx|Hx]; [contradiction|]. constructor; auto. now apply core_terminal.
        - intros _. constructor.
        - intros p cs v Hp _ IH _. constructor; [now apply core_in|]. apply IH. apply Forall_forall.
          intros x Hx. exists p. auto.
        - constructor.
        - intros X Xs x xs v vs _ IH1 _ IH2 Hx. apply Forall_cons_iff in Hx as [Hx Hxs]. constructor; auto. }
      apply (proj1 Hall); auto.
    - apply (proj1 (useful_trees H (L := L)) init n w Ht [] []); [apply derives_refl| |];
        (exists []; split; [apply derives_refl|constructor]).
  Qed.

  Lemma core_init s : non_terminal ps' init -> derives eps ps' [init] s ->
    Forall (fun a => a <> eps /\ ~ non_terminal ps' a) s -> non_terminal ps init.
  Proof.
    intros Hinit Hs Hsf. inversion Hs as [|y z Hstep Hr]; subst.
    - inversion Hsf as [|? ? [_ Hx] _]; subst. contradiction.
    - apply derive1_single in Hstep as [(p & Hp & Hi & ->)|[Hx _]]; [|subst; contradiction].
      exists p. split; auto. apply (proj2 H p Hp). exists [], [], s. rewrite Hi, app_nil_r. split; [apply derives_refl|auto].
  Qed.

  Lemma core_unused X : unused eps ps' X -> unused eps ps X.
  Proof.
    intros (H1 & H2 & H3). split; auto. split.
    - intros Hx. apply H2. now apply core_nt.
    - intros (p & Hp & Hx). apply H3. exists p. split; auto. now apply core_in.
  Qed.
End Core.

(** ** the grammar with the new initial symbol *)
Section Wrap.
  Context {T : Type} {E : EqDec T} (eps init top eof : T) (ps : list (production T)).
  Hypothesis Htop : unused eps ps top.
  Hypothesis Heof : unused eps ps eof.
  Hypothesis Hne : top <> eof.
  Hypothesis Hinit : non_terminal ps init.

  Let qs := wrapped top eof init ps.

  Lemma top_eps : top <> eps. Proof. apply Htop. Qed.
  Lemma top_nt : ~ non_terminal ps top. Proof. apply Htop. Qed.
  Lemma top_occ : ~ occurs_in_output ps top. Proof. apply Htop. Qed.
  Lemma eof_eps : eof <> eps. Proof. apply Heof. Qed.
  Lemma eof_nt : ~ non_terminal ps eof. Proof. apply Heof. Qed.
  Lemma eof_occ : ~ occurs_in_output ps eof. Proof. apply Heof. Qed.

  Lemma wrap_in p : In p qs -> p = Production top [init; eof] \/ In p ps.
  Proof. intros [<-|Hp]; auto. Qed.

  Lemma wrap_nt A : non_terminal qs A <-> A = top \/ non_terminal ps A.
  Proof.
    split.
    - intros (p & [<-|Hp] & Hi); [left; now rewrite <- Hi|right; exists p; auto].
    - intros [->|(p & Hp & Hi)]; [exists (Production top [init; eof]); split; [now left|auto]|].
      exists p. split; auto. now right.
  Qed.

  Lemma init_other : init <> top /\ init <> eof.
  Proof. destruct Htop as (_ & H1 & _), Heof as (_ & H2 & _). split; intros ->; auto. Qed.

  Lemma wrap_eof : ~ non_terminal qs eof.
  Proof. rewrite wrap_nt. intros [H|H]; [auto|]. now apply eof_nt. Qed.

  Lemma up s t : derives eps ps s t -> derives eps qs s t.
  Proof. apply derives_more. intros p Hp. now right. Qed.

  Lemma down s t : derives eps qs s t -> ~ In top s -> ~ In top t /\ derives eps ps s t.
  Proof.
    induction 1 as [|s y t Hs _ IH]; [split; auto; apply derives_refl|]. intros Hc.
    assert (Hy : ~ In top y /\ derives eps ps s y).
    { destruct Hs as [u v p Hp|u v].
      - apply wrap_in in Hp as [->|Hp].
        + exfalso. apply Hc. apply in_or_app. right. now left.
        + split; [|apply derives_step; now constructor]. rewrite !in_app_iff in *. simpl in Hc.
          intros [Hx|[Hx|Hx]]; auto. apply top_occ. exists p. auto.
      - split; [|apply derives_step; constructor]. rewrite in_app_iff in *. simpl in Hc. tauto. }
    destruct Hy as [Hy1 Hy2]. destruct (IH Hy1) as [H1 H2]. split; auto. eapply derives_trans; eauto.
  Qed.

  Lemma clean_output p : In p ps -> ~ In top (p_output p) /\ ~ In eof (p_output p).
  Proof. intros Hp. split; intros Hx; [apply top_occ|apply eof_occ]; exists p; auto. Qed.

  Lemma top_derives t : derives eps qs [top] t -> t = [top] \/ exists v, t = v ++ [eof] /\ derives eps ps [init] v.
  Proof.
    intros Hd. inversion Hd as [|y z Hs Hr]; subst; auto. right.
    apply derive1_single in Hs as [(p & Hp & Hi & ->)|[Hx _]]; [|exfalso; now apply top_eps].
    apply wrap_in in Hp as [->|Hp]; [|exfalso; apply top_nt; exists p; auto].
    cbn [p_output] in Hr. destruct init_other as [Hi1 Hi2]. apply down in Hr as [_ Hr].
    - apply (@derives_app_inv T eps ps [init] [eof]) in Hr as (v & w & -> & Hv & Hw).
      apply derives_fixed in Hw; [subst w; eauto|apply Heof|apply Heof].
    - intros [Hx|[Hx|[]]]; auto.
  Qed.

  Lemma derives_top v : derives eps ps [init] v -> derives eps qs [top] (v ++ [eof]).
  Proof.
    intros Hv. eapply derives_trans.
    - apply (derives_production eps qs (Production top [init; eof])). now left.
    - cbn [p_output]. apply (@derives_app T eps qs [init] v [eof] [eof]); [now apply up|apply derives_refl].
  Qed.

  Lemma wrap_nullable p : In p ps -> (nullable eps qs (p_output p) <-> nullable eps ps (p_output p)).
  Proof. intros Hp. split; [|apply up]. intros H. apply down in H as [_ H]; auto. now apply clean_output. Qed.

  Lemma wrap_start p a : In p ps -> (can_start eps qs (p_output p) a <-> can_start eps ps (p_output p) a).
  Proof.
    intros Hp. destruct (clean_output p Hp) as [Hc1 _]. split; intros (He & Hn & v & Hd); (split; [auto|]).
    - split; [rewrite wrap_nt in Hn; auto|]. exists v. now apply down.
    - split; [|exists v; now apply up]. rewrite wrap_nt. intros [->|Hx]; auto.
      apply up in Hd. apply down in Hd as [Hd _]; auto. apply Hd. now left.
  Qed.

  Lemma no_eof t : derives eps ps [init] t -> ~ In eof t.
  Proof.
    intros Hd Hx. destruct (derives_in eof Hd Hx) as [[Hy|[]]|Hy]; [exact (proj2 init_other Hy)|now apply eof_occ].
  Qed.

  Lemma no_top t : derives eps ps [init] t -> ~ In top t.
  Proof.
    intros Hd Hx. destruct (derives_in top Hd Hx) as [[Hy|[]]|Hy]; [exact (proj1 init_other Hy)|now apply top_occ].
  Qed.

  Lemma wrap_follow A a : A <> top ->
    (can_follow eps qs top A a <-> can_follow eps ps init A a \/ (a = eof /\ can_end eps ps init A)).
  Proof.
    intros HA. split.
    - intros (He & Hn & u & v & Hd). apply top_derives in Hd as [Hd|(w & Hw & Hd)].
      { destruct u as [|? [|? u]]; discriminate. }
      destruct v as [|z v] using rev_ind; [|clear IHv].
      + right. replace (u ++ [A; a]) with ((u ++ [A]) ++ [a]) in Hw by (now rewrite <- app_assoc).
        apply app_inj_tail in Hw as [<- ->]. split; auto. exists u. auto.
      + left. replace (u ++ A :: a :: v ++ [z]) with ((u ++ A :: a :: v) ++ [z]) in Hw by (now rewrite <- app_assoc).
        apply app_inj_tail in Hw as [<- _]. split; auto. split; [rewrite wrap_nt in Hn; auto|]. exists u, v. auto.
    - intros [(He & Hn & u & v & Hd)|(-> & u & Hd)].
      + split; auto. split.
        * rewrite wrap_nt. intros [->|Hx]; auto. apply (no_top Hd). apply in_or_app. right. right. now left.
        * exists u, (v ++ [eof]). apply derives_top in Hd. now rewrite <- app_assoc in Hd.
      + split; [apply Heof|]. split; [exact wrap_eof|]. exists u, []. apply derives_top in Hd.
        now rewrite <- app_assoc in Hd.
  Qed.

  Lemma nt_other A : non_terminal ps A -> A <> top.
  Proof. intros H ->. now apply top_nt. Qed.

  Lemma wrap_cell A a p : In p ps ->
    (textbook_cell eps qs top A a p <->
     textbook_cell eps ps init A a p \/ (a = eof /\ textbook_cell_at_end eps ps init A p)).
  Proof.
    intros Hp. unfold textbook_cell, textbook_cell_at_end.
    assert (Hq : In p qs) by now right.
    rewrite (wrap_start p a Hp), (wrap_nullable p Hp).
    split.
    - intros (_ & Hi & Hc). assert (HA : A <> top) by (apply nt_other; exists p; auto).
      rewrite (@wrap_follow A a HA) in Hc. intuition.
    - intros [(_ & Hi & Hc)|(Ha & _ & Hi & Hc)];
        assert (HA : A <> top) by (apply nt_other; exists p; auto);
        rewrite (@wrap_follow A a HA); intuition.
  Qed.

  Lemma no_cell_eof A p : ~ textbook_cell eps ps init A eof p.
  Proof.
    intros (Hp & _ & [(_ & _ & v & Hd)|(_ & _ & _ & u & v & Hd)]).
    - destruct (derives_in eof Hd) as [Hx|Hx]; [now left| |].
      + now apply (clean_output p Hp).
      + now apply eof_occ.
    - apply (no_eof Hd). apply in_or_app. right. right. now left.
  Qed.

  Lemma wrap_ll1 : ll1 eps qs top <-> ll1_to_end eps ps init.
  Proof.
    split.
    - intros Hll. split.
      + intros A a p q Hp Hq. apply (Hll A a); apply wrap_cell; try apply Hp; try apply Hq; auto.
      + intros A p q Hp Hq. apply (Hll A eof); apply wrap_cell; try apply Hp; try apply Hq; auto.
    - intros [Hll Hend] A a p q Hp Hq.
      assert (Hin : forall r, textbook_cell eps qs top A a r -> In r ps \/ (r = Production top [init; eof] /\ A = top)).
      { intros r (Hr & Hi & _). apply wrap_in in Hr as [->|Hr]; auto. }
      assert (Hout : In p ps -> In q ps -> p = q).
      { intros Hp' Hq'. apply wrap_cell in Hp as [Hp|[Ha Hp]], Hq as [Hq|[Ha' Hq]]; auto.
        - apply (Hll A a); auto.
        - subst a. now apply no_cell_eof in Hp.
        - subst a. now apply no_cell_eof in Hq.
        - apply (Hend A); auto. }
      destruct (Hin p Hp) as [Hp'|[-> HA]], (Hin q Hq) as [Hq'|[-> HA']]; auto.
      + exfalso. destruct Hp as (_ & Hi & _). apply top_nt. exists p. split; auto. congruence.
      + exfalso. destruct Hq as (_ & Hi & _). apply top_nt. exists q. split; auto. congruence.
  Qed.

  Lemma wrap_reduced : reduced eps ps init -> reduced eps qs top.
  Proof.
    intros Hred A HA. apply wrap_nt in HA.
    assert (Hreal : forall a, a <> top -> a <> eps /\ ~ non_terminal ps a -> a <> eps /\ ~ non_terminal qs a).
    { intros a Ha [H1 H2]. split; auto. rewrite wrap_nt. tauto. }
    assert (Hprod : forall X, non_terminal ps X -> productive eps qs X).
    { intros X HX. destruct (Hred X HX) as [_ (w & Hd & Hf)]. exists w. split; [now apply up|].
      apply up in Hd. apply down in Hd as [Hd _]; [|intros [->|[]]; now apply top_nt].
      rewrite Forall_forall in *. intros a Ha. apply Hreal; auto. intros ->. auto. }
    destruct HA as [->|HA].
    - split; [exists [], []; apply derives_refl|].
      destruct (Hprod init Hinit) as (w & Hd & Hf). exists (w ++ [eof]). split.
      + eapply derives_trans; [apply (derives_production eps qs (Production top [init; eof])); now left|].
        cbn [p_output]. apply (@derives_app T eps qs [init] w [eof] [eof]); [auto|apply derives_refl].
      + apply Forall_app. split; auto. constructor; [|constructor]. split; [apply Heof|exact wrap_eof].
    - split; auto. destruct (Hred A HA) as [(u & v & Hd) _]. exists u, (v ++ [eof]).
      apply derives_top in Hd. now rewrite <- app_assoc in Hd.
  Qed.

  Lemma wrap_discipline : eof_discipline eps qs top eof.
  Proof.
    split; [apply Heof|]. split; [exact wrap_eof|]. destruct init_other as [Hi1 Hi2].
    split; [|split]; intros p Hp; apply wrap_in in Hp as [->|Hp]; cbn [p_output p_input].
    - intros [Hx|[Hx|[]]]; auto.
    - now apply clean_output.
    - intros _. exists [init]. split; auto. intros [Hx|[]]; auto.
    - intros Hi. exfalso. apply top_nt. exists p. auto.
    - congruence.
    - intros _. now apply clean_output.
  Qed.

  Lemma wrap_ok : productions_ok eps ps -> productions_ok eps qs.
  Proof.
    intros Hok p Hp. apply wrap_in in Hp as [->|Hp]; auto. split; [apply Htop|]. split; [discriminate|].
    cbn [p_output]. intros [Hx|[Hx|[]]].
    - exfalso. destruct Hinit as (q & Hq & Hi). destruct (Hok q Hq) as (H1 & _). congruence.
    - exfalso. now apply eof_eps.
  Qed.

  Lemma wrap_trees_same {L : Type} :
    (forall X n w, tree_for (L := L) eps qs X n w -> X <> top -> tree_for eps ps X n w) /\
    (forall Xs ns w, forest_for (L := L) eps qs Xs ns w -> ~ In top Xs -> forest_for eps ps Xs ns w).
  Proof.
    apply tree_forest_ind.
    - intros tok He Hn Ht. constructor; auto. rewrite wrap_nt in Hn. auto.
    - intros _. constructor.
    - intros p cs v Hp _ IH Hx. apply wrap_in in Hp as [->|Hp]; [now contradict Hx|].
      constructor; auto. apply IH. now apply clean_output.
    - constructor.
    - intros X Xs x xs v vs _ IH1 _ IH2 Hx. constructor; [apply IH1|apply IH2]; intros Hy; apply Hx; [now left|now right].
  Qed.

  Lemma wrap_trees_up {L : Type} :
    (forall X n w, tree_for (L := L) eps ps X n w -> X <> top -> tree_for eps qs X n w) /\
    (forall Xs ns w, forest_for (L := L) eps ps Xs ns w -> ~ In top Xs -> forest_for eps qs Xs ns w).
  Proof.
    apply tree_forest_ind.
    - intros tok He Hn Ht. constructor; auto. rewrite wrap_nt. tauto.
    - intros _. constructor.
    - intros p cs v Hp _ IH Hx. constructor; [now right|]. apply IH. now apply clean_output.
    - constructor.
    - intros X Xs x xs v vs _ IH1 _ IH2 Hx. constructor; [apply IH1|apply IH2]; intros Hy; apply Hx; [now left|now right].
  Qed.

  Lemma wrap_trees {L : Type} (n : node L T) w t : tok_type t = eof ->
    (tree_for eps qs top n (w ++ [t]) <-> exists root, n = wrapped_tree top root t /\ tree_for eps ps init root w).
  Proof.
    intros Ht. destruct init_other as [Hi1 Hi2].
    pose proof (proj1 (wrap_trees_same (L := L))) as Hsame. pose proof eof_eps as Hee. pose proof wrap_eof as Hen.
    pose proof top_nt as Htn. pose proof top_eps as Hte. split.
    - intros Htr. remember (w ++ [t]) as z eqn:Ez. inversion Htr as [tok He Hn Hx Hy Hz|He|p cs w' Hp Hf Hi Hx].
      + exfalso. apply Hn. rewrite Hx. apply wrap_nt. auto.
      + exfalso. auto.
      + subst w'. apply wrap_in in Hp as [->|Hp]; [|exfalso; apply Htn; exists p; auto].
        cbn [p_output p_input] in *. inversion Hf as [|X Xs n1 ns1 w1 w2 Hn1 Hf1]; subst.
        inversion Hf1 as [|X Xs n2 ns2 w3 w4 Hn2 Hf2]; subst. inversion Hf2; subst.
        inversion Hn2 as [tok He' Hn' Hx' Hy' Hz'|He'|p' cs' w'' Hp' Hf' Hi' Hx']; subst.
        * match goal with He : w1 ++ [tok] ++ [] = _ |- _ => rewrite app_nil_r in He; apply app_inj_tail in He as [-> ->] end. exists n1. split; [reflexivity|].
          auto.
        * exfalso. auto.
        * exfalso. apply Hen. rewrite <- Hi'. exists p'. auto.
    - intros (root & -> & Htr). unfold wrapped_tree.
      apply (@tree_production L T eps qs (Production top [init; eof])); [now left|]. cbn [p_output].
      constructor; [apply (proj1 wrap_trees_up); auto|]. rewrite <- (app_nil_r [t]). constructor; [|constructor].
      rewrite <- Ht. constructor; rewrite Ht; [apply Heof|exact wrap_eof].
  Qed.
End Wrap.

(** ** computing the useful productions *)
Section Saturate.
  Context {A : Type} (l : list A) (P : nat -> A -> bool).
  Hypothesis Hmono : forall k x, In x l -> P k x = true -> P (S k) x = true.
  Hypothesis Hnext : forall k, (forall x, In x l -> P k x = P (S k) x) -> forall x, In x l -> P (S k) x = P (S (S k)) x.

  Lemma filter_grows (f g : A -> bool) m : (forall x, In x m -> f x = true -> g x = true) ->
    length (filter f m) <= length (filter g m) /\
    (length (filter f m) = length (filter g m) -> forall x, In x m -> f x = g x).
  Proof.
    induction m as [|x m IH]; intros H; simpl; [split; [lia|intros _ x []]|].
    destruct IH as [IH1 IH2]; [intros y Hy; apply H; now right|].
    pose proof (H x (or_introl eq_refl)) as Hx.
    destruct (f x) eqn:Hf, (g x) eqn:Hg; simpl; try (specialize (Hx eq_refl); discriminate).
    - split; [lia|]. intros Hl y [<-|Hy]; [congruence|]. apply IH2; auto.
    - split; [lia|]. intros Hl. exfalso. lia.
    - split; [lia|]. intros Hl y [<-|Hy]; [congruence|]. apply IH2; auto.
  Qed.

  Lemma saturated_or k : (forall x, In x l -> P k x = P (S k) x) \/ k < length (filter (P (S k)) l).
  Proof.
    induction k as [|k IH].
    - destruct (@filter_grows (P 0) (P 1) l (@Hmono 0)) as [H1 H2].
      destruct (Nat.eq_dec (length (filter (P 0) l)) (length (filter (P 1) l))) as [Heq|Hne]; [left; auto|right; lia].
    - destruct IH as [IH|IH]; [left; now apply Hnext|].
      destruct (@filter_grows (P (S k)) (P (S (S k))) l (@Hmono (S k))) as [H1 H2].
      destruct (Nat.eq_dec (length (filter (P (S k)) l)) (length (filter (P (S (S k))) l))) as [Heq|Hne];
        [left; auto|right; lia].
  Qed.

  Lemma saturated : forall x, In x l -> P (length l) x = P (S (length l)) x.
  Proof.
    destruct (saturated_or (length l)) as [H|H]; auto.
    exfalso. pose proof (filter_length_le (P (S (length l))) l). lia.
  Qed.
End Saturate.

Section Trimmed.
  Context {T : Type} {E : EqDec T} (eps init : T) (ps : list (production T)).
  Hypothesis Heps : ~ non_terminal ps eps.

  Lemma member_spec (x : T) l : member x l = true <-> In x l.
  Proof.
    unfold member. rewrite existsb_exists. split.
    - intros (y & Hy & Heq). apply eqb_iff in Heq. now subst.
    - intros H. exists x. split; auto. apply eqb_self.
  Qed.

  Lemma member_nt x : member x (map (@p_input T) ps) = true <-> non_terminal ps x.
  Proof.
    rewrite member_spec, in_map_iff. split; intros (p & H1 & H2); exists p; auto.
  Qed.

  Let real (a : T) : Prop := a <> eps /\ ~ non_terminal ps a.
  Let ends (s : list T) : Prop := exists w, derives eps ps s w /\ Forall real w.

  Lemma ends_concat u v : ends (u ++ v) <-> ends u /\ ends v.
  Proof.
    split.
    - intros (w & Hd & Hw). apply derives_app_inv in Hd as (w1 & w2 & -> & H1 & H2).
      apply Forall_app in Hw as [Hw1 Hw2]. split; [exists w1|exists w2]; auto.
    - intros [(w1 & H1 & Hw1) (w2 & H2 & Hw2)]. exists (w1 ++ w2). split; [now apply derives_app|].
      apply Forall_app. auto.
  Qed.

  Lemma ends_all s : (forall x, In x s -> ends [x]) -> ends s.
  Proof.
    induction s as [|x s IH]; intros H; [exists []; split; [apply derives_refl|constructor]|].
    apply (ends_concat [x] s). split; [apply H; now left|]. apply IH. intros y Hy. apply H. now right.
  Qed.

  Lemma ends_other x : ~ non_terminal ps x -> ends [x].
  Proof.
    intros Hn. destruct (eq_dec x eps) as [->|Hne].
    - exists []. split; [apply derives_eps|constructor].
    - exists [x]. split; [apply derives_refl|]. constructor; [split; auto|constructor].
  Qed.

  Definition fine (k : nat) (x : T) : Prop := non_terminal ps x -> In x (productive_after ps k).

  Lemma good_spec k p : good_production ps k p = true <-> forall x, In x (p_output p) -> fine k x.
  Proof.
    unfold good_production. rewrite forallb_forall. split; intros H x Hx.
    - intros Hn. specialize (H x Hx). apply member_nt in Hn. rewrite Hn in H. now apply member_spec.
    - destruct (member x (map (@p_input T) ps)) eqn:Hm; auto. simpl. apply member_spec. apply H; auto.
      now apply member_nt.
  Qed.

  Lemma after_spec k x : In x (productive_after ps (S k)) <->
    exists p, In p ps /\ p_input p = x /\ good_production ps k p = true.
  Proof.
    cbn [productive_after]. rewrite in_map_iff. split.
    - intros (p & Hi & Hp). apply filter_In in Hp as [Hp Hg]. exists p. auto.
    - intros (p & Hp & Hi & Hg). exists p. split; auto. apply filter_In. auto.
  Qed.

  Lemma fine_ends k x : fine k x -> ends [x].
  Proof.
    revert x. induction k as [|k IH]; intros x Hx;
      destruct (in_dec eq_dec x (map (@p_input T) ps)) as [Hin|Hin];
      try (apply ends_other; intros Hn; apply Hin; apply member_spec; now apply member_nt).
    - exfalso. apply member_spec, member_nt in Hin. exact (Hx Hin).
    - apply member_spec, member_nt in Hin. apply Hx in Hin. apply after_spec in Hin as (p & Hp & Hi & Hg).
      destruct (@ends_all (p_output p)) as (w & Hw & Hf).
      + intros y Hy. apply IH. apply (proj1 (good_spec k p) Hg y Hy).
      + exists w. split; auto. subst x. eapply derives_trans; [now apply derives_production|exact Hw].
  Qed.

  Lemma good_mono k p : In p ps -> good_production ps k p = true -> good_production ps (S k) p = true.
  Proof.
    revert p. induction k as [|k IH]; intros p Hp Hg; apply good_spec; intros x Hx Hn;
      pose proof (proj1 (good_spec _ p) Hg x Hx Hn) as Hin.
    - destruct Hin.
    - apply after_spec in Hin as (q & Hq & Hi & Hgq). apply after_spec. exists q. auto.
  Qed.

  Lemma good_next k : (forall p, In p ps -> good_production ps k p = good_production ps (S k) p) ->
    forall p, In p ps -> good_production ps (S k) p = good_production ps (S (S k)) p.
  Proof.
    intros H p Hp. apply eq_iff_eq_true. split; [now apply good_mono|].
    rewrite !good_spec. intros Hf x Hx Hn. specialize (Hf x Hx Hn).
    apply after_spec in Hf as (q & Hq & Hi & Hgq). apply after_spec. exists q. split; auto. split; auto.
    now rewrite H.
  Qed.

  Let n := length ps.

  Lemma good_stable p : In p ps -> good_production ps n p = good_production ps (S n) p.
  Proof. apply (saturated ps (good_production ps) good_mono good_next). Qed.

  (** whatever derives a token string consists of fine symbols *)
  Lemma ends_fine s : ends s -> forall x, In x s -> fine (S n) x.
  Proof.
    intros (w & Hd & Hw). induction Hd as [w|s y w Hs Hd IH].
    - intros x Hx Hn. rewrite Forall_forall in Hw. destruct (Hw x Hx) as [_ Hx']. contradiction.
    - specialize (IH Hw). intros x Hx. destruct Hs as [u v p Hp|u v].
      + apply in_app_or in Hx as [Hx|[<-|Hx]].
        * apply IH. apply in_or_app. now left.
        * intros _. apply after_spec. exists p. split; auto. split; auto. rewrite (good_stable p Hp).
          apply good_spec. intros z Hz. apply IH. apply in_or_app. right. apply in_or_app. now left.
        * apply IH. apply in_or_app. right. apply in_or_app. now right.
      + apply in_app_or in Hx as [Hx|[<-|Hx]].
        * apply IH. apply in_or_app. now left.
        * intros Hn. contradiction.
        * apply IH. apply in_or_app. now right.
  Qed.

  Lemma good_ends p : In p ps -> (good_production ps n p = true <-> ends (p_output p)).
  Proof.
    intros Hp. split.
    - intros Hg. apply ends_all. intros x Hx. apply (@fine_ends n). exact (proj1 (good_spec n p) Hg x Hx).
    - intros He. rewrite (good_stable p Hp). apply good_spec. intros x Hx. now apply (ends_fine He).
  Qed.

  Definition taken (k : nat) (p : production T) : bool :=
    member (p_input p) (reached_after init ps k) && good_production ps n p.

  Lemma reached_next k x : In x (reached_after init ps (S k)) <->
    In x (reached_after init ps k) \/ exists p, In p ps /\ taken k p = true /\ In x (p_output p).
  Proof.
    cbn [reached_after]. rewrite in_app_iff, in_concat. split; (intros [H|H]; [auto|right]).
    - destruct H as (out & Ho & Hx). apply in_map_iff in Ho as (p & <- & Hp).
      apply filter_In in Hp as [Hp Ht]. exists p. auto.
    - destruct H as (p & Hp & Ht & Hx). exists (p_output p). split; auto. apply in_map_iff. exists p. split; auto.
      apply filter_In. auto.
  Qed.

  Lemma taken_spec k p : taken k p = true <-> In (p_input p) (reached_after init ps k) /\ good_production ps n p = true.
  Proof. unfold taken. now rewrite andb_true_iff, member_spec. Qed.

  Lemma taken_mono k p : In p ps -> taken k p = true -> taken (S k) p = true.
  Proof. intros _. rewrite !taken_spec. intros [H1 H2]. split; auto. apply reached_next. auto. Qed.

  Lemma taken_next k : (forall p, In p ps -> taken k p = taken (S k) p) ->
    forall p, In p ps -> taken (S k) p = taken (S (S k)) p.
  Proof.
    intros H p Hp. apply eq_iff_eq_true. split; [now apply taken_mono|]. rewrite !taken_spec. intros [Hr Hg].
    split; auto. apply reached_next in Hr as [Hr|(q & Hq & Ht & Hx)]; auto.
    apply reached_next. right. exists q. split; auto. split; auto. now rewrite H.
  Qed.

  Lemma taken_stable p : In p ps -> taken n p = taken (S n) p.
  Proof. apply (saturated ps taken taken_mono taken_next). Qed.

  Lemma reached_sound k x : In x (reached_after init ps k) ->
    exists u v, derives eps ps [init] (u ++ x :: v) /\ ends u /\ ends v.
  Proof.
    assert (Hnil : ends []) by (exists []; split; [apply derives_refl|constructor]).
    revert x. induction k as [|k IH]; intros x Hx.
    - destruct Hx as [<-|[]]. exists [], []. split; [apply derives_refl|auto].
    - apply reached_next in Hx as [Hx|(p & Hp & Ht & Hx)]; auto.
      apply taken_spec in Ht as [Hr Hg]. destruct (IH _ Hr) as (u & v & Hd & Hu & Hv).
      apply (good_ends p Hp) in Hg. apply in_split in Hx as (l & r & Ho). rewrite Ho in Hg.
      apply (ends_concat l (x :: r)) in Hg as [Hl Hg]. apply (ends_concat [x] r) in Hg as [_ Hr'].
      exists (u ++ l), (r ++ v). split; [|split; apply ends_concat; auto].
      eapply derives_trans; [exact Hd|]. eapply derives_trans; [apply derives_step; apply (derive1_production eps ps u v p Hp)|].
      rewrite Ho, <- !app_assoc. apply derives_refl.
  Qed.

  Lemma reached_complete s t : derives eps ps s t -> ends t ->
    (forall x, In x s -> In x (reached_after init ps (S n))) -> forall x, In x t -> In x (reached_after init ps (S n)).
  Proof.
    induction 1 as [|s y t Hs Hd IH]; auto. intros He Hall. apply IH; auto. clear IH.
    assert (Hy : ends y) by (destruct He as (w & Hw & Hf); exists w; split; auto; eapply derives_trans; eauto).
    destruct Hs as [u v p Hp|u v]; intros x Hx.
    - apply in_app_or in Hx as [Hx|Hx]; [apply Hall; apply in_or_app; now left|].
      apply in_app_or in Hx as [Hx|Hx]; [|apply Hall; apply in_or_app; right; now right].
      apply ends_concat in Hy as [_ Hy]. apply ends_concat in Hy as [Hy _].
      apply reached_next. right. exists p. split; auto. split; auto. rewrite (taken_stable p Hp).
      apply taken_spec. split; [|now apply good_ends]. apply Hall. apply in_or_app. right. now left.
    - apply Hall. apply in_app_or in Hx as [Hx|Hx]; apply in_or_app; [now left|right; now right].
  Qed.

  Lemma trimmed_useful : useful_part_of eps init (trimmed init ps) ps.
  Proof.
    split.
    - unfold trimmed. generalize (length ps). intros k. generalize (good_production ps k). intros f.
      generalize (reached_after init ps k). intros r. clear.
      induction ps as [|p qs IH]; simpl; [constructor|]. destruct (member (p_input p) r && f p); now constructor.
    - intros p Hp. unfold trimmed. rewrite filter_In. fold n. change (_ && _) with (taken n p). split.
      + intros [_ Ht]. apply taken_spec in Ht as [Hr Hg]. destruct (reached_sound _ _ Hr) as (u & v & Hd & Hu & Hv).
        apply (good_ends p Hp) in Hg.
        assert (Hall : ends (u ++ p_output p ++ v)) by (apply ends_concat; split; auto; apply ends_concat; auto).
        destruct Hall as (w & Hw & Hf). exists u, v, w. auto.
      + intros (u & v & w & Hd & Hw & Hf). split; auto. rewrite (taken_stable p Hp). apply taken_spec.
        assert (Hall : ends (u ++ p_output p ++ v)) by (exists w; auto). split.
        * apply (reached_complete Hd).
          -- exists w. split; auto. eapply derives_trans; [apply derives_step; now constructor|exact Hw].
          -- intros x [<-|[]]. assert (H0 : forall k, In init (reached_after init ps k)).
             { intros k. induction k; [now left|]. apply reached_next. auto. }
             apply H0.
          -- apply in_or_app. right. now left.
        * apply ends_concat in Hall as [_ Hall]. apply ends_concat in Hall as [Hall _]. now apply good_ends.
  Qed.
End Trimmed.

(** the useful productions can be computed *)
Theorem C100_useful_productions_computed :
  forall (T : Type) (E : EqDec T) (eps init : T) (ps : list (production T)),
    productions_ok eps ps -> useful_part_of eps init (trimmed init ps) ps.
Proof.
  intros T E eps init ps Hok. apply trimmed_useful. intros (p & Hp & Hi). destruct (Hok p Hp) as (Hx & _). auto.
Qed.
Print Assumptions C100_useful_productions_computed.

(** ** The new grammar is LL(1) exactly if the old one was, up to the end of the input *)
Theorem C100_end_marker_added :
  forall (L T : Type) (E : EqDec T) (eps init top eof : T) (ps : list (production T)),
    unused eps ps top -> unused eps ps eof -> top <> eof -> non_terminal ps init ->
    (ll1 eps (wrapped top eof init ps) top <-> ll1_to_end eps ps init) /\
    (reduced eps ps init -> reduced eps (wrapped top eof init ps) top) /\
    eof_discipline eps (wrapped top eof init ps) top eof /\
    (forall (n : node L T) w t, tok_type t = eof ->
       (tree_for eps (wrapped top eof init ps) top n (w ++ [t]) <->
        exists root, n = wrapped_tree top root t /\ tree_for eps ps init root w)).
Proof.
  intros L T E eps init top eof ps H1 H2 H3 H4. split; [|split; [|split]].
  - now apply wrap_ll1.
  - now apply wrap_reduced.
  - now apply wrap_discipline.
  - intros n w t Ht. now apply wrap_trees.
Qed.
Print Assumptions C100_end_marker_added.

(** ** Every LL(1) grammar, after four mechanical rewritings, is decided exactly *)
Theorem C100_every_ll1_grammar :
  forall (L T : Type) (E : EqDec T) (eps init top eof : T) (ps core : list (production T)) (alias : T -> T),
    productions_ok eps ps -> ll1_to_end eps ps init -> non_terminal ps init ->
    (exists w, sentence eps init ps w) ->
    useful_part_of eps init core ps ->
    unused eps ps top -> unused eps ps eof -> top <> eof ->
    let grammar := wrapped top eof init core in
    fresh_aliases alias eps grammar ->
    forall ho, exists g, cfg_new ho eps top grammar = Done g /\
    forall ho', (exists fuel ffs, ffs_from ho' fuel g = Done ffs) /\
    forall fuel ffs, ffs_from ho' fuel g = Done ffs ->
    (exists self, built_parser (L := L) eps top (prepared alias eps ffs grammar) None self) /\
    forall (self : parser L T), built_parser eps top (prepared alias eps ffs grammar) None self ->
    forall (input : list (token L T)) (end_token : token L T),
      tok_type end_token = eof -> Forall (fun x => tok_type x <> eof) input ->
      exists res,
        terminates_with (fun fuel => parse_from_tokens fuel self (input ++ [end_token])) (Done (res, [])) /\
        (forall root, (exists root', res = ResultOk root' /\
                                     merge_aliases alias grammar root' = wrapped_tree top root end_token) <->
                      tree_for eps ps init root input) /\
        ((exists f, res = ResultErr f) <-> forall root, ~ tree_for eps ps init root input).
Proof.
  intros L T E eps init top eof ps core alias Hok Hll Hinit (s & Hs & Hsf) Hcore Htop Heof Hne grammar Hfr ho.
  assert (Heps : ~ non_terminal ps eps).
  { intros (p & Hp & Hi). destruct (Hok p Hp) as (Hx & _). auto. }
  assert (Hci : non_terminal core init) by (eapply core_init; eauto).
  assert (Htop' := core_unused Hcore Htop). assert (Heof' := core_unused Hcore Heof).
  assert (Hcok : productions_ok eps core) by (eapply core_ok; eauto).
  assert (Hgok : productions_ok eps grammar) by (apply wrap_ok; auto).
  destruct (cfg_new_ok ho top Hgok) as [g Hg]. exists g. split; auto. intros ho'. split.
  { destruct (@ffs_from_total T E eps top grammar g (cfg_new_grammar_of _ _ _ _ Hg) ho' _ (le_n _)) as (ffs & Hf & _). eauto. }
  intros fuel ffs Hf.
  destruct (@C100_end_marker_added L T E eps init top eof core Htop' Heof' Hne Hci) as (H1 & H2 & H3 & H4). fold grammar in H1, H2, H3, H4.
  assert (Hgn : non_terminal grammar top) by (exists (Production top [init; eof]); split; [now left|auto]).
  destruct (@C89_any_ll1_grammar L T E ho ho' fuel eps top eof grammar g ffs alias Hg Hf) as [Hex Hall]; auto.
  { apply H1. eapply core_ll1; eauto. }
  { apply H2. eapply core_reduced; eauto. }
  split; auto. intros self B input t Ht Hb.
  destruct (Hall self B input t Ht Hb) as (res & Hr & Hiff & Herr). exists res. split; auto.
  assert (Htree : forall root, tree_for eps grammar top (wrapped_tree top root t) (input ++ [t]) <-> tree_for eps ps init root input).
  { intros root. rewrite (H4 _ input t Ht), <- (core_trees Hcore Heps root input Hci). split.
    - intros (r & Heq & Hx). inversion Heq; subst; auto.
    - intros Hx. exists root. auto. }
  split.
  - intros root. now rewrite (Hiff (wrapped_tree top root t)).
  - rewrite Herr. split.
    + intros Hno root Hx. apply (Hno (wrapped_tree top root t)). now apply Htree.
    + intros Hno n Hx. pose proof Hx as Hx'. apply (H4 _ input t Ht) in Hx' as (root & -> & _).
      apply (Hno root). now apply Htree.
Qed.
Print Assumptions C100_every_ll1_grammar.

(** ** The same with any solver: it is not asked about sentences *)
Lemma prepared_any_solver :
  forall (L T : Type) (E : EqDec T) (ho ho' : hash_order T) (fuel : nat) (eps init eof : T)
         (ps : list (production T)) (g : grammar T) (ffs : first_follow_symbols T) (alias : T -> T)
         (solver : option (syntax_error_solver L T)) (self : parser L T),
    cfg_new ho eps init ps = Done g -> ffs_from ho' fuel g = Done ffs ->
    ll1 eps ps init -> reduced eps ps init -> eof_discipline eps ps init eof -> non_terminal ps init ->
    fresh_aliases alias eps ps ->
    built_parser eps init (prepared alias eps ffs ps) solver self ->
    forall (before : list (token L T)) (t : token L T),
      tok_type t = eof -> Forall (fun x => tok_type x <> eof) before ->
      (forall root, tree_for eps ps init root (before ++ [t]) ->
         exists root', merge_aliases alias ps root' = root /\
           terminates_with (fun fuel => parse_from_tokens fuel self (before ++ [t])) (Done (ResultOk root', []))) /\
      (forall fuel root' h, parse_from_tokens fuel self (before ++ [t]) = Done (ResultOk root', h) ->
         h = [] /\ tree_for eps ps init (merge_aliases alias ps root') (before ++ [t])).
Proof.
  intros L T E ho ho' fuel eps init eof ps g ffs alias solver self Hg Hf Hll Hred He Hinit Hfr B before t Ht Hb.
  set (qs := nullable_moved_last eps ffs ps).
  assert (Hsame : forall p, In p ps <-> In p qs) by (intros p; apply moved_same).
  assert (Hok : productions_ok eps ps) by (eapply go_ok; eapply cfg_new_grammar_of; eauto).
  assert (Hokq : productions_ok eps qs) by (intros p Hp; apply Hok; now apply Hsame).
  assert (Hfrq : fresh_aliases alias eps qs) by (eapply same_fresh; eauto).
  assert (Hinitq : non_terminal qs init) by (apply (@same_nt T ps qs Hsame); auto).
  assert (Hprod : all_productive eps ps init) by (intros X HX _; now apply Hred).
  assert (Heq : eof_discipline eps qs init eof) by (eapply same_eof; eauto).
  assert (Hllq : ll1 eps qs init) by (eapply same_ll1; eauto).
  assert (Hlast : nullable_last eps qs) by (eapply moved_nullable_last; eauto; eapply eof_ends; eauto).
  assert (Hlr : no_left_recursion_from eps qs init).
  { apply ll1_no_left_recursion; auto; [eapply same_productive; eauto|eapply eof_ends; eauto]. }
  destruct (@C88_same_language L T E eps init qs alias Hokq Hfrq Hinitq) as (_ & Hrep & _ & Hmerge & Hlift).
  assert (Hn' : non_terminal (split_repeats alias qs) init) by (eapply split_nt; eauto).
  pose proof (split_eof Hfrq Hinitq Heq) as Heof'.
  destruct (@C99_nullable_last_any_solver L T E eps init (split_repeats alias qs) solver self (before ++ [t]) B
    (split_ll1 Hfrq Hinitq Hllq) (split_nullable_last Hfrq Hlast)
    (@no_repeated_neighbours_harmless T eps (split_repeats alias qs) init Hrep)
    (split_no_left_recursion Hokq Hfrq Hinitq Hlr) (eof_ends Heof') Hn') as [H1 H2].
  split.
  - intros root Htr. apply (@same_trees T eps ps qs Hsame L) in Htr. destruct (Hlift _ _ Htr) as (root' & Htr' & Hm).
    exists root'. split; [rewrite <- Hm; now apply same_merge|]. apply (H1 root' (before ++ [t]) Htr').
    exists []. now rewrite app_nil_r.
  - intros k root' h Hp. destruct (H2 k root' h Hp) as (-> & w & Htr & rest & Hw). split; auto.
    assert (w = before ++ [t]) as ->.
    { assert (Hne : ~ non_terminal (split_repeats alias qs) eps).
      { intros (p & Hp' & Hi). destruct (split_ok Hokq Hfrq p Hp') as (Hx & _). auto. }
      destruct (sentence_ends_in_eof Heof' Hne Hn' Htr) as (b & t' & -> & Ht').
      destruct rest as [|z rest] using rev_ind; [now rewrite app_nil_r in Hw|]. clear IHrest.
      rewrite app_assoc in Hw. apply app_inj_tail in Hw as [Hw _]. exfalso.
      rewrite Hw in Hb. apply Forall_app in Hb as [Hb _]. apply Forall_app in Hb as [_ Hb].
      inversion Hb; subst. contradiction. }
    apply Hmerge in Htr. apply (@same_trees T eps ps qs Hsame L).
    replace (merge_aliases alias ps root') with (merge_aliases alias qs root'); auto.
    symmetry. now apply same_merge.
Qed.

Theorem C100_solver_not_asked :
  forall (L T : Type) (E : EqDec T) (eps init top eof : T) (ps core : list (production T)) (alias : T -> T)
         (ho ho' : hash_order T) (fuel : nat) (g : grammar T) (ffs : first_follow_symbols T)
         (solver : option (syntax_error_solver L T)) (self : parser L T)
         (input : list (token L T)) (end_token : token L T),
    ll1_to_end eps ps init -> (exists w, sentence eps init ps w) ->
    useful_part_of eps init core ps -> productions_ok eps ps -> non_terminal ps init ->
    unused eps ps top -> unused eps ps eof -> top <> eof ->
    let grammar := wrapped top eof init core in
    fresh_aliases alias eps grammar ->
    cfg_new ho eps top grammar = Done g -> ffs_from ho' fuel g = Done ffs ->
    built_parser eps top (prepared alias eps ffs grammar) solver self ->
    tok_type end_token = eof -> Forall (fun x => tok_type x <> eof) input ->
    (forall root, tree_for eps ps init root input ->
       exists root', merge_aliases alias grammar root' = wrapped_tree top root end_token /\
         terminates_with (fun fuel => parse_from_tokens fuel self (input ++ [end_token])) (Done (ResultOk root', []))) /\
    (forall fuel root' h, parse_from_tokens fuel self (input ++ [end_token]) = Done (ResultOk root', h) ->
       h = [] /\ exists root, merge_aliases alias grammar root' = wrapped_tree top root end_token /\
                              tree_for eps ps init root input).
Proof.
  intros L T E eps init top eof ps core alias ho ho' fuel g ffs solver self input t
    Hll (s & Hs & Hsf) Hcore Hok Hinit Htop Heof Hne grammar Hfr Hg Hf B Ht Hb.
  assert (Heps : ~ non_terminal ps eps).
  { intros (p & Hp & Hi). destruct (Hok p Hp) as (Hx & _). auto. }
  assert (Hci : non_terminal core init) by (eapply core_init; eauto).
  assert (Htop' := core_unused Hcore Htop). assert (Heof' := core_unused Hcore Heof).
  destruct (@C100_end_marker_added L T E eps init top eof core Htop' Heof' Hne Hci) as (H1 & H2 & H3 & H4).
  fold grammar in H1, H2, H3, H4.
  assert (Hgn : non_terminal grammar top) by (exists (Production top [init; eof]); split; [now left|auto]).
  destruct (@prepared_any_solver L T E ho ho' fuel eps top eof grammar g ffs alias solver self Hg Hf) with (before := input) (t := t)
    as [Hin Hout]; auto.
  { apply H1. eapply core_ll1; eauto. }
  { apply H2. eapply core_reduced; eauto. }
  split.
  - intros root Hx. apply (Hin (wrapped_tree top root t)). apply (H4 _ input t Ht). exists root. split; auto.
    now apply (core_trees Hcore Heps root input Hci).
  - intros k root' h Hp. destruct (Hout k root' h Hp) as [-> Hx]. split; auto.
    apply (H4 _ input t Ht) in Hx as (root & Hm & Hx). exists root. split; auto.
    now apply (core_trees Hcore Heps root input Hci).
Qed.
Print Assumptions C100_solver_not_asked.

(** ** A case, with everything to repair.  0 epsilon; S = 1 -> Z c | d B b | e P P | U; Z = 2 -> A;
    A = 3 -> B | b; B = 4 -> epsilon; P = 10 -> f Q; Q = 12 -> epsilon | g; U = 14 -> h U;
    R = 16 -> A; b = 5, c = 6, d = 7, e = 9, f = 11, g = 13, h = 15.  S -> U and U -> h U have no
    token string, R is not reached; the sentence e f f ends in an empty non-terminal. *)
Definition raw : list (production nat) :=
  [Production 1 [2; 6]; Production 1 [7; 4; 5]; Production 1 [9; 10; 10]; Production 1 [14]; Production 2 [3];
   Production 3 [4]; Production 3 [5]; Production 4 [0]; Production 10 [11; 12];
   Production 12 [0]; Production 12 [13]; Production 14 [15; 14]; Production 16 [3]].
Definition raw_core : list (production nat) := Eval vm_compute in trimmed 1 raw.
Definition raw_wrapped : list (production nat) := wrapped 40 41 1 raw_core.
Definition raw_grammar : grammar nat := Eval vm_compute in
  get_done no_grammar (cfg_new (insertion_order nat) 0 40 raw_wrapped).
Definition raw_ffs : first_follow_symbols nat := Eval vm_compute in
  get_done (FirstFollowSymbols [] []) (ffs_from (insertion_order nat) 200 raw_grammar).
Definition raw_prepared : list (production nat) := Eval vm_compute in
  prepared rough_alias 0 raw_ffs raw_wrapped.
Definition raw_parser : parser nat nat := Eval vm_compute in
  get_done (no_parser 0) (build (L := nat) 0 40 raw_prepared None 200).

Lemma raw_ok : productions_ok 0 raw.
Proof. apply productions_ok_check. reflexivity. Qed.

Lemma raw_fresh ps : repeated ps = [10] -> non_terminalb ps 30 = false ->
  forallb (fun p => negb (existsb (Nat.eqb 30) (p_output p))) ps = true -> fresh_aliases rough_alias 0 ps.
Proof.
  intros Hr Hn Ho. split.
  - intros A B _ _ H. unfold rough_alias in H. lia.
  - intros A HA. rewrite Hr in HA. destruct HA as [<-|[]].
    split; [discriminate|]. split; [now apply non_terminalb_false|].
    intros (p & Hp & Hin). rewrite forallb_forall in Ho. specialize (Ho p Hp).
    apply negb_true_iff in Ho. assert (Hx : existsb (Nat.eqb 30) (p_output p) = true).
    { apply existsb_exists. exists 30. split; auto. }
    congruence.
Qed.

Lemma raw_unused X ps : X <> 0 -> non_terminalb ps X = false ->
  forallb (fun p => negb (existsb (Nat.eqb X) (p_output p))) ps = true -> unused 0 ps X.
Proof.
  intros H0 Hn Ho. split; auto. split; [now apply non_terminalb_false|].
  intros (p & Hp & Hin). rewrite forallb_forall in Ho. specialize (Ho p Hp).
  apply negb_true_iff in Ho. assert (Hx : existsb (Nat.eqb X) (p_output p) = true).
  { apply existsb_exists. exists X. split; auto. apply Nat.eqb_refl. }
  congruence.
Qed.

Definition raw_split : list (production nat) := split_repeats rough_alias (wrapped 40 41 1 raw).
Definition raw_split_grammar : grammar nat := Eval vm_compute in
  get_done no_grammar (cfg_new (insertion_order nat) 0 40 raw_split).
Definition raw_split_ffs : first_follow_symbols nat := Eval vm_compute in
  get_done (FirstFollowSymbols [] []) (ffs_from (insertion_order nat) 200 raw_split_grammar).
Lemma raw_split_new : cfg_new (insertion_order nat) 0 40 raw_split = Done raw_split_grammar.
Proof. vm_compute. reflexivity. Qed.
Lemma raw_split_ffs_from : ffs_from (insertion_order nat) 200 raw_split_grammar = Done raw_split_ffs.
Proof. vm_compute. reflexivity. Qed.

Lemma raw_ll1 : ll1_to_end 0 raw 1.
Proof.
  apply (@C100_end_marker_added nat nat _ 0 1 40 41 raw); try (apply raw_unused; [discriminate|reflexivity..]);
    [discriminate|apply non_terminalb_spec; reflexivity|].
  assert (Hok : productions_ok 0 (wrapped 40 41 1 raw)) by (apply productions_ok_check; reflexivity).
  assert (Hfr : fresh_aliases rough_alias 0 (wrapped 40 41 1 raw)) by (apply raw_fresh; reflexivity).
  assert (Hn : non_terminal (wrapped 40 41 1 raw) 40) by (apply non_terminalb_spec; reflexivity).
  apply (split_ll1_inv Hok Hfr Hn).
  apply (ll1_check_ok _ _ _ raw_split_new raw_split_ffs_from).
  - apply no_repeated_neighbours_check. reflexivity.
  - apply non_terminalb_spec. reflexivity.
  - vm_compute. reflexivity.
Qed.

Lemma raw_sentence : sentence 0 1 raw [9; 11; 11].
Proof.
  split; [|repeat constructor; try discriminate; apply non_terminalb_false; reflexivity].
  assert (H10 : derives 0 raw [10] [11]).
  { eapply derives_trans; [apply (derives_production 0 raw (Production 10 [11; 12])); simpl; tauto|].
    apply (@derives_app nat 0 raw [11] [11] [12] []); [apply derives_refl|].
    eapply derives_trans; [apply (derives_production 0 raw (Production 12 [0])); simpl; tauto|apply derives_eps]. }
  eapply derives_trans; [apply (derives_production 0 raw (Production 1 [9; 10; 10])); simpl; tauto|].
  apply (@derives_app nat 0 raw [9] [9] [10; 10] [11; 11]); [apply derives_refl|].
  apply (@derives_app nat 0 raw [10] [11] [10] [11]); auto.
Qed.

Example C100_case :
  productions_ok 0 raw /\ ll1_to_end 0 raw 1 /\ non_terminal raw 1 /\ sentence 0 1 raw [9; 11; 11] /\
  useful_part_of 0 1 raw_core raw /\
  raw_core = [Production 1 [2; 6]; Production 1 [7; 4; 5]; Production 1 [9; 10; 10]; Production 2 [3];
              Production 3 [4]; Production 3 [5]; Production 4 [0]; Production 10 [11; 12];
              Production 12 [0]; Production 12 [13]] /\
  unused 0 raw 40 /\ unused 0 raw 41 /\ fresh_aliases rough_alias 0 raw_wrapped /\
  built_parser 0 40 raw_prepared None raw_parser /\
  (exists root', parse_from_tokens 100 raw_parser [Token (Some 1) 9; Token (Some 2) 11; Token (Some 3) 11; Token None 41]
                 = Done (ResultOk root', []) /\
     merge_aliases rough_alias raw_wrapped root' =
     wrapped_tree 40 (Node [Node [] (Token (Some 1) 9);
                            Node [Node [] (Token (Some 2) 11); Node [Node [] (Token None 0)] (Token None 12)] (Token None 10);
                            Node [Node [] (Token (Some 3) 11); Node [Node [] (Token None 0)] (Token None 12)] (Token None 10)]
                       (Token None 1)) (Token None 41)).
Proof.
  splits.
  - exact raw_ok.
  - exact raw_ll1.
  - apply non_terminalb_spec. reflexivity.
  - exact raw_sentence.
  - exact (@C100_useful_productions_computed nat _ 0 1 raw raw_ok).
  - reflexivity.
  - apply raw_unused; [discriminate|reflexivity..].
  - apply raw_unused; [discriminate|reflexivity..].
  - apply raw_fresh; reflexivity.
  - apply build_built with (fuel := 200). vm_compute. reflexivity.
  - eexists. split; vm_compute; reflexivity.
Qed.
