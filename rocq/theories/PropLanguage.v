(** * What is accepted depends only on the language: C82 *)

From Verif Require Import BaseFacts GrammarFacts DerivFacts ParserBuild Examples LL1Check PropParse PropReports PropGuided PropLeftRec PropLast PropCertify PropQuiet.
From Verif Require Import FollowRepeat FollowSpec LanguageSpec.

Set Implicit Arguments.

Section Exact.
  Context {L T : Type} {E : EqDec T}.
  Variables (eps init : T) (ps : list (production T)).
  Variable solver : option (syntax_error_solver L T).
  Variable self : parser L T.
  Hypothesis X : exact_parser eps init ps solver self.

  Lemma exact_tree tokens w root : tree_for eps ps init root w -> prefix w tokens ->
    terminates_with (fun fuel => parse_from_tokens fuel self tokens) (Done (ResultOk root, [])).
  Proof.
    destruct X as (B & Hn & Hend & Hrep & [Hcf|(Hll & Hlast & Hlr)]); intros Ht Hp.
    - exact (C23_conflict_free_exact B Hcf Hrep Hend Hn Ht Hp).
    - exact (proj1 (C99_nullable_last_any_solver tokens B Hll Hlast Hrep Hlr Hend Hn) root w Ht Hp).
  Qed.

  Lemma sentence_tree w : sentence eps init ps (map (@tok_type L T) w) <-> exists root, tree_for eps ps init root w.
  Proof.
    split.
    - intros [Hd Hl]. apply (derives_tree Hd). apply Forall_map in Hl. exact Hl.
    - intros [root Ht]. split; [eapply tree_derives; eauto|].
      apply Forall_map. exact (proj1 (tree_leaves_all eps ps) _ _ _ Ht).
  Qed.

  Lemma accepts_iff tokens :
    accepts self tokens <-> exists w, prefix w tokens /\ sentence eps init ps (map (@tok_type L T) w).
  Proof.
    split.
    - intros (root & h & _ & n & H). specialize (H n (le_n n)).
      destruct X as (B & _).
      destruct (C15_accepted_in_language _ _ (built_constructed B) H) as (w & Hp & Ht & _).
      exists w. split; auto. apply sentence_tree. eauto.
    - intros (w & Hp & Hs). apply sentence_tree in Hs as [root Ht].
      exists root, []. eapply exact_tree; eauto.
  Qed.

  Lemma prefix_sentence_unique tokens w w' :
    prefix w tokens -> prefix w' tokens ->
    sentence eps init ps (map (@tok_type L T) w) -> sentence eps init ps (map (@tok_type L T) w') -> w = w'.
  Proof.
    intros Hp Hp' Hs Hs'. apply sentence_tree in Hs as [root Ht]. apply sentence_tree in Hs' as [root' Ht'].
    pose proof (terminates_unique (exact_tree Ht Hp) (exact_tree Ht' Hp')) as Heq. inversion Heq; subst root'.
    destruct X as (B & _).
    eapply (proj1 (tree_yield_unique (eps_not_nt (po_grammar (bf_of (built_built B)))))); eauto.
  Qed.

  Lemma consumes_iff tokens w :
    consumes eps init ps self tokens w <-> prefix w tokens /\ sentence eps init ps (map (@tok_type L T) w).
  Proof.
    split.
    - intros (root & h & Hr & Ht). destruct X as (B & _). destruct Hr as [_ [n H]]. specialize (H n (le_n n)).
      destruct (C15_accepted_in_language _ _ (built_constructed B) H) as (w' & Hp & Ht' & _).
      assert (w = w') as ->.
      { eapply (proj1 (tree_yield_unique (eps_not_nt (po_grammar (bf_of (built_built B)))))); eauto. }
      split; auto. apply sentence_tree. eauto.
    - intros [Hp Hs]. apply sentence_tree in Hs as [root Ht]. exists root, [].
      split; auto. eapply exact_tree; eauto.
  Qed.
End Exact.

(** ** C82: an input is accepted exactly when it starts with a sentence, and that sentence
    is what is consumed *)
Theorem C82_accepts_sentences :
  forall (L T : Type) (E : EqDec T) (eps init : T) (ps : list (production T))
         (solver : option (syntax_error_solver L T)) (self : parser L T)
         (tokens : list (token L T)),
    exact_parser eps init ps solver self ->
    (accepts self tokens <->
     exists w, prefix w tokens /\ sentence eps init ps (map (@tok_type L T) w)) /\
    (forall w, consumes eps init ps self tokens w <->
               prefix w tokens /\ sentence eps init ps (map (@tok_type L T) w)) /\
    (forall w w', consumes eps init ps self tokens w -> consumes eps init ps self tokens w' -> w = w').
Proof.
  intros L T E eps init ps solver self tokens X. split; [|split].
  - exact (accepts_iff X tokens).
  - intros w. exact (consumes_iff X tokens w).
  - intros w w' H H'. apply (consumes_iff X) in H as [H1 H2]. apply (consumes_iff X) in H' as [H1' H2'].
    exact (prefix_sentence_unique X H1 H1' H2 H2').
Qed.
Print Assumptions C82_accepts_sentences.

(** ** ... so two such parsers accept the same inputs exactly when the grammars describe the
    same language, and then they consume the same tokens of each *)
Theorem C82_language_decides :
  forall (L T : Type) (E : EqDec T) (eps init eps' init' : T) (ps ps' : list (production T))
         (solver solver' : option (syntax_error_solver L T)) (self self' : parser L T),
    exact_parser eps init ps solver self -> exact_parser eps' init' ps' solver' self' ->
    ((forall tokens, accepts self tokens <-> accepts self' tokens) <->
     same_language eps init ps eps' init' ps') /\
    (same_language eps init ps eps' init' ps' ->
     forall tokens w, consumes eps init ps self tokens w <-> consumes eps' init' ps' self' tokens w).
Proof.
  intros L T E eps init eps' init' ps ps' solver solver' self self' X X'. split; [split|].
  - assert (Hone : forall eps init eps' init' ps ps' solver solver' self self',
      exact_parser eps init ps solver self -> exact_parser (L := L) (T := T) eps' init' ps' solver' self' ->
      (forall tokens, accepts self tokens <-> accepts self' tokens) ->
      forall w, sentence eps init ps w -> sentence eps' init' ps' w).
    { clear. intros eps init eps' init' ps ps' solver solver' self self' X X' Hacc w Hw.
      set (tokens := map (fun a => Token (L := L) None a) w).
      assert (Hty : map (@tok_type L T) tokens = w).
      { unfold tokens. rewrite map_map. simpl. apply map_id. }
      assert (Hself : forall l : list (token L T), prefix l l) by (intros l; exists []; now rewrite app_nil_r).
      assert (Hs : sentence eps init ps (map (@tok_type L T) tokens)) by now rewrite Hty.
      assert (H1 : accepts self tokens) by (apply (accepts_iff X); eauto).
      apply Hacc, (accepts_iff X') in H1 as (w' & Hp' & Hs').
      assert (H2 : accepts self' w') by (apply (accepts_iff X'); eauto).
      apply Hacc, (accepts_iff X) in H2 as (w'' & Hp'' & Hs'').
      assert (Hp3 : prefix w'' tokens).
      { destruct Hp' as [r' ->], Hp'' as [r'' ->]. exists (r'' ++ r'). now rewrite app_assoc. }
      pose proof (prefix_sentence_unique X Hp3 (Hself tokens) Hs'' Hs) as ->.
      assert (w' = tokens) as ->.
      { destruct Hp' as [r' Hr'], Hp'' as [r'' Hr'']. rewrite Hr' in Hr''.
        rewrite <- app_assoc in Hr''. rewrite <- (app_nil_r w') in Hr'' at 1.
        apply app_inv_head in Hr''. symmetry in Hr''. apply app_eq_nil in Hr'' as [-> _].
        now rewrite app_nil_r in Hr'. }
      now rewrite Hty in Hs'. }
    intros Hacc w. split.
    + exact (Hone _ _ _ _ _ _ _ _ _ _ X X' Hacc w).
    + refine (Hone _ _ _ _ _ _ _ _ _ _ X' X _ w). intros tokens. symmetry. apply Hacc.
  - intros Hl tokens. rewrite (accepts_iff X), (accepts_iff X').
    split; intros (w & Hp & Hs); exists w; (split; [exact Hp|]); now apply Hl.
  - intros Hl tokens w. rewrite (consumes_iff X), (consumes_iff X'). rewrite (Hl (map (@tok_type L T) w)). tauto.
Qed.
Print Assumptions C82_language_decides.

(** ** With an end marker (and without left recursion) rejections agree too *)
Theorem C82_same_verdict :
  forall (L T : Type) (E : EqDec T) (eps init eof eps' init' : T) (ps ps' : list (production T))
         (self self' : parser L T) (before : list (token L T)) (t : token L T),
    exact_parser eps init ps None self -> exact_parser eps' init' ps' None self' ->
    no_left_recursion_from eps ps init -> no_left_recursion_from eps' ps' init' ->
    eof_discipline eps ps init eof -> eof_discipline eps' ps' init' eof ->
    same_language eps init ps eps' init' ps' ->
    tok_type t = eof -> Forall (fun x => tok_type x <> eof) before ->
    (exists root root',
       terminates_with (fun fuel => parse_from_tokens fuel self (before ++ [t])) (Done (ResultOk root, [])) /\
       terminates_with (fun fuel => parse_from_tokens fuel self' (before ++ [t])) (Done (ResultOk root', [])) /\
       tree_for eps ps init root (before ++ [t]) /\ tree_for eps' ps' init' root' (before ++ [t])) \/
    (exists f f',
       terminates_with (fun fuel => parse_from_tokens fuel self (before ++ [t])) (Done (ResultErr f, [])) /\
       terminates_with (fun fuel => parse_from_tokens fuel self' (before ++ [t])) (Done (ResultErr f', [])) /\
       (forall root, ~ tree_for eps ps init root (before ++ [t])) /\
       forall root, ~ tree_for eps' ps' init' root (before ++ [t])).
Proof.
  assert (Hdec : forall (L T : Type) (E : EqDec T) (eps init eof : T) (ps : list (production T))
         (self : parser L T) (before : list (token L T)) (t : token L T),
    exact_parser eps init ps None self -> no_left_recursion_from eps ps init ->
    eof_discipline eps ps init eof -> tok_type t = eof -> Forall (fun x => tok_type x <> eof) before ->
    (exists root, terminates_with (fun fuel => parse_from_tokens fuel self (before ++ [t])) (Done (ResultOk root, [])) /\
       tree_for eps ps init root (before ++ [t])) \/
    (exists f, terminates_with (fun fuel => parse_from_tokens fuel self (before ++ [t])) (Done (ResultErr f, [])) /\
       forall root, ~ tree_for eps ps init root (before ++ [t]))).
  { intros L T E eps init eof ps self before t X Hlr He Ht Hb.
    assert (Hpr : progressing (None : option (syntax_error_solver L T))) by (intros s h c fr; discriminate).
    assert (Hrp : replying (None : option (syntax_error_solver L T))) by (intros s h c; discriminate).
    pose proof X as (B & Hn & Hend & Hrep & Hcase).
    assert (Hyes : forall root, tree_for eps ps init root (before ++ [t]) ->
      terminates_with (fun fuel => parse_from_tokens fuel self (before ++ [t])) (Done (ResultOk root, []))).
    { intros root Hr. apply (exact_tree X Hr). exists []. now rewrite app_nil_r. }
    destruct Hcase as [Hcf|(Hll & Hlast & _)].
    - destruct (@C40_decision_procedure L T E eps init eof ps None self (before ++ [t]) before t
        B Hcf Hrep Hlr He Hn eq_refl Ht Hb Hrp Hpr) as (res & h & Hr & Hiff & Htree).
      { intros s h c fr Hs. discriminate. }
      pose proof Hr as [_ [n Hr']]. specialize (Hr' n (le_n n)).
      destruct (C29_fix_needs_answer _ _ B Hr') as [Hnone _]. destruct (Hnone eq_refl) as [-> Hfix].
      destruct res as [root|f|f].
      + left. exists root. auto.
      + right. exists f. split; auto. intros root Htr.
        pose proof (terminates_unique Hr (Hyes root Htr)) as Heq. discriminate.
      + exfalso. eapply Hfix; eauto.
    - destruct (@C69_decides L T E eps init eof ps self before t B Hll Hlast Hrep Hlr He Hn Ht Hb) as (res & Hr & Hok & Herr).
      pose proof Hr as [_ [n Hr']]. specialize (Hr' n (le_n n)).
      destruct (C29_fix_needs_answer _ _ B Hr') as [Hnone _]. destruct (Hnone eq_refl) as [_ Hfix].
      destruct res as [root|f|f].
      + left. exists root. split; auto. now apply Hok.
      + right. exists f. split; auto. apply Herr. eauto.
      + exfalso. eapply Hfix; eauto. }
  intros L T E eps init eof eps' init' ps ps' self self' before t X X' Hlr Hlr' He He' Hl Ht Hb.
  assert (Hsame : (exists root, tree_for eps ps init root (before ++ [t])) <->
                  (exists root, tree_for eps' ps' init' root (before ++ [t]))).
  { rewrite <- (sentence_tree eps init ps (before ++ [t])), <- (sentence_tree eps' init' ps' (before ++ [t])).
    apply Hl. }
  destruct (Hdec _ _ _ _ _ _ _ _ _ _ X Hlr He Ht Hb) as [(root & H1 & H2)|(f & H1 & H2)];
  destruct (Hdec _ _ _ _ _ _ _ _ _ _ X' Hlr' He' Ht Hb) as [(root' & H1' & H2')|(f' & H1' & H2')].
  - left. exists root, root'. auto.
  - exfalso. destruct (proj1 Hsame (ex_intro _ root H2)) as [r Hr]. exact (H2' r Hr).
  - exfalso. destruct (proj2 Hsame (ex_intro _ root' H2')) as [r Hr]. exact (H2 r Hr).
  - right. exists f, f'. auto.
Qed.
Print Assumptions C82_same_verdict.

(** ** A case: two grammars for a* $ (0 epsilon, a = 3, $ = 4).
    1 -> 2 $; 2 -> a 2 | epsilon      and      5 -> $ | a 6 $; 6 -> a 6 | epsilon *)
Definition star1 : list (production nat) :=
  [Production 1 [2; 4]; Production 2 [3; 2]; Production 2 [0]].
Definition star2 : list (production nat) :=
  [Production 5 [4]; Production 5 [3; 6; 4]; Production 6 [3; 6]; Production 6 [0]].
Definition star1_parser : parser nat nat := Eval vm_compute in
  get_done (no_parser 0) (build (L := nat) 0 1 star1 None 200).
Definition star2_parser : parser nat nat := Eval vm_compute in
  get_done (no_parser 0) (build (L := nat) 0 5 star2 None 200).

(** inverting trees of concrete grammars *)
Lemma forest_two (L T : Type) (eps : T) ps X Xs (ns : list (node L T)) w :
  forest_for eps ps (X :: Xs) ns w ->
  exists n ns' u v, w = u ++ v /\ tree_for eps ps X n u /\ forest_for eps ps Xs ns' v.
Proof. intros H. inversion H; subst. eauto 8. Qed.

Lemma forest_none (L T : Type) (eps : T) ps (ns : list (node L T)) w :
  forest_for eps ps [] ns w -> w = [].
Proof. intros H. now inversion H. Qed.

Lemma tree_terminal (L T : Type) (eps : T) ps X (n : node L T) w :
  tree_for eps ps X n w -> ~ non_terminal ps X -> X <> eps -> map (@tok_type L T) w = [X].
Proof.
  intros H Hn He. inversion H; subst; auto; [congruence|]. exfalso. apply Hn. eexists; eauto.
Qed.

Lemma tree_of_epsilon (L T : Type) (eps : T) ps (n : node L T) w :
  tree_for eps ps eps n w -> ~ non_terminal ps eps -> w = [].
Proof.
  intros H Hn. inversion H; subst; auto; [congruence|]. exfalso. apply Hn. eexists; eauto.
Qed.

Section Star.
  Variables (ps : list (production nat)) (X : nat).
  Hypothesis HX : non_terminal ps X.
  Hypothesis H0 : ~ non_terminal ps 0.
  Hypothesis H3 : ~ non_terminal ps 3.
  Hypothesis Hin : forall p, In p ps -> p_input p = X -> p_output p = [3; X] \/ p_output p = [0].
  Hypothesis Hs : In (Production X [3; X]) ps.
  Hypothesis He : In (Production X [0]) ps.

  Lemma star_words (n : node nat nat) w : tree_for 0 ps X n w -> exists k, map (@tok_type nat nat) w = repeat 3 k.
  Proof.
    revert n. induction w as [w IH] using (induction_ltof1 _ (@length _)); unfold ltof in IH.
    intros n H. inversion H as [tok Hx Hy Ht|Hx|p cs w' Hp Hf Hi].
    - exfalso. apply Hy. now rewrite Ht.
    - exfalso. apply H0. rewrite Hx. exact HX.
    - subst w'. destruct (Hin _ Hp Hi) as [Ho|Ho]; rewrite Ho in Hf;
        apply forest_two in Hf as (n1 & ns' & u & v & -> & Ht & Hf).
      + apply forest_two in Hf as (n2 & ns'' & u' & v' & -> & Ht' & Hf).
        apply forest_none in Hf as ->.
        pose proof (tree_terminal Ht H3) as Hw. rewrite map_app, Hw by discriminate.
        rewrite app_nil_r. destruct (IH u') with (n := n2) as [k Hk]; auto.
        * rewrite app_nil_r, app_length.
          assert (Hl : length (map (@tok_type nat nat) u) = 1) by (rewrite Hw by discriminate; reflexivity).
          rewrite map_length in Hl. lia.
        * exists (S k). simpl. now rewrite Hk.
      + apply forest_none in Hf as ->. rewrite (tree_of_epsilon Ht H0). now exists 0.
  Qed.

  Lemma star_derives k : derives 0 ps [X] (repeat 3 k).
  Proof.
    induction k as [|k IH]; simpl.
    - apply Relation_Operators.rt1n_trans with [0].
      + exact (derive1_production 0 ps [] [] (Production X [0]) He).
      + apply Relation_Operators.rt1n_trans with []; [exact (derive1_epsilon 0 ps [] [])|constructor].
    - apply Relation_Operators.rt1n_trans with [3; X].
      + exact (derive1_production 0 ps [] [] (Production X [3; X]) Hs).
      + apply (@derives_app _ 0 ps [3] [3] [X]); [constructor|exact IH].
  Qed.
End Star.

Lemma star1_star : forall p, In p star1 -> p_input p = 2 -> p_output p = [3; 2] \/ p_output p = [0].
Proof. intros p [<-|[<-|[<-|[]]]] H; simpl in *; auto; discriminate. Qed.
Lemma star2_star : forall p, In p star2 -> p_input p = 6 -> p_output p = [3; 6] \/ p_output p = [0].
Proof. intros p [<-|[<-|[<-|[<-|[]]]]] H; simpl in *; auto; discriminate. Qed.

Ltac no_nt := apply non_terminalb_false; reflexivity.
Ltac is_nt := apply non_terminalb_spec; reflexivity.

Definition lift (w : list nat) : list (token nat nat) := map (fun a => Token None a) w.
Lemma lift_types w : map (@tok_type nat nat) (lift w) = w.
Proof. unfold lift. rewrite map_map. simpl. apply map_id. Qed.

Lemma star1_language w : sentence 0 1 star1 w <-> exists k, w = repeat 3 k ++ [4].
Proof.
  split.
  - intros H. rewrite <- (lift_types w) in H. apply sentence_tree in H as [n H].
    rewrite <- (lift_types w). revert H. generalize (lift w). intros ts H.
    inversion H as [tok He Hn Ht|He|p cs w' Hp Hf Hi].
    + exfalso. apply Hn. rewrite Ht. is_nt.
    + subst w'. destruct Hp as [<-|[<-|[<-|[]]]]; simpl in *; try discriminate.
      apply forest_two in Hf as (n1 & ns1 & u & v & -> & Ht & Hf).
      apply forest_two in Hf as (n2 & ns2 & u' & v' & -> & Ht' & Hf). apply forest_none in Hf as ->.
      destruct (@star_words star1 2) with (n := n1) (w := u) as [k Hk]; auto; try is_nt; try no_nt; [exact star1_star|].
      exists k. rewrite !map_app, Hk. rewrite (tree_terminal Ht'); [reflexivity|no_nt|discriminate].
  - intros [k ->]. split.
    + apply Relation_Operators.rt1n_trans with [2; 4].
      * exact (derive1_production 0 star1 [] [] (Production 1 [2; 4]) ltac:(simpl; auto)).
      * apply (@derives_app _ 0 star1 [2] (repeat 3 k) [4] [4]); [|constructor].
        apply star_derives; simpl; auto.
    + apply Forall_app. split; [|repeat constructor; [discriminate|no_nt]].
      apply Forall_forall. intros x Hx. apply repeat_spec in Hx as ->. split; [discriminate|no_nt].
Qed.

Lemma star2_language w : sentence 0 5 star2 w <-> exists k, w = repeat 3 k ++ [4].
Proof.
  split.
  - intros H. rewrite <- (lift_types w) in H. apply sentence_tree in H as [n H].
    rewrite <- (lift_types w). revert H. generalize (lift w). intros ts H.
    inversion H as [tok He Hn Ht|He|p cs w' Hp Hf Hi].
    + exfalso. apply Hn. rewrite Ht. is_nt.
    + subst w'. destruct Hp as [<-|[<-|[<-|[<-|[]]]]]; simpl in *; try discriminate.
      * apply forest_two in Hf as (n1 & ns1 & u & v & -> & Ht & Hf). apply forest_none in Hf as ->.
        exists 0. rewrite map_app. rewrite (tree_terminal Ht); [reflexivity|no_nt|discriminate].
      * apply forest_two in Hf as (n0 & ns0 & u0 & v0 & -> & Ht0 & Hf).
        apply forest_two in Hf as (n1 & ns1 & u & v & -> & Ht & Hf).
        apply forest_two in Hf as (n2 & ns2 & u' & v' & -> & Ht' & Hf). apply forest_none in Hf as ->.
        destruct (@star_words star2 6) with (n := n1) (w := u) as [k Hk]; auto; try is_nt; try no_nt; [exact star2_star|].
        exists (S k). rewrite !map_app, Hk.
        rewrite (tree_terminal Ht'), (tree_terminal Ht0); [reflexivity|no_nt|discriminate|no_nt|discriminate].
  - intros [k ->]. split.
    + destruct k as [|k].
      * apply Relation_Operators.rt1n_trans with [4]; [|constructor].
        exact (derive1_production 0 star2 [] [] (Production 5 [4]) ltac:(simpl; auto)).
      * apply Relation_Operators.rt1n_trans with [3; 6; 4].
        -- exact (derive1_production 0 star2 [] [] (Production 5 [3; 6; 4]) ltac:(simpl; auto)).
        -- apply (@derives_app _ 0 star2 [3] [3] [6; 4]); [constructor|].
           apply (@derives_app _ 0 star2 [6] (repeat 3 k) [4] [4]); [|constructor].
           apply star_derives; simpl; auto.
    + apply Forall_app. split; [|repeat constructor; [discriminate|no_nt]].
      apply Forall_forall. intros x Hx. apply repeat_spec in Hx as ->. split; [discriminate|no_nt].
Qed.

Lemma star1_eof : eof_discipline 0 star1 1 4.
Proof.
  split; [discriminate|]. split; [no_nt|]. split; [|split].
  - intros p [<-|[<-|[<-|[]]]]; simpl; intuition discriminate.
  - intros p [<-|[<-|[<-|[]]]]; simpl; intros H; try discriminate.
    exists [2]. split; [reflexivity|simpl; intuition discriminate].
  - intros p [<-|[<-|[<-|[]]]]; simpl; intuition discriminate.
Qed.
Lemma star2_eof : eof_discipline 0 star2 5 4.
Proof.
  split; [discriminate|]. split; [no_nt|]. split; [|split].
  - intros p [<-|[<-|[<-|[<-|[]]]]]; simpl; intuition discriminate.
  - intros p [<-|[<-|[<-|[<-|[]]]]]; simpl; intros H; try discriminate.
    + exists []. split; [reflexivity|auto].
    + exists [3; 6]. split; [reflexivity|simpl; intuition discriminate].
  - intros p [<-|[<-|[<-|[<-|[]]]]]; simpl; intuition discriminate.
Qed.

Lemma star1_exact : exact_parser 0 1 star1 None star1_parser.
Proof.
  split; [apply build_built with (fuel := 200); vm_compute; reflexivity|].
  split; [is_nt|]. split; [exact (eof_ends star1_eof)|]. split.
  - apply no_repeated_neighbours_harmless. apply no_repeated_neighbours_check. reflexivity.
  - left. apply conflict_free_check_ok. reflexivity.
Qed.
Lemma star2_exact : exact_parser 0 5 star2 None star2_parser.
Proof.
  split; [apply build_built with (fuel := 200); vm_compute; reflexivity|].
  split; [is_nt|]. split; [exact (eof_ends star2_eof)|]. split.
  - apply no_repeated_neighbours_harmless. apply no_repeated_neighbours_check. reflexivity.
  - left. apply conflict_free_check_ok. reflexivity.
Qed.

Example C82_case :
  exact_parser 0 1 star1 None star1_parser /\ exact_parser 0 5 star2 None star2_parser /\
  no_left_recursion_from 0 star1 1 /\ no_left_recursion_from 0 star2 5 /\
  eof_discipline 0 star1 1 4 /\ eof_discipline 0 star2 5 4 /\
  same_language 0 1 star1 0 5 star2 /\
  accepts star1_parser (lift [3; 3; 4]) /\ ~ accepts star2_parser (lift [3; 1; 4]).
Proof.
  splits.
  - exact star1_exact.
  - exact star2_exact.
  - apply (no_left_recursion_anywhere (init := 1)).
    apply rank_check_ok with (N := fun x => Nat.eqb x 0 || Nat.eqb x 2)
      (rank := fun x => match x with 1 => 2 | 2 => 1 | _ => 0 end). reflexivity.
  - apply (no_left_recursion_anywhere (init := 5)).
    apply rank_check_ok with (N := fun x => Nat.eqb x 0 || Nat.eqb x 6)
      (rank := fun x => match x with 5 => 2 | 6 => 1 | _ => 0 end). reflexivity.
  - exact star1_eof.
  - exact star2_eof.
  - intros w. rewrite star1_language, star2_language. reflexivity.
  - apply (accepts_iff star1_exact). exists (lift [3; 3; 4]). split; [exists []; reflexivity|].
    rewrite lift_types. apply star1_language. exists 2. reflexivity.
  - intros H. apply (accepts_iff star2_exact) in H as (w & [r Hr] & Hs).
    apply star2_language in Hs as [k Hk]. apply (f_equal (map (@tok_type nat nat))) in Hr.
    rewrite map_app, Hk, lift_types in Hr. destruct k as [|[|k]]; discriminate.
Qed.

(** with conflicts and a solver that answers when it is asked *)
Example C82_solver_case :
  let self := with_solver reordered_parser (Some meddling_solver) in
  exact_parser 0 1 ll1_reordered (Some meddling_solver) self /\ ~ conflict_free (pr_transitions self).
Proof.
  intros self. destruct C99_nullable_last_case as (H1 & H2 & H3 & H4 & H5 & H6 & H7 & H8 & _).
  split; [|exact H8]. split; [exact H1|]. split; [exact H7|]. split; [exact H6|]. split; [exact H4|]. right. auto.
Qed.
