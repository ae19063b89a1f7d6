(** * Properties of the grammar constructor and of tokens: C01, C02, C03, C39 *)

From Verif Require Import BaseFacts GrammarFacts DerivFacts FirstFacts FollowFacts TransitionsFacts.
From Verif Require Import Examples.

Set Implicit Arguments.

(** ** C01: [ContextFreeGrammar::new] panics exactly on ill-formed productions *)
Theorem C01_constructor_validation :
  forall (T : Type) (E : EqDec T) (ho : hash_order T) (eps init : T) (ps : list (production T)),
    (* it returns iff every production is well formed *)
    ((exists g, cfg_new ho eps init ps = Done g) <->
     (forall p, In p ps -> p_input p <> eps /\ p_output p <> [] /\
                (In eps (p_output p) -> p_output p = [eps]))) /\
    (* it panics otherwise, with the message of a defect that is present *)
    ((exists q, cfg_new ho eps init ps = Panicked q) <->
     (exists p, In p ps /\ (p_input p = eps \/ p_output p = [] \/
                (In eps (p_output p) /\ p_output p <> [eps])))) /\
    (forall q, cfg_new ho eps init ps = Panicked q ->
       exists p, In p ps /\
         match q with
         | PanicEpsilonGenerates => p_input p = eps
         | PanicEmptyOutput => p_output p = []
         | PanicEpsilonNotAlone => In eps (p_output p) /\ p_output p <> [eps]
         | _ => False
         end) /\
    (* it always returns or panics *)
    cfg_new ho eps init ps <> OutOfFuel.
Proof.
  intros T E ho eps init ps.
  assert (Hdef : forall q p, defect eps q p ->
    match q with
    | PanicEpsilonGenerates => p_input p = eps
    | PanicEmptyOutput => p_output p = []
    | PanicEpsilonNotAlone => In eps (p_output p) /\ p_output p <> [eps]
    | _ => False
    end).
  { intros q p H. destruct q; simpl in *; auto. destruct H as [H1 H2]. split; auto.
    intros Heq. rewrite Heq in H2. simpl in H2. lia. }
  assert (Hbad : forall p, In p ps -> (p_input p = eps \/ p_output p = [] \/
                (In eps (p_output p) /\ p_output p <> [eps])) -> ~ productions_ok eps ps).
  { intros p Hp H Hok. destruct (Hok p Hp) as (H1 & H2 & H3). intuition congruence. }
  assert (Hor : forall q p, defect eps q p -> p_input p = eps \/ p_output p = [] \/
                (In eps (p_output p) /\ p_output p <> [eps])).
  { intros q p H. apply Hdef in H. destruct q; try contradiction; auto. }
  destruct (cfg_new_cases ho eps init ps) as [(g & Hg & G)|(q & p & Hq & Hp & Hd)].
  - splits.
    + split; [intros _; exact (go_ok G)|eauto].
    + split; [intros [q Hq]; congruence|]. intros (p & Hp & H). exfalso. apply (Hbad p Hp H (go_ok G)).
    + intros q Hq. congruence.
    + congruence.
  - splits.
    + split; [intros [g Hg]; congruence|]. intros Hok. exfalso.
      apply (Hbad p Hp (Hor _ _ Hd)). exact Hok.
    + split; [intros _; exists p; eauto|eauto].
    + intros q' Hq'. assert (q' = q) by congruence. subst q'. exists p. split; auto.
      now apply Hdef.
    + congruence.
Qed.
Print Assumptions C01_constructor_validation.

(** both sides occur *)
Example C01_returns : exists g, cfg_new (reversed_order sym) Eps Prog expr_productions = Done g.
Proof. apply C01_constructor_validation. exact expr_ok. Qed.
Example C01_panics :
  cfg_new (insertion_order sym) Eps Prog (expr_productions ++ [Production Expr [Eps; Plus]])
  = Panicked PanicEpsilonNotAlone.
Proof. vm_compute. reflexivity. Qed.

(** ** C02: terminals and non-terminals *)
Theorem C02_symbol_partition :
  forall (T : Type) (E : EqDec T) (ho ho' : hash_order T) (eps init : T)
         (ps : list (production T)) (g : grammar T),
    cfg_new ho eps init ps = Done g ->
    get_epsilon_symbol g = eps /\ get_initial_symbol g = init /\
    (forall x, is_non_terminal g x = true <-> exists p, In p ps /\ p_input p = x) /\
    (forall x, is_terminal g x = true <->
       (exists p, In p ps /\ In x (p_output p)) /\ ~ (exists p, In p ps /\ p_input p = x)) /\
    (forall x, is_terminal g x = true -> is_non_terminal g x = false) /\
    is_non_terminal g eps = false /\
    (forall x, In x (get_non_terminal_symbols ho' g) <-> is_non_terminal g x = true) /\
    NoDup (get_non_terminal_symbols ho' g) /\
    (forall x, In x (get_terminal_symbols ho' g) <-> is_terminal g x = true) /\
    NoDup (get_terminal_symbols ho' g).
Proof.
  intros T E ho ho' eps init ps g Hg. apply cfg_new_grammar_of in Hg as G.
  pose proof (is_non_terminal_spec G) as Hn. pose proof (is_terminal_spec G) as Ht.
  splits.
  - apply (go_eps G).
  - apply (go_init G).
  - exact Hn.
  - exact Ht.
  - intros x Hx. apply Ht in Hx as [_ Hx]. destruct (is_non_terminal g x) eqn:Hnx; auto.
    exfalso. apply Hx. now apply Hn.
  - destruct (is_non_terminal g eps) eqn:He; auto. exfalso. apply Hn in He as (p & Hp & Hi).
    apply (go_ok G p) in Hp as (H & _). congruence.
  - intros x. rewrite Hn. apply (get_nts_In G).
  - apply (get_nts_NoDup G).
  - intros x. rewrite Ht. apply (get_ts_In G).
  - apply (get_ts_NoDup G).
Qed.
Print Assumptions C02_symbol_partition.

Example C02_case : is_non_terminal expr_grammar TermTail = true /\ is_terminal expr_grammar Eps = true
  /\ is_terminal expr_grammar Plus = true /\ is_terminal expr_grammar Expr = false.
Proof. vm_compute. auto. Qed.

(** ** C03: production lookup *)
Theorem C03_production_lookup :
  forall (T : Type) (E : EqDec T) (ho : hash_order T) (eps init : T)
         (ps : list (production T)) (g : grammar T) (x : T),
    cfg_new ho eps init ps = Done g ->
    (get_productions g x = None <-> ~ exists p, In p ps /\ p_input p = x) /\
    (forall l, get_productions g x = Some l ->
       l = filter (fun p => if eq_dec (p_input p) x then true else false) ps).
Proof.
  intros T E ho eps init ps g x Hg. apply cfg_new_grammar_of in Hg as G.
  rewrite (go_productions G). change (filter _ ps) with (productions_of ps x).
  assert (H : productions_of ps x = [] <-> ~ exists p, In p ps /\ p_input p = x).
  { split.
    - intros H (p & Hp). apply productions_of_In in Hp. rewrite H in Hp. destruct Hp.
    - intros H. destruct (productions_of ps x) as [|p l] eqn:Hl; auto. exfalso. apply H.
      exists p. apply productions_of_In. rewrite Hl. now left. }
  rewrite <- H. destruct (productions_of ps x) as [|p l]; simpl; split; try tauto; try congruence.
  split; [congruence|discriminate].
Qed.
Print Assumptions C03_production_lookup.

Example C03_case : get_productions expr_grammar ExprTail =
  Some [Production ExprTail [Plus; Term; ExprTail]; Production ExprTail [Eps]].
Proof. vm_compute. reflexivity. Qed.

(** ** C39: token equality *)
Theorem C39_token_equality :
  forall (L T : Type) (E : EqDec T) (a b c : token L T),
    token_eq a a = true /\
    (token_eq a b = true -> token_eq b a = true) /\
    (token_eq a b = true -> token_eq b c = true -> token_eq a c = true) /\
    (forall lex, token_eq (Token lex (tok_type a)) b = token_eq a b) /\
    (token_eq a b = true <-> tok_type a = tok_type b) /\
    token_ne a b = negb (token_eq a b).
Proof.
  intros L T E a b c. unfold token_eq, token_ne. simpl. splits; auto.
  - apply eqb_self.
  - rewrite !eqb_iff. auto.
  - rewrite !eqb_iff. congruence.
  - apply eqb_iff.
Qed.
Print Assumptions C39_token_equality.

Example C39_case : token_eq (tk 1 Id) (tk 2 Id) = true /\ token_ne (tk 1 Id) (tk 1 Plus) = true.
Proof. vm_compute. auto. Qed.
