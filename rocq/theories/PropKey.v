(** * Symbol types with a coarser equality: C68 *)

From Verif Require Import BaseFacts GrammarFacts ParserRename KeyFacts ParserBuild PropParse Examples.
From Verif Require Export KeySpec.

Set Implicit Arguments.

(** ** A lawful [Eq] compares keys *)

Section Index.
  Context {T : Type} {E : EqImpl T}.
  Hypothesis HE : lawful_eq T.

  Fixpoint index (u : list T) (x : T) : nat :=
    match u with
    | [] => 0
    | y :: u' => if eqb x y then 0 else S (index u' x)
    end.

  Lemma index_eq u : forall x y, eqb x y = true -> index u x = index u y.
  Proof.
    induction u as [|z u IH]; intros x y H; simpl; auto.
    destruct (eqb x z) eqn:Hx, (eqb y z) eqn:Hy; auto.
    - pose proof (le_trans HE _ _ _ (le_sym HE _ _ H) Hx). congruence.
    - pose proof (le_trans HE _ _ _ H Hy). congruence.
  Qed.

  Lemma index_inj u : forall x y, (exists z, In z u /\ eqb x z = true) ->
    index u x = index u y -> (exists z, In z u /\ eqb y z = true) -> eqb x y = true.
  Proof.
    induction u as [|z u IH]; intros x y (zx & Hinx & Hzx) Hi (zy & Hiny & Hzy); simpl in *; [contradiction|].
    destruct (eqb x z) eqn:Hx, (eqb y z) eqn:Hy; try discriminate.
    - exact (le_trans HE _ _ _ Hx (le_sym HE _ _ Hy)).
    - destruct Hinx as [->|Hinx]; [congruence|]. destruct Hiny as [->|Hiny]; [congruence|].
      apply IH; eauto.
  Qed.
End Index.

Theorem C68_lawful_equality_has_keys :
  forall (T : Type) (E : EqImpl T),
    (* finitely many classes of equal symbols *)
    (forall u : list T, (forall x, exists y, In y u /\ eqb x y = true) -> lawful_eq T ->
       exists q : T -> nat, compared_by q) /\
    (forall (Q : Type) (q : T -> Q), compared_by q -> lawful_eq T).
Proof.
  intros T E. split.
  - intros u Hu HE. exists (index u). intros x y. split; [apply (index_eq HE)|].
    intros H. apply (index_inj HE u); auto.
  - intros Q q Hq. split.
    + intros x. now apply Hq.
    + intros x y H. apply Hq in H. now apply Hq.
    + intros x y z H H'. apply Hq in H. apply Hq in H'. apply Hq. congruence.
Qed.
Print Assumptions C68_lawful_equality_has_keys.

(** ** Constructing grammars, FIRST, FOLLOW and tables *)

Theorem C68_construction_sees_keys :
  forall (T Q : Type) (ET : EqImpl T) (EQ : EqDec Q) (q : T -> Q)
         (ho : hash_order T) (ho' : hash_order Q),
    compared_by q -> same_order q ho ho' ->
    (forall eps init ps,
       cfg_new ho' (q eps) (q init) (map (ren_production q) ps) =
       omap (key_grammar q) (cfg_new ho eps init ps)) /\
    (forall fuel g,
       ffs_from ho' fuel (key_grammar q g) = omap (key_ffs q) (ffs_from ho fuel g)) /\
    (forall g ffs t,
       transitions_from ho g ffs = Done t ->
       exists t', transitions_from ho' (key_grammar q g) (key_ffs q ffs) = Done t' /\
         forall A a, transitions_get_productions t' (q A) (q a) =
                     option_map (map (ren_production q)) (transitions_get_productions t A a)) /\
    (forall g ffs p,
       transitions_from ho g ffs = Panicked p <->
       transitions_from ho' (key_grammar q g) (key_ffs q ffs) = Panicked p).
Proof.
  intros T Q ET EQ q ho ho' Hq Ho. split; [|split; [|split]].
  - intros eps init ps. apply (cfg_new_key Hq Ho).
  - intros fuel g. apply (ffs_from_key Hq Ho).
  - intros g ffs t Ht. exists (key_transitions q t). split.
    + rewrite (transitions_key Hq Ho), Ht. reflexivity.
    + intros A a. apply (table_get_key Hq).
  - intros g ffs p. rewrite (transitions_key Hq Ho).
    destruct (transitions_from ho g ffs); simpl; split; congruence.
Qed.
Print Assumptions C68_construction_sees_keys.

(** ** Parsing *)

Lemma keyed_built :
  forall (L1 L2 T Q : Type) (ET : EqImpl T) (EQ : EqDec Q) (f : L1 -> L2) (q : T -> Q)
         (eps init : T) (ps : list (production T))
         (solver1 : option (syntax_error_solver L1 T)) (solver2 : option (syntax_error_solver L2 Q))
         (self1 : parser L1 T),
    compared_by q -> keyed_parser q eps init ps solver1 self1 -> ren_solver f q solver1 solver2 ->
    exists self2, built_parser (q eps) (q init) (map (ren_production q) ps) solver2 self2 /\
      forall fuel tokens,
        parse_from_tokens fuel self2 (map (ren_token f q) tokens) =
        ren_outcome f q (parse_from_tokens fuel self1 tokens).
Proof.
  intros L1 L2 T Q ET EQ f q eps init ps solver1 solver2 self1 Hq
    (ho1 & ho2 & fuel & g & (ho1' & Ho1) & (ho2' & Ho2) & Hg & Hs) Hsol.
  assert (Hs1 : exists ffs t, ffs_from ho2 fuel g = Done ffs /\ transitions_from ho2 g ffs = Done t /\
            self1 = {| pr_grammar := g; pr_solver := solver1; pr_transitions := t |}).
  { destruct solver1 as [s1|]; unfold from_grammar, from_grammar_and_solver,
      from_grammar_and_first_follow_symbols, rdp_from in Hs;
      destruct (ffs_from ho2 fuel g) as [ffs| |]; simpl in Hs; try discriminate;
      destruct (transitions_from ho2 g ffs) as [t| |] eqn:Ht; simpl in Hs; try discriminate;
      inversion Hs; subst; eauto. }
  destruct Hs1 as (ffs & t & Hf & Ht & ->).
  exists {| pr_grammar := key_grammar q g; pr_solver := solver2; pr_transitions := key_transitions q t |}.
  split.
  - exists ho1', ho2', fuel, (key_grammar q g). split.
    + rewrite (cfg_new_key Hq Ho1), Hg. reflexivity.
    + destruct solver2 as [s2|]; unfold from_grammar, from_grammar_and_solver,
        from_grammar_and_first_follow_symbols, rdp_from;
        rewrite (ffs_from_key Hq Ho2), Hf; cbn [omap bind];
        rewrite (transitions_key Hq Ho2), Ht; reflexivity.
  - intros fuel' tokens. apply parse_ren; auto.
    + exact (eqb_key Hq).
    + intros x. apply (is_nt_key Hq).
    + intros A a. unfold inner_get_token_productions. cbn [pr_transitions].
      rewrite (table_get_key Hq). destruct (transitions_get_productions t A a) as [l|]; [|reflexivity].
      cbn [option_map]. rewrite !map_map. reflexivity.
Qed.

(** the parser behaves like the parser for the keys *)
Theorem C68_parsing_sees_keys :
  forall (L1 L2 T Q : Type) (ET : EqImpl T) (EQ : EqDec Q) (f : L1 -> L2) (q : T -> Q)
         (eps init : T) (ps : list (production T))
         (solver1 : option (syntax_error_solver L1 T)) (solver2 : option (syntax_error_solver L2 Q))
         (self1 : parser L1 T) (self2 : parser L2 Q) (fuel : nat) (tokens : list (token L1 T)),
    compared_by q -> keyed_parser q eps init ps solver1 self1 ->
    built_parser (q eps) (q init) (map (ren_production q) ps) solver2 self2 ->
    ren_solver f q solver1 solver2 ->
    parse_from_tokens fuel self2 (map (ren_token f q) tokens) =
    ren_outcome f q (parse_from_tokens fuel self1 tokens).
Proof.
  intros L1 L2 T Q ET EQ f q eps init ps solver1 solver2 self1 self2 fuel tokens Hq K B Hsol.
  destruct (@keyed_built L1 L2 T Q ET EQ f q eps init ps solver1 solver2 self1 Hq K Hsol) as (self & B' & H). rewrite <- H.
  exact (C09_parse_order_independent _ _ B B').
Qed.
Print Assumptions C68_parsing_sees_keys.

(** hence equal symbols can stand for each other, in grammars and in inputs *)
Theorem C68_equal_symbols_interchangeable :
  forall (L T Q : Type) (ET : EqImpl T) (EQ : EqDec Q) (q : T -> Q)
         (eps eps' init init' : T) (ps ps' : list (production T))
         (self self' : parser L T) (fuel : nat) (tokens tokens' : list (token L T)),
    compared_by q ->
    keyed_parser q eps init ps None self -> keyed_parser q eps' init' ps' None self' ->
    eqb eps eps' = true -> eqb init init' = true ->
    Forall2 (fun p p' => eqb (p_input p) (p_input p') = true /\
                         Forall2 (fun x y => eqb x y = true) (p_output p) (p_output p')) ps ps' ->
    Forall2 (fun t t' => tok_lex t = tok_lex t' /\ eqb (tok_type t) (tok_type t') = true) tokens tokens' ->
    ren_outcome (fun l => l) q (parse_from_tokens fuel self tokens) =
    ren_outcome (fun l => l) q (parse_from_tokens fuel self' tokens').
Proof.
  intros L T Q ET EQ q eps eps' init init' ps ps' self self' fuel tokens tokens' Hq K K' He Hi Hps Hts.
  assert (Hl : forall u v, Forall2 (fun x y => eqb x y = true) u v -> map q u = map q v).
  { intros u v H. induction H as [|x y u v Hx _ IH]; simpl; auto. apply Hq in Hx. congruence. }
  assert (Hp : map (ren_production q) ps = map (ren_production q) ps').
  { clear - Hps Hq Hl. induction Hps as [|p p' l l' [H1 H2] _ IH]; simpl; auto. f_equal; auto.
    unfold ren_production. apply Hq in H1. rewrite H1, (Hl _ _ H2). reflexivity. }
  assert (Ht : map (ren_token (fun l : L => l) q) tokens = map (ren_token (fun l => l) q) tokens').
  { clear - Hts Hq. induction Hts as [|t t' l l' [H1 H2] _ IH]; simpl; auto. f_equal; auto.
    unfold ren_token. apply Hq in H2. now rewrite H1, H2. }
  apply Hq in He. apply Hq in Hi.
  destruct (@keyed_built L L T Q ET EQ (fun l => l) q eps init ps None None self Hq K I)
    as (s2 & B & H).
  destruct (@keyed_built L L T Q ET EQ (fun l => l) q eps' init' ps' None None self' Hq K' I)
    as (s2' & B' & H').
  rewrite <- H, <- H', Ht. rewrite <- He, <- Hi, <- Hp in B'.
  exact (C09_parse_order_independent _ _ B B').
Qed.
Print Assumptions C68_equal_symbols_interchangeable.

(** and what holds for identity carries over, for instance C14 *)
Theorem C68_trees_valid_up_to_equality :
  forall (L T Q : Type) (ET : EqImpl T) (EQ : EqDec Q) (q : T -> Q)
         (eps init : T) (ps : list (production T)) (self : parser L T) (fuel : nat)
         (tokens : list (token L T)) (root : node L T) h,
    compared_by q -> keyed_parser q eps init ps None self ->
    parse_from_tokens fuel self tokens = Done (ResultOk root, h) ->
    exists w, prefix w tokens /\
      tree_for (q eps) (map (ren_production q) ps) (q init)
               (ren_node (fun l => l) q root) (map (ren_token (fun l => l) q) w).
Proof.
  intros L T Q ET EQ q eps init ps self fuel tokens root h Hq K Hr.
  destruct (@keyed_built L L T Q ET EQ (fun l => l) q eps init ps None None self Hq K I)
    as (s2 & B & H).
  specialize (H fuel tokens). rewrite Hr in H. cbn in H.
  destruct (C14_parse_trees_valid fuel _ (built_constructed B) H) as (_ & _ & w & Hw & rest & Hp).
  apply map_eq_app in Hp as (w1 & r1 & -> & <- & _).
  exists w1. split; [now exists r1|]. exact Hw.
Qed.
Print Assumptions C68_trees_valid_up_to_equality.

(** The expression grammar, with symbols that carry a number which [Eq] ignores (as would a
    token type whose identifiers hold their names): two grammars and two inputs that are
    equal symbol by symbol but not identical, and their parsers. *)
Definition noisy : Type := (sym * nat)%type.

#[local] Instance noisy_eq : EqImpl noisy := fun x y => eqb (fst x) (fst y).

Lemma noisy_compared : compared_by (fst : noisy -> sym).
Proof. intros x y. apply eqb_iff. Qed.

Lemma noisy_not_identity : eqb (Id, 1) (Id, 2) = true /\ (Id, 1) <> (Id, 2).
Proof. split; [reflexivity|discriminate]. Qed.

Definition noisy_production (n : nat) (p : production sym) : production noisy :=
  Production (p_input p, n) (map (fun x => (x, n + length (p_output p))) (p_output p)).

Lemma insertion_respects : hash_respects (fst : noisy -> sym) (insertion_order noisy).
Proof. exists (insertion_order sym). split; reflexivity. Qed.

Lemma reversed_respects : hash_respects (fst : noisy -> sym) (reversed_order noisy).
Proof. exists (reversed_order sym). split; intros; symmetry; apply map_rev. Qed.

Definition noisy_parser (n : nat) (ho : hash_order noisy) : parser nat noisy :=
  get_done (no_parser (Eps, 0))
    (g <- cfg_new (insertion_order noisy) (Eps, n) (Prog, n)
            (map (noisy_production n) expr_productions) ;;
     from_grammar ho 200 g).

Definition noisy_tokens (n : nat) : list (token nat noisy) :=
  map (fun t => Token (tok_lex t) (tok_type t, n)) expr_tokens.

Example C68_case :
  compared_by (fst : noisy -> sym) /\
  keyed_parser fst (Eps, 1) (Prog, 1) (map (noisy_production 1) expr_productions) None
    (noisy_parser 1 (insertion_order noisy)) /\
  keyed_parser fst (Eps, 2) (Prog, 2) (map (noisy_production 2) expr_productions) None
    (noisy_parser 2 (reversed_order noisy)) /\
  map (noisy_production 1) expr_productions <> map (noisy_production 2) expr_productions /\
  Forall2 (fun p p' => eqb (p_input p) (p_input p') = true /\
                       Forall2 (fun x y => eqb x y = true) (p_output p) (p_output p'))
    (map (noisy_production 1) expr_productions) (map (noisy_production 2) expr_productions) /\
  Forall2 (fun t t' => tok_lex t = tok_lex t' /\ eqb (tok_type t) (tok_type t') = true)
    (noisy_tokens 3) (noisy_tokens 4) /\
  exists root root',
    parse_from_tokens 200 (noisy_parser 1 (insertion_order noisy)) (noisy_tokens 3) =
      Done (ResultOk root, []) /\
    parse_from_tokens 200 (noisy_parser 2 (reversed_order noisy)) (noisy_tokens 4) =
      Done (ResultOk root', []) /\
    root <> root' /\
    ren_node (fun l => l) fst root = expr_tree /\ ren_node (fun l => l) fst root' = expr_tree.
Proof.
  split; [exact noisy_compared|].
  split.
  { destruct (cfg_new (insertion_order noisy) (Eps, 1) (Prog, 1)
                (map (noisy_production 1) expr_productions)) as [g| |] eqn:Hg;
      [|vm_compute in Hg; discriminate Hg|vm_compute in Hg; discriminate Hg].
    exists (insertion_order noisy), (insertion_order noisy), 200, g.
    split; [exact insertion_respects|]. split; [exact insertion_respects|]. split; [exact Hg|].
    unfold noisy_parser. rewrite Hg. cbn [bind].
    vm_compute in Hg. inversion Hg; subst g. vm_compute. reflexivity. }
  split.
  { destruct (cfg_new (insertion_order noisy) (Eps, 2) (Prog, 2)
                (map (noisy_production 2) expr_productions)) as [g| |] eqn:Hg;
      [|vm_compute in Hg; discriminate Hg|vm_compute in Hg; discriminate Hg].
    exists (insertion_order noisy), (reversed_order noisy), 200, g.
    split; [exact insertion_respects|]. split; [exact reversed_respects|]. split; [exact Hg|].
    unfold noisy_parser. rewrite Hg. cbn [bind].
    vm_compute in Hg. inversion Hg; subst g. vm_compute. reflexivity. }
  split; [discriminate|].
  split; [repeat (constructor; simpl)|].
  split; [repeat (constructor; simpl)|].
  do 2 eexists. split; [vm_compute; reflexivity|]. split; [vm_compute; reflexivity|].
  split; [discriminate|]. split; vm_compute; reflexivity.
Qed.
