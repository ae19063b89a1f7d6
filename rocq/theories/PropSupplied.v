(** * Parsers from supplied FIRST and FOLLOW sets, and parsers that grow: C62 - C65 *)

From Verif Require Import BaseFacts GrammarFacts DerivFacts FirstFacts FollowFacts TransitionsFacts.
From Verif Require Import CoverFacts SuppliedFacts ParserCF Examples LL1Check.
From Verif Require Export SuppliedSpec GuidedSpec FollowSpec PropFirstFollow PropTable PropParse PropGuided PropFollow.

Set Implicit Arguments.

(** ** C62: when construction from supplied sets succeeds *)

Theorem C62_supplied_sets_accepted_iff_sufficient :
  forall (L T : Type) (E : EqDec T) (ho ho' : hash_order T) (eps init : T)
         (ps : list (production T)) (g : grammar T) (ffs : first_follow_symbols T),
    cfg_new ho eps init ps = Done g ->
    (sufficient_sets eps ps ffs ->
       exists self, from_grammar_and_first_follow_symbols (L := L) ho' g ffs = Done self) /\
    (~ sufficient_sets eps ps ffs ->
       from_grammar_and_first_follow_symbols (L := L) ho' g ffs = Panicked PanicUnwrapNone) /\
    (forall self, from_grammar_and_first_follow_symbols (L := L) ho' g ffs = Done self ->
       sufficient_sets eps ps ffs /\
       forall A a,
         (transitions_get_productions (pr_transitions self) A a = None <->
          ~ (non_terminal ps A /\ terminal ps a)) /\
         (forall l, transitions_get_productions (pr_transitions self) A a = Some l ->
            exists keep : production T -> bool,
              l = filter keep (filter (fun p => if eq_dec (p_input p) A then true else false) ps) /\
              forall p, In p ps -> (keep p = true <-> chosen_on eps ffs p a))).
Proof.
  intros L T E ho ho' eps init ps g ffs Hg. apply cfg_new_grammar_of in Hg as G.
  pose proof (transitions_done_iff G ho' ffs) as Hiff.
  assert (Hdone : forall self, from_grammar_and_first_follow_symbols (L := L) ho' g ffs = Done self ->
                  sufficient_sets eps ps ffs).
  { intros self H. apply Hiff. apply rdp_from_inv in H as (_ & _ & H). eauto. }
  split; [|split].
  - intros Hs. apply Hiff in Hs as [t Ht].
    unfold from_grammar_and_first_follow_symbols, rdp_from. rewrite Ht. simpl. eauto.
  - intros Hn. unfold from_grammar_and_first_follow_symbols, rdp_from.
    destruct (transitions_unwraps (g := g) ho' ffs) as [[t Ht]|Ht].
    + exfalso. apply Hn, Hiff. eauto.
    + rewrite Ht. reflexivity.
  - intros self H. split; [eauto|]. intros A a.
    assert (B : supplied_parser eps init ps ffs self) by (exists ho, ho', g; auto).
    split.
    + apply (bf_none (constructed_built (supplied_constructed B))).
    + intros l Hl. apply rdp_from_inv in H as (_ & _ & Ht). exact (supplied_cells G _ _ Ht _ _ Hl).
Qed.
Print Assumptions C62_supplied_sets_accepted_iff_sufficient.

(** sets for 1 -> B B $, B = 2 -> b C, C = 3 -> c | epsilon, with the [b] that
    [FirstFollowSymbols::from] misses in FOLLOW(B) and FOLLOW(C) (C08) *)
Definition twice_sets : first_follow_symbols nat :=
  FirstFollowSymbols [(1, [4]); (2, [4]); (3, [5; 0]); (4, [4]); (5, [5]); (6, [6]); (0, [0])]
                     [(1, []); (2, [4; 6]); (3, [4; 6])].

Definition twice_grammar : grammar nat :=
  get_done (pr_grammar (no_parser 0)) (cfg_new (insertion_order nat) 0 1 twice_productions).

Definition twice_supplied : parser nat nat :=
  get_done (no_parser 0)
    (from_grammar_and_first_follow_symbols (insertion_order nat) twice_grammar twice_sets).

Example C62_case :
  (* these sets are accepted; without FOLLOW(C), or with a token in FIRST(b) that is no
     terminal of the grammar, they are not *)
  from_grammar_and_first_follow_symbols (L := nat) (insertion_order nat) twice_grammar twice_sets =
    Done twice_supplied /\
  from_grammar_and_first_follow_symbols (L := nat) (insertion_order nat) twice_grammar
    (FirstFollowSymbols (ffs_first_symbols twice_sets) [(1, []); (2, [4; 6])]) =
    Panicked PanicUnwrapNone /\
  from_grammar_and_first_follow_symbols (L := nat) (insertion_order nat) twice_grammar
    (FirstFollowSymbols ((4, [4; 9]) :: ffs_first_symbols twice_sets) (ffs_follow_symbols twice_sets)) =
    Panicked PanicUnwrapNone.
Proof. split; [|split]; vm_compute; reflexivity. Qed.

(** ** C63: adequate sets give exact parsers, whatever grammar *)

(** sets to which no textbook rule adds anything are adequate *)
Theorem C63_textbook_rules_adequate :
  forall (T : Type) (E : EqDec T) (eps : T) (ps : list (production T))
         (ffs : first_follow_symbols T) (S : T),
    productions_ok eps ps -> textbook_rules eps ps ffs -> at_least_textbook eps ps ffs S.
Proof. intros T E eps ps ffs S Hok R. now apply rules_textbook. Qed.
Print Assumptions C63_textbook_rules_adequate.

Theorem C63_adequate_sets_exact :
  forall (L T : Type) (E : EqDec T) (eps init : T) (ps : list (production T))
         (ffs : first_follow_symbols T) (self : parser L T)
         (tokens w : list (token L T)) (root : node L T),
    supplied_parser eps init ps ffs self -> at_least_textbook eps ps ffs init ->
    conflict_free (pr_transitions self) -> initial_ends_in_terminal eps ps init ->
    non_terminal ps init -> tree_for eps ps init root w -> prefix w tokens ->
    terminates_with (fun fuel => parse_from_tokens fuel self tokens) (Done (ResultOk root, [])).
Proof.
  intros L T E eps init ps ffs self tokens w root B Ht Hcf Hend Hn.
  exact (covering_exact (supplied_constructed B) Hcf (supplied_covering B Ht) Hend Hn).
Qed.
Print Assumptions C63_adequate_sets_exact.

Theorem C63_adequate_sets_decide :
  forall (L T : Type) (E : EqDec T) (eps init eof : T) (ps : list (production T))
         (ffs : first_follow_symbols T) (self : parser L T)
         (tokens before : list (token L T)) (t : token L T),
    supplied_parser eps init ps ffs self -> at_least_textbook eps ps ffs init ->
    no_left_recursion_from eps ps init -> eof_discipline eps ps init eof -> non_terminal ps init ->
    conflict_free (pr_transitions self) \/ prefix_free_productions eps ps \/
      determined_extents eps ps tokens (candidates self) ->
    tokens = before ++ [t] -> tok_type t = eof -> Forall (fun x => tok_type x <> eof) before ->
    exists res h,
      terminates_with (fun fuel => parse_from_tokens fuel self tokens) (Done (res, h)) /\
      ((exists root, res = ResultOk root) <->
       derives eps ps [init] (map (@tok_type L T) tokens) /\
       Forall (fun x => tok_type x <> eps /\ ~ non_terminal ps (tok_type x)) tokens) /\
      (forall root, res = ResultOk root -> tree_for eps ps init root tokens).
Proof.
  intros L T E eps init eof ps ffs self tokens before t B Ht Hlr He Hn [Hcf|Hd] Htok Hte Hb;
    pose proof (supplied_constructed B) as C; pose proof (supplied_covering B Ht) as Hcov.
  - eapply covering_decides; eauto; intros s; intros; discriminate.
  - destruct (covering_backtracking_decides _ C Hlr He Hn Hcov Hd Htok Hte Hb) as (res & H1 & H2 & _ & H4).
    eauto.
Qed.
Print Assumptions C63_adequate_sets_decide.

(** deciding [textbook_rules] on concrete sets *)
Section RulesCheck.
  Context {T : Type} {E : EqDec T}.
  Variable eps : T.
  Variable ps : list (production T).
  Variable ffs : first_follow_symbols T.

  Fixpoint places (l : list T) : list (list T * T * list T) :=
    match l with
    | [] => []
    | x :: l' => ([], x, l') :: map (fun q => (x :: fst (fst q), snd (fst q), snd q)) (places l')
    end.

  Lemma places_spec u x v : In (u, x, v) (places (u ++ x :: v)).
  Proof.
    induction u as [|y u IH]; simpl; auto. right. apply in_map_iff. exists (u, x, v). auto.
  Qed.

  Let first_of X := set_of (get_first_symbols ffs X).
  Let follow_of X := set_of (get_follow_symbols ffs X).
  Let mem (a : T) l := existsb (eqb a) l.
  Let empty X := mem eps (first_of X).

  Definition rules_check : bool :=
    forallb (fun p =>
      forallb (fun x => non_terminalb ps x || mem x (first_of x)) (p_output p) &&
      forallb (fun q => let '(u, Z, v) := q in
        implb (forallb empty u)
          (forallb (fun a => eqb a eps || mem a (first_of (p_input p))) (first_of Z))) (places (p_output p)) &&
      implb (forallb empty (p_output p)) (empty (p_input p)) &&
      forallb (fun q => let '(u, A, v) := q in
        implb (non_terminalb ps A)
          (implb (forallb empty v) (forallb (fun a => mem a (follow_of A)) (follow_of (p_input p))) &&
           forallb (fun r => let '(mid, Z, v') := r in
             implb (forallb empty mid)
               (forallb (fun a => eqb a eps || mem a (follow_of A)) (first_of Z))) (places v)))
        (places (p_output p))) ps.

  Lemma mem_In a l : mem a l = true <-> In a l.
  Proof.
    unfold mem. rewrite existsb_exists. split.
    - intros (x & Hx & He). apply eqb_iff in He. now subst.
    - intros H. exists a. split; auto. apply eqb_self.
  Qed.

  Lemma in_first_of X a : in_first ffs X a <-> In a (first_of X).
  Proof.
    unfold in_first, first_of. destruct (get_first_symbols ffs X) as [s|]; simpl.
    - split; [intros (s' & H & Hi); now inversion H|eauto].
    - split; [intros (s' & H & _); discriminate|intros []].
  Qed.
  Lemma in_follow_of X a : in_follow ffs X a <-> In a (follow_of X).
  Proof.
    unfold in_follow, follow_of. destruct (get_follow_symbols ffs X) as [s|]; simpl.
    - split; [intros (s' & H & Hi); now inversion H|eauto].
    - split; [intros (s' & H & _); discriminate|intros []].
  Qed.

  Lemma empty_all w : Forall (fun X => in_first ffs X eps) w -> forallb empty w = true.
  Proof.
    induction 1 as [|x w H _ IH]; simpl; auto. rewrite IH, andb_true_r. apply mem_In. now apply in_first_of.
  Qed.

  Lemma rules_check_ok : rules_check = true -> textbook_rules eps ps ffs.
  Proof.
    unfold rules_check. rewrite forallb_forall. intros H.
    assert (H1 : forall p, In p ps -> forall x, In x (p_output p) -> non_terminalb ps x || mem x (first_of x) = true).
    { intros p Hp x Hx. specialize (H p Hp). rewrite !andb_true_iff, !forallb_forall in H. now apply H. }
    assert (H2 : forall p, In p ps -> forall u Z v, p_output p = u ++ Z :: v -> forallb empty u = true ->
       forall a, In a (first_of Z) -> a <> eps -> In a (first_of (p_input p))).
    { intros p Hp u Z v Ho Hu a Ha Hne. specialize (H p Hp). rewrite !andb_true_iff in H.
      destruct H as [[[_ H] _] _]. rewrite forallb_forall in H.
      specialize (H (u, Z, v)). rewrite Ho in H. specialize (H (places_spec u Z v)). simpl in H.
      rewrite Hu in H. simpl in H. rewrite forallb_forall in H. specialize (H a Ha).
      apply orb_true_iff in H as [H|H]; [apply eqb_iff in H; congruence|now apply mem_In]. }
    assert (H3 : forall p, In p ps -> forallb empty (p_output p) = true -> empty (p_input p) = true).
    { intros p Hp Ho. specialize (H p Hp). rewrite !andb_true_iff, Ho in H. now destruct H as [[_ H] _]. }
    assert (H4 : forall p, In p ps -> forall u A v, p_output p = u ++ A :: v -> non_terminal ps A ->
       (forallb empty v = true -> incl (follow_of (p_input p)) (follow_of A)) /\
       (forall mid Z v', v = mid ++ Z :: v' -> forallb empty mid = true ->
          forall a, In a (first_of Z) -> a <> eps -> In a (follow_of A))).
    { intros p Hp u A v Ho HA. specialize (H p Hp). rewrite !andb_true_iff in H.
      destruct H as [_ H]. rewrite forallb_forall in H.
      specialize (H (u, A, v)). rewrite Ho in H. specialize (H (places_spec u A v)). simpl in H.
      apply non_terminalb_spec in HA. rewrite HA in H. simpl in H. apply andb_true_iff in H as [Ha Hb].
      split.
      - intros Hv a Hin. rewrite Hv in Ha. simpl in Ha. rewrite forallb_forall in Ha. now apply mem_In, Ha.
      - intros mid Z v' -> Hm a Hin Hne. rewrite forallb_forall in Hb.
        specialize (Hb (mid, Z, v') (places_spec mid Z v')). simpl in Hb. rewrite Hm in Hb. simpl in Hb.
        rewrite forallb_forall in Hb. specialize (Hb a Hin).
        apply orb_true_iff in Hb as [Hb|Hb]; [apply eqb_iff in Hb; congruence|now apply mem_In]. }
    split.
    - intros a [(p & Hp & Hin) Hn]. specialize (H1 p Hp a Hin). apply orb_true_iff in H1 as [H1|H1].
      + apply non_terminalb_spec in H1. contradiction.
      + now apply in_first_of, mem_In.
    - intros p u Z v a Hp Ho Hu HZ Hne. apply in_first_of. eapply H2; eauto; [now apply empty_all|].
      now apply in_first_of.
    - intros p Hp Ho. apply in_first_of, mem_In. apply H3; auto. now apply empty_all.
    - intros p u A mid Z v a Hp Ho HA Hm HZ Hne. apply in_follow_of.
      destruct (H4 p Hp u A _ Ho HA) as [_ H5]. eapply H5; eauto; [now apply empty_all|].
      now apply in_first_of.
    - intros p u A v a Hp Ho HA Hv Hf. apply in_follow_of.
      destruct (H4 p Hp u A _ Ho HA) as [H5 _]. apply H5; [now apply empty_all|]. now apply in_follow_of.
  Qed.
End RulesCheck.

(** the parser from the corrected sets decides, and accepts [b b c $], which the parser of
    [from_grammar] rejects *)
Example C63_case :
  supplied_parser 0 1 twice_productions twice_sets twice_supplied /\
  textbook_rules 0 twice_productions twice_sets /\
  conflict_free (pr_transitions twice_supplied) /\
  no_left_recursion_from 0 twice_productions 1 /\
  eof_discipline 0 twice_productions 1 6 /\ non_terminal twice_productions 1 /\
  let tokens := [Token (Some 7) 4; Token (Some 8) 4; Token (Some 9) 5; Token None 6] in
  (exists root, parse_from_tokens 60 twice_supplied tokens = Done (ResultOk root, [])) /\
  (exists self f, from_grammar (L := nat) (insertion_order nat) 60 twice_grammar = Done self /\
     parse_from_tokens 60 self tokens = Done (ResultErr f, [])).
Proof.
  split; [|split; [|split; [|split; [|split; [|split]]]]].
  - exists (insertion_order nat), (insertion_order nat), twice_grammar. split; vm_compute; reflexivity.
  - apply rules_check_ok. vm_compute. reflexivity.
  - apply conflict_free_check_ok. vm_compute. reflexivity.
  - apply no_left_recursion_anywhere.
    apply rank_check_ok with (N := fun x => (x =? 0) || (x =? 3)) (rank := fun x => match x with 1 => 4 | 2 => 3 | 3 => 2 | _ => 1 end).
    vm_compute. reflexivity.
  - split; [discriminate|]. split; [apply non_terminalb_false; reflexivity|].
    split; [|split]; intros p Hp; simpl in Hp.
    + intros Hin. decompose [or] Hp; subst; simpl in Hin; intuition discriminate.
    + intros Hi. decompose [or] Hp; subst; try discriminate; try contradiction.
      exists [2; 2]. split; [reflexivity|simpl; intuition discriminate].
    + intros Hi Hin. decompose [or] Hp; subst; simpl in Hin, Hi; intuition discriminate.
  - apply non_terminalb_spec. reflexivity.
  - split; [eexists; vm_compute; reflexivity|]. eexists. eexists.
    split; [vm_compute; reflexivity|]. vm_compute. reflexivity.
Qed.

(** ** C64: only the elements of the sets matter, and more of them is more candidates *)

Lemma chosen_within {T : Type} {E : EqDec T} (eps : T) (ffs ffs' : first_follow_symbols T) p a :
  sets_within ffs ffs' -> chosen_on eps ffs p a -> chosen_on eps ffs' p a.
Proof.
  intros [H1 H2] [X rest s Ho Hs Ha Hne|X rest s Y f Ho Hs He HY Hf Ha].
  - destruct (H1 _ _ Hs) as (s' & Hs' & Hi). eapply chosen_first; eauto.
  - destruct (H1 _ _ Hs) as (s' & Hs' & Hi). destruct (H2 _ _ Hf) as (f' & Hf' & Hi').
    eapply chosen_follow; eauto.
Qed.

Lemma sublist_refl {A : Type} (l : list A) : sublist l l.
Proof. induction l; constructor; auto. Qed.

Lemma sublist_length {A : Type} (l l' : list A) : sublist l l' -> length l <= length l'.
Proof. induction 1; simpl; lia. Qed.

Lemma sublist_one {A : Type} (l l' : list A) : sublist l l' -> length l' <= 1 -> l <> [] -> l = l'.
Proof.
  intros H. induction H as [|x l l' H IH|x l l' H IH]; simpl; intros Hl Hn; auto.
  - f_equal. destruct l' as [|? ?]; [inversion H; auto|simpl in Hl; lia].
  - exfalso. destruct l' as [|? ?]; [inversion H; subst; auto|simpl in Hl; lia].
Qed.

Theorem C64_larger_sets_more_candidates :
  forall (L T : Type) (E : EqDec T) (eps init : T) (ps : list (production T))
         (ffs ffs' : first_follow_symbols T) (self self' : parser L T),
    supplied_parser eps init ps ffs self -> supplied_parser eps init ps ffs' self' ->
    sets_within ffs ffs' ->
    forall A a l, transitions_get_productions (pr_transitions self) A a = Some l ->
      exists l', transitions_get_productions (pr_transitions self') A a = Some l' /\ sublist l l'.
Proof.
  intros L T E eps init ps ffs ffs' self self' B B' Hw A a l Hl.
  pose proof (constructed_built (supplied_constructed B)) as F.
  pose proof (constructed_built (supplied_constructed B')) as F'.
  destruct B as (ho1 & ho2 & g & Hg & H). destruct B' as (ho1' & ho2' & g' & Hg' & H').
  destruct (@C62_supplied_sets_accepted_iff_sufficient L T E ho1 ho2 eps init ps g ffs Hg) as (_ & _ & HC).
  destruct (HC _ H) as [_ HC1]. destruct (HC1 A a) as [Hn Hc].
  destruct (@C62_supplied_sets_accepted_iff_sufficient L T E ho1' ho2' eps init ps g' ffs' Hg') as (_ & _ & HC').
  destruct (HC' _ H') as [_ HC1']. destruct (HC1' A a) as [Hn' Hc'].
  destruct (transitions_get_productions (pr_transitions self') A a) as [l'|] eqn:Hl'.
  2:{ exfalso. pose proof (proj1 Hn' eq_refl) as Hno. apply Hn in Hno. congruence. }
  exists l'. split; auto. destruct (Hc l Hl) as (keep & -> & Hk). destruct (Hc' l' eq_refl) as (keep' & -> & Hk').
  apply sublist_filter; [apply sublist_refl|]. intros p Hp Hkp.
  apply filter_In in Hp as [Hp _]. apply Hk'; auto. eapply chosen_within; eauto. now apply Hk.
Qed.
Print Assumptions C64_larger_sets_more_candidates.

Lemma sublist_antisym {A : Type} (l l' : list A) : sublist l l' -> sublist l' l -> l = l'.
Proof.
  intros H. induction H as [|x l l' H IH|x l l' H IH]; intros H'; auto.
  - f_equal. apply IH. apply sublist_length in H as Hlen. inversion H' as [|? ? ? H1|? ? ? H1]; subst; auto.
    exfalso. apply sublist_length in H1. simpl in H1. lia.
  - exfalso. apply sublist_length in H, H'. simpl in H'. lia.
Qed.

Theorem C64_same_sets_same_results :
  forall (L T : Type) (E : EqDec T) (eps init : T) (ps : list (production T))
         (ffs ffs' : first_follow_symbols T) (self self' : parser L T),
    supplied_parser eps init ps ffs self -> supplied_parser eps init ps ffs' self' ->
    sets_within ffs ffs' -> sets_within ffs' ffs ->
    forall fuel tokens, parse_from_tokens fuel self tokens = parse_from_tokens fuel self' tokens.
Proof.
  intros L T E eps init ps ffs ffs' self self' B B' Hw Hw' fuel tokens.
  pose proof (C64_larger_sets_more_candidates B B' Hw) as H1.
  pose proof (C64_larger_sets_more_candidates B' B Hw') as H2.
  pose proof (constructed_built (supplied_constructed B)) as F.
  pose proof (constructed_built (supplied_constructed B')) as F'.
  pose proof (po_grammar (bf_of F)) as G. pose proof (po_grammar (bf_of F')) as G'.
  apply parse_ext.
  - intros x. apply eq_true_iff_eq. rewrite (is_non_terminal_spec G), (is_non_terminal_spec G'). tauto.
  - unfold get_epsilon_symbol. now rewrite (go_eps G), (go_eps G').
  - unfold get_initial_symbol. now rewrite (go_init G), (go_init G').
  - intros A a. unfold inner_get_token_productions.
    destruct (transitions_get_productions (pr_transitions self) A a) as [l|] eqn:Hl.
    + destruct (H1 _ _ _ Hl) as (l' & Hl' & Hs). rewrite Hl'.
      destruct (H2 _ _ _ Hl') as (l2 & Hl2 & Hs'). rewrite Hl in Hl2. inversion Hl2; subst l2.
      now rewrite (sublist_antisym Hs Hs').
    + destruct (transitions_get_productions (pr_transitions self') A a) as [l'|] eqn:Hl'; auto.
      destruct (H2 _ _ _ Hl') as (l2 & Hl2 & _). congruence.
  - now rewrite (bf_solver F), (bf_solver F').
Qed.
Print Assumptions C64_same_sets_same_results.

(** ** C28 for supplied sets *)
Theorem C28_supplied_sets :
  forall (L L' T : Type) (E : EqDec T) (f : L -> L') (eps init : T) (ps : list (production T))
         (ffs : first_follow_symbols T) (self : parser L T) (self' : parser L' T)
         (tokens : list (token L T)) (fuel : nat),
    supplied_parser eps init ps ffs self -> supplied_parser eps init ps ffs self' ->
    parse_from_tokens fuel self' (map (map_token f) tokens) =
    match parse_from_tokens fuel self tokens with
    | Done (r, _) => Done (map_result f r, [])
    | Panicked q => Panicked q
    | OutOfFuel => OutOfFuel
    end.
Proof.
  intros L L' T E f eps init ps ffs self self' tokens fuel B B'.
  assert (B2 : supplied_parser eps init ps ffs
     {| pr_grammar := pr_grammar self; pr_solver := None (A := syntax_error_solver L' T);
        pr_transitions := pr_transitions self |}).
  { destruct B as (ho1 & ho2 & g & Hg & H). exists ho1, ho2, g. split; auto.
    unfold from_grammar_and_first_follow_symbols, rdp_from in *. apply bind_done in H as (t & H1 & H2).
    inversion H2; subst self. rewrite H1. reflexivity. }
  assert (Hw : sets_within ffs ffs) by (split; intros X s Hs; exists s; split; auto; intros x Hx; exact Hx).
  rewrite (C64_same_sets_same_results B' B2 Hw Hw).
  pose proof (bf_solver (constructed_built (supplied_constructed B))) as Hsol.
  destruct self as [g s t]. simpl in *. subst s. apply parse_map_lex.
Qed.
Print Assumptions C28_supplied_sets.


(** the sets that [FirstFollowSymbols::from] computes give the parser of [from_grammar] *)
Theorem C64_computed_sets_same_results :
  forall (L T : Type) (E : EqDec T) (ho ho' : hash_order T) (eps init : T)
         (ps : list (production T)) (g : grammar T) (n : nat)
         (ffs : first_follow_symbols T) (self self' : parser L T),
    cfg_new ho eps init ps = Done g -> ffs_from ho' n g = Done ffs ->
    supplied_parser eps init ps ffs self -> built_parser eps init ps None self' ->
    forall fuel tokens, parse_from_tokens fuel self tokens = parse_from_tokens fuel self' tokens.
Proof.
  intros L T E ho ho' eps init ps g n ffs self self' Hg Hf B (ho1 & ho2 & m & g2 & Hg2 & H) fuel tokens.
  unfold from_grammar in H. apply bind_done in H as (ffs2 & Hf2 & H2).
  assert (B' : supplied_parser eps init ps ffs2 self') by (exists ho1, ho2, g2; auto).
  assert (Hsame : forall o o' : option (list T), same_set o o' ->
            forall s, o = Some s -> exists s', o' = Some s' /\ incl s s').
  { intros o o' Ho s ->. destruct o' as [s'|]; [|destruct Ho]. exists s'. split; auto.
    intros a. now apply Permutation_in. }
  apply (C64_same_sets_same_results B B'); split; intros X; apply Hsame;
    first [apply (@C09_first_follow_order_independent _ _ _ _ _ _ _ _ _ _ _ _ _ _ _ X Hg Hf Hg2 Hf2)
          |apply (@C09_first_follow_order_independent _ _ _ _ _ _ _ _ _ _ _ _ _ _ _ X Hg2 Hf2 Hg Hf)].
Qed.
Print Assumptions C64_computed_sets_same_results.

(** ** Growing a conflict-free parser (the common part of C64 and C65) *)
Lemma grown_keeps :
  forall (L T : Type) (E : EqDec T) (eps init : T) (ps ps' : list (production T))
         (solver solver' : option (syntax_error_solver L T)) (self self' : parser L T)
         (fuel : nat) (tokens : list (token L T)) (root : node L T) h,
    constructed_parser eps init ps solver self -> constructed_parser eps init ps' solver' self' ->
    extends_grammar ps ps' -> conflict_free (pr_transitions self') ->
    (forall A a l, transitions_get_productions (pr_transitions self) A a = Some l ->
       exists l', transitions_get_productions (pr_transitions self') A a = Some l' /\ sublist l l') ->
    parse_from_tokens fuel self tokens = Done (ResultOk root, h) ->
    terminates_with (fun fuel => parse_from_tokens fuel self' tokens) (Done (ResultOk root, [])).
Proof.
  intros L T E eps init ps ps' solver solver' self self' fuel tokens root h B B' Hext Hcf Hsub H.
  apply constructed_built in B. apply constructed_built in B'.
  pose proof (po_grammar (bf_of B)) as G. pose proof (po_grammar (bf_of B')) as G'.
  split; [discriminate|].
  eapply (@grow_parse L T E self self' (occurs_in_output ps)) with (tokens := tokens); eauto.
  - intros A a out Hin. apply Forall_forall. intros X HX.
    destruct (candidates_declared B A a out Hin) as (p & Hp & _ & Ho). exists p. split; auto. now rewrite Ho.
  - intros X HX. apply eq_true_iff_eq. rewrite (is_non_terminal_spec G), (is_non_terminal_spec G').
    split.
    + intros H'. destruct (non_terminal_dec ps X) as [|Hn]; auto.
      exfalso. apply (proj2 Hext X); auto. split; auto.
    + apply (ext_non_terminal Hext).
  - unfold get_epsilon_symbol. now rewrite (go_eps G), (go_eps G').
  - unfold get_initial_symbol. now rewrite (go_init G), (go_init G').
  - intros A a. unfold inner_get_token_productions.
    destruct (transitions_get_productions (pr_transitions self) A a) as [l|] eqn:Hl; [|congruence].
    intros Hne. destruct (Hsub _ _ _ Hl) as (l' & Hl' & Hs). rewrite Hl'.
    rewrite (sublist_one Hs (Hcf _ _ _ Hl')); auto. intros ->. now apply Hne.
  - intros A a. unfold inner_get_token_productions.
    destruct (transitions_get_productions (pr_transitions self) A a) as [l|] eqn:Hl; [|simpl; lia].
    destruct (Hsub _ _ _ Hl) as (l' & Hl' & Hs). rewrite map_length.
    apply sublist_length in Hs. specialize (Hcf _ _ _ Hl'). lia.
Qed.

(** larger sets, as long as they bring no conflict, lose no input and change no tree *)
Theorem C64_larger_sets_keep_trees :
  forall (L T : Type) (E : EqDec T) (eps init : T) (ps : list (production T))
         (ffs ffs' : first_follow_symbols T) (self self' : parser L T)
         (fuel : nat) (tokens : list (token L T)) (root : node L T) h,
    supplied_parser eps init ps ffs self -> supplied_parser eps init ps ffs' self' ->
    sets_within ffs ffs' -> conflict_free (pr_transitions self') ->
    parse_from_tokens fuel self tokens = Done (ResultOk root, h) ->
    terminates_with (fun fuel => parse_from_tokens fuel self' tokens) (Done (ResultOk root, [])).
Proof.
  intros L T E eps init ps ffs ffs' self self' fuel tokens root h B B' Hw Hcf H.
  eapply (grown_keeps _ _ (supplied_constructed B) (supplied_constructed B')); eauto.
  - split; [apply sublist_refl|]. intros x [_ Hx]. exact Hx.
  - exact (C64_larger_sets_more_candidates B B' Hw).
Qed.
Print Assumptions C64_larger_sets_keep_trees.

Definition twice_computed : first_follow_symbols nat :=
  get_done (FirstFollowSymbols [] []) (ffs_from (insertion_order nat) 200 twice_grammar).
Definition twice_parser : parser nat nat :=
  get_done (no_parser 0)
    (from_grammar_and_first_follow_symbols (insertion_order nat) twice_grammar twice_computed).

(** the corrected sets of C63 are larger than the computed ones, and still conflict-free *)
Example C64_case :
  supplied_parser 0 1 twice_productions twice_computed twice_parser /\
  built_parser 0 1 twice_productions None twice_parser /\
  sets_within twice_computed twice_sets /\ ~ sets_within twice_sets twice_computed /\
  conflict_free (pr_transitions twice_supplied) /\
  exists root, parse_from_tokens 60 twice_parser
    [Token (Some 7) 4; Token (Some 8) 5; Token (Some 9) 4; Token None 6] = Done (ResultOk root, []).
Proof.
  splits.
  - exists (insertion_order nat), (insertion_order nat), twice_grammar. split; vm_compute; reflexivity.
  - exists (insertion_order nat), (insertion_order nat), 200, twice_grammar.
    split; vm_compute; reflexivity.
  - split; intros X s Hs; unfold get_first_symbols, get_follow_symbols in *; vm_compute in Hs.
    + do 7 (destruct X as [|X]; [inversion Hs; subst s; eexists; split; [vm_compute; reflexivity|];
        intros x; simpl; intuition|]). discriminate.
    + do 7 (destruct X as [|X]; [first [discriminate|inversion Hs; subst s; eexists; split; [vm_compute; reflexivity|];
        intros x; simpl; intuition]|]). discriminate.
  - intros [_ H]. destruct (H 2 [4; 6]) as (s' & Hs & Hi); [reflexivity|].
    vm_compute in Hs. inversion Hs; subst s'. specialize (Hi 4 (or_introl eq_refl)). simpl in Hi.
    intuition discriminate.
  - apply conflict_free_check_ok. vm_compute. reflexivity.
  - eexists. vm_compute. reflexivity.
Qed.

(** ** C65: growing a grammar *)
Theorem C65_growing_grammar_keeps_trees :
  forall (L T : Type) (E : EqDec T) (eps init : T) (ps ps' : list (production T))
         (solver solver' : option (syntax_error_solver L T)) (self self' : parser L T)
         (fuel : nat) (tokens : list (token L T)) (root : node L T) h,
    built_parser eps init ps solver self -> built_parser eps init ps' solver' self' ->
    extends_grammar ps ps' -> conflict_free (pr_transitions self') ->
    parse_from_tokens fuel self tokens = Done (ResultOk root, h) ->
    terminates_with (fun fuel => parse_from_tokens fuel self' tokens) (Done (ResultOk root, [])).
Proof.
  intros L T E eps init ps ps' solver solver' self self' fuel tokens root h B B' Hext Hcf H.
  eapply (grown_keeps _ _ B B'); eauto. clear H.
  apply built_inv in B as (ho1 & ho2 & n & g & ffs & Hg & Hf & Hs).
  apply built_inv in B' as (ho1' & ho2' & n' & g' & ffs' & Hg' & Hf' & Hs').
  apply rdp_from_inv in Hs as (_ & _ & Ht). apply rdp_from_inv in Hs' as (_ & _ & Ht').
  exact (proj2 (proj2 (@C53_more_productions_more_candidates _ _ _ _ _ _ _ _ _ _ _ _ _ _ _ _ _ _ _ _ _ Hext Hg Hf Ht Hg' Hf' Ht'))).
Qed.
Print Assumptions C65_growing_grammar_keeps_trees.

(** 1 -> 2 $; 2 -> a 2 | b, then with 2 -> c d 2 added in the middle *)
Definition small_productions : list (production nat) :=
  [Production 1 [2; 9]; Production 2 [3; 2]; Production 2 [4]].
Definition grown_productions : list (production nat) :=
  [Production 1 [2; 9]; Production 2 [3; 2]; Production 2 [5; 6; 2]; Production 2 [4]].
Definition parser_of_productions (ps : list (production nat)) : parser nat nat :=
  get_done (no_parser 0)
    (from_grammar (insertion_order nat) 200
       (get_done (pr_grammar (no_parser 0)) (cfg_new (insertion_order nat) 0 1 ps))).

Example C65_case :
  built_parser 0 1 small_productions None (parser_of_productions small_productions) /\
  built_parser 0 1 grown_productions None (parser_of_productions grown_productions) /\
  extends_grammar small_productions grown_productions /\
  conflict_free (pr_transitions (parser_of_productions grown_productions)) /\
  exists root, parse_from_tokens 60 (parser_of_productions small_productions)
    [Token (Some 7) 3; Token (Some 8) 3; Token (Some 9) 4; Token None 9] = Done (ResultOk root, []).
Proof.
  splits.
  - exists (insertion_order nat), (insertion_order nat), 200,
      (get_done (pr_grammar (no_parser 0)) (cfg_new (insertion_order nat) 0 1 small_productions)).
    split; vm_compute; reflexivity.
  - exists (insertion_order nat), (insertion_order nat), 200,
      (get_done (pr_grammar (no_parser 0)) (cfg_new (insertion_order nat) 0 1 grown_productions)).
    split; vm_compute; reflexivity.
  - split; [repeat constructor|]. intros x [(p & Hp & Hx) Hn] (q & Hq & Hi). apply Hn.
    assert (Hx12 : x = 1 \/ x = 2) by (rewrite <- Hi; simpl in Hq; clear -Hq;
      decompose [or] Hq; subst; simpl; tauto).
    destruct Hx12; subst x; [exists (Production 1 [2; 9])|exists (Production 2 [4])]; simpl; auto 10.
  - apply conflict_free_check_ok. vm_compute. reflexivity.
  - eexists. vm_compute. reflexivity.
Qed.

(** Without conflict-freedom this fails: 1 -> 2 b $; 2 -> 3; 3 -> a accepts [a b $];
    with 3 -> a b added in front it does not (the choice inside 2 is not revisited). *)
Theorem C65_conflicts_can_lose_sentences :
  let ps := [Production 1 [2; 5; 9]; Production 2 [3]; Production 3 [4]] in
  let ps' := Production 3 [4; 5] :: ps in
  let tokens := [Token (Some 7) 4; Token (Some 8) 5; Token None 9] in
  extends_grammar ps ps' /\
  built_parser 0 1 ps None (parser_of_productions ps) /\
  built_parser 0 1 ps' None (parser_of_productions ps') /\
  (exists root, parse_from_tokens 60 (parser_of_productions ps) tokens = Done (ResultOk root, [])) /\
  (exists f, parse_from_tokens 60 (parser_of_productions ps') tokens = Done (ResultErr f, [])).
Proof.
  intros ps ps' tokens. splits.
  - split; [repeat constructor|]. intros x [(p & Hp & Hx) Hn] (q & Hq & Hi). apply Hn.
    assert (Hx123 : x = 1 \/ x = 2 \/ x = 3) by (rewrite <- Hi; simpl in Hq; clear -Hq;
      decompose [or] Hq; subst; simpl; tauto).
    destruct Hx123 as [-> | [-> | ->]];
      [exists (Production 1 [2; 5; 9])|exists (Production 2 [3])|exists (Production 3 [4])]; simpl; auto 10.
  - exists (insertion_order nat), (insertion_order nat), 200,
      (get_done (pr_grammar (no_parser 0)) (cfg_new (insertion_order nat) 0 1 ps)).
    split; vm_compute; reflexivity.
  - exists (insertion_order nat), (insertion_order nat), 200,
      (get_done (pr_grammar (no_parser 0)) (cfg_new (insertion_order nat) 0 1 ps')).
    split; vm_compute; reflexivity.
  - eexists. vm_compute. reflexivity.
  - eexists. vm_compute. reflexivity.
Qed.
