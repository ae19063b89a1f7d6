(** * The work of parsing an LL(1) grammar: C91 *)

From Verif Require Import BaseFacts GrammarFacts DerivFacts.
From Verif Require Import WorkSpec EffortSpec EffortFacts Examples LL1Check.
From Verif Require Import PropParse PropReports PropGuided PropWork PropLast PropHalt.

Set Implicit Arguments.

Section Facts.
  Context {L T : Type} {E : EqDec T}.
  Variable eps init : T.
  Variable ps : list (production T).
  Variable self : parser L T.
  Hypothesis B : constructed_parser eps init ps None self.

  Lemma same_candidates : forall A a, inner_get_token_productions self A a = candidates self A a.
  Proof. reflexivity. Qed.

  Lemma candidates_distinct : NoDup ps -> forall A a, NoDup (candidates self A a).
  Proof.
    intros Hnd A a. unfold candidates.
    destruct (transitions_get_productions (pr_transitions self) A a) as [l|] eqn:Hl; [|constructor].
    destruct (constructed_cells B _ _ Hl) as [keep ->]. unfold productions_of.
    assert (Hin : forall p, In p (filter keep (filter (fun p => eqb (p_input p) A) ps)) -> p_input p = A).
    { intros p Hp. apply filter_In in Hp as [Hp _]. apply filter_In in Hp as [_ Hp]. now apply eqb_iff in Hp. }
    assert (Hn : NoDup (filter keep (filter (fun p => eqb (p_input p) A) ps))) by now apply NoDup_filter, NoDup_filter.
    induction Hn as [|p l Hp Hn IH]; simpl; [constructor|]. constructor.
    - intros H. apply in_map_iff in H as (q & Hq & Hi). apply Hp.
      assert (q = p) as <-; auto. pose proof (Hin p (or_introl eq_refl)). pose proof (Hin q (or_intror Hi)).
      destruct p, q; simpl in *; congruence.
    - apply IH. intros q Hq. apply Hin. now right.
  Qed.

  (** the number of calls decides which budgets are enough *)
  Lemma effort_enough tok rest r k budget :
    ctry eps ps (tok :: rest) (candidates self) init 0 (candidates self init (tok_type tok)) r k ->
    S k <= budget -> exists fuel, parse_within budget fuel self (tok :: rest) <> OutOfFuel.
  Proof.
    intros H Hk. pose proof (constructed_built B) as F.
    destruct (@call_code _ _ _ _ _ _ _ (bf_of F) (bf_solver F) (tok :: rest) budget _ _ _ _ _ H true [] Hk) as (n0 & h1 & _ & Hr).
    exists n0. unfold parse_within. rewrite (init_symbol B).
    rewrite same_candidates. destruct r as [[[nd q] outs']| |].
    - destruct Hr as [_ Hr]. rewrite Hr by lia. discriminate.
    - destruct Hr as [e Hr]. rewrite Hr by lia. discriminate.
    - rewrite Hr by lia. discriminate.
  Qed.

  Lemma effort_exact tok rest r k budget :
    ctry eps ps (tok :: rest) (candidates self) init 0 (candidates self init (tok_type tok)) r k -> r <> RPast ->
    budget <= k -> forall fuel, parse_within budget fuel self (tok :: rest) = OutOfFuel.
  Proof.
    intros H Hnp Hk fuel. pose proof (constructed_built B) as F.
    destruct (@call_code _ _ _ _ _ _ _ (bf_of F) (bf_solver F) (tok :: rest) (S k) _ _ _ _ _ H true [] ltac:(simpl; lia)) as (n0 & h1 & Hl & Hr0).
    assert (Hr : exists y, forall n, n0 <= n -> inner_within (S k) n self (tok :: rest) init 0 (candidates self init (tok_type tok)) true [] = Done (y, h1)).
    { destruct r as [[[nd q] outs']| |]; [destruct Hr0 as [_ Hr0]; eauto|destruct Hr0 as [e Hr0]; eauto|now destruct Hnp]. }
    clear Hr0. destruct Hr as [y Hr].
    assert (Hd : parse_within budget fuel self (tok :: rest) = OutOfFuel \/
                 parse_within budget fuel self (tok :: rest) <> OutOfFuel)
      by (destruct (parse_within budget fuel self (tok :: rest)); [right; discriminate|right; discriminate|now left]).
    destruct Hd as [|Hne]; auto. exfalso.
    unfold parse_within in Hne. rewrite (init_symbol B) in Hne.
    rewrite same_candidates in Hne.
    pose proof (@within_grows L T E self (bf_solver F) (tok :: rest) budget (S k) fuel init 0
                  (candidates self init (tok_type tok)) true []) as Hg.
    destruct (inner_within budget fuel self (tok :: rest) init 0 (candidates self init (tok_type tok)) true [])
      as [[x h]|q|] eqn:Hw; simpl in Hg.
    - destruct Hg as (_ & Hb & Hg). specialize (Hg ltac:(lia)).
      pose proof (@within_refines L T E self (tok :: rest) (S k) fuel (fuel + n0) init 0
                    (candidates self init (tok_type tok)) true [] ltac:(lia)) as [Hx|Hx]; [congruence|].
      rewrite Hr in Hx by lia. rewrite Hg in Hx. inversion Hx; subst. simpl in Hl. lia.
    - pose proof (@C56_within_sound L T E self (tok :: rest) budget fuel (Panicked q) (bf_solver F)) as Hs.
      unfold parse_within in Hs. rewrite (init_symbol B), same_candidates, Hw in Hs. simpl in Hs.
      destruct (Hs eq_refl ltac:(discriminate)) as (_ & n1 & Hn1).
      pose proof (@C56_within_sound L T E self (tok :: rest) (S k) n0
                    (Done (parse_symbol_result_to_parse_result y, [])) (bf_solver F)) as Hs'.
      unfold parse_within in Hs'. rewrite (init_symbol B), same_candidates, Hr in Hs' by lia. simpl in Hs'.
      destruct (Hs' eq_refl ltac:(discriminate)) as (_ & n2 & Hn2).
      specialize (Hn1 (n1 + n2) ltac:(lia)). specialize (Hn2 (n1 + n2) ltac:(lia)). congruence.
    - now apply Hne.
  Qed.

  Lemma effort_needed tok rest k budget :
    ctry eps ps (tok :: rest) (candidates self) init 0 (candidates self init (tok_type tok)) RFail k ->
    budget <= k -> forall fuel, parse_within budget fuel self (tok :: rest) = OutOfFuel.
  Proof. intros H. apply (effort_exact H). discriminate. Qed.
End Facts.

(** ** C91: an LL(1) grammar is parsed with calls linear in the number of tokens,
    whatever conflicts the table has *)
Theorem C91_ll1_linear_work :
  forall (L T : Type) (E : EqDec T) (eps init : T) (ps : list (production T))
         (self : parser L T) (tokens : list (token L T)),
    constructed_parser eps init ps None self ->
    ll1 eps ps init -> NoDup ps ->
    no_left_recursion_from eps ps init -> non_terminal ps init ->
    exists r,
      terminates_with (fun fuel => parse_from_tokens fuel self tokens) r /\
      terminates_with
        (fun fuel => parse_within (ll1_calls_per_token ps * length tokens) fuel self tokens) r.
Proof.
  intros L T E eps init ps self tokens B Hll Hnd Hno Hi.
  pose proof (constructed_built B) as F.
  destruct (C19_parsing_terminates tokens B Hno ltac:(intros s Hs; discriminate)) as (r & Ht).
  exists r. split; auto. destruct tokens as [|tok rest].
  { destruct Ht as (Hr & n & Hn). split; auto. exists n. intros fuel Hf. exact (Hn fuel Hf). }
  assert (Hk : exists r k, ctry eps ps (tok :: rest) (candidates self) init 0
                             (candidates self init (tok_type tok)) r k).
  { destruct (C24_ordered_choice tok rest B) as (H1 & H2 & H3 & H4).
    destruct (H4 r Ht) as [[root ->]|[[f ->]| ->]].
    - apply H1 in Ht as (q & outs & Hc). apply (proj1 (choice_effort _ _ _ _)) in Hc as [k Hc]. eauto.
    - assert (Hf : exists f, terminates_with (fun fuel => parse_from_tokens fuel self (tok :: rest)) (Done (ResultErr f, []))) by eauto.
      apply H2 in Hf. apply (proj1 (choice_effort _ _ _ _)) in Hf as [k Hc]. eauto.
    - apply H3 in Ht. apply (proj1 (past_effort _ _ _ _)) in Ht as [k Hc]. eauto. }
  destruct Hk as (rr & k & Hk).
  assert (Hb : S k <= ll1_calls_per_token ps * length (tok :: rest)).
  { assert (Hps : 1 <= length ps) by (destruct Hi as (p & Hp & _); destruct ps; [destruct Hp|simpl; lia]).
    assert (Heps : ~ non_terminal ps eps) by apply (GrammarFacts.eps_not_nt (po_grammar (bf_of F))).
    pose proof (proj1 (@effort_bound L T E eps init ps (tok :: rest) (candidates self) (candidates_declared F)
                  (candidates_distinct B Hnd) (cell_size B) Hll Hno Hps) _ _ _ _ _ Hk tok eq_refl) as Hb.
    destruct Hb as (m & tried & left & Heq & Hm & Hz & Hf & _).
    - exists [], []. apply derives_refl.
    - split; [exact (candidates_distinct B Hnd init (tok_type tok))|]. split; [apply (cell_size B)|].
      intros out Ho. apply (candidates_declared F) in Ho as ([X o] & Hp & Hx & Hxo). simpl in *. now subst.
    - assert (Hc : clevel eps ps init 0) by (exists []; split; [now apply on_path_nil|reflexivity]).
      assert (Hl : length tried <= length ps).
      { pose proof (cell_size B init (tok_type tok)) as Hs. rewrite same_candidates, Heq, app_length in Hs. lia. }
      change (ll1_calls_per_token ps) with (c ps).
      assert (HN : 1 <= nts ps) by (destruct Hc as (path & Hp & Hlp); apply on_path_short in Hp; lia).
      assert (Hcr : R ps <= c ps) by (unfold c; nia).
      destruct (Nat.eq_dec m 0) as [Hm0|Hm0].
      + specialize (Hz Hm0 0 Hc). pose proof (@z_seq_bound T E ps Hps (nts ps - 1) (WorkSpec.longest_output ps) ltac:(lia) ltac:(lia)) as Hzb.
        assert (Hr : 1 + length ps * Z ps <= R ps) by (unfold R; lia).
        simpl length. nia.
      + destruct (Hf ltac:(lia)) as [_ Hf']. specialize (Hf' 0 Hc).
        assert (Hr : R ps = 1 + length ps * Z ps + WorkSpec.longest_output ps * G ps) by reflexivity.
        assert (length tried * Z ps <= length ps * Z ps) by (apply Nat.mul_le_mono_r; lia).
        assert (c ps * (m - 0) <= c ps * length (tok :: rest)) by (apply Nat.mul_le_mono_l; lia).
        rewrite (Nat.mul_comm (G ps)) in Hf'. lia. }
  destruct (effort_enough B Hk Hb) as [fuel Hne].
  pose proof (@C56_within_sound L T E self (tok :: rest) _ fuel _ (bf_solver F) eq_refl Hne) as Hs.
  assert (Heq : parse_within (ll1_calls_per_token ps * length (tok :: rest)) fuel self (tok :: rest) = r).
  { destruct Ht as (_ & n1 & Hn1), Hs as (_ & n2 & Hn2).
    specialize (Hn1 (n1 + n2) ltac:(lia)). specialize (Hn2 (n1 + n2) ltac:(lia)). cbv beta in *. congruence. }
  apply (@parse_within_terminates L T E self (tok :: rest) _ fuel r Heq). apply Ht.
Qed.
Print Assumptions C91_ll1_linear_work.

(** the grammar of C69, whose table has conflicts, is a case *)
Example C91_case :
  built_parser 0 1 ll1_reordered None reordered_parser /\
  ll1 0 ll1_reordered 1 /\ NoDup ll1_reordered /\
  no_left_recursion_from 0 ll1_reordered 1 /\ non_terminal ll1_reordered 1 /\
  ~ conflict_free (pr_transitions reordered_parser).
Proof.
  destruct C69_case as (H1 & H2 & _ & _ & H3 & _ & _ & H4 & H5 & _).
  repeat (split; [assumption|]). split; [|repeat (split; [assumption|]); assumption].
  repeat (constructor; [simpl; intuition discriminate|]). constructor.
Qed.

(** ** a production declared twice: still LL(1), but the work is exponential *)
Definition twice_productions : list (production nat) :=
  [Production 1 [2; 1; 3]; Production 1 [2; 1; 3]; Production 1 [5]].
Definition twice_parser : parser nat nat :=
  match build (L := nat) 0 1 twice_productions None 100 with Done p => p | _ => reordered_parser end.
(** the opening halves of [k] pairs and no closing half *)
Definition twice_tokens (k : nat) : list (token nat nat) :=
  repeat (Token None 2) k ++ [Token None 5].

Lemma twice_built : built_parser 0 1 twice_productions None twice_parser.
Proof. apply build_built with (fuel := 100). reflexivity. Qed.

Lemma twice_candidates_a : candidates twice_parser 1 2 = [[2; 1; 3]; [2; 1; 3]].
Proof. reflexivity. Qed.
Lemma twice_candidates_d : candidates twice_parser 1 5 = [[5]].
Proof. reflexivity. Qed.

Lemma twice_nth_a k p : p < k -> nth_error (twice_tokens k) p = Some (Token None 2).
Proof.
  intros H. unfold twice_tokens. rewrite nth_error_app1 by (rewrite repeat_length; lia).
  now apply nth_error_repeat.
Qed.
Lemma twice_nth_d k : nth_error (twice_tokens k) k = Some (Token None 5).
Proof. unfold twice_tokens. rewrite nth_error_app2 by (rewrite repeat_length; lia). now rewrite repeat_length, Nat.sub_diag. Qed.

Lemma twice_nt : non_terminal twice_productions 1.
Proof. apply non_terminalb_spec. reflexivity. Qed.
Lemma twice_t x : x <> 1 -> ~ non_terminal twice_productions x.
Proof. intros H (p & Hp & Hi). simpl in Hp. decompose [or] Hp; subst; simpl in H; congruence. Qed.

Lemma twice_effort k m : forall p, p + S m = k ->
  exists j, 2 ^ S m <= j /\
    ctry 0 twice_productions (twice_tokens k) (candidates twice_parser) 1 p
         [[2; 1; 3]; [2; 1; 3]] RFail j.
Proof.
  assert (Ht : forall p, p < k -> forall Xs r j, cseq 0 twice_productions (twice_tokens k) (candidates twice_parser) Xs (p + 1) r j ->
    cseq 0 twice_productions (twice_tokens k) (candidates twice_parser) (2 :: Xs) p (rcons (Node [] (Token None 2)) r) j).
  { intros p Hp Xs r j H. apply (@cseq_token nat nat 0 twice_productions _ _ Xs p (Token None 2)); auto.
    - apply twice_t. discriminate.
    - discriminate.
    - now apply twice_nth_a. }
  assert (Hboth : forall p j, cseq 0 twice_productions (twice_tokens k) (candidates twice_parser) [2; 1; 3] p RFail j ->
    ctry 0 twice_productions (twice_tokens k) (candidates twice_parser) 1 p [[2; 1; 3]; [2; 1; 3]] RFail (j + (j + 0))).
  { intros p j H. constructor; auto. constructor; auto. constructor. }
  induction m as [|m IH]; intros p Hp.
  - exists (2 * 2). split; [simpl; lia|]. apply Hboth. apply (Ht p ltac:(lia) [1; 3] RFail 2).
    replace (p + 1) with k by lia.
    eapply cseq_non_terminal; [exact twice_nt|apply twice_nth_d|]. cbn [tok_type]. rewrite twice_candidates_d.
    apply (@cbranch_retry nat nat 0 twice_productions _ _ 1 k [[5]] [3]
             (Node [Node [] (Token None 5)] (Token None 1)) (k + 1) [] RFail 0 0 1).
    + constructor. change (ROk ([Node [] (Token None 5)], k + 1)) with
        (rcons (Node [] (Token (L := nat) None 5)) (ROk ([], k + 1))).
      apply (@cseq_token nat nat 0 twice_productions _ _ [] k (Token None 5)); [now apply twice_t|discriminate|apply twice_nth_d|].
      constructor.
    + apply cseq_mismatch; [now apply twice_t|discriminate|]. intros tok Hn.
      assert (Hl : length (twice_tokens k) <= k + 1) by (unfold twice_tokens; rewrite app_length, repeat_length; simpl; lia).
      apply nth_error_None in Hl. congruence.
    + constructor. constructor.
  - destruct (IH (p + 1) ltac:(lia)) as (j & Hj & H). exists (2 * S j). split; [simpl in *; lia|].
    apply Hboth. apply (Ht p ltac:(lia) [1; 3] RFail (S j)).
    eapply cseq_non_terminal; [exact twice_nt|apply twice_nth_a; lia|]. cbn [tok_type]. rewrite twice_candidates_a.
    now constructor.
Qed.

Lemma twice_ll1 : ll1 0 twice_productions 1.
Proof.
  assert (H : forall A a p, textbook_cell 0 twice_productions 1 A a p ->
    exists x v, p_output p = x :: v /\ a = x /\ In p twice_productions).
  { intros A a p (Hp & _ & Hc). assert (Ho : exists x v, p_output p = x :: v /\ x <> 0 /\ x <> 1).
    { simpl in Hp. decompose [or] Hp; subst; simpl; try contradiction; eexists _, _; split; try reflexivity; split; discriminate. }
    destruct Ho as (x & v & Ho & H0 & H1). rewrite Ho in Hc. exists x, v. split; auto. split; auto.
    destruct Hc as [Hc|[Hc _]].
    - apply can_start_cons in Hc as [Hc|[Hc _]].
      + apply can_start_terminal in Hc; auto. now apply twice_t.
      + apply nullable_terminal in Hc; [congruence|now apply twice_t].
    - apply nullable_cons in Hc as [Hc _]. apply nullable_terminal in Hc; [congruence|now apply twice_t]. }
  intros A a p q Hp Hq. apply H in Hp as (x & v & Ho & -> & Hp), Hq as (y & w & Ho' & -> & Hq).
  simpl in Hp, Hq. decompose [or] Hp; decompose [or] Hq; subst; try contradiction; auto; simpl in *; congruence.
Qed.

Theorem C91_twice_exponential :
  built_parser 0 1 twice_productions None twice_parser /\
  ll1 0 twice_productions 1 /\ no_left_recursion 0 twice_productions /\
  non_terminal twice_productions 1 /\ ~ NoDup twice_productions /\
  forall k,
    length (twice_tokens k) = k + 1 /\
    (forall budget fuel, budget < 2 ^ k ->
       parse_within budget fuel twice_parser (twice_tokens k) = OutOfFuel).
Proof.
  split; [exact twice_built|]. split; [exact twice_ll1|]. split.
  { apply rank_check_ok with (N := fun x => Nat.eqb x 0)
      (rank := fun x => match x with 1 => 1 | _ => 0 end). reflexivity. }
  split; [exact twice_nt|]. split.
  { intros H. inversion H as [|? ? Hx _]; subst. apply Hx. now left. }
  intros k. split; [unfold twice_tokens; rewrite app_length, repeat_length; reflexivity|].
  intros budget fuel Hb. destruct k as [|k].
  - assert (budget = 0) by (simpl in Hb; lia). subst. destruct fuel; reflexivity.
  - destruct (@twice_effort (S k) k 0 eq_refl) as (j & Hj & H).
    change (twice_tokens (S k)) with (Token (L := nat) None 2 :: twice_tokens k) in *.
    apply (@effort_needed nat nat _ 0 1 twice_productions twice_parser (built_constructed twice_built)
             (Token None 2) (twice_tokens k) j); [exact H|lia].
Qed.
Print Assumptions C91_twice_exponential.
