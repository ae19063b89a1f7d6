(** * A grammar put together from independent grammars: C101 *)

From Verif Require Import BaseFacts GrammarFacts DerivFacts FollowFacts TransitionsFacts ParserSound ParserBuild.
From Verif Require Import RenameFacts MoreFacts ApartFacts PropSupplied Examples.
From Verif Require Export AssembleSpec.

Set Implicit Arguments.

Section Assemble.
  Context {T : Type} {E : EqDec T}.
  Variables eps new : T.
  Variable parts : list (part T).
  Hypothesis I : independent eps new parts.

  Lemma assemble_In p : In p (assemble new parts) <->
    (exists q, In q parts /\ p = Production new [fst q]) \/ (exists q, In q parts /\ In p (snd q)).
  Proof.
    unfold assemble. rewrite in_app_iff, in_map_iff, in_concat. split.
    - intros [(q & Hq & Hi)|(l & Hl & Hp)]; [left; eauto|right].
      apply in_map_iff in Hl as (q & <- & Hq). eauto.
    - intros [(q & Hq & Hi)|(q & Hq & Hp)]; [left; eauto|right].
      exists (snd q). split; auto. now apply in_map.
  Qed.

  Lemma mentions_input (ps : list (production T)) A : non_terminal ps A -> mentions ps A.
  Proof. intros (p & Hp & Hi). exists p; auto. Qed.

  (** two parts that share a non-terminal with a mention are the same place of the list *)
  Lemma part_separate before q after r :
    parts = before ++ q :: after -> In r (before ++ after) -> separate (snd q) (snd r).
  Proof.
    intros -> Hr. pose proof (independent_separate I) as Hs. clear I.
    induction before as [|b before IH]; simpl in *.
    - inversion Hs as [|? ? Hf _]; subst. rewrite Forall_forall in Hf. auto.
    - inversion Hs as [|? ? Hf Hs']; subst. rewrite Forall_forall in Hf. destruct Hr as [<-|Hr].
      + destruct (Hf q) as [H1 H2]; [apply in_elt|]. split; auto.
      + apply IH; auto.
  Qed.

  Lemma declared_app (l1 l2 : list (production T)) x : declared_for (l1 ++ l2) x = declared_for l1 x ++ declared_for l2 x.
  Proof. apply filter_app. Qed.

  Lemma declared_none (l : list (production T)) x : (forall p, In p l -> p_input p <> x) -> declared_for l x = [].
  Proof.
    induction l as [|p l IH]; intros H; simpl; auto.
    destruct (eq_dec (p_input p) x) as [He|He]; [elim (H p); simpl; auto|]. apply IH. intros; apply H; simpl; auto.
  Qed.

  Lemma new_no_follow a : ~ follow_rules (eps := eps) (ps := assemble new parts) new a.
  Proof.
    assert (Hout : forall p, In p (assemble new parts) -> ~ In new (p_output p)).
    { intros p Hp Hn. apply assemble_In in Hp as [(q & Hq & ->)|(q & Hq & Hp)].
      - simpl in Hn. destruct Hn as [Hn|[]]. apply (proj2 (independent_new I) q Hq).
        apply mentions_input. rewrite <- Hn. now apply (independent_starts I).
      - apply (proj2 (independent_new I) q Hq). exists p; auto. }
    intros Hf. inversion Hf as [p u A mid Z v a' Hp Ho|p u A v a' Hp Ho]; subst;
      apply (Hout p Hp); rewrite Ho; apply in_elt.
  Qed.

  Section One.
    Variables X : T.
    Variable ps : list (production T).
    Variables before after : list (part T).
    Hypothesis Hparts : parts = before ++ (X, ps) :: after.

    Lemma one_In : In (X, ps) parts. Proof. rewrite Hparts. apply in_elt. Qed.

    Lemma other_part q A : In q (before ++ after) -> non_terminal ps A -> ~ mentions (snd q) A.
    Proof. intros Hq. apply (proj1 (part_separate _ _ _ _ Hparts Hq)). Qed.

    Lemma part_cases q : In q parts -> q = (X, ps) \/ In q (before ++ after).
    Proof. rewrite Hparts. rewrite !in_app_iff. simpl. intuition. Qed.

    Lemma new_not_nt : ~ non_terminal ps new.
    Proof. intros Hn. apply (proj2 (independent_new I) (X, ps) one_In). now apply mentions_input. Qed.

    Lemma assemble_quietly : adds_quietly eps ps (assemble new parts).
    Proof.
      split.
      - intros A HA. unfold assemble. rewrite declared_app, declared_none.
        2:{ intros p Hp. apply in_map_iff in Hp as (q & <- & _). simpl. intros <-. now apply new_not_nt. }
        rewrite Hparts, map_app, concat_app. cbn [map concat snd].
        assert (Hnone : forall l, incl l (before ++ after) -> declared_for (concat (map snd l)) A = []).
        { intros l Hl. apply declared_none. intros p Hp Hi. apply in_concat in Hp as (qs & Hqs & Hp).
          apply in_map_iff in Hqs as (q & <- & Hq). apply (other_part q (A := A)); auto. exists p; auto. }
        rewrite !declared_app, !Hnone; [rewrite app_nil_r; auto| |]; intros q Hq; apply in_or_app; auto.
      - intros x [(p & Hp & Hx) Hn] (q & Hq & Hi). apply assemble_In in Hq as [(r & Hr & ->)|(r & Hr & Hq)].
        + simpl in Hi. subst x. apply (proj2 (independent_new I) (X, ps) one_In). exists p; auto.
        + destruct (part_cases r Hr) as [->|Hr'].
          * apply Hn. exists q; auto.
          * apply (proj2 (part_separate _ _ _ _ Hparts Hr') x); [exists q; auto|exists p; auto].
      - intros p u A v Hp Ho HA. apply assemble_In in Hp as [(r & Hr & ->)|(r & Hr & Hp)].
        + right. simpl in Ho. destruct u as [|? u]; [|destruct u; discriminate]. simpl in Ho.
          injection Ho as _ Ho2. split; auto. simpl. intros a. apply new_no_follow.
        + destruct (part_cases r Hr) as [->|Hr']; auto. exfalso. apply (other_part r Hr' HA).
          exists p. split; auto. right. rewrite Ho. apply in_elt.
    Qed.
  End One.

  Lemma assemble_starts q a : In q parts -> can_start eps (snd q) [fst q] a ->
    selects_sem (eps := eps) (ps := assemble new parts) (Production new [fst q]) a.
  Proof.
    intros Hq Hc. destruct q as [X ps]. simpl in *.
    apply in_split in Hq as Hs. destruct Hs as (before & after & Hparts).
    exists X, []. split; auto. left. apply (apart_can_start (assemble_quietly _ _ _ _ Hparts)); auto.
    left. apply (independent_starts I _ Hq).
  Qed.

  Lemma assemble_excluded q a : In q parts ->
    ~ can_start eps (snd q) [fst q] a -> ~ nullable eps (snd q) [fst q] ->
    ~ selects_sem (eps := eps) (ps := assemble new parts) (Production new [fst q]) a.
  Proof.
    intros Hq Hc Hn. destruct q as [X ps]. simpl in *.
    apply in_split in Hq as Hs. destruct Hs as (before & after & Hparts).
    pose proof (independent_starts I _ Hq) as Hx. simpl in Hx.
    pose proof (assemble_quietly _ _ _ _ Hparts) as Hquiet.
    intros (Y & rest & Ho & [HY|[HY _]]); simpl in Ho; inversion Ho; subst Y rest.
    - apply Hc. apply (apart_can_start Hquiet) in HY; auto. left; auto.
    - apply Hn. apply (apart_nullable Hquiet) in HY; auto. constructor; auto. left; auto.
  Qed.

  Lemma assemble_declared : productions_of (assemble new parts) new = map (fun q => Production new [fst q]) parts.
  Proof.
    rewrite <- declared_productions_of. unfold assemble. rewrite declared_app, (declared_none (concat _)).
    - rewrite app_nil_r. induction parts as [|q l IH]; simpl; auto.
      destruct (eq_dec new new) as [_|H]; [|congruence]. f_equal. apply IH.
      split; [split; [apply (independent_new I)|]| |].
      + intros r Hr. apply (proj2 (independent_new I)). simpl; auto.
      + intros r Hr. apply (independent_starts I). simpl; auto.
      + pose proof (independent_separate I) as H. inversion H; auto.
    - intros p Hp Hi. apply in_concat in Hp as (qs & Hqs & Hp). apply in_map_iff in Hqs as (q & <- & Hq).
      apply (proj2 (independent_new I) q Hq). exists p; auto.
  Qed.

  Lemma start_differs X ps before after q : parts = before ++ (X, ps) :: after -> In q (before ++ after) -> fst q <> X.
  Proof.
    intros Hparts Hq He.
    assert (Hin : In q parts) by (rewrite Hparts; apply in_app_iff in Hq; apply in_or_app; simpl; intuition).
    pose proof (independent_starts I _ Hin) as Hn. rewrite He in Hn.
    apply (proj2 (part_separate _ _ _ _ Hparts Hq) X Hn). apply mentions_input.
    apply (independent_starts I (X, ps)). rewrite Hparts. apply in_elt.
  Qed.
End Assemble.

Lemma filter_none {A : Type} (f : A -> bool) l : (forall x, In x l -> f x = false) -> filter f l = [].
Proof.
  induction l as [|x l IH]; intros H; simpl; auto. rewrite (H x) by (simpl; auto). apply IH. intros; apply H; simpl; auto.
Qed.

Section Cell.
  Context {L T : Type} {E : EqDec T}.
  Variables eps new : T.
  Variable parts : list (part T).
  Hypothesis I : independent eps new parts.
  Variable solver : option (syntax_error_solver L T).
  Variable self' : parser L T.
  Hypothesis B' : built_parser eps new (assemble new parts) solver self'.

  Lemma new_cell a : exists f : production T -> bool,
    (forall p, In p (assemble new parts) ->
       (f p = true <-> selects_sem (eps := eps) (ps := assemble new parts) p a)) /\
    inner_get_token_productions self' new a =
      map (@p_output T) (filter f (map (fun q => Production new [fst q]) parts)).
  Proof.
    apply built_inv in B' as (ho1' & ho2' & fuel' & g' & ffs' & Hg' & Hf' & Hs').
    apply cfg_new_grammar_of in Hg' as G'.
    destruct (ffs_from_exact G' _ _ Hf') as [Hx1' Hx2'].
    destruct (rdp_from_inv _ _ _ _ Hs') as (_ & _ & Ht').
    exists (fun p => selectsb (g := g') ho2' ffs' p a). split.
    - intros p Hp. apply (@selectsb_spec _ _ _ _ _ _ G' ho2' ffs' Hx1' Hx2' p a Hp).
    - unfold inner_get_token_productions. rewrite (transitions_cells G' _ _ Ht').
      assert (Hd : productions_of (assemble new parts) new = map (fun q => Production new [fst q]) parts)
        by exact (assemble_declared I).
      rewrite Hd.
      destruct (is_non_terminal g' new && is_terminal g' a) eqn:Hb; auto.
      rewrite filter_none; auto. intros p Hp. destruct (selectsb _ _ _ _) eqn:Hsel; auto. exfalso.
      rewrite <- Hd in Hp. apply productions_of_In in Hp as [Hp Hi].
      apply (@selectsb_spec _ _ _ _ _ _ G' ho2' ffs' Hx1' Hx2' p a Hp) in Hsel.
      apply (selects_sem_terminal Hp) in Hsel as [Hsel _].
      apply (is_terminal_spec G') in Hsel. rewrite Hsel, andb_true_r in Hb.
      assert (Hn : non_terminal (assemble new parts) new) by (exists p; auto).
      apply (is_non_terminal_spec G') in Hn. congruence.
  Qed.

  Lemma new_cell_one X ps a : In (X, ps) parts -> can_start eps ps [X] a ->
    (forall Y qs, In (Y, qs) parts -> Y <> X -> ~ can_start eps qs [Y] a /\ ~ nullable eps qs [Y]) ->
    inner_get_token_productions self' new a = [[X]].
  Proof.
    intros Hin Hc Hother. destruct (new_cell a) as (f & Hf & ->).
    apply in_split in Hin as Hs. destruct Hs as (before & after & Hparts).
    assert (Hsel : forall q, In q parts -> In (Production new [fst q]) (assemble new parts)).
    { intros q Hq. apply assemble_In. left; eauto. }
    assert (Hno : forall l, incl l (before ++ after) -> filter f (map (fun q => Production new [fst q]) l) = []).
    { intros l Hl. apply filter_none. intros p Hp. apply in_map_iff in Hp as ([Y qs] & <- & Hq).
      apply Hl in Hq. pose proof (start_differs I _ _ _ _ Hparts Hq) as Hne.
      assert (Hq' : In (Y, qs) parts) by (rewrite Hparts; apply in_app_iff in Hq; apply in_or_app; simpl; intuition).
      destruct (f _) eqn:Hfe; auto. exfalso. apply Hf in Hfe; [|apply Hsel; auto].
      destruct (Hother Y qs Hq' Hne) as [H1 H2]. apply (assemble_excluded I (Y, qs) (a := a)) in Hfe; auto. }
    rewrite Hparts, map_app, filter_app. cbn [map filter fst].
    assert (Hfx : f (Production new [X]) = true).
    { apply Hf; [apply (Hsel _ Hin)|]. apply (assemble_starts I _ Hin Hc). }
    rewrite Hfx, !Hno; [reflexivity| |]; intros q Hq; apply in_or_app; auto.
  Qed.

  Lemma new_cell_none a :
    (forall Y qs, In (Y, qs) parts -> ~ can_start eps qs [Y] a /\ ~ nullable eps qs [Y]) ->
    inner_get_token_productions self' new a = [].
  Proof.
    intros Hother. destruct (new_cell a) as (f & Hf & ->). rewrite filter_none; auto.
    intros p Hp. apply in_map_iff in Hp as ([Y qs] & <- & Hq). destruct (f _) eqn:Hfe; auto. exfalso.
    apply Hf in Hfe; [|apply assemble_In; left; eauto].
    destruct (Hother Y qs Hq) as [H1 H2]. apply (assemble_excluded I (Y, qs) (a := a)) in Hfe; auto.
  Qed.
End Cell.

Lemma inner_unfold {L T : Type} {E : EqDec T} n (self : parser L T) tokens X pos prods single h :
  inner_parse_from_tokens (S n) self tokens X pos prods single h =
  inner_parse_from_tokens_step self tokens (inner_parse_from_tokens n self tokens) n X pos prods single h.
Proof. reflexivity. Qed.

Lemma prod_unfold {L T : Type} {E : EqDec T} (self : parser L T) tokens rec n X out single states pos h :
  inner_parse_from_tokens_production self tokens rec (S n) X out single states pos h =
  (if length states <? length out then
     production_symbol <- unwrap (nth_error out (length states)) ;;
     '(r, h') <- inner_parse_from_tokens_production_symbol self tokens rec production_symbol pos single h ;;
     match r with
     | SymOk ps => inner_parse_from_tokens_production self tokens rec n X out single (StParsing ps :: states)
                     (ps_final_token_position ps) h'
     | SymErr fs =>
         '(states', popped, h'') <- inner_parse_pop_states rec states single [] h' ;;
         match popped with
         | Some failed => Done (inner_parse_from_tokens_production_build_failed_symbol fs out failed, pos, h'')
         | None => match states' with
                   | [] => Panicked PanicSubUnderflow
                   | st :: _ => inner_parse_from_tokens_production self tokens rec n X out single states'
                                  (state_final_token_position st) h''
                   end
         end
     | SymFix fs => inner_parse_from_tokens_production self tokens rec n X out single (StFixed fs :: states)
                      (fst_final_token_position fs) h'
     end
   else pr <- inner_parse_from_tokens_production_build_node X (rev states) ;; Done (pr, pos, h)).
Proof. reflexivity. Qed.

(** ** the first token chooses the part, and the part's own parser does the rest *)
Theorem C101_assembled_parser :
  forall (L T : Type) (E : EqDec T) (eps new : T) (parts : list (part T))
         (X : T) (ps : list (production T)) (solver : option (syntax_error_solver L T))
         (self self' : parser L T) (first : token L T) (rest : list (token L T)) (fuel : nat),
    independent eps new parts -> In (X, ps) parts ->
    built_parser eps X ps solver self ->
    built_parser eps new (assemble new parts) solver self' ->
    can_start eps ps [X] (tok_type first) ->
    (forall Y qs, In (Y, qs) parts -> Y <> X ->
       ~ can_start eps qs [Y] (tok_type first) /\ ~ nullable eps qs [Y]) ->
    2 <= fuel ->
    parse_from_tokens (S fuel) self' (first :: rest) =
    under new solver (first :: rest) (parse_from_tokens fuel self (first :: rest)).
Proof.
  intros L T E eps new parts X ps solver self self' first rest fuel I Hin B B' Hc Hother Hfuel.
  pose proof (bf_of (built_built B)) as P. pose proof (bf_of (built_built B')) as P'.
  pose proof (new_cell_one I B' Hin Hc Hother) as Hcell.
  apply in_split in Hin as Hs. destruct Hs as (before & after & Hparts).
  pose proof (assemble_quietly I _ _ _ _ Hparts) as Q.
  pose proof (independent_starts I _ Hin) as HX. simpl in HX.
  assert (Hi : get_initial_symbol (pr_grammar self) = X) by apply (go_init (po_grammar P)).
  assert (Hi' : get_initial_symbol (pr_grammar self') = new) by apply (go_init (po_grammar P')).
  assert (Hcells : forall A a, non_terminal ps A ->
    inner_get_token_productions self' A a = inner_get_token_productions self A a)
    by (intros A a HA; eapply apart_cells; eauto).
  set (tokens := first :: rest) in *.
  assert (Hagree : forall (n pos : nat) prods single h, @good_prods T ps X prods -> pos < length tokens ->
    inner_parse_from_tokens n self' tokens X pos prods single h =
    inner_parse_from_tokens n self tokens X pos prods single h).
  { intros n pos prods single h. apply (@agree_inner L T E eps X ps self self' P).
    - unfold get_epsilon_symbol. rewrite (go_eps (po_grammar P)). exact (go_eps (po_grammar P')).
    - rewrite (bf_solver (built_built B)). exact (bf_solver (built_built B')).
    - intros Y HY. apply eq_true_iff_eq.
      rewrite (is_non_terminal_spec (po_grammar P)), (is_non_terminal_spec (po_grammar P')).
      split; [|apply (apart_nt Q)]. intros Hn. destruct (non_terminal_dec ps Y) as [|Hn']; auto.
      exfalso. apply (quiet_terminals Q) with (x := Y); auto. split; auto.
    - intros A a [HA| -> ]; auto. }
  destruct fuel as [|[|k]]; try lia.
  assert (Hnt : is_non_terminal (pr_grammar self') X = true)
    by (apply (is_non_terminal_spec (po_grammar P')); now apply (apart_nt Q)).
  assert (Hpart : parse_from_tokens (S (S k)) self tokens =
    ('(r, h) <- inner_parse_from_tokens (S (S k)) self tokens X 0
                  (inner_get_token_productions self X (tok_type first)) true [] ;;
     Done (parse_symbol_result_to_parse_result r, h))).
  { rewrite <- Hi at 1 2. reflexivity. }
  assert (Hwhole : parse_from_tokens (S (S (S k))) self' tokens =
    ('(r, h) <- inner_parse_from_tokens (S (S (S k))) self' tokens new 0 [[X]] true [] ;;
     Done (parse_symbol_result_to_parse_result r, h))).
  { rewrite <- Hcell, <- Hi'. reflexivity. }
  rewrite Hpart, Hwhole. clear Hpart Hwhole.
  assert (Hstep : inner_parse_from_tokens_production_symbol self' tokens (inner_parse_from_tokens (S (S k)) self' tokens) X 0 true [] =
    inner_parse_from_tokens (S (S k)) self tokens X 0 (inner_get_token_productions self X (tok_type first)) true []).
  { unfold inner_parse_from_tokens_production_symbol, inner_parse_from_tokens_production_non_terminal.
    rewrite Hnt. change (nth_error tokens 0) with (Some first). cbv beta iota.
    rewrite Hcells by auto. apply Hagree; [apply (token_productions_good P)|simpl; lia]. }
  set (outcome := inner_parse_from_tokens (S (S k)) self tokens X 0 _ true []) in *.
  rewrite inner_unfold. unfold inner_parse_from_tokens_step, inner_parse_from_tokens_try_parse_productions.
  change (is_child_single_path true [[X]]) with true. cbn [try_parse_productions_loop].
  rewrite prod_unfold. change (length (@nil (state L T)) <? length [X]) with true. cbv iota.
  change (unwrap (nth_error [X] (length (@nil (state L T))))) with (@Done T X). cbn [bind].
  rewrite Hstep. clearbody outcome.
  destruct outcome as [[[st|fs|fs] h]|q|]; cbn [bind under parse_symbol_result_to_parse_result]; auto.
  cbn [inner_parse_pop_states bind app]. unfold inner_parse_from_tokens_try_fix_productions.
  rewrite (bf_solver (built_built B')). destruct solver as [ask|]; cbn; auto.
  destruct (ask h _) as [[fr|]| |]; reflexivity.
Qed.
Print Assumptions C101_assembled_parser.

(** a first token no part can start with *)
Theorem C101_no_part_starts :
  forall (L T : Type) (E : EqDec T) (eps new : T) (parts : list (part T))
         (self' : parser L T) (first : token L T) (rest : list (token L T)) (fuel : nat),
    independent eps new parts ->
    built_parser eps new (assemble new parts) None self' ->
    (forall Y qs, In (Y, qs) parts -> ~ can_start eps qs [Y] (tok_type first) /\ ~ nullable eps qs [Y]) ->
    1 <= fuel ->
    parse_from_tokens fuel self' (first :: rest) = Done (ResultErr (FailedSymbol [] new), []).
Proof.
  intros L T E eps new parts self' first rest fuel I B' Hother Hfuel.
  pose proof (bf_of (built_built B')) as P'.
  pose proof (new_cell_none I B' Hother) as Hcell.
  destruct fuel as [|n]; [lia|].
  assert (Hi' : get_initial_symbol (pr_grammar self') = new) by apply (go_init (po_grammar P')).
  unfold parse_from_tokens. rewrite Hi', Hcell. rewrite inner_unfold.
  unfold inner_parse_from_tokens_step, inner_parse_from_tokens_try_fix_productions.
  rewrite (bf_solver (built_built B')). reflexivity.
Qed.
Print Assumptions C101_no_part_starts.

(** the expression grammar and a left-recursive list of 7s, which only share the end marker *)
Definition sevens : list (production nat) :=
  [Production 11 [12; 9]; Production 12 [12; 7]; Production 12 [7]].
Definition two_parts : list (part nat) := [(1, small_productions); (11, sevens)].

Lemma head_stays {T : Type} (eps : T) (ps : list (production T)) (good : T -> Prop) s t :
  (forall p, In p ps -> good (p_input p) -> exists x rest, p_output p = x :: rest /\ good x) -> ~ good eps ->
  derives eps ps s t -> (exists x rest, s = x :: rest /\ good x) -> exists x rest, t = x :: rest /\ good x.
Proof.
  intros Hp He. induction 1 as [|u v w Hs _ IH]; auto. intros (x & rest & -> & Hx). apply IH. clear IH.
  inversion Hs as [u1 v1 p Hin Heq|u1 v1 Heq]; subst; destruct u1 as [|y u1]; simpl in *; inversion Heq; subst; eauto.
  - destruct (Hp p Hin Hx) as (y & r & -> & Hy). simpl. eauto.
  - contradiction.
Qed.

Lemma C101_case :
  let whole := assemble 20 two_parts in
  independent 0 20 two_parts /\ In (1, small_productions) two_parts /\
  built_parser (L := nat) 0 1 small_productions None (parser_of_productions small_productions) /\
  (exists self', built_parser (L := nat) 0 20 whole None self') /\
  can_start 0 small_productions [1] 3 /\
  (forall Y qs, In (Y, qs) two_parts -> Y <> 1 -> ~ can_start 0 qs [Y] 3 /\ ~ nullable 0 qs [Y]) /\
  (exists root, parse_from_tokens 60 (parser_of_productions small_productions)
    [Token (Some 7) 3; Token (Some 8) 3; Token (Some 9) 4; Token None 9] = Done (ResultOk root, [])) /\
  (forall Y qs, In (Y, qs) two_parts -> ~ can_start 0 qs [Y] 8 /\ ~ nullable 0 qs [Y]).
Proof.
  intros whole.
  assert (Hh1 : forall t, derives 0 small_productions [1] t -> exists x rest, t = x :: rest /\ (x = 1 \/ x = 2 \/ x = 3 \/ x = 4 \/ x = 9)).
  { intros t Ht. apply (@head_stays nat 0 small_productions (fun x => x = 1 \/ x = 2 \/ x = 3 \/ x = 4 \/ x = 9) [1] t); [|lia|exact Ht|do 2 eexists; split; [reflexivity|lia]].
    intros p Hp _. unfold small_productions in Hp. simpl in Hp.
    decompose [or] Hp; try contradiction; subst p; simpl; do 2 eexists; (split; [reflexivity|lia]). }
  assert (Hh2 : forall t, derives 0 sevens [11] t -> exists x rest, t = x :: rest /\ (x = 11 \/ x = 12 \/ x = 7)).
  { intros t Ht. apply (@head_stays nat 0 sevens (fun x => x = 11 \/ x = 12 \/ x = 7) [11] t); [|lia|exact Ht|do 2 eexists; split; [reflexivity|lia]].
    intros p Hp _. unfold sevens in Hp. simpl in Hp.
    decompose [or] Hp; try contradiction; subst p; simpl; do 2 eexists; (split; [reflexivity|lia]). }
  assert (Hno : forall Y qs a, In (Y, qs) two_parts -> a = 8 \/ (a = 3 /\ Y <> 1) -> ~ can_start 0 qs [Y] a /\ ~ nullable 0 qs [Y]).
  { intros Y qs a Hq Ha. unfold two_parts in Hq. simpl in Hq. destruct Hq as [Hq|[Hq|[]]]; inversion Hq; subst Y qs;
      (split; [intros (_ & _ & v & Hv)|intros Hv]);
      ((destruct (Hh1 _ Hv) as (x & r & Hx & Hor)) || (destruct (Hh2 _ Hv) as (x & r & Hx & Hor))); inversion Hx; subst; lia. }
  splits.
  - split.
    + split; [lia|]. intros q Hq (p & Hp & Hm). unfold two_parts in Hq. simpl in Hq.
      decompose [or] Hq; try contradiction; subst q; unfold small_productions, sevens in Hp; simpl in Hp;
        decompose [or] Hp; try contradiction; subst p; simpl in Hm; lia.
    + intros q Hq. unfold two_parts in Hq. simpl in Hq. decompose [or] Hq; try contradiction; subst q.
      * exists (Production 1 [2; 9]). simpl; auto.
      * exists (Production 11 [12; 9]). simpl; auto.
    + unfold two_parts. repeat constructor; simpl; intros A (p & Hp & Hi) (q & Hq & Hm);
        unfold small_productions, sevens in Hp, Hq; simpl in Hp, Hq;
        decompose [or] Hp; try contradiction; subst p; simpl in Hi; subst A;
        decompose [or] Hq; try contradiction; subst q; simpl in Hm; lia.
  - simpl; auto.
  - apply (proj1 C65_case).
  - exists (get_done (no_parser 0) (from_grammar (insertion_order nat) 200
      (get_done (pr_grammar (no_parser 0)) (cfg_new (insertion_order nat) 0 20 whole)))).
    exists (insertion_order nat), (insertion_order nat), 200,
      (get_done (pr_grammar (no_parser 0)) (cfg_new (insertion_order nat) 0 20 whole)).
    split; vm_compute; reflexivity.
  - split; [lia|]. split.
    + intros (p & Hp & Hi). unfold small_productions in Hp. simpl in Hp.
      decompose [or] Hp; try contradiction; subst p; discriminate.
    + exists [2; 9]. econstructor; [apply (@derive1_production nat 0 small_productions [] [] (Production 1 [2; 9])); simpl; auto|].
      econstructor; [apply (@derive1_production nat 0 small_productions [] [9] (Production 2 [3; 2])); simpl; auto|].
      constructor.
  - intros Y qs Hq Hy. apply Hno; auto.
  - eexists. vm_compute. reflexivity.
  - intros Y qs Hq. apply Hno; auto.
Qed.
