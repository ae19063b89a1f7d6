(** * Reports and solver calls name what was expected: C92 *)

From Verif Require Import BaseFacts GrammarFacts DerivFacts.
From Verif Require Import ExpectSpec ExpectFacts ParserContract Examples PropParse PropReports PropLimits
  PropGuided PropContract.

Set Implicit Arguments.

Lemma declined_no_answer {L T : Type} (cands : T -> T -> list (list T)) solver (h : list (solver_call L T)) :
  declined solver h -> forall X p fp q, answered cands solver h X p fp q -> False.
Proof. intros Hd X p fp q (s & h1 & c & h2 & Hs & Hh & _ & _ & Hr). rewrite (Hd _ _ _ _ Hs Hh) in Hr. discriminate. Qed.

(** If no solver call was answered (in particular without solver), every symbol that an error
    report names, at any depth, was expected where it is reported to have failed. *)
Theorem C92_reports_name_expected_symbols :
  forall (L T : Type) (E : EqDec T) (eps init : T) (ps : list (production T))
         (solver : option (syntax_error_solver L T)) (self : parser L T) (fuel : nat)
         (tokens : list (token L T)) (f : failed_symbol L T) (h : list (solver_call L T)),
    constructed_parser eps init ps solver self -> non_terminal ps init ->
    parse_from_tokens fuel self tokens = Done (ResultErr f, h) ->
    declined solver h ->
    failed_symbol_type f = init /\ forall g, mentions f g -> justified eps init ps tokens 0 g.
Proof.
  intros L T E eps init ps solver self fuel tokens f h B Hinit H Hd.
  pose proof (candidates_declared (constructed_built B)) as Hc.
  destruct (C26_error_reports fuel _ B H) as (tok & rest & fps & Ht & -> & Hl).
  assert (Hr : failed_report eps ps tokens (candidates self) (fun _ _ _ _ => False) init 0 (FailedSymbol fps init)).
  { eapply failed_non_terminal; auto; [subst tokens; reflexivity|]. revert Hl. apply failed_mono.
    apply (@declined_no_answer _ _ _ _ _ Hd). }
  apply (proj1 (@reports_justified _ _ _ eps init _ _ _ Hc) _ _ _ Hr). split; [lia|]. split; [constructor|]. exists []. apply derives_refl.
Qed.
Print Assumptions C92_reports_name_expected_symbols.

Lemma contract_justified {L T : Type} {E : EqDec T} (eps init : T) (ps : list (production T)) (s : syntax_error_solver L T)
    (cands : T -> T -> list (list T)) tokens h c :
  (forall A a out, In out (cands A a) -> exists p, In p ps /\ p_input p = A /\ p_output p = out) ->
  non_terminal ps init -> call_in_contract eps init ps tokens cands s h c -> declined (Some s) h ->
  call_justified eps init ps tokens c.
Proof.
  intros Hc Hinit (X & tok & before & outs & Hn & He & Hsp & Hm) Hd.
  apply (@single_path_mono _ _ _ _ _ _ _ _ (fun _ _ _ _ => False) (@declined_no_answer _ _ _ _ _ Hd)) in Hsp.
  assert (Hl : failed_list eps ps tokens cands (fun _ _ _ _ => False) outs (call_position c) (call_failures c)).
  { destruct c as [ts p fp|ts p fps]; simpl in *.
    - destruct Hm as (_ & _ & Hl & _). revert Hl. apply failed_mono. exact (@declined_no_answer _ _ _ _ _ Hd).
    - apply Hm. }
  assert (Hall : forall o, In o outs -> In (Production X o) ps).
  { intros o Ho. destruct (Hc X (tok_type tok) o) as ([X' o'] & Hp & Hi & Hx); [rewrite He; apply in_or_app; auto|].
    simpl in *. now subst. }
  destruct (path_expected Hc Hsp) as [Hexp _].
  split; [destruct c; simpl in *; tauto|]. split; [apply nth_error_Some; congruence|].
  exists X. split; [exact (path_non_terminal Hinit Hsp)|]. split; [exact Hexp|].
  intros f parsed pending Hf. split.
  - destruct (listed Hl _ _ _ Hf) as (o & Ho & Hi). exists o. auto.
  - intros g Hg. exact (proj1 (proj2 (@reports_justified _ _ _ eps init _ _ _ Hc)) _ _ _ Hl X Hall Hexp _ _ _ _ Hf Hg).
Qed.

(** Until it answers for the first time, a solver is only asked about symbols that were expected
    at the position of the call, and everything the failed productions name was expected too. *)
Theorem C92_calls_name_expected_symbols :
  forall (L T : Type) (E : EqDec T) (eps init : T) (ps : list (production T))
         (s : syntax_error_solver L T) (self : parser L T) (fuel : nat) (tokens : list (token L T))
         (res : parse_result L T) (h1 h2 : list (solver_call L T)) (c : solver_call L T),
    built_parser eps init ps (Some s) self -> non_terminal ps init ->
    parse_from_tokens fuel self tokens = Done (res, h1 ++ c :: h2) ->
    declined (Some s) h1 ->
    call_justified eps init ps tokens c.
Proof.
  intros L T E eps init ps s self fuel tokens res h1 h2 c B Hinit H Hd.
  destruct (@C44_solver_sees_only_contract_calls _ _ _ _ _ _ _ _ _ _ tokens B B (fun _ _ _ _ => eq_refl) fuel)
    as [_ Ht]. specialize (Ht _ _ H).
  pose proof (candidates_declared (built_built B)) as Hc.
  apply (@contract_justified _ _ _ eps init ps s _ tokens h1 c Hc Hinit); auto. clear H Hd.
  remember (h1 ++ c :: h2) as h eqn:Hh. revert h1 c h2 Hh.
  induction Ht as [|h c' a Ht IH Hcc Hr]; intros h1 c h2 Hh; [destruct h1; discriminate|].
  destruct h2 as [|x h2] using rev_ind.
  - apply app_inj_tail in Hh as [-> ->]. exact Hcc.
  - clear IHh2. replace (h1 ++ c :: h2 ++ [x]) with ((h1 ++ c :: h2) ++ [x]) in Hh by (rewrite <- app_assoc; reflexivity).
    apply app_inj_tail in Hh as [-> _]. eapply IH. reflexivity.
Qed.
Print Assumptions C92_calls_name_expected_symbols.

(** In every run, returning or not: what a solver would do on other calls before its first
    answer makes no difference. *)
Theorem C92_calls_in_every_run :
  forall (L T : Type) (E : EqDec T) (eps init : T) (ps : list (production T))
         (s s' : syntax_error_solver L T) (self self' : parser L T) (tokens : list (token L T)),
    built_parser eps init ps (Some s) self -> built_parser eps init ps (Some s') self' ->
    non_terminal ps init ->
    (forall h c, (declined (Some s) h -> call_justified eps init ps tokens c) -> s' h c = s h c) ->
    forall fuel, parse_from_tokens fuel self' tokens = parse_from_tokens fuel self tokens.
Proof.
  intros L T E eps init ps s s' self self' tokens B B' Hinit Hag fuel.
  apply (C44_solver_sees_only_contract_calls B B').
  intros h c _ Hcc. apply Hag. intros Hd.
  exact (contract_justified (candidates_declared (built_built B)) Hinit Hcc Hd).
Qed.
Print Assumptions C92_calls_in_every_run.

(** "id + eof": the report names Term, expected after "id +" *)
Example C92_case : exists f,
  parse_from_tokens 100 expr_parser [tk 1 Id; tk 2 Plus; tk 3 Eof] = Done (ResultErr f, []) /\
  mentions f (FailedSymbol [] Term) /\
  justified Eps Prog expr_productions [tk 1 Id; tk 2 Plus; tk 3 Eof] 0 (FailedSymbol [] Term).
Proof.
  destruct (parse_from_tokens 100 expr_parser [tk 1 Id; tk 2 Plus; tk 3 Eof]) as [[[f|f|f] h]| |] eqn:Hp;
    try (vm_compute in Hp; discriminate Hp).
  assert (Hh : h = []) by (vm_compute in Hp; congruence). subst h. exists f. split; [reflexivity|].
  assert (Hm : mentions f (FailedSymbol [] Term)).
  { vm_compute in Hp. inversion Hp; subst f.
    eapply mentions_inside; [simpl; left; reflexivity|]. eapply mentions_inside; [simpl; left; reflexivity|].
    eapply mentions_inside; [simpl; left; reflexivity|]. apply mentions_itself. }
  split; [exact Hm|].
  refine (proj2 (C92_reports_name_expected_symbols _ _ (built_constructed expr_built) _ Hp _) _ Hm).
  - exists (hd (Production Prog []) expr_productions). split; [simpl; auto|reflexivity].
  - intros s h1 c h2 Hs. discriminate Hs.
Qed.

(** [p q q $] in a grammar with conflicts: every call of a declining solver *)
Example C92_calls_case : exists f c1 c2 c3 c4 rest,
  parse_from_tokens 50 (retry_parser (Some (fun _ _ => Reply None))) [nt 4; nt 5; nt 5; nt 7] =
    Done (ResultErr f, c1 :: c2 :: c3 :: c4 :: rest) /\
  call_failures c4 <> [] /\ call_justified 0 1 retry_productions [nt 4; nt 5; nt 5; nt 7] c4.
Proof.
  destruct (parse_from_tokens 50 (retry_parser (Some (fun _ _ => Reply None))) [nt 4; nt 5; nt 5; nt 7])
    as [[[f|f|f] [|c1 [|c2 [|c3 [|c4 rest]]]]]| |] eqn:Hp; try (vm_compute in Hp; discriminate Hp).
  exists f, c1, c2, c3, c4, rest. split; [reflexivity|]. split.
  - vm_compute in Hp. inversion Hp. discriminate.
  - apply (@C92_calls_name_expected_symbols _ _ _ 0 1 retry_productions _ _ 50 _ (ResultErr f) [c1; c2; c3] rest c4
             (retry_built (Some (fun _ _ => Reply None)))); [|exact Hp|].
    + exists (Production 1 [2; 3; 7]). split; [simpl; auto|reflexivity].
    + intros s h1 c h2 Hs _. inversion Hs. reflexivity.
Qed.
