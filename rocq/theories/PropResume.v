(** * Parses that run at the same time (C80) *)

From Verif Require Import Examples ResumeFacts.
From Verif Require Export ResumeSpec SessionSpec.

Set Implicit Arguments.

Section C80.
  Context {L T : Type} {E : EqDec T}.

  (** C80: several parses, of one parser or of several, share a solver.  Whatever the
      solver does and in whatever order the parses get their turns, a parse that ended did
      what it does when it runs alone with a solver that gives it the same replies: the
      same result or panic, and the same calls. *)
  Theorem C80_as_if_alone :
    forall (s : shared_solver) fuel (jobs : list (parser L T * list (token L T)))
           Q calls i self tokens o,
      steps s (started fuel jobs) (Q, calls) ->
      nth_error jobs i = Some (self, tokens) ->
      nth_error Q i = Some (Ended o) ->
      exists p, same_replies s i p calls /\
        parse_from_tokens fuel (privately self p) tokens =
        match o with
        | Done r => Done (r, own i calls)
        | Panicked q => Panicked q
        | OutOfFuel => OutOfFuel
        end.
  Proof.
    intros s fuel jobs Q calls i self tokens o HS Hj Ho.
    set (p := fun (h : history L T) c => s (cut i (length h) calls) i c).
    assert (Hp : same_replies s i p calls) by apply replayer.
    exists p. split; [exact Hp|].
    assert (HR : run p (c_parse fuel self tokens) [] = run p (Ended o) (own i calls)).
    { apply (steps_run HS eq_refl); auto.
      cbn. rewrite nth_error_map, Hj. reflexivity. }
    rewrite <- run_parse, HR. destruct o; reflexivity.
  Qed.

  Lemma apart_replies (s : shared_solver) (p : nat -> syntax_error_solver L T) i calls :
    apart s p -> same_replies s i (p i) calls.
  Proof. intros H before c after _. symmetry. apply H. Qed.

  (** When the replies to a parse depend on its own calls only (a solver without state, or
      one state for each parse), the other parses have no influence: at every moment of
      every schedule a parse has made a prefix of the calls that it makes alone, and when
      it has ended it has its result, and all these calls. *)
  Theorem C80_no_influence :
    forall (s : shared_solver) p fuel (jobs : list (parser L T * list (token L T)))
           Q calls i self tokens,
      apart s p ->
      steps s (started fuel jobs) (Q, calls) ->
      nth_error jobs i = Some (self, tokens) ->
      exists m, nth_error Q i = Some m /\
        (forall r h, parse_from_tokens fuel (privately self (p i)) tokens = Done (r, h) ->
           exists more, h = own i calls ++ more) /\
        (forall o, m = Ended o ->
           parse_from_tokens fuel (privately self (p i)) tokens =
           match o with
           | Done r => Done (r, own i calls)
           | Panicked q => Panicked q
           | OutOfFuel => OutOfFuel
           end).
  Proof.
    intros s p fuel jobs Q calls i self tokens Ha HS Hj.
    assert (Hm : exists m, nth_error Q i = Some m).
    { destruct (nth_error Q i) as [m|] eqn:Hm; [eauto|exfalso].
      apply nth_error_None in Hm. apply steps_keep in HS. cbn in HS. rewrite map_length in HS.
      assert (i < length jobs) by (apply nth_error_Some; congruence). lia. }
    destruct Hm as [m Hm]. exists m. split; [exact Hm|].
    assert (HR : run (p i) (c_parse fuel self tokens) [] = run (p i) m (own i calls)).
    { apply (steps_run HS eq_refl); auto.
      - cbn. rewrite nth_error_map, Hj. reflexivity.
      - apply apart_replies. exact Ha. }
    rewrite run_parse in HR. rewrite HR. split.
    - intros r h H. apply run_extends in H. exact H.
    - intros o ->. destruct o; reflexivity.
  Qed.

  Lemma maximum {A} (Pr : A -> nat -> Prop) (l : list A) :
    (forall a n m, Pr a n -> n <= m -> Pr a m) -> (forall a, In a l -> exists n, Pr a n) ->
    exists n, forall a, In a l -> Pr a n.
  Proof.
    intros Hm. induction l as [|a l IH]; intros H.
    - exists 0. intros a [].
    - destruct IH as [n Hn]; [intros; apply H; right; auto|].
      destruct (H a (or_introl eq_refl)) as [k Hk]. exists (n + k). intros b [<- |Hb].
      + apply (Hm _ k); auto; lia.
      + apply (Hm _ n); auto; lia.
  Qed.

  (** In that case, when every parse ends alone, every schedule ends: none goes on forever,
      and when no parse can go on, all have returned what they return alone, after the
      calls that they make alone. *)
  Theorem C80_all_end :
    forall (s : shared_solver) p (jobs : list (parser L T * list (token L T)))
           (alone : list (parse_result L T * history L T)),
      apart s p ->
      length alone = length jobs ->
      (forall i self tokens r h,
         nth_error jobs i = Some (self, tokens) -> nth_error alone i = Some (r, h) ->
         terminates_with (fun fuel => parse_from_tokens fuel (privately self (p i)) tokens)
                         (Done (r, h))) ->
      exists enough, forall fuel, enough <= fuel ->
        well_founded (fun Q P => @step L T (parse_result L T) s P Q) /\
        forall Q calls, steps s (started fuel jobs) (Q, calls) ->
          (exists Q' calls', step s (Q, calls) (Q', calls')) \/
          (Q = map (fun a => Ended (Done (fst a))) alone /\
           forall i r h, nth_error alone i = Some (r, h) -> own i calls = h).
  Proof.
    intros s p jobs alone Ha Hl Ht.
    destruct (@maximum (nat * (parser L T * list (token L T)) * (parse_result L T * history L T))
      (fun x n => forall fuel, n <= fuel ->
         parse_from_tokens fuel (privately (fst (snd (fst x))) (p (fst (fst x)))) (snd (snd (fst x)))
         = Done (snd x))
      (combine (combine (seq 0 (length jobs)) jobs) alone)) as [N HN].
    { intros a n m H1 H2 fuel H3. apply H1. lia. }
    { intros [[i [self tokens]] [r h]] Hin. cbn.
      apply In_nth_error in Hin. destruct Hin as [k Hk].
      assert (Hc : forall {A B} (l : list A) (l' : list B) k x y,
                 nth_error (combine l l') k = Some (x, y) ->
                 nth_error l k = Some x /\ nth_error l' k = Some y).
      { clear. intros A B. induction l as [|a l IH]; intros [|b l'] [|k] x y H; cbn in *;
          try discriminate; auto. injection H as <- <-. auto. }
      apply Hc in Hk. destruct Hk as [Hk Hk2]. apply Hc in Hk. destruct Hk as [Hk0 Hk1].
      assert (i = k).
      { assert (k < length jobs) by (apply nth_error_Some; congruence).
        rewrite nth_error_nth' with (d := 0) in Hk0 by (rewrite seq_length; lia).
        rewrite seq_nth in Hk0 by lia. injection Hk0 as <-. reflexivity. }
      subst i. exact (proj2 (Ht _ _ _ _ _ Hk1 Hk2)). }
    assert (HN' : forall i self tokens r h fuel, N <= fuel ->
      nth_error jobs i = Some (self, tokens) -> nth_error alone i = Some (r, h) ->
      parse_from_tokens fuel (privately self (p i)) tokens = Done (r, h)).
    { intros i self tokens r h fuel Hf Hj Hr.
      refine (HN (i, (self, tokens), (r, h)) _ fuel Hf).
      assert (Hc : forall {A B} (l : list A) (l' : list B) k x y,
                 nth_error l k = Some x -> nth_error l' k = Some y ->
                 nth_error (combine l l') k = Some (x, y)).
      { clear. intros A B. induction l as [|a l IH]; intros [|b l'] [|k] x y H1 H2; cbn in *;
          try discriminate; auto. congruence. }
      apply nth_error_In with i. apply Hc; [apply Hc|]; auto.
      assert (i < length jobs) by (apply nth_error_Some; congruence).
      rewrite nth_error_nth' with (d := 0) by (rewrite seq_length; lia).
      rewrite seq_nth by lia. reflexivity. }
    exists N. intros fuel Hf. split; [apply step_wf|].
    intros Q calls HS.
    destruct (step_or_ended s (Q, calls)) as [[[Q' calls'] H]|He]; [left; eauto|right].
    cbn in He.
    assert (Hall : forall i r h, nth_error alone i = Some (r, h) ->
              nth_error Q i = Some (Ended (Done r)) /\ own i calls = h).
    { intros i r h Hr.
      destruct (nth_error jobs i) as [[self tokens]|] eqn:Hj.
      2:{ apply nth_error_None in Hj. assert (i < length alone) by (apply nth_error_Some; congruence). lia. }
      destruct (@C80_no_influence s p fuel jobs Q calls i self tokens Ha HS Hj) as (m & Hm & _ & Ho).
      destruct (He m) as [o ->]; [apply nth_error_In with i; exact Hm|].
      specialize (Ho o eq_refl).
      rewrite (HN' i self tokens r h fuel Hf Hj Hr) in Ho.
      destruct o; try discriminate. injection Ho as -> ->. auto. }
    split; [|intros i r h Hr; apply (Hall i r h Hr)].
    assert (Hlen : length Q = length alone).
    { apply steps_keep in HS. cbn in HS. rewrite map_length in HS. congruence. }
    assert (Hr : forall i a, nth_error alone i = Some a -> nth_error Q i = Some (Ended (Done (fst a)))).
    { intros i [r h] H. apply (Hall i r h H). }
    clear - Hr Hlen. revert alone Hr Hlen.
    induction Q as [|m Q IH]; intros [|a alone] Hr Hlen; cbn in *; try discriminate; auto.
    f_equal.
    - specialize (Hr 0 a eq_refl). cbn in Hr. congruence.
    - apply IH; [|congruence]. intros i b Hb. exact (Hr (S i) b Hb).
  Qed.

  (** A parse without solver is not even interruptible: it has ended when it is started. *)
  Theorem C80_no_solver :
    forall fuel (self : parser L T) tokens,
      pr_solver self = None ->
      c_parse fuel self tokens =
      Ended match parse_from_tokens fuel self tokens with
            | Done (r, _) => Done r
            | Panicked q => Panicked q
            | OutOfFuel => OutOfFuel
            end.
  Proof.
    intros fuel self tokens Hn.
    assert (H0 : ended (c_parse fuel self tokens)) by (apply ended_parse; exact Hn).
    destruct H0 as [o Ho]. rewrite Ho.
    pose proof (run_parse (fun _ _ => ReplyNever) self tokens fuel) as H.
    rewrite Ho in H. cbn [run] in H.
    replace (privately self (fun _ _ => ReplyNever)) with self in H.
    - rewrite <- H. destruct o; reflexivity.
    - destruct self as [g sol t]. cbn in Hn. subst sol. reflexivity.
  Qed.
End C80.

(** ** A concrete case *)

(** give turns to the parses in a given order, as far as they can go on *)
Fixpoint play {L T A : Type} (s : shared_solver (L := L) (T := T)) (turns : list nat)
         (P : program (L := L) (T := T) A) : program (L := L) (T := T) A :=
  match turns with
  | [] => P
  | i :: turns' =>
      match nth_error (fst P) i with
      | Some (Waits c resume) =>
          play s turns' (firstn i (fst P) ++ deliver resume (s (snd P) i c) :: skipn (S i) (fst P),
                         snd P ++ [(i, c)])
      | _ => play s turns' P
      end
  end.

Lemma play_steps {L T A} (s : shared_solver (L := L) (T := T)) turns :
  forall P : program A, steps s P (play s turns P).
Proof.
  induction turns as [|i turns IH]; intros P; cbn; [constructor|].
  destruct (nth_error (fst P) i) as [[o|c k]|] eqn:Hn; auto.
  eapply steps_trans; [|apply IH].
  econstructor; [constructor|].
  destruct P as [l calls]. cbn in *.
  apply nth_error_split in Hn. destruct Hn as (a & b & -> & <-).
  replace (firstn (length a) (a ++ Waits c k :: b)) with a
    by (rewrite firstn_app, Nat.sub_diag, firstn_all, firstn_O, app_nil_r; reflexivity).
  replace (match a ++ Waits c k :: b with [] => [] | _ :: l => skipn (length a) l end) with b.
  - constructor.
  - clear. induction a as [|x a IH]; cbn; [reflexivity|].
    destruct a; exact IH.
Qed.

(** the solver that fixes the first call ever made and declines all others: the turns decide
    which parse gets the fix *)
Definition first_only : shared_solver (L := nat) (T := nat) := fun calls _ _ =>
  match calls with [] => Reply (Some (FixResult 2 (FixedProduction []))) | _ => Reply None end.
(** the solver that fixes every call *)
Definition always : shared_solver (L := nat) (T := nat) := fun _ _ _ =>
  Reply (Some (FixResult 2 (FixedProduction []))).

Definition shared_parser : parser nat nat :=
  get_done (no_parser 0) (build 0 1 [Production 1 [3; 4]] (Some (fun _ _ => Reply None)) 100).
Definition three_jobs : list (parser nat nat * list (token nat nat)) :=
  [(shared_parser, [nt 3; nt 6]); (shared_parser, [nt 3; nt 4]); (shared_parser, [nt 3; nt 7])].

(** Three parses of one parser.  With a solver that keeps state the turns decide the results
    (so [apart] is needed), with one that does not they do not. *)
Example C80_case :
  built_parser 0 1 [Production 1 [3; 4]] (Some (fun _ _ => Reply None)) shared_parser /\
  (exists f e root, fst (play first_only [0; 2] (started 20 three_jobs)) =
     [Ended (Done (ResultFix f)); Ended (Done (ResultOk root)); Ended (Done (ResultErr e))]) /\
  (exists f e root, fst (play first_only [2; 0] (started 20 three_jobs)) =
     [Ended (Done (ResultErr e)); Ended (Done (ResultOk root)); Ended (Done (ResultFix f))]) /\
  apart always (fun _ _ _ => Reply (Some (FixResult 2 (FixedProduction [])))) /\
  fst (play always [0; 2] (started 20 three_jobs)) = fst (play always [2; 0] (started 20 three_jobs)) /\
  map fst (snd (play always [0; 2] (started 20 three_jobs))) = [0; 2] /\
  map fst (snd (play always [2; 0] (started 20 three_jobs))) = [2; 0].
Proof.
  splits.
  - apply build_built with (fuel := 100). reflexivity.
  - do 3 eexists. vm_compute. reflexivity.
  - do 3 eexists. vm_compute. reflexivity.
  - intros calls i c. reflexivity.
  - vm_compute. reflexivity.
  - vm_compute. reflexivity.
  - vm_compute. reflexivity.
Qed.

Print Assumptions C80_as_if_alone.
Print Assumptions C80_no_influence.
Print Assumptions C80_all_end.
Print Assumptions C80_no_solver.
