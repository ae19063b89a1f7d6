(** * The waiting computation runs like the parser of [Parser.v], and schedules *)

From Verif Require Export ResumeSpec.

Set Implicit Arguments.

Section ResumeFacts.
  Context {L T : Type} {E : EqImpl T}.
  Notation comp := (comp L T).

  (** run a computation alone, with a solver of its own *)
  Fixpoint run {A : Type} (p : syntax_error_solver L T) (m : comp A) (h : history L T)
    : outcome (A * history L T) :=
    match m with
    | Ended o => a <- o ;; Done (a, h)
    | Waits c resume =>
        match p h c with
        | Reply answer => run p (resume answer) (h ++ [c])
        | ReplyPanics => Panicked PanicSolver
        | ReplyNever => OutOfFuel
        end
    end.

  Lemma run_bind {A B} p (m : comp A) (f : A -> comp B) h :
    run p (cbind m f) h = ('(a, h') <- run p m h ;; run p (f a) h').
  Proof.
    revert h. induction m as [o|c k IH]; intros h; cbn.
    - destruct o; reflexivity.
    - destruct (p h c) as [a| |]; cbn; auto.
  Qed.

  Section One.
    Variable self : parser L T.
    Variable p : syntax_error_solver L T.
    Variable tokens : list (token L T).

    Lemma run_fix n sp csp fps h :
      run p (c_try_fix_productions self tokens n sp csp fps) h =
      inner_parse_from_tokens_try_fix_productions (privately self p) tokens n sp csp fps h.
    Proof.
      unfold c_try_fix_productions, inner_parse_from_tokens_try_fix_productions, privately.
      cbn. destruct (pr_solver self) as [s0|]; [|reflexivity].
      destruct sp; [|reflexivity]. destruct csp.
      - destruct fps as [|fp fps]; [reflexivity|]. cbn.
        destruct (p h _); reflexivity.
      - cbn. destruct (p h _); reflexivity.
    Qed.

    Variable crec : T -> nat -> list (list T) -> bool -> comp (parse_symbol_result L T).
    Variable rec : T -> nat -> list (list T) -> bool -> history L T ->
                   outcome (parse_symbol_result L T * history L T).
    Hypothesis Hrec : forall x n po b h, run p (crec x n po b) h = rec x n po b h.

    Lemma run_symbol x n b h :
      run p (c_production_symbol self tokens crec x n b) h =
      inner_parse_from_tokens_production_symbol (privately self p) tokens rec x n b h.
    Proof.
      unfold c_production_symbol, inner_parse_from_tokens_production_symbol,
        inner_parse_from_tokens_production_non_terminal.
      change (pr_grammar (privately self p)) with (pr_grammar self).
      destruct (is_non_terminal (pr_grammar self) x); [|reflexivity].
      destruct (nth_error tokens n) as [tok|]; [|reflexivity].
      rewrite Hrec. reflexivity.
    Qed.

    Lemma run_pop b sts : forall acc h,
      run p (c_pop_states crec sts b acc) h = inner_parse_pop_states rec sts b acc h.
    Proof.
      induction sts as [|[ps|fs] sts IH]; intros acc h; cbn; auto.
      destruct (ps_prod_iter_option ps) as [po|]; [|apply IH].
      rewrite run_bind, Hrec.
      destruct (rec _ _ _ _ _) as [[r h']|q|]; cbn; auto.
      destruct r; cbn; auto.
    Qed.

    Lemma run_production fuel : forall X out b sts n h,
      run p (c_production self tokens crec fuel X out b sts n) h =
      inner_parse_from_tokens_production (privately self p) tokens rec fuel X out b sts n h.
    Proof.
      induction fuel as [|fuel IH]; intros X out b sts n h; [reflexivity|].
      cbn [c_production inner_parse_from_tokens_production].
      destruct (Nat.ltb (length sts) (length out)).
      - destruct (nth_error out (length sts)) as [x|]; [|reflexivity].
        cbn [unwrap cbind bind].
        rewrite run_bind, run_symbol.
        destruct (inner_parse_from_tokens_production_symbol _ _ _ _ _ _ _) as [[r h']|q|];
          cbn [bind]; auto.
        destruct r as [ps|fs|fs]; [apply IH| |apply IH].
        rewrite run_bind, run_pop.
        destruct (inner_parse_pop_states rec sts b [] h') as [[[sts' popped] h'']|q|];
          cbn [bind]; auto.
        destruct popped; [reflexivity|].
        destruct sts'; [reflexivity|apply IH].
      - rewrite run_bind. cbn [run].
        destruct (inner_parse_from_tokens_production_build_node X (rev sts)); reflexivity.
    Qed.

    Lemma run_try fuel X n b : forall pos fps h,
      run p (c_try_productions self tokens crec fuel X n b pos fps) h =
      try_parse_productions_loop (privately self p) tokens rec fuel X n b pos fps h.
    Proof.
      induction pos as [|out pos IH]; intros fps h; cbn; auto.
      rewrite run_bind, run_production.
      destruct (inner_parse_from_tokens_production _ _ _ _ _ _ _ _ _ _) as [[[r n'] h']|q|];
        cbn; auto.
      destruct r; cbn; auto.
    Qed.

    Lemma run_step fuel X n pos b h :
      run p (c_step self tokens crec fuel X n pos b) h =
      inner_parse_from_tokens_step (privately self p) tokens rec fuel X n pos b h.
    Proof.
      unfold c_step, inner_parse_from_tokens_step, inner_parse_from_tokens_try_parse_productions.
      rewrite run_bind, run_try.
      destruct (try_parse_productions_loop _ _ _ _ _ _ _ _ _ _) as [[r h']|q|]; cbn; auto.
      destruct r as [r|fps]; [reflexivity|].
      rewrite run_bind, run_fix.
      destruct (inner_parse_from_tokens_try_fix_productions _ _ _ _ _ _ _) as [[o h'']|q|];
        reflexivity.
    Qed.
  End One.

  Lemma run_inner p self tokens fuel : forall X n pos b h,
    run p (c_inner_parse fuel self tokens X n pos b) h =
    inner_parse_from_tokens fuel (privately self p) tokens X n pos b h.
  Proof.
    induction fuel as [|fuel IH]; intros X n pos b h; [reflexivity|].
    cbn [c_inner_parse inner_parse_from_tokens].
    apply run_step. exact IH.
  Qed.

  Lemma run_parse p self tokens fuel :
    run p (c_parse fuel self tokens) [] = parse_from_tokens fuel (privately self p) tokens.
  Proof.
    destruct tokens as [|tok rest]; [reflexivity|].
    cbn [c_parse parse_from_tokens].
    change (pr_grammar (privately self p)) with (pr_grammar self).
    rewrite run_bind, run_inner.
    change (inner_get_token_productions (privately self p))
      with (inner_get_token_productions self).
    destruct (inner_parse_from_tokens _ _ _ _ _ _ _ _) as [[r h]|q|]; reflexivity.
  Qed.

  (** ** Calls of one parse *)

  Lemma own_app i (a b : list (nat * solver_call L T)) : own i (a ++ b) = own i a ++ own i b.
  Proof. unfold own. rewrite filter_app, map_app. reflexivity. Qed.

  Lemma own_here i (c : solver_call L T) : own i [(i, c)] = [c].
  Proof. unfold own. cbn. rewrite Nat.eqb_refl. reflexivity. Qed.

  Lemma own_other i j (c : solver_call L T) : i <> j -> own j [(i, c)] = [].
  Proof. intros H. unfold own. cbn. apply Nat.eqb_neq in H. rewrite H. reflexivity. Qed.

  Lemma same_replies_prefix s i (p : syntax_error_solver L T) a b : same_replies s i p (a ++ b) -> same_replies s i p a.
  Proof.
    intros H before c after ->. apply (H before c (after ++ b)).
    rewrite <- app_assoc. reflexivity.
  Qed.

  (** the calls before the n-th call of parse i *)
  Fixpoint cut (i n : nat) (calls : list (nat * solver_call L T)) :=
    match calls with
    | [] => []
    | (j, c) :: rest =>
        if Nat.eqb j i then
          match n with O => [] | S n' => (j, c) :: cut i n' rest end
        else (j, c) :: cut i n rest
    end.

  Lemma cut_own i before (c : solver_call L T) after :
    cut i (length (own i before)) (before ++ (i, c) :: after) = before.
  Proof.
    induction before as [|[j d] before IH]; cbn.
    - rewrite Nat.eqb_refl. reflexivity.
    - unfold own. cbn. destruct (Nat.eqb j i); cbn; f_equal; apply IH.
  Qed.

  Lemma replayer (s : shared_solver (L := L) (T := T)) i calls :
    same_replies s i (fun h c => s (cut i (length h) calls) i c) calls.
  Proof. intros before c after ->. cbn. rewrite cut_own. reflexivity. Qed.

  (** ** The invariant of a schedule *)

  Lemma nth_here {A} (a : list A) x b : nth_error (a ++ x :: b) (length a) = Some x.
  Proof. induction a; cbn; auto. Qed.

  Lemma nth_there {A} (a : list A) x y b i :
    i <> length a -> nth_error (a ++ x :: b) i = nth_error (a ++ y :: b) i.
  Proof.
    revert i. induction a as [|z a IH]; intros [|i] H; cbn in *; auto; try congruence.
  Qed.

  Lemma steps_keep {A} s (P Q : program (L := L) (T := T) A) :
    steps s P Q -> length (fst P) = length (fst Q).
  Proof.
    induction 1 as [P|P Q R _ IH HS]; [reflexivity|].
    rewrite IH. inversion HS; subst; cbn. rewrite !app_length. cbn. reflexivity.
  Qed.

  Lemma steps_run {A} s (P Q : program (L := L) (T := T) A) i m m' p :
    steps s P Q -> snd P = [] -> nth_error (fst P) i = Some m -> nth_error (fst Q) i = Some m' ->
    same_replies s i p (snd Q) -> run p m [] = run p m' (own i (snd Q)).
  Proof.
    intros HS. revert m'. induction HS as [P|P Q R HS IH H1]; intros m' Hs Hm Hm' Hp.
    - rewrite Hs. change (own i []) with (@nil (solver_call L T)). congruence.
    - destruct H1 as [before c k after calls]. cbn [fst snd] in *.
      pose proof (fun m1 H => IH m1 Hs Hm H (@same_replies_prefix s i p _ _ Hp)) as IH'.
      rewrite own_app.
      destruct (Nat.eq_dec i (length before)) as [-> |He].
      + rewrite nth_here in Hm'. injection Hm' as <-.
        rewrite (IH' (Waits c k)); [|apply nth_here].
        rewrite own_here. cbn [run].
        rewrite (Hp calls c []) by reflexivity.
        destruct (s calls (length before) c); reflexivity.
      + rewrite (IH' m'); [|rewrite <- Hm'; apply nth_there; exact He].
        rewrite own_other by auto. rewrite app_nil_r. reflexivity.
  Qed.

  Lemma run_extends {A} p (m : comp A) : forall h a h',
    run p m h = Done (a, h') -> exists more, h' = h ++ more.
  Proof.
    induction m as [o|c k IH]; intros h a h'; cbn.
    - destruct o; cbn; try discriminate. injection 1 as _ <-. exists []. rewrite app_nil_r. reflexivity.
    - destruct (p h c) as [b| |]; try discriminate.
      intros H. destruct (IH b _ _ _ H) as [more ->].
      exists (c :: more). rewrite <- app_assoc. reflexivity.
  Qed.

  (** ** No schedule is infinite *)

  Definition next {A} (m' m : comp A) : Prop :=
    exists c k r, m = Waits c k /\ m' = deliver k r.

  Lemma next_wf {A} (m : comp A) : Acc next m.
  Proof.
    assert (He : forall o, Acc (@next A) (Ended o)).
    { intros o. constructor. intros m' (c & k & r & H & _). discriminate. }
    induction m as [o|c k IH]; [apply He|].
    constructor. intros m' (c' & k' & r & H & ->). injection H as _ <-.
    destruct r; cbn; auto.
  Qed.

  Definition next_list {A} (l' l : list (comp A)) : Prop :=
    exists a m m' b, l = a ++ m :: b /\ l' = a ++ m' :: b /\ next m' m.

  Lemma next_list_wf {A} (l : list (comp A)) : Acc next_list l.
  Proof.
    induction l as [|m l IHl].
    - constructor. intros l' ([|] & m & m' & b & H & _); discriminate.
    - pose proof (next_wf m) as Hm. revert l IHl.
      induction Hm as [m _ IHm]. intros l Hl. induction Hl as [l Hl' IHl].
      constructor. intros l' (a & x & x' & b & H1 & -> & H2).
      destruct a as [|y a]; cbn in H1; injection H1 as -> ->; cbn.
      + apply (IHm _ H2). constructor. exact Hl'.
      + apply IHl. exists a, x, x', b. auto.
  Qed.

  Lemma step_wf {A} (s : shared_solver) :
    well_founded (fun Q P : program (L := L) (T := T) A => step s P Q).
  Proof.
    intros [l calls]. pose proof (next_list_wf l) as H. revert calls.
    induction H as [l _ IH]. intros calls. constructor. intros Q HS.
    inversion HS; subst. apply IH.
    eexists _, _, _, _. split; [reflexivity|]. split; [reflexivity|].
    exists c, resume. eexists. eauto.
  Qed.

  Lemma step_or_ended {A} s (P : program (L := L) (T := T) A) :
    (exists Q, step s P Q) \/ (forall m, In m (fst P) -> exists o, m = Ended o).
  Proof.
    destruct P as [l calls]. cbn.
    assert (H : (exists a c k b, l = a ++ Waits c k :: b) \/ forall m, In m l -> exists o, m = Ended o).
    { induction l as [|[o|c k] l IH].
      - right. intros m [].
      - destruct IH as [(a & c & k & b & ->)|IH].
        + left. exists (Ended o :: a), c, k, b. reflexivity.
        + right. intros m [<-|Hm]; eauto.
      - left. exists [], c, k, l. reflexivity. }
    destruct H as [(a & c & k & b & ->)|H]; [left|right; exact H].
    eexists. constructor.
  Qed.

  Lemma steps_trans {A} s (P Q R : program (L := L) (T := T) A) :
    steps s P Q -> steps s Q R -> steps s P R.
  Proof.
    intros H1 H2. revert H1. induction H2 as [Q|Q R S H2 IH HS]; intros H1; [exact H1|].
    apply (steps_more (IH H1) HS).
  Qed.

  Lemma finishes {A} s (P : program (L := L) (T := T) A) :
    exists Q, steps s P Q /\ forall m, In m (fst Q) -> exists o, m = Ended o.
  Proof.
    pose proof (step_wf s P) as H. induction H as [P _ IH].
    destruct (step_or_ended s P) as [[Q HQ]|H].
    - destruct (IH Q HQ) as (R & HR & He). exists R. split; [|exact He].
      eapply steps_trans; [|exact HR]. econstructor; [constructor|exact HQ].
    - exists P. split; [constructor|exact H].
  Qed.

  (** ** Without a solver nothing waits *)

  Definition ended {A} (m : comp A) : Prop := exists o, m = Ended o.

  Lemma ended_bind {A B} (m : comp A) (f : A -> comp B) :
    ended m -> (forall a, ended (f a)) -> ended (cbind m f).
  Proof. intros [[a|q|] ->] Hf; cbn; [apply Hf|eexists; reflexivity..]. Qed.

  Lemma ended_is {A} (o : outcome A) : ended (Ended o).
  Proof. exists o. reflexivity. Qed.

  Lemma ended_inner fuel self tokens : pr_solver self = None -> forall X n pos b,
    ended (c_inner_parse fuel self tokens X n pos b).
  Proof.
    intros Hn. induction fuel as [|fuel IH]; intros X n pos b; [apply ended_is|].
    cbn [c_inner_parse].
    assert (Hpop : forall b sts acc, ended (c_pop_states (c_inner_parse fuel self tokens) sts b acc)).
    { intros b0. induction sts as [|[ps|fs] sts IHs]; intros acc; cbn; auto using ended_is.
      destruct (ps_prod_iter_option ps); auto.
      apply ended_bind; [apply IH|]. intros []; auto using ended_is. }
    assert (Hsym : forall x n b, ended (c_production_symbol self tokens (c_inner_parse fuel self tokens) x n b)).
    { intros x n0 b0. unfold c_production_symbol. destruct (is_non_terminal _ x); [|apply ended_is].
      destruct (nth_error tokens n0); [apply IH|apply ended_is]. }
    assert (Hprod : forall f X out b sts n,
              ended (c_production self tokens (c_inner_parse fuel self tokens) f X out b sts n)).
    { induction f as [|f IHf]; intros; cbn [c_production]; [apply ended_is|].
      destruct (Nat.ltb _ _).
      - apply ended_bind; [apply ended_is|]. intros x. apply ended_bind; [apply Hsym|].
        intros [ps|fs|fs]; auto. apply ended_bind; [apply Hpop|].
        intros [sts' [l|]]; [apply ended_is|]. destruct sts'; [apply ended_is|apply IHf].
      - apply ended_bind; [apply ended_is|]. intros. apply ended_is. }
    assert (Htry : forall X n b pos fps,
              ended (c_try_productions self tokens (c_inner_parse fuel self tokens) fuel X n b pos fps)).
    { intros X0 n0 b0. induction pos0 as [|out pos0 IHp]; intros fps; cbn; [apply ended_is|].
      apply ended_bind; [apply Hprod|]. intros [[] ?]; auto using ended_is. }
    unfold c_step. apply ended_bind; [apply Htry|]. intros [r|fps]; [apply ended_is|].
    apply ended_bind; [|intros; apply ended_is].
    unfold c_try_fix_productions. rewrite Hn. apply ended_is.
  Qed.

  Lemma ended_parse fuel self tokens : pr_solver self = None -> ended (c_parse fuel self tokens).
  Proof.
    intros Hn. destruct tokens as [|tok rest]; [apply ended_is|]. cbn [c_parse].
    apply ended_bind; [apply ended_inner; exact Hn|]. intros. apply ended_is.
  Qed.
End ResumeFacts.
