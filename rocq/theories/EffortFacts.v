(** * The calls that ordered choice makes when the grammar is LL(1) (proofs) *)

From Verif Require Import BaseFacts GrammarFacts DerivFacts.
From Verif Require Export ParserTerm WorkFacts EffortSpec ParserEffort.

Set Implicit Arguments.

Section EffortFacts.
  Context {L T : Type} {E : EqDec T}.
  Variable eps init : T.
  Variable ps : list (production T).
  Variable tokens : list (token L T).
  Variable cands : T -> T -> list (list T).
  Hypothesis Heps : ~ non_terminal ps eps.
  Hypothesis Hcands : forall A a out, In out (cands A a) ->
    exists p, In p ps /\ p_input p = A /\ p_output p = out.
  Hypothesis Hdistinct : forall A a, NoDup (cands A a).
  Hypothesis Hsize : forall A a, length (cands A a) <= length ps.
  Hypothesis Hll : ll1 eps ps init.
  Hypothesis Hno : no_left_recursion_from eps ps init.
  Hypothesis Hps : 1 <= length ps.

  Notation ctry := (ctry eps ps tokens cands).
  Notation cseq := (cseq eps ps tokens cands).
  Notation cbranch := (cbranch eps ps tokens cands).
  Notation nullable := (nullable eps ps).
  Notation can_start := (can_start eps ps).
  Notation follow := (can_follow eps ps init).
  Notation reach := (reachable_from eps ps init).
  Notation N := (nts ps).
  Notation M := (longest_output ps).
  Notation K := (length ps).
  Notation F := (calls_factor ps).

  (** ** numbers *)
  Fixpoint zseq (z m : nat) : nat :=
    match m with O => 0 | S m' => (K + 1) * (1 + z + zseq z m') end.
  Fixpoint zcall (d : nat) : nat :=
    match d with O => 0 | S d' => K * zseq (zcall d') M end.

  Definition Z : nat := F ^ S N.
  Definition G : nat := (K + 1) * Z.
  Definition R : nat := 1 + K * Z + M * G.
  Definition c : nat := (N + 1) * R.

  Lemma zseq_mono z z' m m' : z <= z' -> m <= m' -> zseq z m <= zseq z' m'.
  Proof.
    intros Hz. revert m'. induction m as [|m IH]; intros m' Hm; [simpl; lia|].
    destruct m' as [|m']; [lia|]. simpl. apply Nat.mul_le_mono_l.
    specialize (IH m' ltac:(lia)). lia.
  Qed.

  Lemma zcall_mono d d' : d <= d' -> zcall d <= zcall d'.
  Proof.
    revert d'. induction d as [|d IH]; intros d' H; [simpl; lia|]. destruct d' as [|d']; [lia|].
    simpl. apply Nat.mul_le_mono_l. apply zseq_mono; auto. apply IH. lia.
  Qed.

  Lemma zseq_pow z m : 1 + z + zseq z m <= (1 + z) * (K + 2) ^ m.
  Proof.
    induction m as [|m IH]; [simpl; lia|].
    cbn [zseq]. rewrite Nat.pow_succ_r'.
    assert (H1 : (K + 1) * (1 + z + zseq z m) <= (K + 1) * ((1 + z) * (K + 2) ^ m)) by now apply Nat.mul_le_mono_l.
    assert (H2 : 1 <= (K + 2) ^ m) by (rewrite <- (Nat.pow_1_l m); apply Nat.pow_le_mono_l; lia).
    assert (H3 : 1 + z <= (1 + z) * (K + 2) ^ m) by nia.
    nia.
  Qed.

  Lemma pow_factor : (K + 2) ^ M <= F.
  Proof. unfold calls_factor. nia. Qed.

  Lemma zcall_pow d : 1 + zcall d <= F ^ d.
  Proof.
    induction d as [|d IH]; [simpl; lia|].
    cbn [zcall]. rewrite Nat.pow_succ_r'. pose proof (zseq_pow (zcall d) M) as H.
    assert (H1 : K * zseq (zcall d) M <= K * ((1 + zcall d) * (K + 2) ^ M)) by (apply Nat.mul_le_mono_l; lia).
    unfold calls_factor at 1. set (x := (K + 2) ^ M) in *. set (y := F ^ d) in *.
    assert (H2 : (1 + K * x) * (1 + zcall d) <= (1 + K * x) * y) by now apply Nat.mul_le_mono_l.
    nia.
  Qed.

  Lemma z_bound d m : d <= N -> m <= M -> 1 + zcall d + zseq (zcall d) m <= Z.
  Proof.
    intros Hd Hm. pose proof (zseq_pow (zcall d) M) as H. pose proof (zcall_pow d) as H1.
    pose proof (zseq_mono (le_n (zcall d)) Hm) as H2. pose proof pow_factor as H3.
    assert (H4 : F ^ d <= F ^ N) by (apply Nat.pow_le_mono_r; auto; unfold calls_factor; lia).
    unfold Z. rewrite Nat.pow_succ_r'.
    assert (H5 : (1 + zcall d) * (K + 2) ^ M <= F ^ N * F) by (apply Nat.mul_le_mono; lia). nia.
  Qed.

  (** ** the LL(1) grammar *)
  Definition suffix_of (A : T) (u Xs : list T) : Prop := In (Production A (u ++ Xs)) ps.

  Lemma suffix_next A u X Xs : suffix_of A u (X :: Xs) -> suffix_of A (u ++ [X]) Xs.
  Proof. unfold suffix_of. now rewrite <- app_assoc. Qed.

  Lemma suffix_length A u Xs : suffix_of A u Xs -> length Xs <= M.
  Proof. intros H. apply longest_output_ge in H. simpl in H. rewrite app_length in H. lia. Qed.

  Lemma suffix_reach A u X Xs : reach A -> suffix_of A u (X :: Xs) -> reach X.
  Proof.
    intros HR H. apply (reachable_part HR). exists (Production A (u ++ X :: Xs)). simpl. repeat split; auto.
    apply in_elt.
  Qed.

  Arguments suffix_next {A u X Xs} _.
  Arguments suffix_length {A u Xs} _.
  Arguments suffix_reach {A u X Xs} _ _.

  Lemma follow_start A u X Xs a : reach A -> suffix_of A u (X :: Xs) -> can_start Xs a -> follow X a.
  Proof.
    intros (x & y & HR) H (H1 & H2 & v & Hv). split; auto. split; auto.
    exists (x ++ u), (v ++ y). eapply derives_trans; [exact HR|].
    replace ((x ++ u) ++ X :: a :: v ++ y) with (x ++ (u ++ [X] ++ (a :: v)) ++ y)
      by (rewrite <- !app_assoc; reflexivity).
    apply (@derives_ctx _ eps ps x y [A]). eapply derives_trans; [exact (derives_production eps _ _ H)|]. simpl p_output.
    apply derives_app; [apply derives_refl|]. apply (@derives_app _ eps ps [X] [X]); [apply derives_refl|exact Hv].
  Qed.

  Lemma follow_null A u X Xs a : suffix_of A u (X :: Xs) -> nullable Xs -> follow A a -> follow X a.
  Proof.
    intros H Hn (H1 & H2 & x & y & HR). split; auto. split; auto.
    exists (x ++ u), y. eapply derives_trans; [exact HR|].
    replace ((x ++ u) ++ X :: a :: y) with (x ++ (u ++ [X] ++ []) ++ (a :: y))
      by (rewrite <- !app_assoc; reflexivity).
    apply (@derives_ctx _ eps ps x (a :: y) [A]). eapply derives_trans; [exact (derives_production eps _ _ H)|]. simpl p_output.
    apply derives_app; [apply derives_refl|]. apply (@derives_app _ eps ps [X] [X]); [apply derives_refl|exact Hn].
  Qed.

  (** outputs of [X] *)
  Definition of_symbol (X : T) (outs : list (list T)) : Prop :=
    NoDup outs /\ length outs <= K /\ forall out, In out outs -> In (Production X out) ps.

  Lemma cands_of_symbol X a : of_symbol X (cands X a).
  Proof.
    split; [apply Hdistinct|]. split; [apply Hsize|]. intros out H.
    apply Hcands in H as ([X' o] & Hp & Hi & Ho). simpl in *. now subst.
  Qed.

  Lemma NoDup_parts (A : Type) (l1 l2 : list A) : NoDup (l1 ++ l2) -> NoDup l1 /\ NoDup l2.
  Proof.
    induction l1 as [|x l1 IH]; simpl; intros H; [split; [constructor|auto]|].
    inversion H as [|? ? Hx Hn]; subst. apply IH in Hn as [H1 H2]. split; auto. constructor; auto.
    intros Hi. apply Hx. apply in_or_app. auto.
  Qed.

  Lemma of_symbol_app X l1 l2 : of_symbol X (l1 ++ l2) -> of_symbol X l1 /\ of_symbol X l2.
  Proof.
    intros (H1 & H2 & H3). rewrite app_length in H2. apply NoDup_parts in H1 as [Hl Hr].
    repeat split; auto; try lia; intros out Ho; apply H3; apply in_or_app; auto.
  Qed.

  (** one output or another, not both *)
  Definition for_token X out a : Prop := can_start out a \/ (nullable out /\ follow X a).

  Lemma one_only X l1 l2 o1 o2 a : of_symbol X (l1 ++ l2) -> In o1 l1 -> In o2 l2 ->
    for_token X o1 a -> for_token X o2 a -> False.
  Proof.
    intros (Hnd & _ & Hp) H1 H2 F1 F2.
    assert (Heq : Production X o1 = Production X o2).
    { apply (Hll (A := X) (a := a)); (split; [apply Hp; apply in_or_app; auto|split; auto]). }
    inversion Heq; subst o2. revert Hnd H1 H2. clear. induction l1 as [|x l1 IH]; intros Hnd H1 H2; [destruct H1|].
    simpl in Hnd. inversion Hnd as [|? ? Hx Hnd']; subst. destruct H1 as [->|H1]; [|auto].
    apply Hx. apply in_or_app. auto.
  Qed.

  (** nothing that can come after [X] is at [q] *)
  Definition dead (X : T) (q : nat) : Prop :=
    forall tok, nth_error tokens q = Some tok -> ~ follow X (tok_type tok).

  (** how many symbols have been entered at the present place *)
  Definition level (A : T) (u : list T) (l : nat) : Prop :=
    l = 0 \/ exists path, on_path eps ps A path /\ nullable u /\ l = S (length path).
  Definition clevel (X : T) (l : nat) : Prop := exists path, on_path eps ps X path /\ l = length path.

  Lemma level_child A u X Xs l : reach A -> suffix_of A u (X :: Xs) -> non_terminal ps X ->
    level A u l -> clevel X l.
  Proof.
    intros HR Hs HX [->|(path & Hp & Hu & ->)].
    - exists []. split; auto. now apply on_path_nil.
    - exists (A :: path). split; auto. apply on_path_cons with (init := init); auto. split; auto.
      exists (Production A (u ++ X :: Xs)), u, Xs. auto.
  Qed.

  Lemma level_next A u X l : nullable [X] -> level A u l -> level A (u ++ [X]) l.
  Proof.
    intros HX [->|(path & Hp & Hu & ->)]; [now left|]. right. exists path. split; auto. split; auto.
    now apply nullable_app.
  Qed.

  Lemma level_zero A u : level A u 0.
  Proof. now left. Qed.

  Lemma clevel_bound X l : clevel X l -> S l <= N.
  Proof. intros (path & Hp & ->). now apply on_path_short in Hp. Qed.

  Lemma clevel_down X l : clevel X l -> level X [] (S l).
  Proof. intros (path & Hp & ->). right. exists path. split; auto. split; auto. apply nullable_nil. Qed.

  Lemma level_bound A u l : level A u l -> l <= N.
  Proof. intros [->|(path & Hp & _ & ->)]; [lia|]. now apply on_path_short in Hp. Qed.

  Arguments level_next {A u X l} _ _.
  Arguments clevel_bound {X l} _.
  Arguments clevel_down {X l} _.
  Arguments level_bound {A u l} _.

  Lemma c_level l : l <= N -> R * l + R <= c.
  Proof. unfold c. nia. Qed.

  Lemma nullable_symbol X out : In (Production X out) ps -> nullable out -> nullable [X].
  Proof. intros H Hn. eapply derives_trans; [exact (derives_production eps _ _ H)|exact Hn]. Qed.

  Lemma start_symbol X out a : In (Production X out) ps -> can_start out a -> can_start [X] a.
  Proof. intros H Hs. eapply can_start_derives; [exact (derives_production eps _ _ H)|exact Hs]. Qed.

  (** ** the bounds *)
  Definition e_try (X : T) (p : nat) (outs : list (list T)) (r : res (node L T * nat * list (list T))) (k : nat) : Prop :=
    forall tok, nth_error tokens p = Some tok -> reach X -> of_symbol X outs ->
    exists m tried left, outs = tried ++ left /\ p <= m <= length tokens /\
      (m = p -> forall l, clevel X l -> k <= length tried * zseq (zcall (N - S l)) M) /\
      (m > p -> (exists out, In out tried /\ can_start out (tok_type tok)) /\
                forall l, clevel X l -> k + R * S l <= c * (m - p) + G * M + length tried * Z) /\
      match r with
      | ROk (_, q, outs') => left = outs' /\ tried <> [] /\ p <= q <= m /\ (m > q -> dead X q) /\
          (q = p -> exists out, In out tried /\ nullable out)
      | _ => True
      end.

  Definition e_seq (Xs : list T) (p : nat) (r : res (list (node L T) * nat)) (k : nat) : Prop :=
    forall A u, p <= length tokens -> reach A -> suffix_of A u Xs ->
    exists m, p <= m <= length tokens /\
      (m = p -> forall l, level A u l -> k <= zseq (zcall (N - l)) (length Xs)) /\
      (m > p -> (forall tok, nth_error tokens p = Some tok -> can_start Xs (tok_type tok)) /\
                forall l, level A u l -> k + R * l <= c * (m - p) + G * length Xs) /\
      match r with
      | ROk (_, q) => p <= q <= m /\ (m > q -> dead A q) /\ (q = p -> nullable Xs)
      | _ => True
      end.

  Definition e_branch (X : T) (p : nat) (outs : list (list T)) (Xs : list T)
             (r : res (list (node L T) * nat)) (k : nat) : Prop :=
    forall tok A u, nth_error tokens p = Some tok -> reach A -> suffix_of A u (X :: Xs) ->
    non_terminal ps X -> of_symbol X outs ->
    exists m, p <= m <= length tokens /\
      (m = p -> forall l, level A u l ->
         k <= (length outs + 1) * (1 + zcall (N - l) + zseq (zcall (N - l)) (length Xs))) /\
      (m > p -> (exists out, In out outs /\ (can_start out (tok_type tok) \/ (nullable out /\ can_start Xs (tok_type tok)))) /\
                forall l, level A u l -> k + R * l <= c * (m - p) + G * length Xs + (length outs + 1) * Z) /\
      match r with
      | ROk (_, q) => p <= q <= m /\ (m > q -> dead A q) /\
          (q = p -> nullable Xs /\ exists out, In out outs /\ nullable out)
      | _ => True
      end.

  Lemma tried_zero X outs tried left l k : of_symbol X outs -> outs = tried ++ left -> clevel X l ->
    k <= length tried * zseq (zcall (N - S l)) M -> k <= zcall (N - l).
  Proof.
    intros (_ & Hl & _) -> Hc Hk. rewrite app_length in Hl. pose proof (clevel_bound Hc) as Hb.
    replace (N - l) with (S (N - S l)) by lia. cbn [zcall]. nia.
  Qed.

  Lemma tried_far X outs tried left l k x : of_symbol X outs -> outs = tried ++ left ->
    k + R * S l <= x + G * M + length tried * Z -> S (k + R * l) <= x.
  Proof.
    intros (_ & Hl & _) -> H. rewrite app_length in Hl.
    assert (Ht : length tried * Z <= K * Z) by (apply Nat.mul_le_mono_r; lia).
    rewrite Nat.mul_succ_r in H. assert (HR : R = 1 + K * Z + M * G) by reflexivity.
    rewrite (Nat.mul_comm G M) in H. lia.
  Qed.

  Lemma nth_some p : p < length tokens -> exists tok, nth_error tokens p = Some tok.
  Proof. intros H. destruct (nth_error tokens p) as [tok|] eqn:Ht; eauto. apply nth_error_None in Ht. lia. Qed.

  Lemma z_seq_bound d m : d <= N -> m <= M -> zseq (zcall d) m <= Z.
  Proof. intros H1 H2. pose proof (z_bound H1 H2). lia. Qed.

  (** [X] parsed, and then [Xs] *)
  Lemma after_ok X p outs n q outs' k1 Xs r2 k2 tok A u :
    e_try X p outs (ROk (n, q, outs')) k1 -> e_seq Xs q r2 k2 ->
    nth_error tokens p = Some tok -> reach A -> suffix_of A u (X :: Xs) ->
    non_terminal ps X -> of_symbol X outs ->
    exists m tried, outs = tried ++ outs' /\ tried <> [] /\ p <= m <= length tokens /\
      (m = p -> forall l, level A u l ->
         S k1 + k2 <= 1 + zcall (N - l) + zseq (zcall (N - l)) (length Xs)) /\
      (m > p -> (exists out, In out tried /\ (can_start out (tok_type tok) \/ (nullable out /\ can_start Xs (tok_type tok)))) /\
                forall l, level A u l -> S k1 + k2 + R * l <= c * (m - p) + G * length Xs + Z) /\
      match r2 with
      | ROk (_, q') => p <= q' <= m /\ (m > q' -> dead A q') /\
          (q' = p -> nullable Xs /\ exists out, In out tried /\ nullable out)
      | _ => True
      end.
  Proof.
    intros Htry Hseq Ht HR Hs HX Ho.
    destruct (Htry tok Ht ltac:(eapply suffix_reach; eauto) Ho) as (m1 & tried & left & Heq & Hm1 & Hz1 & Hf1 & -> & Hne & Hq & Hd & Hqn).
    destruct (Hseq A (u ++ [X]) ltac:(lia) HR ltac:(apply suffix_next; exact Hs)) as (m2 & Hm2 & Hz2 & Hf2 & Hr2).
    pose proof (suffix_length Hs) as HlX. simpl in HlX.
    assert (Hlev : forall l, level A u l -> clevel X l) by (intros l; now apply level_child with (Xs := Xs)).
    assert (Hfar : m1 > p -> forall l, level A u l -> S (k1 + R * l) <= c * (m1 - p)).
    { intros H l Hl. apply (@tried_far X outs tried outs'); auto. apply (proj2 (Hf1 H)). auto. }
    destruct (Nat.eq_dec m1 q) as [Hmq|Hmq].
    - subst m1. destruct (Nat.eq_dec q p) as [->|Hqp].
      + (* nothing consumed by [X] *)
        destruct (Hqn eq_refl) as (out & Hout & Hnull).
        assert (HXn : nullable [X]).
        { apply (@nullable_symbol X out); auto. apply Ho. rewrite Heq. apply in_or_app. auto. }
        exists m2, tried. split; auto. split; auto. split; [lia|].
        assert (Hk1 : forall l, level A u l -> k1 <= zcall (N - l)).
        { intros l Hl. apply (@tried_zero X outs tried outs'); auto. }
        split; [|split].
        * intros -> l Hl. specialize (Hz2 eq_refl l (level_next HXn Hl)). specialize (Hk1 l Hl). lia.
        * intros Hgt. destruct (Hf2 Hgt) as [Hst Hc2]. split.
          -- exists out. split; auto.
          -- intros l Hl. specialize (Hc2 l (level_next HXn Hl)). specialize (Hk1 l Hl).
             pose proof (@z_bound (N - l) 0 ltac:(lia) ltac:(lia)). lia.
        * destruct r2 as [[ns q']| |]; auto. destruct Hr2 as (H1 & H2 & H3). split; [exact H1|]. split; [exact H2|]. intros Hqq. split; [now apply H3|eauto].
      + (* [X] consumes up to [q] *)
        assert (Hgt : q > p) by lia. destruct (Hf1 Hgt) as [[out [Hout Hst]] _]. specialize (Hfar Hgt).
        exists m2, tried. split; auto. split; auto. split; [lia|]. split; [lia|]. split.
        * intros _. split; [eauto|]. intros l Hl. specialize (Hfar l Hl).
          destruct (Nat.eq_dec m2 q) as [->|H2].
          -- specialize (Hz2 eq_refl 0 (level_zero _ _)).
             pose proof (@z_seq_bound (N - 0) (length Xs) ltac:(lia) ltac:(lia)). lia.
          -- destruct (Hf2 ltac:(lia)) as [_ Hc2]. specialize (Hc2 0 (level_zero _ _)).
             replace (m2 - p) with ((q - p) + (m2 - q)) by lia. rewrite Nat.mul_add_distr_l. lia.
        * destruct r2 as [[ns q']| |]; auto. destruct Hr2 as (H1 & H2 & H3). split; [lia|]. split; auto. lia.
    - (* a dead end *)
      assert (Hgt : m1 > q) by lia. specialize (Hd Hgt).
      destruct (@nth_some q ltac:(lia)) as [tq Htq].
      assert (m2 = q).
      { destruct (Nat.eq_dec m2 q) as [|Hm]; auto. exfalso. destruct (Hf2 ltac:(lia)) as [Hst _].
        apply (Hd tq Htq). eapply follow_start; eauto. }
      subst m2. destruct (Hf1 ltac:(lia)) as [[out [Hout Hst]] _]. specialize (Hfar ltac:(lia)).
      exists m1, tried. split; auto. split; auto. split; [lia|]. split; [lia|]. split.
      * intros _. split; [eauto|]. intros l Hl. specialize (Hfar l Hl).
        specialize (Hz2 eq_refl 0 (level_zero _ _)).
        pose proof (@z_seq_bound (N - 0) (length Xs) ltac:(lia) ltac:(lia)). lia.
      * destruct r2 as [[ns q']| |]; auto. destruct Hr2 as (H1 & H2 & H3). assert (q' = q) by lia. subst q'.
        split; [lia|]. split.
        -- intros _ t Htt Hfo. apply (Hd t Htt). eapply follow_null; eauto.
        -- intros ->. split; auto.
  Qed.

  Arguments after_ok {X p outs n q outs' k1 Xs r2 k2 tok A u} _ _ _ _ _ _ _.

  Lemma z_round l m : l <= N -> m <= M -> 1 + zcall (N - l) + zseq (zcall (N - l)) m <= Z.
  Proof. intros H1 H2. apply z_bound; lia. Qed.

  Lemma branch_failed X p outs Xs (r : res (list (node L T) * nat)) k tok A u (rt : res (node L T * nat * list (list T))) :
    e_try X p outs rt k -> (match r with ROk _ => False | _ => True end) ->
    nth_error tokens p = Some tok -> reach A -> suffix_of A u (X :: Xs) ->
    non_terminal ps X -> of_symbol X outs ->
    exists m, p <= m <= length tokens /\
      (m = p -> forall l, level A u l ->
         S k <= (length outs + 1) * (1 + zcall (N - l) + zseq (zcall (N - l)) (length Xs))) /\
      (m > p -> (exists out, In out outs /\ (can_start out (tok_type tok) \/ (nullable out /\ can_start Xs (tok_type tok)))) /\
                forall l, level A u l -> S k + R * l <= c * (m - p) + G * length Xs + (length outs + 1) * Z) /\
      match r with
      | ROk (_, q) => p <= q <= m /\ (m > q -> dead A q) /\
          (q = p -> nullable Xs /\ exists out, In out outs /\ nullable out)
      | _ => True
      end.
  Proof.
    intros Htry Hr Ht HR Hs HX Ho.
    destruct (Htry tok Ht ltac:(eapply suffix_reach; eauto) Ho) as (m & tried & left & Heq & Hm & Hz & Hf & _).
    assert (Hlev : forall l, level A u l -> clevel X l) by (intros l; now apply level_child with (Xs := Xs)).
    exists m. split; auto. split; [|split].
    - intros Hmp l Hl. specialize (Hz Hmp l (Hlev l Hl)).
      apply (@tried_zero X outs tried left l) in Hz; auto. nia.
    - intros Hmp. destruct (Hf Hmp) as [(out & Hin & Hst) Hc]. split.
      + exists out. split; auto. rewrite Heq. apply in_or_app. auto.
      + intros l Hl. specialize (Hc l (Hlev l Hl)). apply (@tried_far X outs tried left) in Hc; auto. lia.
    - destruct r; auto. contradiction.
  Qed.

  Lemma branch_done X p outs Xs n q outs' r k k' tok A u ns0 :
    e_try X p outs (ROk (n, q, outs')) k -> e_seq Xs q r k' ->
    nth_error tokens p = Some tok -> reach A -> suffix_of A u (X :: Xs) ->
    non_terminal ps X -> of_symbol X outs ->
    exists m, p <= m <= length tokens /\
      (m = p -> forall l, level A u l ->
         S k + k' <= (length outs + 1) * (1 + zcall (N - l) + zseq (zcall (N - l)) (length Xs))) /\
      (m > p -> (exists out, In out outs /\ (can_start out (tok_type tok) \/ (nullable out /\ can_start Xs (tok_type tok)))) /\
                forall l, level A u l -> S k + k' + R * l <= c * (m - p) + G * length Xs + (length outs + 1) * Z) /\
      match match r with ROk (ns, q') => ROk (ns0 ns, q') | RFail => RFail | RPast => RPast end
            : res (list (node L T) * nat) with
      | ROk (_, q) => p <= q <= m /\ (m > q -> dead A q) /\
          (q = p -> nullable Xs /\ exists out, In out outs /\ nullable out)
      | _ => True
      end.
  Proof.
    intros Htry Hseq Ht HR Hs HX Ho.
    destruct (after_ok Htry Hseq Ht HR Hs HX Ho) as (m & tried & -> & Hne & Hm & Hz & Hf & Hr).
    rewrite app_length. exists m. split; auto. split; [|split].
    - intros Hmp l Hl. specialize (Hz Hmp l Hl). nia.
    - intros Hmp. destruct (Hf Hmp) as [(out & Hin & Hst) Hc]. split.
      + exists out. split; auto. apply in_or_app. auto.
      + intros l Hl. specialize (Hc l Hl). nia.
    - destruct r as [[ns q']| |]; auto. destruct Hr as (H1 & H2 & H3). split; auto. split; auto.
      intros Hq. destruct (H3 Hq) as (Hn & out & Hin & Hon). split; auto. exists out. split; auto. apply in_or_app. auto.
  Qed.

  Lemma effort_bound :
    (forall X p outs r k, ctry X p outs r k -> e_try X p outs r k) /\
    (forall Xs p r k, cseq Xs p r k -> e_seq Xs p r k) /\
    (forall X p outs Xs r k, cbranch X p outs Xs r k -> e_branch X p outs Xs r k).
  Proof.
    apply effort_mutind.
    - intros X p tok Ht HR Ho. exists p, [], []. split; auto. split.
      { assert (p < length tokens) by (apply nth_error_Some; congruence). lia. }
      split; [intros; lia|]. split; [lia|exact I].
    - intros X p out outs ns q k _ IH tok Ht HR Ho.
      assert (Hp : p < length tokens) by (apply nth_error_Some; congruence).
      assert (Hs : suffix_of X [] out) by (apply Ho; now left).
      destruct (IH X [] ltac:(lia) HR Hs) as (m & Hm & Hz & Hf & Hq & Hd & Hn).
      pose proof (suffix_length Hs) as Hl.
      exists m, [out], outs. split; auto. split; auto. split; [|split; [|split]]; auto.
      + intros Hmp l Hc. specialize (Hz Hmp _ (clevel_down Hc)). cbn [length]. rewrite Nat.mul_1_l.
        eapply Nat.le_trans; [exact Hz|]. now apply zseq_mono.
      + intros Hmp. destruct (Hf Hmp) as [H1 H2]. split; [exists out; split; [now left|auto]|].
        intros l Hc. specialize (H2 _ (clevel_down Hc)). cbn [length].
        assert (G * length out <= G * M) by now apply Nat.mul_le_mono_l. lia.
      + split; [discriminate|]. split; auto. split; auto. intros Hqp. exists out. split; [now left|auto].
    - intros X p out outs k _ IH tok Ht HR Ho.
      assert (Hp : p < length tokens) by (apply nth_error_Some; congruence).
      assert (Hs : suffix_of X [] out) by (apply Ho; now left).
      destruct (IH X [] ltac:(lia) HR Hs) as (m & Hm & Hz & Hf & _).
      pose proof (suffix_length Hs) as Hl.
      exists m, [out], outs. split; auto. split; auto. split; [|split]; auto.
      + intros Hmp l Hc. specialize (Hz Hmp _ (clevel_down Hc)). cbn [length]. rewrite Nat.mul_1_l.
        eapply Nat.le_trans; [exact Hz|]. now apply zseq_mono.
      + intros Hmp. destruct (Hf Hmp) as [H1 H2]. split; [exists out; split; [now left|auto]|].
        intros l Hc. specialize (H2 _ (clevel_down Hc)). cbn [length].
        assert (G * length out <= G * M) by now apply Nat.mul_le_mono_l. lia.
    - intros X p out outs r k k' _ IH _ IH' tok Ht HR Ho.
      assert (Hp : p < length tokens) by (apply nth_error_Some; congruence).
      assert (Hs : suffix_of X [] out) by (apply Ho; now left).
      assert (Ho' : of_symbol X outs) by exact (proj2 (@of_symbol_app X [out] outs Ho)).
      destruct (IH X [] ltac:(lia) HR Hs) as (m1 & Hm1 & Hz1 & Hf1 & _).
      destruct (IH' tok Ht HR Ho') as (m2 & tried & left & -> & Hm2 & Hz2 & Hf2 & Hr2).
      pose proof (suffix_length Hs) as Hl.
      assert (Hone : forall o, In o tried -> for_token X out (tok_type tok) -> for_token X o (tok_type tok) -> False).
      { intros o Hin H1 H2. apply (@one_only X [out] (tried ++ left) out o (tok_type tok)); auto; [now left|].
        apply in_or_app. auto. }
      assert (Hzs : forall l, clevel X l -> zseq (zcall (N - S l)) (length out) <= zseq (zcall (N - S l)) M)
        by (intros; now apply zseq_mono).
      assert (HzZ : forall l, zseq (zcall (N - S l)) M <= Z) by (intros l; apply z_seq_bound; lia).
      destruct (Nat.eq_dec m1 p) as [->|Hne].
      + exists m2, (out :: tried), left. split; auto. split; auto. split; [|split].
        * intros Hmp l Hc. specialize (Hz1 eq_refl _ (clevel_down Hc)). specialize (Hz2 Hmp l Hc). specialize (Hzs l Hc).
          cbn [length]. rewrite Nat.mul_succ_l. lia.
        * intros Hmp. destruct (Hf2 Hmp) as [[o [Hin Hst]] H2]. split; [exists o; split; [now right|auto]|].
          intros l Hc. specialize (H2 l Hc). specialize (Hz1 eq_refl _ (clevel_down Hc)). specialize (Hzs l Hc).
          specialize (HzZ l). cbn [length]. rewrite Nat.mul_succ_l. lia.
        * destruct r as [[[n q] outs']| |]; auto. destruct Hr2 as (H1 & H2 & H3 & H4 & H5).
          split; auto. split; [discriminate|]. split; auto. split; auto.
          intros Hq. destruct (H5 Hq) as (o & Hin & Hn). exists o. split; [now right|auto].
      + assert (Hgt : m1 > p) by lia. destruct (Hf1 Hgt) as [Hst Hc1]. specialize (Hst tok Ht).
        assert (m2 = p).
        { destruct (Nat.eq_dec m2 p) as [|Hn]; auto. exfalso.
          destruct (Hf2 ltac:(lia)) as [[o [Hin Hst2]] _]. apply (Hone o Hin); now left. }
        subst m2. exists m1, (out :: tried), left. split; auto. split; auto. split; [lia|]. split.
        * intros _. split; [exists out; split; [now left|auto]|].
          intros l Hc. specialize (Hc1 _ (clevel_down Hc)). specialize (Hz2 eq_refl l Hc). specialize (HzZ l).
          assert (length tried * zseq (zcall (N - S l)) M <= length tried * Z) by now apply Nat.mul_le_mono_l.
          assert (G * length out <= G * M) by now apply Nat.mul_le_mono_l.
          cbn [length]. rewrite Nat.mul_succ_l. lia.
        * destruct r as [[[n q] outs']| |]; auto. destruct Hr2 as (H1 & H2 & H3 & H4 & H5).
          assert (q = p) by lia. subst q. destruct (H5 eq_refl) as (o & Hin & Hn).
          split; auto. split; [discriminate|]. split; [lia|]. split.
          -- intros _ t Htt Hfo. rewrite Ht in Htt. inversion Htt; subst t.
             apply (Hone o Hin); [now left|right; auto].
          -- intros _. exists o. split; [now right|auto].
    - intros p A u Hp HR Hs. exists p. split; [lia|]. split; [intros; simpl; lia|]. split; [lia|].
      split; [lia|]. split; [lia|]. intros _. apply nullable_nil.
    - intros Xs p r k _ IH A u Hp HR Hs.
      assert (He : nullable [eps]) by (eapply Relation_Operators.rt1n_trans; [apply (@derive1_epsilon _ eps ps [] [])|constructor]).
      destruct (IH A (u ++ [eps]) Hp HR ltac:(apply suffix_next; exact Hs)) as (m & Hm & Hz & Hf & Hr).
      exists m. split; auto. split; [|split].
      + intros Hmp l Hl. specialize (Hz Hmp l (level_next He Hl)). eapply Nat.le_trans; [exact Hz|].
        apply zseq_mono; simpl; lia.
      + intros Hmp. destruct (Hf Hmp) as [H1 H2]. split.
        * intros tok Ht. apply can_start_cons. right. split; auto.
        * intros l Hl. specialize (H2 l (level_next He Hl)).
          assert (G * length Xs <= G * length (eps :: Xs)) by (apply Nat.mul_le_mono_l; simpl; lia). lia.
      + destruct r as [[ns q]| |]; simpl; auto. destruct Hr as (H1 & H2 & H3). split; auto. split; auto.
        intros Hq. apply nullable_cons. auto.
    - intros Xs p tok r k H1 H2 H3 _ IH A u Hp HR Hs.
      assert (Hlt : p < length tokens) by (apply nth_error_Some; congruence).
      destruct (IH A (u ++ [tok_type tok]) ltac:(lia) HR ltac:(apply suffix_next; exact Hs)) as (m & Hm & Hz & Hf & Hr).
      pose proof (suffix_length Hs) as Hl. simpl in Hl.
      exists m. split; [lia|]. split; [lia|]. split.
      + intros _. split.
        * intros tok' Ht. rewrite H3 in Ht. inversion Ht; subst tok'. split; auto. split; auto.
          exists Xs. apply derives_refl.
        * intros l Hlv. pose proof (c_level (level_bound Hlv)) as Hcl.
          replace (m - p) with (1 + (m - (p + 1))) by lia. rewrite Nat.mul_add_distr_l, Nat.mul_1_r.
          cbn [length]. rewrite (Nat.mul_succ_r G).
          destruct (Nat.eq_dec m (p + 1)) as [Hmp|Hmp].
          -- specialize (Hz Hmp 0 (level_zero _ _)).
             pose proof (@z_seq_bound (N - 0) (length Xs) ltac:(lia) ltac:(lia)) as HzZ.
             assert (Z <= G) by (unfold G; nia). lia.
          -- destruct (Hf ltac:(lia)) as [_ Hc]. specialize (Hc 0 (level_zero _ _)). lia.
      + destruct r as [[ns q]| |]; simpl; auto. destruct Hr as (H4 & H5 & H6). split; [lia|]. split; auto. lia.
    - intros X Xs p H1 H2 H3 A u Hp HR Hs. exists p. split; [lia|]. split; [intros; lia|]. split; [lia|exact I].
    - intros X Xs p H1 H2 A u Hp HR Hs. exists p. split; [lia|]. split; [intros; lia|]. split; [lia|exact I].
    - intros X Xs p tok r k H1 H2 _ IH A u Hp HR Hs.
      destruct (IH tok A u H2 HR Hs H1 (cands_of_symbol X (tok_type tok))) as (m & Hm & Hz & Hf & Hr).
      pose proof (Hsize X (tok_type tok)) as Hsz. set (outs := cands X (tok_type tok)) in *.
      assert (Hin : forall out, In out outs -> In (Production X out) ps)
        by (intros out; apply (cands_of_symbol X (tok_type tok))).
      exists m. split; auto. split; [|split].
      + intros Hmp l Hl. eapply Nat.le_trans; [exact (Hz Hmp l Hl)|]. cbn [length zseq].
        apply Nat.mul_le_mono_r. lia.
      + intros Hmp. destruct (Hf Hmp) as [(out & Ho & Hst) Hc]. split.
        * intros tok' Ht. rewrite H2 in Ht. inversion Ht; subst tok'. apply can_start_cons.
          destruct Hst as [Hst|[Hn Hst]].
          -- left. apply (@start_symbol X out); auto.
          -- right. split; auto. apply (@nullable_symbol X out); auto.
        * intros l Hl. specialize (Hc l Hl). cbn [length]. rewrite (Nat.mul_succ_r G).
          assert ((length outs + 1) * Z <= G) by (unfold G; apply Nat.mul_le_mono_r; lia). lia.
      + destruct r as [[ns q]| |]; auto. destruct Hr as (H4 & H5 & H6). split; auto. split; auto.
        intros Hq. destruct (H6 Hq) as (Hn & out & Ho & Hon). apply nullable_cons. split; auto.
        apply (@nullable_symbol X out); auto.
    - intros X p outs Xs k _ IH tok A u Ht HR Hs HX Ho. apply (@branch_failed X p outs Xs RFail k tok A u RFail); auto.
    - intros X p outs Xs k _ IH tok A u Ht HR Hs HX Ho. apply (@branch_failed X p outs Xs RPast k tok A u RPast); auto.
    - intros X p outs Xs n q outs' ns q' k k' _ IH _ IH' tok A u Ht HR Hs HX Ho.
      apply (@branch_done X p outs Xs n q outs' (ROk (ns, q')) k k' tok A u (cons n)); auto.
    - intros X p outs Xs n q outs' k k' _ IH _ IH' tok A u Ht HR Hs HX Ho.
      apply (@branch_done X p outs Xs n q outs' RPast k k' tok A u (cons n)); auto.
    - intros X p outs Xs n q outs' r k k' k'' _ IH _ IH' _ IH'' tok A u Ht HR Hs HX Ho.
      destruct (after_ok IH IH' Ht HR Hs HX Ho) as (m1 & tried & -> & Hne & Hm1 & Hz1 & Hf1 & _).
      destruct (IH'' tok A u Ht HR Hs HX (proj2 (of_symbol_app _ _ Ho))) as (m2 & Hm2 & Hz2 & Hf2 & Hr2).
      pose proof (suffix_length Hs) as HlX. simpl in HlX. rewrite app_length.
      assert (Htl : 1 <= length tried) by (destruct tried; [congruence|simpl; lia]).
      assert (Hev : forall out, (can_start out (tok_type tok) \/ nullable out /\ can_start Xs (tok_type tok)) ->
                for_token X out (tok_type tok)).
      { intros out [H|[H1 H2]]; [now left|]. right. split; auto. eapply follow_start; eauto. }
      destruct (Nat.eq_dec m1 p) as [->|Hm1p].
      + exists m2. split; [lia|]. split; [|split].
        * intros Hmp l Hl. specialize (Hz1 eq_refl l Hl). specialize (Hz2 Hmp l Hl).
          set (z := 1 + zcall (N - l) + zseq (zcall (N - l)) (length Xs)) in *.
          assert ((1 + (length outs' + 1)) * z <= (length tried + length outs' + 1) * z) by (apply Nat.mul_le_mono_r; lia).
          lia.
        * intros Hmp. destruct (Hf2 Hmp) as [(out & Hin & Hst) Hc]. split.
          -- exists out. split; auto. apply in_or_app. auto.
          -- intros l Hl. specialize (Hz1 eq_refl l Hl). specialize (Hc l Hl).
             pose proof (@z_round l (length Xs) (level_bound Hl) ltac:(lia)).
             assert ((1 + (length outs' + 1)) * Z <= (length tried + length outs' + 1) * Z) by (apply Nat.mul_le_mono_r; lia).
             lia.
        * destruct r as [[ns q']| |]; auto. destruct Hr2 as (H1 & H2 & H3). split; auto. split; auto.
          intros Hq. destruct (H3 Hq) as (Hn & out & Hin & Hon). split; auto. exists out. split; auto.
          apply in_or_app. auto.
      + destruct (Hf1 ltac:(lia)) as [(o1 & Hin1 & Hst1) Hc1]. apply Hev in Hst1 as Hft1.
        assert (Hone : forall o, In o outs' -> for_token X o (tok_type tok) -> False).
        { intros o Hin H. exact (@one_only X tried outs' o1 o (tok_type tok) Ho Hin1 Hin Hft1 H). }
        assert (m2 = p).
        { destruct (Nat.eq_dec m2 p) as [|Hn]; auto. exfalso. destruct (Hf2 ltac:(lia)) as [(o & Hin & Hst) _].
          apply (Hone o Hin). auto. }
        subst m2. exists m1. split; [lia|]. split; [lia|]. split.
        * intros _. split.
          -- exists o1. split; auto. apply in_or_app. auto.
          -- intros l Hl. specialize (Hc1 l Hl). specialize (Hz2 eq_refl l Hl).
             pose proof (@z_round l (length Xs) (level_bound Hl) ltac:(lia)) as Hzr.
             apply (Nat.mul_le_mono_l _ _ (length outs' + 1)) in Hzr.
             assert ((1 + (length outs' + 1)) * Z <= (length tried + length outs' + 1) * Z) by (apply Nat.mul_le_mono_r; lia).
             lia.
        * destruct r as [[ns q']| |]; auto. destruct Hr2 as (H1 & H2 & H3). assert (q' = p) by lia. subst q'.
          destruct (H3 eq_refl) as (Hn & o & Hin & Hon). split; [lia|]. split.
          -- intros _ t Htt Hfo. rewrite Ht in Htt. inversion Htt; subst t. apply (Hone o Hin). right. split; auto.
             eapply follow_null; eauto.
          -- intros _. split; auto. exists o. split; auto. apply in_or_app. auto.
  Qed.
End EffortFacts.
