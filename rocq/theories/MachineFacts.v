(** * Vectors and machine integers (proofs) *)

From Verif Require Import BaseFacts.
From Verif Require Export Machine.

Set Implicit Arguments.

Lemma usize_add_in_range mc a b : a + b <= usize_max mc -> usize_add mc a b = Done (a + b).
Proof. intros H. unfold usize_add. apply Nat.leb_le in H. now rewrite H. Qed.

Lemma usize_sub_in_range mc a b : b <= a -> usize_sub mc a b = Done (a - b).
Proof. intros H. unfold usize_sub. apply Nat.leb_le in H. now rewrite H. Qed.

Lemma for_each_same {A S : Type} (f g : S -> A -> outcome S) : forall l s,
  (forall s x, In x l -> f s x = g s x) -> for_each f s l = for_each g s l.
Proof.
  induction l as [|x l IH]; intros s H; simpl; auto.
  rewrite H by (now left). destruct (g s x); simpl; auto. apply IH. intros. apply H. now right.
Qed.

Lemma converge_same {M : Type} (f g : nat -> M -> outcome (M * bool)) : (forall n m, f n m = g n m) ->
  forall fuel round m, converge fuel round f m = converge fuel round g m.
Proof.
  intros H. induction fuel as [|fuel IH]; intros round m; simpl; auto.
  rewrite H. destruct (g round m) as [[m' [|]]| |]; simpl; auto.
Qed.

Lemma bind_same {A B : Type} (o : outcome A) (f g : A -> outcome B) :
  (forall a, o = Done a -> f a = g a) -> bind o f = bind o g.
Proof. intros H. destruct o; simpl; auto. Qed.

Lemma vec_pop_rev {A : Type} (x : A) st : vec_pop (rev (x :: st)) = Some (rev st, x).
Proof. unfold vec_pop. rewrite rev_involutive. reflexivity. Qed.

Lemma vec_push_rev {A : Type} (x : A) st : vec_push (rev st) x = rev (x :: st).
Proof. reflexivity. Qed.

Lemma index_range_cons a b : a < b -> index_range a b = a :: index_range (S a) b.
Proof. intros H. unfold index_range. replace (b - a) with (S (b - S a)) by lia. reflexivity. Qed.

Lemma index_range_nil a b : b <= a -> index_range a b = [].
Proof. intros H. unfold index_range. now replace (b - a) with 0 by lia. Qed.

Lemma skipn_nth {A : Type} (l : list A) : forall k x, nth_error l k = Some x -> skipn k l = x :: skipn (S k) l.
Proof.
  induction l as [|a l IH]; intros [|k] x H; simpl in H; inversion H; subst; auto. now apply IH.
Qed.

Lemma collect_range {A : Type} (l : list A) : forall n k acc, length l - k = n ->
  for_each (fun acc i => x <- unwrap (nth_error l i) ;; Done (vec_push acc x)) acc (index_range k (length l))
  = Done (acc ++ skipn k l).
Proof.
  induction n as [|n IH]; intros k acc Hn.
  - rewrite index_range_nil by lia. rewrite skipn_all2 by lia. simpl. now rewrite app_nil_r.
  - rewrite index_range_cons by lia. simpl.
    destruct (nth_error l k) as [x|] eqn:Hx; [|apply nth_error_None in Hx; lia]. simpl.
    rewrite (IH (S k)) by lia. rewrite (skipn_nth _ _ Hx). unfold vec_push. now rewrite <- app_assoc.
Qed.

Lemma iterator_to_vec_id {A : Type} (l : list A) : iterator_to_vec l = l.
Proof.
  unfold iterator_to_vec, vec_push.
  assert (H : forall acc, fold_left (fun v x => v ++ [x]) l acc = acc ++ l).
  { induction l as [|x l IH]; intros acc; simpl; [now rewrite app_nil_r|]. rewrite IH. now rewrite <- app_assoc. }
  apply H.
Qed.

Section FollowFacts.
  Context {T : Type} {E : EqImpl T}.
  Variable mc : machine.
  Variable ho : hash_order T.
  Variable g : grammar T.
  Variable first : symbols_map T.

  Lemma last_chain_same round p : forall i fuel follow upd, i < fuel ->
    m_last_epsilon_chain_loop mc fuel ho round g first p i follow upd =
    last_epsilon_chain_loop ho round g first p i follow upd.
  Proof.
    induction i as [|i IH]; intros [|fuel] follow upd Hlt; try lia; simpl;
      apply bind_same; intros x _; apply bind_same; intros [f' u'] _; apply bind_same; intros s _; auto.
    destruct (hash_set_contains s (get_epsilon_symbol g)); simpl; auto.
    rewrite Nat.sub_0_r. apply IH. lia.
  Qed.

  Lemma follow_loop_same round p : forall i fuel follow idx upd, i < fuel -> S i <= usize_max mc ->
    m_follow_symbols_loop mc fuel ho round g first p i follow idx upd =
    follow_symbols_loop ho round g first p i follow idx upd.
  Proof.
    assert (Hstep : forall i follow idx, S i <= usize_max mc ->
      m_get_follow_symbols_process_production_symbol mc ho round g first follow p i idx =
      get_follow_symbols_process_production_symbol ho round g first follow p i idx).
    { intros i follow idx Hi. unfold m_get_follow_symbols_process_production_symbol,
        get_follow_symbols_process_production_symbol. apply bind_same. intros x _.
      destruct (is_non_terminal g x); auto.
      unfold m_get_follow_symbols_process_production_non_terminal_symbol,
        get_follow_symbols_process_production_non_terminal_symbol.
      rewrite usize_add_in_range by lia. reflexivity. }
    induction i as [|i IH]; intros [|fuel] follow idx upd Hlt Hmax; try lia; cbn [m_follow_symbols_loop follow_symbols_loop];
      rewrite Hstep by lia; apply bind_same; intros [[f' u'] idx'] _; auto.
    cbn [Nat.eqb]. rewrite usize_sub_in_range by lia. simpl. rewrite Nat.sub_0_r. apply IH; lia.
  Qed.

  Lemma process_production_same round follow p :
    1 <= length (p_output p) <= usize_max mc ->
    m_get_follow_symbols_process_production mc ho round g first follow p =
    get_follow_symbols_process_production ho round g first follow p.
  Proof.
    intros Hlen. unfold m_get_follow_symbols_process_production, get_follow_symbols_process_production,
      m_get_follow_symbols_process_production_last_epsilon_chain,
      get_follow_symbols_process_production_last_epsilon_chain, last_output_index.
    rewrite usize_sub_in_range by lia.
    destruct (length (p_output p)) as [|n] eqn:Hn; [lia|]. cbn [bind]. replace (S n - 1) with n by lia.
    rewrite last_chain_same by lia. apply bind_same. intros [f' u'] _.
    destruct n as [|n]; auto. cbn [Nat.ltb Nat.leb]. rewrite usize_sub_in_range by lia. cbn [bind].
    replace (S n - 1) with n by lia. apply follow_loop_same; lia.
  Qed.
End FollowFacts.

Lemma ffs_from_same {T : Type} {E : EqImpl T} mc (ho : hash_order T) fuel (g : grammar T) :
  (forall A l p, get_productions g A = Some l -> In p l -> 1 <= length (p_output p) <= usize_max mc) ->
  m_ffs_from mc ho fuel g = ffs_from ho fuel g.
Proof.
  intros Hlen. unfold m_ffs_from, ffs_from. apply bind_same. intros first _.
  unfold m_inner_get_follow_symbols, inner_get_follow_symbols.
  replace (converge fuel 0 (m_follow_round mc ho g first (get_non_terminal_symbols ho g))
             (hash_map_from_iter (map (fun symbol : T => (symbol, [])) (get_non_terminal_symbols ho g))))
    with (converge fuel 0 (follow_round ho g first (get_non_terminal_symbols ho g))
             (hash_map_from_iter (map (fun symbol : T => (symbol, [])) (get_non_terminal_symbols ho g))));
    [reflexivity|].
  apply converge_same. intros round m. unfold follow_round, m_follow_round. apply for_each_same.
  intros st A _. unfold follow_round_symbol, m_follow_round_symbol. apply bind_same. intros l Hl.
  apply for_each_same. intros acc p Hp. rewrite process_production_same; [reflexivity|].
  apply (Hlen A l p); [|exact Hp]. destruct (get_productions g A); simpl in Hl; inversion Hl; subst; auto.
Qed.

Section ParserFacts.
  Context {L T : Type} {E : EqImpl T}.
  Variable mc : machine.
  Variable self : parser L T.
  Variable tokens : list (token L T).
  Hypothesis Htokens : length tokens <= usize_max mc.

  Definition short (out : list T) : Prop := length out <= usize_max mc.
  Hypothesis Hshort : forall A a, Forall short (inner_get_token_productions self A a).

  Definition short_state (s : state L T) : Prop :=
    match s with
    | StParsing ps => match ps_prod_iter_option ps with Some outs => Forall short outs | None => True end
    | StFixed _ => True
    end.

  Lemma terminal_same X pos :
    m_inner_parse_terminal_symbol mc self X tokens pos = Done (inner_parse_terminal_symbol self X tokens pos).
  Proof.
    unfold m_inner_parse_terminal_symbol, inner_parse_terminal_symbol.
    destruct (eqb (get_epsilon_symbol (pr_grammar self)) X); auto.
    unfold m_inner_parse_non_epsilon_terminal_symbol, inner_parse_non_epsilon_terminal_symbol.
    destruct (nth_error tokens pos) as [t|] eqn:Ht; auto.
    destruct (eqb X (tok_type t)); auto.
    assert (pos < length tokens) by (apply nth_error_Some; congruence).
    rewrite usize_add_in_range by lia. reflexivity.
  Qed.

  Lemma failed_same fs out (states : list (state L T)) : length states < length out -> short out ->
    m_inner_parse_from_tokens_production_build_failed_symbol mc fs out states =
    Done (inner_parse_from_tokens_production_build_failed_symbol fs out states).
  Proof.
    intros Hlen Hs. unfold m_inner_parse_from_tokens_production_build_failed_symbol,
      inner_parse_from_tokens_production_build_failed_symbol. unfold short in Hs.
    rewrite usize_add_in_range by (rewrite map_length; lia). cbn [bind].
    rewrite (collect_range out _ [] eq_refl). reflexivity.
  Qed.

  Section Step.
    Variables mrec rec : T -> nat -> list (list T) -> bool -> history L T ->
                         outcome (parse_symbol_result L T * history L T).
    Hypothesis Hrec : forall A pos outs b h, Forall short outs -> mrec A pos outs b h = rec A pos outs b h.
    Hypothesis Hgood : forall A pos outs b h ps h', Forall short outs ->
      rec A pos outs b h = Done (SymOk ps, h') -> short_state (StParsing ps).

    Lemma symbol_same X pos b h :
      m_inner_parse_from_tokens_production_symbol mc self tokens mrec X pos b h =
      inner_parse_from_tokens_production_symbol self tokens rec X pos b h.
    Proof.
      unfold m_inner_parse_from_tokens_production_symbol, inner_parse_from_tokens_production_symbol.
      destruct (is_non_terminal (pr_grammar self) X).
      - unfold inner_parse_from_tokens_production_non_terminal.
        destruct (nth_error tokens pos); auto.
      - rewrite terminal_same. reflexivity.
    Qed.

    Lemma symbol_short X pos b h ps h' :
      inner_parse_from_tokens_production_symbol self tokens rec X pos b h = Done (SymOk ps, h') ->
      short_state (StParsing ps).
    Proof.
      unfold inner_parse_from_tokens_production_symbol.
      destruct (is_non_terminal (pr_grammar self) X).
      - unfold inner_parse_from_tokens_production_non_terminal.
        destruct (nth_error tokens pos); [|discriminate]. apply Hgood. apply Hshort.
      - intros H. inversion H as [[H1 H2]]. clear H. revert H1.
        unfold inner_parse_terminal_symbol, inner_parse_non_epsilon_terminal_symbol, build_token_failed_symbol.
        destruct (eqb (get_epsilon_symbol (pr_grammar self)) X); [intros H; inversion H; subst; simpl; auto|].
        destruct (nth_error tokens pos) as [t|]; [|discriminate].
        destruct (eqb X (tok_type t)); [|discriminate]. intros H; inversion H; subst; simpl; auto.
    Qed.

    Lemma pop_same b : forall st fuel failed h, S (length st) < fuel -> Forall short_state st ->
      m_pop_states_loop mrec fuel (rev st) b (rev failed) false h =
      '(st', o, h') <- inner_parse_pop_states rec st b failed h ;; Done (rev st', o, h').
    Proof.
      induction st as [|s st IH]; intros [|fuel] failed h Hlt Hst; try (simpl in Hlt; lia).
      - simpl. now rewrite rev_involutive.
      - inversion Hst as [|? ? Hs Hst']; subst. simpl in Hlt.
        cbn [m_pop_states_loop].
        replace (Nat.ltb 0 (length (rev (s :: st)))) with true
          by (rewrite rev_length; reflexivity).
        rewrite vec_pop_rev. cbn [andb negb unwrap bind].
        destruct s as [ps|fs]; cbn [inner_parse_pop_states].
        + simpl in Hs. destruct (ps_prod_iter_option ps) as [outs|].
          * rewrite Hrec by auto.
            destruct (rec (tok_type (node_token (ps_node ps))) (ps_initial_token_position ps) outs b h) as [[r h']| |];
              simpl; auto.
            destruct r as [ps'|e|f]; try (apply IH; auto; lia).
            destruct fuel as [|fuel]; [lia|]. cbn [m_pop_states_loop]. rewrite andb_false_r. reflexivity.
          * rewrite vec_push_rev. apply IH; auto. lia.
        + rewrite vec_push_rev. apply IH; auto. lia.
    Qed.

    Lemma pop_good b : forall st failed h st' o h', Forall short_state st ->
      inner_parse_pop_states rec st b failed h = Done (st', o, h') ->
      Forall short_state st' /\
      match o with
      | None => st' <> []
      | Some failed' => length failed' <= length st + length failed
      end.
    Proof.
      induction st as [|s st IH]; intros failed h st' o h' Hst H; simpl in H.
      - inversion H; subst. auto.
      - inversion Hst as [|? ? Hs Hst']; subst. destruct s as [ps|fs].
        + simpl in Hs. destruct (ps_prod_iter_option ps) as [outs|].
          * destruct (rec (tok_type (node_token (ps_node ps))) (ps_initial_token_position ps) outs b h)
              as [[r h1]| |] eqn:Hr; simpl in H; try discriminate.
            destruct r as [ps'|e|f].
            -- inversion H; subst. split; [|discriminate]. constructor; auto. eapply Hgood; eauto.
            -- destruct (IH _ _ _ _ _ Hst' H) as [H1 H2]. split; auto. destruct o; auto. simpl. lia.
            -- destruct (IH _ _ _ _ _ Hst' H) as [H1 H2]. split; auto. destruct o; auto. simpl. lia.
          * destruct (IH _ _ _ _ _ Hst' H) as [H1 H2]. split; auto. destruct o; auto. simpl in *. lia.
        + destruct (IH _ _ _ _ _ Hst' H) as [H1 H2]. split; auto. destruct o; auto. simpl in *. lia.
    Qed.

    Lemma production_same A out b : short out -> forall fuel st pos h, Forall short_state st ->
      m_inner_parse_from_tokens_production mc self tokens mrec fuel A out b (rev st) pos h =
      inner_parse_from_tokens_production self tokens rec fuel A out b st pos h.
    Proof.
      intros Hout. induction fuel as [|fuel IH]; intros st pos h Hst; auto.
      cbn [m_inner_parse_from_tokens_production inner_parse_from_tokens_production].
      rewrite rev_length. destruct (Nat.ltb (length st) (length out)) eqn:Hlt; auto.
      apply Nat.ltb_lt in Hlt. apply bind_same. intros X _. rewrite symbol_same.
      apply bind_same. intros [r h'] Hr. destruct r as [ps|fs|fs].
      - rewrite vec_push_rev. apply IH. constructor; auto. eapply symbol_short; eauto.
      - unfold m_inner_parse_pop_states. rewrite rev_length.
        change (@nil (state L T)) with (rev (@nil (state L T))) at 1.
        rewrite pop_same by (auto; lia).
        destruct (inner_parse_pop_states rec st b [] h') as [[[st' o] h'']| |] eqn:Hp; simpl; auto.
        destruct (pop_good _ _ _ Hst Hp) as [Hst' Ho]. destruct o as [failed|].
        + rewrite failed_same; auto. simpl in Ho. lia.
        + destruct st' as [|s st']; [congruence|]. rewrite rev_length.
          rewrite usize_sub_in_range by (simpl; lia). cbn [bind].
          replace (nth_error (rev (s :: st')) (length (s :: st') - 1)) with (Some s).
          * simpl. rewrite <- (IH (s :: st')); auto.
          * simpl. rewrite Nat.sub_0_r, nth_error_app2 by (rewrite rev_length; lia).
            now rewrite rev_length, Nat.sub_diag.
      - rewrite vec_push_rev. apply IH. constructor; simpl; auto.
    Qed.

    Lemma try_same A pos b fuel : forall outs failed h, Forall short outs ->
      m_try_parse_productions_loop mc self tokens mrec fuel A pos b outs failed h =
      try_parse_productions_loop self tokens rec fuel A pos b outs failed h.
    Proof.
      induction outs as [|out outs IH]; intros failed h Hs; auto.
      inversion Hs; subst. simpl.
      change (@nil (state L T)) with (rev (@nil (state L T))) at 1. rewrite production_same by auto.
      apply bind_same. intros [[r cur] h'] _. destruct r; auto.
    Qed.

    Lemma try_good A pos b fuel : forall outs failed h ps h', Forall short outs ->
      try_parse_productions_loop self tokens rec fuel A pos b outs failed h = Done (inl (SymOk ps), h') ->
      short_state (StParsing ps).
    Proof.
      induction outs as [|out outs IH]; intros failed h ps h' Hs H; simpl in H; [discriminate|].
      inversion Hs; subst.
      destruct (inner_parse_from_tokens_production self tokens rec fuel A out b [] pos h) as [[[r cur] h1]| |];
        simpl in H; try discriminate.
      destruct r; [inversion H; subst; simpl; auto|eapply IH; eauto|inversion H].
    Qed.
  End Step.

  Lemma inner_same : forall fuel,
    (forall A pos outs b h, Forall short outs ->
       m_inner_parse_from_tokens mc fuel self tokens A pos outs b h =
       inner_parse_from_tokens fuel self tokens A pos outs b h) /\
    (forall A pos outs b h ps h', Forall short outs ->
       inner_parse_from_tokens fuel self tokens A pos outs b h = Done (SymOk ps, h') -> short_state (StParsing ps)).
  Proof.
    induction fuel as [|fuel [IH1 IH2]]; split; intros A pos outs b h; auto; try discriminate.
    - intros Hs. simpl. unfold m_inner_parse_from_tokens_step, inner_parse_from_tokens_step,
        inner_parse_from_tokens_try_parse_productions.
      rewrite try_same with (rec := inner_parse_from_tokens fuel self tokens) by (auto; exact IH2). reflexivity.
    - intros ps h' Hs. simpl. unfold inner_parse_from_tokens_step, inner_parse_from_tokens_try_parse_productions.
      intros H.
      destruct (try_parse_productions_loop self tokens (inner_parse_from_tokens fuel self tokens) fuel A pos
                  (is_child_single_path b outs) outs [] h) as [[r h1]| |] eqn:Hr; simpl in H; try discriminate.
      destruct r as [r|failed].
      + inversion H; subst. eapply try_good; eauto.
      + destruct (inner_parse_from_tokens_try_fix_productions self tokens pos b (is_child_single_path b outs) failed h1)
          as [[o h2]| |]; simpl in H; try discriminate.
        destruct o; simpl in H; inversion H.
  Qed.
End ParserFacts.

Lemma parse_same {L T : Type} {E : EqImpl T} mc (self : parser L T) tokens fuel :
  length tokens <= usize_max mc ->
  (forall A a, Forall (short mc) (inner_get_token_productions self A a)) ->
  m_parse_from_tokens mc fuel self tokens = parse_from_tokens fuel self tokens.
Proof.
  intros Ht Hs. unfold m_parse_from_tokens, parse_from_tokens. rewrite iterator_to_vec_id.
  destruct tokens as [|t rest]; auto. cbn [length Nat.eqb nth_error unwrap bind].
  rewrite (proj1 (@inner_same L T E mc self _ Ht Hs fuel)) by auto. reflexivity.
Qed.
