(** * Keys: construction commutes with taking keys (proofs) *)

From Verif Require Import BaseFacts.
From Verif Require Export KeySpec.

Set Implicit Arguments.

Lemma bind_key {A A' B B'} (f : A -> A') (g : B -> B') (o : outcome A) (o' : outcome A') k k' :
  o' = omap f o -> (forall a, o = Done a -> k' (f a) = omap g (k a)) -> bind o' k' = omap g (bind o k).
Proof. intros -> H. destruct o; simpl; auto. Qed.

Lemma for_each_key {A A' S S'} (fa : A -> A') (fs : S -> S') (F : S -> A -> outcome S) F' l :
  (forall s x, F' (fs s) (fa x) = omap fs (F s x)) ->
  forall s, for_each F' (fs s) (map fa l) = omap fs (for_each F s l).
Proof.
  intros H. induction l as [|x l IH]; intros s; simpl; auto.
  eapply bind_key; [apply H|]. intros a _. apply IH.
Qed.

Lemma fold_left_key {A A' S S'} (fa : A -> A') (fs : S -> S') (F : S -> A -> S) F' l :
  (forall s x, F' (fs s) (fa x) = fs (F s x)) ->
  forall s, fold_left F' (map fa l) (fs s) = fs (fold_left F l s).
Proof. intros H. induction l as [|x l IH]; intros s; simpl; auto. rewrite H. apply IH. Qed.

Lemma filter_key {A A'} (f : A -> A') (P : A -> bool) P' l :
  (forall x, P' (f x) = P x) -> filter P' (map f l) = map f (filter P l).
Proof.
  intros H. induction l as [|x l IH]; simpl; auto. rewrite H. destruct (P x); simpl; now rewrite IH.
Qed.

Lemma existsb_key {A A'} (f : A -> A') (P : A -> bool) P' l :
  (forall x, P' (f x) = P x) -> existsb P' (map f l) = existsb P l.
Proof. intros H. induction l as [|x l IH]; simpl; auto. now rewrite H, IH. Qed.

Lemma unwrap_key {A A'} (f : A -> A') (o : option A) : unwrap (option_map f o) = omap f (unwrap o).
Proof. destruct o; reflexivity. Qed.

Section Keys.
  Context {T Q : Type} {ET : EqImpl T} {EQ : EqDec Q}.
  Variable q : T -> Q.
  Hypothesis Hq : compared_by q.

  Lemma eqb_key x y : eqb (q x) (q y) = eqb x y.
  Proof.
    destruct (eqb x y) eqn:H.
    - apply Hq in H. rewrite H. apply eqb_self.
    - apply eqb_ne_iff. intros Hk. apply Hq in Hk. congruence.
  Qed.

  Lemma contains_key s x : hash_set_contains (map q s) (q x) = hash_set_contains s x.
  Proof. apply existsb_key. intros y. apply eqb_key. Qed.

  Definition key_ins (r : list T * bool) : list Q * bool := (map q (fst r), snd r).

  Lemma insert_key s x : hash_set_insert (map q s) (q x) = key_ins (hash_set_insert s x).
  Proof.
    unfold hash_set_insert, key_ins. rewrite contains_key.
    destruct (hash_set_contains s x); simpl; auto. now rewrite map_app.
  Qed.

  Lemma from_iter_key l : hash_set_from_iter (map q l) = map q (hash_set_from_iter l).
  Proof.
    unfold hash_set_from_iter. apply (fold_left_key q (map q)) with (s := []).
    intros s x. rewrite insert_key. reflexivity.
  Qed.

  Lemma get_key {A B} (f : A -> B) m k :
    hash_map_get (map (key_entry q f) m) (q k) = option_map f (hash_map_get m k).
  Proof.
    induction m as [|[k' v] m IH]; simpl; auto. rewrite eqb_key. destruct (eqb k k'); auto.
  Qed.

  Lemma map_insert_key {A B} (f : A -> B) m k v :
    hash_map_insert (map (key_entry q f) m) (q k) (f v) = map (key_entry q f) (hash_map_insert m k v).
  Proof.
    induction m as [|[k' v'] m IH]; simpl; auto. rewrite eqb_key.
    destruct (eqb k k'); simpl; auto. now rewrite IH.
  Qed.

  Lemma map_from_iter_key {A B} (f : A -> B) l :
    hash_map_from_iter (map (key_entry q f) l) = map (key_entry q f) (hash_map_from_iter l).
  Proof.
    unfold hash_map_from_iter.
    apply (fold_left_key (key_entry q f) (map (key_entry q f))) with (s := []).
    intros m [k v]. simpl. apply map_insert_key.
  Qed.

  Lemma insert_many_key items : forall s,
    insert_many (map q s) (map q items) = key_ins (insert_many s items).
  Proof.
    intros s. unfold insert_many.
    apply (fold_left_key q key_ins) with (s := (s, false)).
    intros [s' b] x. cbn [fst snd key_ins]. rewrite insert_key.
    destruct (hash_set_insert s' x) as [s'' b']. reflexivity.
  Qed.

  Notation kprods := (map (key_entry q (map (ren_production q)))).
  Notation ksets := (map (key_entry q (map q))).

  (** ** Grammars *)

  Lemma process_key ps :
    new_process_productions_map (map (ren_production q) ps) = kprods (new_process_productions_map ps).
  Proof.
    unfold new_process_productions_map.
    apply (fold_left_key (ren_production q) kprods) with (s := []).
    intros m p. cbn [p_input ren_production]. rewrite get_key.
    destruct (hash_map_get m (p_input p)) as [l|]; cbn [option_map].
    - rewrite <- map_insert_key, map_app. reflexivity.
    - rewrite <- map_insert_key. reflexivity.
  Qed.

  Lemma check_key eps p :
    check_production (q eps) (ren_production q p) = omap (fun u => u) (check_production eps p).
  Proof.
    unfold check_production. cbn [p_output ren_production]. rewrite map_length, contains_key.
    destruct (Nat.eqb _ 0); auto. destruct (_ && _); auto.
  Qed.

  Section Order.
  Variable ho : hash_order T.
  Variable ho' : hash_order Q.
  Hypothesis Ho : same_order q ho ho'.

  Lemma iter_key tag r owner l :
    ho_iter ho' (Site tag r (map q owner)) (map q l) = map q (ho_iter ho (Site tag r owner) l).
  Proof. apply (so_symbols Ho (Site tag r owner)). Qed.

  Lemma check_map_key eps m :
    new_check_productions_map ho' (q eps) (kprods m) =
    omap (fun u => u) (new_check_productions_map ho eps m).
  Proof.
    unfold new_check_productions_map.
    pose proof (so_productions Ho (Site IterCheckProductions 0 []) m) as Hi.
    unfold key_site in Hi. simpl in Hi. rewrite Hi.
    apply (for_each_key _ (fun u : unit => u)).
    intros _ [k l]. cbn [key_entry fst snd]. rewrite eqb_key. destruct (eqb k eps); auto.
    apply (for_each_key (ren_production q) (fun u : unit => u)). intros _ p. apply check_key.
  Qed.

  Lemma terminals_key nts m :
    build_terminal_symbols_set ho' (map q nts) (kprods m) =
    map q (build_terminal_symbols_set ho nts m).
  Proof.
    unfold build_terminal_symbols_set.
    pose proof (so_productions Ho (Site IterProductionValues 0 []) m) as Hi.
    unfold key_site in Hi. simpl in Hi. rewrite Hi, map_map. cbn [key_entry snd].
    rewrite <- (map_map snd (map (ren_production q))).
    apply (fold_left_key (map (ren_production q)) (map q)) with (s := []).
    intros s l. apply (fold_left_key (ren_production q) (map q)).
    intros s' p. cbn [p_output ren_production]. apply (fold_left_key q (map q)).
    intros s'' x. rewrite contains_key. destruct (negb _); auto. rewrite insert_key. reflexivity.
  Qed.

  Lemma cfg_new_key eps init ps :
    cfg_new ho' (q eps) (q init) (map (ren_production q) ps) =
    omap (key_grammar q) (cfg_new ho eps init ps).
  Proof.
    unfold cfg_new. rewrite process_key.
    eapply bind_key; [apply check_map_key|]. intros _ _. cbn [omap]. f_equal.
    pose proof (so_productions Ho (Site IterProductionKeys 0 []) (new_process_productions_map ps)) as Hi.
    unfold key_site in Hi. simpl in Hi. rewrite Hi, map_map. cbn [key_entry fst].
    rewrite <- (map_map fst q), from_iter_key, terminals_key. reflexivity.
  Qed.

  Variable g : grammar T.
  Notation kg := (key_grammar q g).

  Lemma eps_key : get_epsilon_symbol kg = q (get_epsilon_symbol g).
  Proof. reflexivity. Qed.
  Lemma nts_key : get_non_terminal_symbols ho' kg = map q (get_non_terminal_symbols ho g).
  Proof. unfold get_non_terminal_symbols. apply (iter_key IterNonTerminals 0 []). Qed.
  Lemma ts_key : get_terminal_symbols ho' kg = map q (get_terminal_symbols ho g).
  Proof. unfold get_terminal_symbols. apply (iter_key IterTerminals 0 []). Qed.
  Lemma is_nt_key x : is_non_terminal kg (q x) = is_non_terminal g x.
  Proof. apply contains_key. Qed.
  Lemma get_productions_key x :
    get_productions kg (q x) = option_map (map (ren_production q)) (get_productions g x).
  Proof. apply get_key. Qed.

  (** ** FIRST *)

  Lemma not_eps_key l :
    filter (fun s => negb (eqb (get_epsilon_symbol kg) s)) (map q l) =
    map q (filter (fun s => negb (eqb (get_epsilon_symbol g) s)) l).
  Proof. apply filter_key. intros x. rewrite eps_key, eqb_key. reflexivity. Qed.

  Definition k2 (x : list T * bool * bool) : list Q * bool * bool :=
    (map q (fst (fst x)), snd (fst x), snd x).

  Lemma borrow_first_key m held x :
    borrow_first (ksets m) (q held) (q x) = omap (map q) (borrow_first m held x).
  Proof.
    unfold borrow_first. rewrite get_key.
    eapply bind_key; [apply unwrap_key|]. intros a _. rewrite eqb_key. destruct (eqb x held); auto.
  Qed.

  Lemma first_non_terminal_key round m held cur x :
    inner_get_first_symbols_process_production_non_terminal_symbol ho' round kg (ksets m) (q held)
      (map q cur) (q x) =
    omap k2 (inner_get_first_symbols_process_production_non_terminal_symbol ho round g m held cur x).
  Proof.
    unfold inner_get_first_symbols_process_production_non_terminal_symbol.
    eapply bind_key; [apply borrow_first_key|]. intros s _.
    rewrite (iter_key IterFirstOf round [held; x]). rewrite eps_key, contains_key.
    destruct (hash_set_contains s _).
    - pose proof (not_eps_key (ho_iter ho (Site IterFirstOf round [held; x]) s)) as Hne.
      rewrite eps_key in Hne. rewrite Hne, insert_many_key.
      destruct (insert_many cur _) as [c b]. reflexivity.
    - rewrite insert_many_key. destruct (insert_many cur _) as [c b]. reflexivity.
  Qed.

  Lemma first_symbol_key round m held cur input x :
    inner_get_first_symbols_process_production_symbol ho' round kg (ksets m) (q held)
      (map q cur) (q input) (q x) =
    omap k2 (inner_get_first_symbols_process_production_symbol ho round g m held cur input x).
  Proof.
    unfold inner_get_first_symbols_process_production_symbol.
    rewrite eqb_key. destruct (eqb x input).
    - rewrite eps_key, contains_key. reflexivity.
    - rewrite is_nt_key. destruct (is_non_terminal g x); [apply first_non_terminal_key|].
      rewrite insert_key. destruct (hash_set_insert cur x) as [c b]. reflexivity.
  Qed.

  Lemma first_loop_key round m held input out : forall cur upd,
    inner_get_first_symbols_process_production_loop ho' round kg (ksets m) (q held) (q input)
      (map q out) (map q cur) upd =
    omap key_ins (inner_get_first_symbols_process_production_loop ho round g m held input out cur upd).
  Proof.
    induction out as [|x out IH]; intros cur upd; cbn [map inner_get_first_symbols_process_production_loop].
    - rewrite eps_key, insert_key. destruct (hash_set_insert cur _) as [c b]. reflexivity.
    - eapply bind_key; [apply first_symbol_key|]. intros [[c b] stop] _. cbn [k2 fst snd].
      destruct stop; [reflexivity|]. apply IH.
  Qed.

  Definition kst (x : symbols_map T * bool) : symbols_map Q * bool := (ksets (fst x), snd x).

  Lemma first_round_symbol_key round st x :
    first_round_symbol ho' round kg (kst st) (q x) = omap kst (first_round_symbol ho round g st x).
  Proof.
    destruct st as [m upd]. unfold first_round_symbol. cbn [kst fst snd].
    rewrite get_productions_key. eapply bind_key; [apply unwrap_key|]. intros ps _.
    rewrite get_key. eapply bind_key; [apply unwrap_key|]. intros cur _.
    eapply bind_key.
    - apply (for_each_key (ren_production q) key_ins) with (s := (cur, false)). intros [c b] p.
      eapply bind_key; [apply first_loop_key|]. intros [c' b'] _. reflexivity.
    - intros [c b] _. cbn [key_ins fst snd omap]. rewrite map_insert_key. reflexivity.
  Qed.

  Lemma converge_key {M M'} (fm : M -> M') (cb : nat -> M -> outcome (M * bool)) cb' :
    (forall round m, cb' round (fm m) = omap (fun r => (fm (fst r), snd r)) (cb round m)) ->
    forall fuel round m, converge fuel round cb' (fm m) = omap fm (converge fuel round cb m).
  Proof.
    intros H. induction fuel as [|fuel IH]; intros round m; simpl; auto.
    eapply bind_key; [apply H|]. intros [m' []] _; simpl; auto.
  Qed.

  Lemma ref_map_key tag m :
    ref_map_to_symbols_map ho' tag (ksets m) = ksets (ref_map_to_symbols_map ho tag m).
  Proof.
    unfold ref_map_to_symbols_map. pose proof (so_sets Ho (Site tag 0 []) m) as Hi.
    unfold key_site in Hi. simpl in Hi. rewrite Hi. apply map_from_iter_key.
  Qed.

  Lemma first_key fuel :
    inner_get_first_symbols ho' fuel kg = omap ksets (inner_get_first_symbols ho fuel g).
  Proof.
    unfold inner_get_first_symbols. rewrite nts_key, ts_key.
    assert (Hinit : inner_get_first_symbols_initial_map (map q (get_non_terminal_symbols ho g))
              (map q (get_terminal_symbols ho g)) =
            ksets (inner_get_first_symbols_initial_map (get_non_terminal_symbols ho g)
                     (get_terminal_symbols ho g))).
    { unfold inner_get_first_symbols_initial_map. rewrite <- map_from_iter_key. f_equal.
      rewrite map_app. unfold inner_get_first_symbols_non_terminal_map,
        inner_get_first_symbols_terminal_map. now rewrite !map_map. }
    rewrite Hinit. eapply bind_key.
    - apply converge_key. intros round m. unfold first_round.
      apply (for_each_key q kst) with (s := (m, false)). intros st x. apply first_round_symbol_key.
    - intros m _. cbn [omap]. now rewrite ref_map_key.
  Qed.

  (** ** FOLLOW *)

  Notation kp := (ren_production q).

  Lemma propagate_key round fo a x :
    follow_propagate ho' round (ksets fo) (q a) (q x) = omap kst (follow_propagate ho round fo a x).
  Proof.
    unfold follow_propagate. rewrite !get_key.
    eapply bind_key; [apply unwrap_key|]. intros s1 _.
    eapply bind_key; [apply unwrap_key|]. intros s2 _. rewrite eqb_key. destruct (eqb a x); auto.
    rewrite (iter_key IterInputFollow round [a; x]), insert_many_key.
    destruct (insert_many s2 _) as [c b]. cbn [key_ins fst snd omap]. now rewrite map_insert_key.
  Qed.

  Lemma chain_key round fi p : forall i fo upd,
    last_epsilon_chain_loop ho' round kg (ksets fi) (kp p) i (ksets fo) upd =
    omap kst (last_epsilon_chain_loop ho round g fi p i fo upd).
  Proof.
    induction i as [|i IH]; intros fo upd; cbn [last_epsilon_chain_loop];
      cbn [p_output p_input ren_production]; rewrite nth_error_map;
      (eapply bind_key; [apply unwrap_key|]); intros x _;
      (eapply bind_key with (f := kst);
        [rewrite eqb_key, is_nt_key; destruct (negb _ && _); [apply propagate_key|reflexivity]|]);
      intros [fo' b] _; cbn [kst fst snd]; rewrite get_key;
      (eapply bind_key; [apply unwrap_key|]); intros s _; [reflexivity|].
    rewrite eps_key, contains_key. destruct (hash_set_contains s _); [apply IH|reflexivity].
  Qed.

  Lemma last_index_key p : last_output_index (kp p) = omap (fun n => n) (last_output_index p).
  Proof. unfold last_output_index. cbn. rewrite map_length. destruct (length _); reflexivity. Qed.

  Lemma lambda_key round fi p idx : forall cur,
    update_follow_symbols_lambda_chain ho' round kg (ksets fi) (kp p) idx (map q cur) =
    omap key_ins (update_follow_symbols_lambda_chain ho round g fi p idx cur).
  Proof.
    intros cur. unfold update_follow_symbols_lambda_chain.
    rewrite <- (map_id idx) at 1.
    apply (for_each_key (fun n : nat => n) key_ins) with (s := (cur, false)). intros [c b] i.
    cbn [p_output ren_production key_ins fst snd]. rewrite nth_error_map.
    eapply bind_key; [apply unwrap_key|]. intros x _. rewrite get_key.
    eapply bind_key; [apply unwrap_key|]. intros s _.
    rewrite (iter_key IterFollowFirst round [x]), not_eps_key, insert_many_key.
    destruct (insert_many c _) as [c' b']. reflexivity.
  Qed.

  Definition k3 (x : symbols_map T * bool * list nat) : symbols_map Q * bool * list nat :=
    (ksets (fst (fst x)), snd (fst x), snd x).

  Lemma follow_symbol_key round fi fo p i idx :
    get_follow_symbols_process_production_symbol ho' round kg (ksets fi) (ksets fo) (kp p) i idx =
    omap k3 (get_follow_symbols_process_production_symbol ho round g fi fo p i idx).
  Proof.
    unfold get_follow_symbols_process_production_symbol. cbn [p_output ren_production].
    rewrite nth_error_map. eapply bind_key; [apply unwrap_key|]. intros x _.
    rewrite is_nt_key. destruct (is_non_terminal g x); [|reflexivity].
    unfold get_follow_symbols_process_production_non_terminal_symbol. cbn [p_output ren_production].
    rewrite nth_error_map. eapply bind_key; [apply unwrap_key|]. intros y _.
    rewrite eqb_key. destruct (negb _); [|reflexivity].
    rewrite get_key. eapply bind_key; [apply unwrap_key|]. intros s _. rewrite eps_key, contains_key.
    rewrite get_key. eapply bind_key; [apply unwrap_key|]. intros cur _.
    eapply bind_key; [apply (lambda_key round fi p)|]. intros [c b] _. cbn [key_ins fst snd omap].
    unfold k3. cbn [fst snd]. now rewrite map_insert_key.
  Qed.

  Lemma follow_loop_key round fi p : forall i fo idx upd,
    follow_symbols_loop ho' round kg (ksets fi) (kp p) i (ksets fo) idx upd =
    omap kst (follow_symbols_loop ho round g fi p i fo idx upd).
  Proof.
    induction i as [|i IH]; intros fo idx upd; cbn [follow_symbols_loop];
      (eapply bind_key; [apply follow_symbol_key|]); intros [[fo' b] idx'] _; cbn [k3 fst snd].
    - reflexivity.
    - apply IH.
  Qed.

  Lemma follow_production_key round fi fo p :
    get_follow_symbols_process_production ho' round kg (ksets fi) (ksets fo) (kp p) =
    omap kst (get_follow_symbols_process_production ho round g fi fo p).
  Proof.
    unfold get_follow_symbols_process_production. eapply bind_key.
    - unfold get_follow_symbols_process_production_last_epsilon_chain.
      eapply bind_key; [apply last_index_key|]. intros i _. apply chain_key.
    - intros [fo' b] _. cbn [kst fst snd].
      eapply bind_key; [apply last_index_key|]. intros [|i] _; [reflexivity|]. apply follow_loop_key.
  Qed.

  Lemma follow_key fuel fi :
    inner_get_follow_symbols ho' fuel kg (ksets fi) = omap ksets (inner_get_follow_symbols ho fuel g fi).
  Proof.
    unfold inner_get_follow_symbols. rewrite nts_key.
    replace (hash_map_from_iter (map (fun symbol : Q => (symbol, [])) (map q (get_non_terminal_symbols ho g))))
      with (ksets (hash_map_from_iter (map (fun symbol : T => (symbol, @nil T)) (get_non_terminal_symbols ho g)))).
    2: { rewrite <- map_from_iter_key. now rewrite !map_map. }
    eapply bind_key.
    - apply converge_key. intros round m. unfold follow_round.
      apply (for_each_key q kst) with (s := (m, false)). intros st x. unfold follow_round_symbol.
      rewrite get_productions_key. eapply bind_key; [apply unwrap_key|]. intros ps _.
      apply (for_each_key kp kst). intros [m' b] p. cbn [kst fst snd].
      eapply bind_key; [apply follow_production_key|]. intros [m'' b'] _. reflexivity.
    - intros m _. cbn [omap]. now rewrite ref_map_key.
  Qed.

  Lemma ffs_from_key fuel : ffs_from ho' fuel kg = omap (key_ffs q) (ffs_from ho fuel g).
  Proof.
    unfold ffs_from. eapply bind_key; [apply first_key|]. intros fi _.
    eapply bind_key; [apply follow_key|]. intros fo _. reflexivity.
  Qed.

  (** ** Transition table *)

  Notation krow := (map (key_entry q (map kp))).
  Notation ktable := (map (key_entry q krow)).

  Definition key_transitions (t : transitions T) : transitions Q :=
    {| t_table := ktable (t_table t) |}.

  Lemma production_firsts_key ffs p :
    inner_from_get_production_first_symbols ho' kg (kp p) (key_ffs q ffs) =
    omap (map q) (inner_from_get_production_first_symbols ho g p ffs).
  Proof.
    unfold inner_from_get_production_first_symbols. cbn [p_output ren_production].
    rewrite nth_error_map. eapply bind_key; [apply unwrap_key|]. intros x _.
    unfold get_first_symbols at 1. cbn [key_ffs ffs_first_symbols]. rewrite get_key.
    eapply bind_key; [apply unwrap_key|]. intros s _. rewrite eps_key, contains_key.
    destruct (hash_set_contains s _).
    - unfold inner_from_get_production_first_symbols_on_epsilon_first.
      rewrite (iter_key IterTransFirst 0 [x]), not_eps_key, from_iter_key, eps_key, eqb_key.
      eapply bind_key with (f := map q).
      + unfold get_follow_symbols. cbn [key_ffs ffs_follow_symbols p_input ren_production].
        rewrite !get_key. destruct (eqb _ x); apply unwrap_key.
      + intros fo _. cbn [omap]. cbn [p_input ren_production].
        rewrite (iter_key IterTransFollow 0 [p_input p; x]), insert_many_key. reflexivity.
    - unfold inner_from_get_production_first_symbols_on_non_epsilon_first. cbn [omap].
      rewrite (iter_key IterTransFirst 0 [x]), from_iter_key. reflexivity.
  Qed.

  Lemma push_key p firsts r :
    push_production ho' (kp p) (map q firsts) (krow r) = omap krow (push_production ho p firsts r).
  Proof.
    unfold push_production. cbn [p_input p_output ren_production].
    rewrite (iter_key IterTransCells 0 (p_input p :: p_output p)).
    apply (for_each_key q krow). intros r' a. rewrite get_key.
    eapply bind_key; [apply unwrap_key|]. intros ps _. cbn [omap].
    rewrite <- map_insert_key, map_app. reflexivity.
  Qed.

  Lemma transitions_key ffs :
    transitions_from ho' kg (key_ffs q ffs) = omap key_transitions (transitions_from ho g ffs).
  Proof.
    unfold transitions_from. rewrite nts_key, ts_key.
    replace (inner_from_initial_table (map q (get_non_terminal_symbols ho g)) (map q (get_terminal_symbols ho g)))
      with (ktable (inner_from_initial_table (get_non_terminal_symbols ho g) (get_terminal_symbols ho g))).
    2: { unfold inner_from_initial_table. rewrite <- map_from_iter_key. f_equal. rewrite !map_map.
         apply map_ext. intros x. unfold key_entry at 1. cbn [fst snd]. f_equal.
         rewrite <- map_from_iter_key. f_equal. now rewrite !map_map. }
    eapply bind_key with (f := ktable).
    - unfold inner_from_process_productions. apply (for_each_key q ktable). intros tb x.
      rewrite get_productions_key. eapply bind_key; [apply unwrap_key|]. intros ps _.
      rewrite get_key. eapply bind_key; [apply unwrap_key|]. intros r _.
      eapply bind_key with (f := krow).
      + apply (for_each_key kp krow). intros r' p.
        eapply bind_key; [apply production_firsts_key|]. intros firsts _. apply push_key.
      + intros r' _. cbn [omap]. now rewrite map_insert_key.
    - intros tb _. reflexivity.
  Qed.

  Lemma table_get_key t A a :
    transitions_get_productions (key_transitions t) (q A) (q a) =
    option_map (map kp) (transitions_get_productions t A a).
  Proof.
    unfold transitions_get_productions. cbn [key_transitions t_table].
    assert (Hgen : forall o : option (row T),
      match option_map krow o with Some m => hash_map_get m (q a) | None => None end =
      option_map (map kp) (match o with Some m => hash_map_get m a | None => None end)).
    { intros [r|]; [apply get_key|reflexivity]. }
    exact (eq_trans (f_equal (fun o : option (row Q) =>
                       match o with Some m => hash_map_get m (q a) | None => None end)
                     (get_key krow (t_table t) A)) (Hgen _)).
  Qed.
  End Order.
End Keys.
