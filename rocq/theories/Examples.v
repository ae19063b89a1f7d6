(** * Examples: concrete grammars that meet the hypotheses of the theorems

    The classical LL(1) expression grammar with an explicit end-of-input
    terminal, and its parser as built by the model's constructors. *)

From Verif Require Import BaseFacts GrammarFacts DerivFacts FirstFacts FollowFacts FollowRepeat TransitionsFacts.
From Verif Require Export ExampleTools.

Set Implicit Arguments.

Inductive sym : Type :=
| Eps | Prog | Expr | ExprTail | Term | TermTail | Factor      (* non-terminals (and epsilon) *)
| Plus | Star | LParen | RParen | Id | Eof.                   (* terminals *)

#[export] Instance sym_eq_dec : EqDec sym.
Proof. unfold EqDec. decide equality. Defined.

#[export] Instance nat_eq_dec : EqDec nat := Nat.eq_dec.

Definition expr_productions : list (production sym) :=
  [ Production Prog [Expr; Eof];
    Production Expr [Term; ExprTail];
    Production ExprTail [Plus; Term; ExprTail];
    Production ExprTail [Eps];
    Production Term [Factor; TermTail];
    Production TermTail [Star; Factor; TermTail];
    Production TermTail [Eps];
    Production Factor [LParen; Expr; RParen];
    Production Factor [Id] ].

(** lexemes are numbers *)
Definition no_parser (T : Type) (x : T) : parser nat T :=
  {| pr_grammar := {| g_epsilon_symbol := x; g_initial_symbol := x;
                      g_non_terminal_symbols_set := []; g_productions := [];
                      g_terminal_symbols_set := [] |};
     pr_solver := None; pr_transitions := {| t_table := [] |} |}.

Definition get_done {A : Type} (default : A) (o : outcome A) : A :=
  match o with Done a => a | _ => default end.

Definition expr_grammar : grammar sym := Eval vm_compute in
  get_done (pr_grammar (no_parser Eps)) (cfg_new (insertion_order sym) Eps Prog expr_productions).
Definition expr_ffs : first_follow_symbols sym := Eval vm_compute in
  get_done (FirstFollowSymbols [] []) (ffs_from (insertion_order sym) 200 expr_grammar).
Definition expr_transitions : transitions sym := Eval vm_compute in
  get_done {| t_table := [] |} (transitions_from (insertion_order sym) expr_grammar expr_ffs).
Definition expr_parser : parser nat sym :=
  {| pr_grammar := expr_grammar; pr_solver := None; pr_transitions := expr_transitions |}.
Definition expr_parser_with (s : syntax_error_solver nat sym) : parser nat sym :=
  {| pr_grammar := expr_grammar; pr_solver := Some s; pr_transitions := expr_transitions |}.

Lemma expr_grammar_new :
  cfg_new (insertion_order sym) Eps Prog expr_productions = Done expr_grammar.
Proof. vm_compute. reflexivity. Qed.
Lemma expr_ffs_from : ffs_from (insertion_order sym) 200 expr_grammar = Done expr_ffs.
Proof. vm_compute. reflexivity. Qed.
Lemma expr_transitions_from :
  transitions_from (insertion_order sym) expr_grammar expr_ffs = Done expr_transitions.
Proof. vm_compute. reflexivity. Qed.

Lemma expr_built : built_parser (L := nat) Eps Prog expr_productions None expr_parser.
Proof. apply build_built with (fuel := 200). vm_compute. reflexivity. Qed.

Lemma expr_built_with s :
  built_parser (L := nat) Eps Prog expr_productions (Some s) (expr_parser_with s).
Proof. apply build_built with (fuel := 200). vm_compute. reflexivity. Qed.

Lemma expr_ok : productions_ok Eps expr_productions.
Proof. apply productions_ok_check. reflexivity. Qed.

Lemma expr_conflict_free : conflict_free (pr_transitions expr_parser).
Proof. apply conflict_free_check_ok. reflexivity. Qed.

Lemma expr_no_repeated : no_repeated_neighbours expr_productions.
Proof. apply no_repeated_neighbours_check. reflexivity. Qed.
Lemma expr_harmless : repeats_harmless Eps expr_productions Prog.
Proof. exact (@no_repeated_neighbours_harmless _ Eps _ Prog expr_no_repeated). Qed.

Definition expr_nullable (x : sym) : bool :=
  match x with Eps | ExprTail | TermTail => true | _ => false end.
Definition expr_rank (x : sym) : nat :=
  match x with
  | Prog => 5 | Expr => 4 | Term => 3 | Factor => 2 | ExprTail => 1 | TermTail => 1 | _ => 0
  end.

Lemma expr_no_left_recursion : no_left_recursion Eps expr_productions.
Proof. apply rank_check_ok with (N := expr_nullable) (rank := expr_rank). reflexivity. Qed.

Lemma expr_nt x : non_terminalb expr_productions x = true -> non_terminal expr_productions x.
Proof. apply non_terminalb_spec. Qed.

Lemma expr_eof : eof_discipline Eps expr_productions Prog Eof.
Proof.
  split; [discriminate|]. split; [apply non_terminalb_false; reflexivity|].
  split; [|split].
  - intros p Hp. simpl in Hp. intros Hin.
    decompose [or] Hp; subst; simpl in Hin; intuition discriminate.
  - intros p Hp Hi. simpl in Hp.
    decompose [or] Hp; subst; try discriminate; try contradiction.
    exists [Expr]. split; [reflexivity|simpl; intuition discriminate].
  - intros p Hp Hi. simpl in Hp. intros Hin.
    decompose [or] Hp; subst; simpl in Hin, Hi; intuition discriminate.
Qed.

Lemma expr_ends : initial_ends_in_terminal Eps expr_productions Prog.
Proof. apply eof_ends with (eof := Eof). exact expr_eof. Qed.

(** every non-terminal is reachable *)
Lemma reach_step {T : Type} (eps S : T) ps p u X v :
  reachable_from eps ps S (p_input p) -> In p ps -> p_output p = u ++ X :: v ->
  reachable_from eps ps S X.
Proof.
  intros (x & y & Hd) Hp Ho. exists (x ++ u), (v ++ y).
  eapply derives_trans; [exact Hd|].
  replace ((x ++ u) ++ X :: v ++ y) with (x ++ p_output p ++ y)
    by (rewrite Ho, <- !app_assoc; reflexivity).
  change (p_input p :: y) with ([p_input p] ++ y). apply derives_ctx. now apply derives_production.
Qed.

Lemma expr_reachable B : non_terminal expr_productions B -> reachable_from Eps expr_productions Prog B.
Proof.
  assert (H0 : reachable_from Eps expr_productions Prog Prog)
    by (exists [], []; apply derives_refl).
  assert (H1 : reachable_from Eps expr_productions Prog Expr)
    by (apply (@reach_step _ _ _ _ (Production Prog [Expr; Eof]) [] _ [Eof] H0); simpl; auto 12).
  assert (H2 : reachable_from Eps expr_productions Prog Term)
    by (apply (@reach_step _ _ _ _ (Production Expr [Term; ExprTail]) [] _ [ExprTail] H1); simpl; auto 12).
  assert (H3 : reachable_from Eps expr_productions Prog ExprTail)
    by (apply (@reach_step _ _ _ _ (Production Expr [Term; ExprTail]) [Term] _ [] H1); simpl; auto 12).
  assert (H4 : reachable_from Eps expr_productions Prog Factor)
    by (apply (@reach_step _ _ _ _ (Production Term [Factor; TermTail]) [] _ [TermTail] H2); simpl; auto 12).
  assert (H5 : reachable_from Eps expr_productions Prog TermTail)
    by (apply (@reach_step _ _ _ _ (Production Term [Factor; TermTail]) [Factor] _ [] H2); simpl; auto 12).
  intros (p & Hp & Hi). subst B. simpl in Hp.
  decompose [or] Hp; subst; simpl; assumption || contradiction.
Qed.

(** tokens with lexemes: [id * ( id + id ) eof] *)
Definition tk (n : nat) (x : sym) : token nat sym := Token (Some n) x.
Definition expr_tokens : list (token nat sym) :=
  [tk 1 Id; tk 2 Star; tk 3 LParen; tk 4 Id; tk 5 Plus; tk 6 Id; tk 7 RParen; tk 8 Eof].

Definition inode (X : sym) (children : list (node nat sym)) : node nat sym :=
  Node children (Token None X).
Definition leaf (n : nat) (x : sym) : node nat sym := Node [] (tk n x).
Definition eleaf : node nat sym := Node [] (Token None Eps).

Definition expr_tree : node nat sym :=
  inode Prog
    [inode Expr
       [inode Term
          [inode Factor [leaf 1 Id];
           inode TermTail
             [leaf 2 Star;
              inode Factor
                [leaf 3 LParen;
                 inode Expr
                   [inode Term [inode Factor [leaf 4 Id]; inode TermTail [eleaf]];
                    inode ExprTail
                      [leaf 5 Plus;
                       inode Term [inode Factor [leaf 6 Id]; inode TermTail [eleaf]];
                       inode ExprTail [eleaf]]];
                 leaf 7 RParen];
              inode TermTail [eleaf]]];
        inode ExprTail [eleaf]];
     leaf 8 Eof].

Example expr_parses :
  parse_from_tokens 100 expr_parser expr_tokens = Done (ResultOk expr_tree, []).
Proof. vm_compute. reflexivity. Qed.

(** a solver that replaces whatever failed by one erroneous token *)
Definition skipping_solver : syntax_error_solver nat sym :=
  fun _ c =>
    match c with
    | FixFailedProduction ts p _ =>
        Reply (Some (FixResult (S p) (FixedProduction [FPartOk (Node [] (Token None Eps))])))
    | FixFailedProductions ts p _ =>
        Reply (Some (FixResult (S p) (FixedProduction [FPartOk (Node [] (Token None Eps))])))
    end.

Lemma skipping_solver_progresses : progressing (Some skipping_solver).
Proof.
  intros s h c H. inversion H; subst s.
  split; [destruct c; discriminate|]. intros fr Hs. destruct c; inversion Hs; subst; simpl; lia.
Qed.
