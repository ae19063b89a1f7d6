(** * Only the identity of symbols and the order within a symbol matter: C50, C51 *)

From Verif Require Import BaseFacts GrammarFacts DerivFacts FirstFacts FollowFacts TransitionsFacts.
From Verif Require Import ParserRename Examples.

Set Implicit Arguments.

(** ** C50: parsing commutes with renaming *)
Theorem C50_renaming :
  forall (L1 L2 T1 T2 : Type) (E1 : EqDec T1) (E2 : EqDec T2) (f : L1 -> L2) (g : T1 -> T2)
         (eps init : T1) (ps : list (production T1))
         (solver1 : option (syntax_error_solver L1 T1))
         (solver2 : option (syntax_error_solver L2 T2))
         (self1 : parser L1 T1) (self2 : parser L2 T2)
         (tokens : list (token L1 T1)) (fuel : nat),
    injective g ->
    built_parser eps init ps solver1 self1 ->
    built_parser (g eps) (g init) (map (ren_production g) ps) solver2 self2 ->
    ren_solver f g solver1 solver2 ->
    (forall A a,
       transitions_get_productions (pr_transitions self2) (g A) (g a) =
       option_map (map (ren_production g))
                  (transitions_get_productions (pr_transitions self1) A a)) /\
    parse_from_tokens fuel self2 (map (ren_token f g) tokens) =
      ren_outcome f g (parse_from_tokens fuel self1 tokens).
Proof.
  intros L1 L2 T1 T2 E1 E2 f g eps init ps solver1 solver2 self1 self2 tokens fuel Hinj B1 B2 Hsol.
  assert (HIn : forall q, In q (map (ren_production g) ps) ->
            exists p, In p ps /\ p_input q = g (p_input p)).
  { intros q Hq. apply in_map_iff in Hq as (p & <- & Hp). eauto. }
  assert (Hdecl : forall A, declared_for (map (ren_production g) ps) (g A) =
            map (ren_production g) (declared_for ps A)).
  { intros A. unfold declared_for. apply filter_map_ren. intros p _. simpl.
    destruct (eq_dec (g (p_input p)) (g A)) as [H|H], (eq_dec (p_input p) A) as [H'|H']; auto.
    - exfalso. apply H'. now apply Hinj.
    - exfalso. apply H. now f_equal. }
  split; [exact (ren_cells Hinj HIn Hdecl B1 B2)|].
  pose proof (built_built B1) as F1. pose proof (built_built B2) as F2.
  pose proof (po_grammar (bf_of F1)) as G1. pose proof (po_grammar (bf_of F2)) as G2.
  apply parse_ren; auto.
  - exact (eqb_ren Hinj).
  - exact (ren_is_non_terminal Hinj HIn Hdecl B1 B2).
  - unfold get_epsilon_symbol. now rewrite (go_eps G1), (go_eps G2).
  - unfold get_initial_symbol. now rewrite (go_init G1), (go_init G2).
  - exact (ren_token_productions Hinj HIn Hdecl B1 B2).
  - now rewrite (bf_solver F1), (bf_solver F2).
Qed.
Print Assumptions C50_renaming.

(** the expression grammar with numbers for symbols *)
Definition sym_code (x : sym) : nat :=
  match x with
  | Eps => 100 | Prog => 7 | Expr => 3 | ExprTail => 12 | Term => 0 | TermTail => 5 | Factor => 6
  | Plus => 2 | Star => 1 | LParen => 8 | RParen => 9 | Id => 10 | Eof => 4
  end.

Example C50_case :
  injective sym_code /\
  (exists self2, built_parser (L := bool) (sym_code Eps) (sym_code Prog)
     (map (ren_production sym_code) expr_productions) None self2) /\
  ren_solver (fun n : nat => Nat.even n) sym_code None None /\
  exists self2, built_parser (L := nat) (sym_code Eps) (sym_code Prog)
     (map (ren_production sym_code) expr_productions)
     (Some (fun _ c => Reply (Some (FixResult (S (call_position c))
                                     (FixedProduction [FPartOk (Node [] (Token None (sym_code Eps)))])))))
     self2 /\
  ren_solver (fun n : nat => n) sym_code (Some skipping_solver)
     (Some (fun _ c => Reply (Some (FixResult (S (call_position c))
                                     (FixedProduction [FPartOk (Node [] (Token None (sym_code Eps)))]))))).
Proof.
  split; [intros [] [] H; try reflexivity; discriminate H|].
  split; [eexists; apply build_built with (fuel := 200); vm_compute; reflexivity|].
  split; [exact I|].
  eexists; split; [apply build_built with (fuel := 200); vm_compute; reflexivity|].
  intros h [ts p fp|ts p fps]; reflexivity.
Qed.

(** ** C51: only the order of the productions of one symbol matters *)
Theorem C51_interleaving_irrelevant :
  forall (L T : Type) (E : EqDec T) (eps init : T) (ps ps' : list (production T))
         (solver : option (syntax_error_solver L T)) (self self' : parser L T)
         (tokens : list (token L T)) (fuel : nat),
    (forall A, declared_for ps' A = declared_for ps A) ->
    built_parser eps init ps solver self -> built_parser eps init ps' solver self' ->
    (forall A a, transitions_get_productions (pr_transitions self') A a =
                 transitions_get_productions (pr_transitions self) A a) /\
    parse_from_tokens fuel self' tokens = parse_from_tokens fuel self tokens.
Proof.
  intros L T E eps init ps ps' solver self self' tokens fuel Hd B B'.
  assert (Hinj : injective (fun x : T => x)) by (intros x y H; exact H).
  assert (Hren : forall p : production T, ren_production (fun x => x) p = p).
  { intros [i o]. unfold ren_production. simpl. now rewrite map_id. }
  assert (Hmap : forall l : list (production T), map (ren_production (fun x => x)) l = l).
  { intros l. apply map_ext_id. auto. }
  assert (HIn : forall q, In q ps' -> exists p, In p ps /\ p_input q = (fun x => x) (p_input p)).
  { intros q Hq. assert (H : In q (declared_for ps' (p_input q))) by (apply declared_In; auto).
    rewrite Hd in H. apply declared_In in H as [H _]. eauto. }
  assert (Hdecl : forall A, declared_for ps' ((fun x => x) A) =
            map (ren_production (fun x => x)) (declared_for ps A)).
  { intros A. rewrite Hmap. apply Hd. }
  assert (Hc : forall A a, transitions_get_productions (pr_transitions self') A a =
                 transitions_get_productions (pr_transitions self) A a).
  { intros A a. pose proof (ren_cells Hinj HIn Hdecl B B' A a) as H. simpl in H. rewrite H.
    destruct (transitions_get_productions (pr_transitions self) A a); simpl; auto. now rewrite Hmap. }
  split; auto.
  pose proof (built_built B) as F1. pose proof (built_built B') as F2.
  pose proof (po_grammar (bf_of F1)) as G1. pose proof (po_grammar (bf_of F2)) as G2.
  apply parse_ext.
  - exact (ren_is_non_terminal Hinj HIn Hdecl B B').
  - unfold get_epsilon_symbol. now rewrite (go_eps G1), (go_eps G2).
  - unfold get_initial_symbol. now rewrite (go_init G1), (go_init G2).
  - intros A a. unfold inner_get_token_productions. now rewrite Hc.
  - now rewrite (bf_solver F1), (bf_solver F2).
Qed.
Print Assumptions C51_interleaving_irrelevant.

(** the productions of the expression grammar dealt out differently *)
Definition expr_interleaved : list (production sym) :=
  [ Production Factor [LParen; Expr; RParen];
    Production TermTail [Star; Factor; TermTail];
    Production ExprTail [Plus; Term; ExprTail];
    Production Prog [Expr; Eof];
    Production Factor [Id];
    Production Expr [Term; ExprTail];
    Production ExprTail [Eps];
    Production TermTail [Eps];
    Production Term [Factor; TermTail] ].

Example C51_case :
  (forall A, declared_for expr_interleaved A = declared_for expr_productions A) /\
  expr_interleaved <> expr_productions /\
  exists self', built_parser (L := nat) Eps Prog expr_interleaved None self'.
Proof.
  split; [intros []; reflexivity|]. split; [discriminate|].
  eexists. apply build_built with (fuel := 200). vm_compute. reflexivity.
Qed.

(** the order of the productions of one symbol does matter: 0 epsilon, S = 1,
    a = 2, b = 3; with S -> a tried before S -> a b the input [a b] is parsed
    as [a], the other way round as [a b] *)
Example C51_order_within_symbol_matters :
  exists self self',
    built_parser (L := nat) 0 1 [Production 1 [2]; Production 1 [2; 3]] None self /\
    built_parser (L := nat) 0 1 [Production 1 [2; 3]; Production 1 [2]] None self' /\
    parse_from_tokens 20 self' [Token None 2; Token None 3] <>
    parse_from_tokens 20 self [Token None 2; Token None 3].
Proof.
  eexists. eexists. split; [apply build_built with (fuel := 50); vm_compute; reflexivity|].
  split; [apply build_built with (fuel := 50); vm_compute; reflexivity|].
  vm_compute. discriminate.
Qed.
