(** * Machine integers and vectors: C79 *)

From Verif Require Import BaseFacts GrammarFacts ParserBuild Machine MachineFacts Examples PropReports PropStart.

Set Implicit Arguments.

(** A vector never holds more than [usize::MAX] elements.  For the productions and tokens of
    such vectors, on every machine and whatever an overflow would do (panic in debug builds,
    wrap in release builds): the code with [usize] arithmetic, index loops and vectors
    (Machine.v) computes the sets, the parser and every parse, with all solver calls, as
    with unbounded integers: no addition or subtraction ever overflows. *)
Theorem C79_construction_on_machines :
  forall (L T : Type) (E : EqDec T) (mc : machine) (ho ho' : hash_order T) (eps init : T)
         (ps : list (production T)) (g : grammar T) (fuel : nat) (s : syntax_error_solver L T),
    cfg_new ho eps init ps = Done g ->
    (forall p, In p ps -> length (p_output p) <= usize_max mc) ->
    m_ffs_from mc ho' fuel g = ffs_from ho' fuel g /\
    m_from_grammar mc ho' fuel g = @from_grammar L T _ ho' fuel g /\
    m_from_grammar_and_solver mc ho' fuel g s = from_grammar_and_solver ho' fuel g s.
Proof.
  intros L T E mc ho ho' eps init ps g fuel s Hg Hlen. apply cfg_new_grammar_of in Hg as G.
  assert (Hf : m_ffs_from mc ho' fuel g = ffs_from ho' fuel g).
  { apply ffs_from_same. intros A l p Hl Hp. rewrite (go_productions G) in Hl.
    assert (Hin : In p ps).
    { destruct (productions_of ps A) as [|q qs] eqn:Hq; simpl in Hl; inversion Hl; subst l.
      rewrite <- Hq in Hp. unfold productions_of in Hp. apply filter_In in Hp as [Hp _]. exact Hp. }
    split; [|auto]. destruct (go_ok G p Hin) as (_ & Hne & _). destruct (p_output p); [congruence|simpl; lia]. }
  split; auto. unfold m_from_grammar, m_from_grammar_and_solver, from_grammar, from_grammar_and_solver.
  now rewrite Hf.
Qed.
Print Assumptions C79_construction_on_machines.

Theorem C79_parsing_on_machines :
  forall (L T : Type) (E : EqDec T) (mc : machine) (eps init : T) (ps : list (production T))
         (solver : option (syntax_error_solver L T)) (self : parser L T)
         (tokens : list (token L T)) (fuel : nat),
    constructed_parser eps init ps solver self ->
    (forall p, In p ps -> length (p_output p) <= usize_max mc) ->
    length tokens <= usize_max mc ->
    m_parse_from_tokens mc fuel self tokens = parse_from_tokens fuel self tokens.
Proof.
  intros L T E mc eps init ps solver self tokens fuel B Hlen Ht. apply parse_same; auto.
  intros A a. apply Forall_forall. intros out Hin. unfold inner_get_token_productions in Hin.
  destruct (transitions_get_productions (pr_transitions self) A a) as [l|] eqn:Hl; [|destruct Hin].
  apply in_map_iff in Hin as (p & <- & Hp).
  destruct (@po_cells _ _ _ _ _ _ _ (bf_of (constructed_built B)) _ _ _ _ Hl Hp) as [Hp' _]. exact (Hlen p Hp').
Qed.
Print Assumptions C79_parsing_on_machines.

(** ** cases *)
(** a machine with two bits, wrapping as release builds do *)
Definition two_bits : machine :=
  Machine 3 (fun a b => Done (Nat.modulo (a + b) 4)) (fun a b => Done (Nat.modulo (a + 4 - b) 4)).
(** the same, panicking as debug builds do *)
Definition two_bits_debug : machine :=
  Machine 3 (fun a b => Panicked PanicSubUnderflow) (fun a b => Panicked PanicSubUnderflow).

(** 0 epsilon, S = 1 -> A $, A = 2 -> a A | a; a = 3, $ = 4 *)
Definition bits_productions : list (production nat) :=
  [Production 1 [2; 4]; Production 2 [3; 2]; Production 2 [3]].

Example C79_case :
  built_parser 0 1 bits_productions None (parser_at bits_productions 1) /\
  (forall p, In p bits_productions -> length (p_output p) <= usize_max two_bits) /\
  (exists root, m_parse_from_tokens two_bits 60 (parser_at bits_productions 1) [nt 3; nt 3; nt 4] =
                Done (ResultOk root, [])) /\
  (* on an input longer than the hypothesis allows (no vector has that length) it makes a difference *)
  (exists root, parse_from_tokens 60 (parser_at bits_productions 1) [nt 3; nt 3; nt 3; nt 3; nt 4] =
                Done (ResultOk root, [])) /\
  m_parse_from_tokens two_bits_debug 60 (parser_at bits_productions 1) [nt 3; nt 3; nt 3; nt 3; nt 4] =
    Panicked PanicSubUnderflow /\
  m_parse_from_tokens two_bits 60 (parser_at bits_productions 1) [nt 3; nt 3; nt 3; nt 3; nt 4] <>
    parse_from_tokens 60 (parser_at bits_productions 1) [nt 3; nt 3; nt 3; nt 3; nt 4].
Proof.
  splits.
  - apply build_built with (fuel := 200). vm_compute. reflexivity.
  - intros p Hp. simpl in *. decompose [or] Hp; subst; simpl; try lia; contradiction.
  - eexists. vm_compute. reflexivity.
  - eexists. vm_compute. reflexivity.
  - vm_compute. reflexivity.
  - vm_compute. discriminate.
Qed.
