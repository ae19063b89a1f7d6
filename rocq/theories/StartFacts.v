(** * Parts of a parse (proofs) *)

From Verif Require Import BaseFacts DerivFacts.
From Verif Require Export ParserChoice StartSpec.

Set Implicit Arguments.

Section Shift.
  Context {L T : Type}.
  Variable eps : T.
  Variable ps : list (production T).
  Variable tokens : list (token L T).
  Variable candidates : T -> T -> list (list T).
  Variable k : nat.

  Lemma nth_error_skipn' {A : Type} (l : list A) i j : nth_error (skipn i l) j = nth_error l (i + j).
  Proof.
    revert i. induction l as [|x l IH]; intros i; destruct i; simpl; auto. destruct j; reflexivity.
  Qed.

  Notation choose' := (choose eps ps (skipn k tokens) candidates).
  Notation sequence' := (sequence eps ps (skipn k tokens) candidates).
  Notation branch' := (branch eps ps (skipn k tokens) candidates).

  Definition up (r : option (list (node L T) * nat)) : option (list (node L T) * nat) :=
    match r with Some (ns, q) => Some (ns, k + q) | None => None end.
  Definition up3 (r : option (node L T * nat * list (list T))) : option (node L T * nat * list (list T)) :=
    match r with Some (n, q, o) => Some (n, k + q, o) | None => None end.

  Lemma up_consed n r : up (consed n r) = consed n (up r).
  Proof. destruct r as [[? ?]|]; reflexivity. Qed.

  Lemma shift_all :
    (forall X p outs r, choose eps ps tokens candidates X p outs r ->
       forall p', p = k + p' -> exists r', choose' X p' outs r' /\ r = up3 r') /\
    (forall Xs p r, sequence eps ps tokens candidates Xs p r ->
       forall p', p = k + p' -> exists r', sequence' Xs p' r' /\ r = up r') /\
    (forall X p outs Xs r, branch eps ps tokens candidates X p outs Xs r ->
       forall p', p = k + p' -> exists r', branch' X p' outs Xs r' /\ r = up r').
  Proof.
    apply choice_mutind.
    - intros X p p' ->. exists None. split; [constructor|reflexivity].
    - intros X p out outs ns q _ IH p' ->. destruct (IH p' eq_refl) as ([[ns' q']|] & Hs & Hr); inversion Hr; subst.
      eexists. split; [apply choose_first; eauto|reflexivity].
    - intros X p out outs r _ IH1 _ IH2 p' ->. destruct (IH1 p' eq_refl) as ([[ns' q']|] & Hs & Hr); inversion Hr; subst.
      destruct (IH2 p' eq_refl) as (r' & Hc & ->). exists r'. split; auto. now apply choose_next.
    - intros p p' ->. exists (Some ([], p')). split; [constructor|reflexivity].
    - intros Xs p r _ IH p' ->. destruct (IH p' eq_refl) as (r' & Hs & ->).
      eexists. split; [apply sequence_epsilon; eauto|]. now rewrite up_consed.
    - intros Xs p tok r Hn He Ht _ IH p' ->. destruct (IH (p' + 1)) as (r' & Hs & ->); [lia|].
      eexists. split; [apply sequence_token; eauto; rewrite nth_error_skipn'; auto|]. now rewrite up_consed.
    - intros X Xs p Hn He Ht p' ->. exists None. split; auto. apply sequence_mismatch; auto.
      intros tok Htok. rewrite nth_error_skipn' in Htok. auto.
    - intros X Xs p tok r Hn Ht _ IH p' ->. destruct (IH p' eq_refl) as (r' & Hb & ->).
      exists r'. split; auto. apply sequence_non_terminal with (tok := tok); auto. now rewrite nth_error_skipn'.
    - intros X p outs Xs _ IH p' ->. destruct (IH p' eq_refl) as ([[[? ?] ?]|] & Hc & Hr); inversion Hr.
      exists None. split; auto. now apply branch_fail.
    - intros X p outs Xs n q outs' ns q' _ IH1 _ IH2 p' ->.
      destruct (IH1 p' eq_refl) as ([[[? ?] ?]|] & Hc & Hr); inversion Hr; subst.
      destruct (IH2 _ eq_refl) as ([[? ?]|] & Hs & Hr'); inversion Hr'; subst.
      eexists. split; [eapply branch_ok; eauto|reflexivity].
    - intros X p outs Xs n q outs' r _ IH1 _ IH2 _ IH3 p' ->.
      destruct (IH1 p' eq_refl) as ([[[? ?] ?]|] & Hc & Hr); inversion Hr; subst.
      destruct (IH2 _ eq_refl) as ([[? ?]|] & Hs & Hr'); inversion Hr'; subst.
      destruct (IH3 p' eq_refl) as (r' & Hb & ->). exists r'. split; auto. eapply branch_retry; eauto.
  Qed.
End Shift.

Section Parts.
  Context {L T : Type} {E : EqDec T}.
  Variable eps : T.
  Variable ps : list (production T).
  Variable tokens : list (token L T).
  Variable cands : T -> T -> list (list T).
  Hypothesis Heps : ~ non_terminal ps eps.
  Hypothesis Hout : forall A a out, In out (cands A a) -> out <> [].

  Notation choose := (choose eps ps tokens cands).
  Notation sequence := (sequence eps ps tokens cands).
  Notation branch := (branch eps ps tokens cands).
  Notation tokens_of := (tokens_of (L := L) eps).

  Definition parsed_at (pos : nat) (m : node L T) : Prop :=
    non_terminal ps (tok_type (node_token m)) ->
    exists tok n' q' o', nth_error tokens pos = Some tok /\
      choose (tok_type (node_token m)) pos (cands (tok_type (node_token m)) (tok_type tok)) (Some (n', q', o')) /\
      ((forall A a, length (cands A a) <= 1) -> n' = m).

  Definition parsed_forest (p : nat) (ns : list (node L T)) : Prop :=
    forall before c after k m, ns = before ++ c :: after -> part_of eps c k m ->
      parsed_at (p + list_sum (map tokens_of before) + k) m.

  Lemma parsed_forest_cons p n ns :
    (forall k m, part_of eps n k m -> parsed_at (p + k) m) ->
    parsed_forest (p + tokens_of n) ns -> parsed_forest p (n :: ns).
  Proof.
    intros Hn Hns [|b before] c after k m Heq Hp; simpl in Heq; inversion Heq; subst.
    - simpl. rewrite Nat.add_0_r. auto.
    - simpl. rewrite Nat.add_assoc. eapply Hns; eauto.
  Qed.

  Definition interior (p : nat) (n : node L T) : Prop :=
    forall k m, part_of eps n k m -> (k = 0 /\ m = n) \/ parsed_at (p + k) m.

  Lemma part_leaf (t : token L T) k m : part_of eps (Node [] t) k m -> k = 0 /\ m = Node [] t.
  Proof.
    intros H. inversion H as [|before]; subst; auto. destruct before; discriminate.
  Qed.

  Lemma interior_forest p ns t : parsed_forest p ns -> interior p (Node ns t).
  Proof.
    intros Hf k m Hp. inversion Hp as [|before c after t' k' m' Hp']; subst; auto. right.
    rewrite Nat.add_assoc. eapply Hf; eauto.
  Qed.

  Lemma tokens_of_node cs t : cs <> [] -> tokens_of (Node cs t) = list_sum (map tokens_of cs).
  Proof. destruct cs; [congruence|reflexivity]. Qed.

  Lemma parts_all :
    (forall X p outs r, choose X p outs r -> Forall (fun o => o <> []) outs ->
       forall n q o, r = Some (n, q, o) ->
       q = p + tokens_of n /\ incl o outs /\ length o < length outs /\
       tok_type (node_token n) = X /\ interior p n) /\
    (forall Xs p r, sequence Xs p r -> forall ns q, r = Some (ns, q) ->
       length ns = length Xs /\ q = p + list_sum (map tokens_of ns) /\ parsed_forest p ns) /\
    (forall X p outs Xs r, branch X p outs Xs r -> Forall (fun o => o <> []) outs ->
       forall ns q, r = Some (ns, q) ->
       exists n ns' n' q' o', ns = n :: ns' /\ length ns' = length Xs /\
         q = p + list_sum (map tokens_of ns) /\
         choose X p outs (Some (n', q', o')) /\ (length outs <= 1 -> n' = n) /\
         tok_type (node_token n) = X /\ interior p n /\ parsed_forest (p + tokens_of n) ns').
  Proof.
    apply choice_mutind.
    - intros. discriminate.
    - intros X p out outs ns q _ IH Hne n q0 o Heq. inversion Heq; subst. apply Forall_inv in Hne as Ho.
      destruct (IH ns q0 eq_refl) as (Hl & Hq & Hf).
      assert (Hns : ns <> []) by (destruct ns; [destruct out; [congruence|discriminate]|discriminate]).
      split; [now rewrite tokens_of_node|]. split; [now apply incl_tl, incl_refl|]. split; [simpl; lia|].
      split; auto. now apply interior_forest.
    - intros X p out outs r _ _ _ IH Hne n q o Heq. inversion Hne; subst.
      destruct (IH H2 n q o eq_refl) as (Hq & Hi & Hl & Hns). split; auto. split; [now apply incl_tl|].
      split; [simpl; lia|auto].
    - intros p ns q Heq. inversion Heq; subst. split; auto. split; [simpl; lia|].
      intros [|] c after k m Heq' _; discriminate.
    - intros Xs p r _ IH ns q Heq. destruct r as [[ns' q']|]; inversion Heq; subst.
      destruct (IH ns' q eq_refl) as (Hl & -> & Hf). split; [simpl; auto|].
      assert (Ht : tokens_of (Node [] (Token None eps)) = 0) by (simpl; destruct (eq_dec eps eps); congruence).
      split; [cbn [map]; cbn [list_sum fold_right]; rewrite Ht; reflexivity|].
      apply parsed_forest_cons; [|rewrite Ht, Nat.add_0_r; auto].
      intros k m Hp. apply part_leaf in Hp as [-> ->]. intros Hn. contradiction.
    - intros Xs p tok r Hn He Ht _ IH ns q Heq. destruct r as [[ns' q']|]; inversion Heq; subst.
      destruct (IH ns' q eq_refl) as (Hl & -> & Hf). split; [simpl; auto|].
      assert (Hk : tokens_of (Node [] tok) = 1) by (simpl; destruct (eq_dec (tok_type tok) eps); congruence).
      split; [cbn [map]; cbn [list_sum fold_right]; rewrite Hk; unfold list_sum; lia|].
      apply parsed_forest_cons; [|rewrite Hk; auto].
      intros k m Hp. apply part_leaf in Hp as [-> ->]. intros Hn'. contradiction.
    - intros. discriminate.
    - intros X Xs p tok r Hn Ht _ IH ns q ->.
      destruct (IH (proj2 (Forall_forall _ _) (Hout X (tok_type tok))) ns q eq_refl)
        as (n & ns' & n' & q' & o' & -> & Hl & Hq & Hc & Hone & HX & Hi & Hf).
      split; [simpl; auto|]. split; auto. apply parsed_forest_cons; auto.
      intros k m Hp. destruct (Hi k m Hp) as [[-> ->]|]; auto. rewrite Nat.add_0_r. intros _.
      exists tok, n', q', o'. rewrite HX. auto.
    - intros. discriminate.
    - intros X p outs Xs n q outs' ns q' Hc IH1 _ IH2 Hne ns0 q0 Heq. inversion Heq; subst.
      destruct (IH1 Hne n q outs' eq_refl) as (-> & _ & _ & HX & Hi).
      destruct (IH2 ns q0 eq_refl) as (Hl & -> & Hf).
      exists n, ns, n, (p + tokens_of n), outs'. repeat (split; auto). cbn [map list_sum fold_right]. unfold list_sum. lia.
    - intros X p outs Xs n q outs' r Hc IH1 _ _ Hb IH3 Hne ns q0 ->.
      destruct (IH1 Hne n q outs' eq_refl) as (-> & Hincl & Hlt & HX & Hi).
      assert (Hne' : Forall (fun o => o <> []) outs').
      { rewrite Forall_forall in *. auto. }
      destruct (IH3 Hne' ns q0 eq_refl) as (m & ns' & n' & q' & o' & -> & Hl & Hq & Hc' & Hone & HXm & Him & Hf).
      exists m, ns', n, (p + tokens_of n), outs'. repeat (split; auto). intros Hlen. exfalso.
      assert (Hnil : outs' = []) by (destruct outs'; auto; simpl in *; lia). subst outs'. inversion Hc'.
  Qed.
End Parts.

Section Same.
  Context {L T : Type}.
  Variable eps : T.
  Variable ps : list (production T).
  Variable tokens : list (token L T).
  Variable cands cands' : T -> T -> list (list T).
  Hypothesis Hsame : forall A a, cands A a = cands' A a.

  Lemma choose_same :
    (forall X p outs r, choose eps ps tokens cands X p outs r -> choose eps ps tokens cands' X p outs r) /\
    (forall Xs p r, sequence eps ps tokens cands Xs p r -> sequence eps ps tokens cands' Xs p r) /\
    (forall X p outs Xs r, branch eps ps tokens cands X p outs Xs r -> branch eps ps tokens cands' X p outs Xs r).
  Proof.
    apply choice_mutind; intros; try (econstructor; eauto; fail).
    eapply sequence_non_terminal; eauto. now rewrite <- Hsame.
  Qed.
End Same.
