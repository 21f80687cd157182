(** More facts about the interpreter for every grammar: the stack is never read
    when empty, and parsing does not depend on the offset. *)
From Verif Require Import Base Peg SpecPeg ProofPeg.
Local Open Scope nat_scope.

Fixpoint shift_tree {R} (d : nat) (t : tree R) : tree R :=
  match t with Node r a b x l => Node r (a + d) (b + d) x (map (shift_tree d) l) end.

Section Generic.
  Context {R : Type}.
  Variable U : unicode.
  Variable g : R -> pexp R.
  Variable sk : pexp R.
  Notation run := (run U g sk).
  Notation pres := (pres R).

  (** *** stack *)
  (** [unfolded]: functions that need a non-empty stack; the others leave the
      stack at least as deep as they found it *)
  Variable unfolded : R -> bool.
  Fixpoint sd (d : nat) : pexp R -> nat -> option (nat * nat) :=
    fix go (e : pexp R) (n : nat) : option (nat * nat) :=
      match e with
      | EStr _ | EInsens _ | ERange _ _ | EClass _ | EAny | EEoi | ESoi | ESkip => Some (n, n)
      | EThen a b =>
          match go a n with
          | Some (o1, e1) => match go b o1 with Some (o2, e2) => Some (o2, Nat.min e1 e2) | None => None end
          | None => None
          end
      | EElse a b =>
          match go a n with
          | Some (o1, e1) => match go b e1 with Some (o2, e2) => Some (Nat.min o1 o2, e2) | None => None end
          | None => None
          end
      | ESeq a | ERule _ a | EAtomic _ a => go a n
      | EOpt a => match go a n with Some (o1, e1) => Some (Nat.min o1 e1, n) | None => None end
      | ERep a => match go a n with
                  | Some (o1, e1) => if n <=? o1 then Some (e1, n) else None
                  | None => None
                  end
      | ERestore a => match go a n with Some (o1, _) => Some (o1, n) | None => None end
      | ENot a => match go a n with Some _ => Some (n, n) | None => None end
      | EPush a => match go a n with Some (o1, e1) => Some (S o1, e1) | None => None end
      | EPeek => match n with O => None | S _ => Some (n, n) end
      | EPop => match n with O => None | S m => Some (m, m) end
      | ECall r =>
          if unfolded r then match d with O => None | S d' => sd d' (g r) n end
          else Some (n, n)
      end.

  Lemma sd_eq : forall d e n, sd d e n =
      match e with
      | EStr _ | EInsens _ | ERange _ _ | EClass _ | EAny | EEoi | ESoi | ESkip => Some (n, n)
      | EThen a b =>
          match sd d a n with
          | Some (o1, e1) => match sd d b o1 with Some (o2, e2) => Some (o2, Nat.min e1 e2) | None => None end
          | None => None
          end
      | EElse a b =>
          match sd d a n with
          | Some (o1, e1) => match sd d b e1 with Some (o2, e2) => Some (Nat.min o1 o2, e2) | None => None end
          | None => None
          end
      | ESeq a | ERule _ a | EAtomic _ a => sd d a n
      | EOpt a => match sd d a n with Some (o1, e1) => Some (Nat.min o1 e1, n) | None => None end
      | ERep a => match sd d a n with
                  | Some (o1, e1) => if n <=? o1 then Some (e1, n) else None
                  | None => None
                  end
      | ERestore a => match sd d a n with Some (o1, _) => Some (o1, n) | None => None end
      | ENot a => match sd d a n with Some _ => Some (n, n) | None => None end
      | EPush a => match sd d a n with Some (o1, e1) => Some (S o1, e1) | None => None end
      | EPeek => match n with O => None | S _ => Some (n, n) end
      | EPop => match n with O => None | S m => Some (m, m) end
      | ECall r =>
          if unfolded r then match d with O => None | S d' => sd d' (g r) n end
          else Some (n, n)
      end.
  Proof. intros [|d] e n; destruct e; reflexivity. Qed.

  Variable ds : nat.
  Hypothesis sd_g : forall r, unfolded r = false -> sd ds (g r) 0 <> None.
  Hypothesis sd_sk : sd ds sk 0 <> None.

  Definition deep (m o1 e1 : nat) (r : pres) : Prop :=
    match r with
    | POk s _ => o1 + m <= length (stk s)
    | PErr s _ => e1 + m <= length (stk s)
    | PPanic => False
    | PFuel => True
    end.

  Lemma deep_weaken : forall m o e o' e' r, o' <= o -> e' <= e -> deep m o e r -> deep m o' e' r.
  Proof. intros m o e o' e' [s t|s t| |]; cbn; intros; try lia; auto. Qed.
  Lemma deep_prepend : forall m o e t r, deep m o e r -> deep m o e (prepend t r).
  Proof. intros m o e t [s u|s u| |]; cbn; auto. Qed.
  Lemma deep_take : forall m n s o, n + m <= length (stk s) -> deep m n n (take s o).
  Proof. intros m n s [k|] H; cbn; auto. Qed.
  Lemma deep_take_char : forall m n s p, n + m <= length (stk s) -> deep m n n (take_char p s).
  Proof. intros m n s p H. unfold take_char. destruct (rest s); cbn; auto. destruct (p c); cbn; auto. Qed.

  Lemma run_deep : forall f d e k q s n m o1 e1, sd d e n = Some (o1, e1) -> n + m <= length (stk s) ->
    deep m o1 e1 (run f e k q s).
  Proof.
    induction f as [|f IH]; intros d e k q s n m o1 e1 H Hn; [exact I|].
    rewrite sd_eq in H. cbn [Peg.run].
    destruct e;
      try (injection H as <- <-; solve [apply deep_take; assumption | apply deep_take_char; assumption]).
    - injection H as <- <-. destruct (rest s); exact Hn.
    - injection H as <- <-. destruct (pos s); exact Hn.
    - destruct (sd d e2 n) as [[a1 b1]|] eqn:D1; [|discriminate].
      destruct (sd d e3 a1) as [[a2 b2]|] eqn:D2; [|discriminate]. injection H as <- <-.
      pose proof (IH _ _ k q s _ m _ _ D1 Hn) as H1. destruct (run f e2 k q s) as [s1 t1|s1 t1| |]; cbn in H1; try contradiction; auto.
      + apply deep_prepend. eapply deep_weaken; [| |eapply IH; [exact D2|exact H1]]; lia.
      + cbn. lia.
    - destruct (sd d e2 n) as [[a1 b1]|] eqn:D1; [|discriminate].
      destruct (sd d e3 b1) as [[a2 b2]|] eqn:D2; [|discriminate]. injection H as <- <-.
      pose proof (IH _ _ k q s _ m _ _ D1 Hn) as H1. destruct (run f e2 k q s) as [s1 t1|s1 t1| |]; cbn in H1; try contradiction; auto.
      + cbn. lia.
      + apply deep_prepend. eapply deep_weaken; [| |eapply IH; [exact D2|exact H1]]; lia.
    - pose proof (IH _ _ k q s _ m _ _ H Hn) as H1. destruct (run f e k q s) as [s1 t1|s1 t1| |]; exact H1.
    - destruct (sd d e n) as [[a1 b1]|] eqn:D1; [|discriminate]. injection H as <- <-.
      pose proof (IH _ _ k q s _ m _ _ D1 Hn) as H1. destruct (run f e k q s) as [s1 t1|s1 t1| |]; cbn in *; auto; lia.
    - destruct (sd d e n) as [[a1 b1]|] eqn:D1; [|discriminate].
      destruct (Nat.leb_spec n a1); [|discriminate]. injection H as <- <-.
      pose proof (IH _ _ k q s _ m _ _ D1 Hn) as H1. destruct (run f e k q s) as [s1 t1|s1 t1| |]; cbn in H1; try contradiction; auto.
      apply deep_prepend. apply (IH d (ERep e) k q s1 n m); [|lia].
      rewrite sd_eq, D1. destruct (Nat.leb_spec n a1); [reflexivity|lia].
    - destruct (sd d e n) as [[a1 b1]|] eqn:D1; [|discriminate]. injection H as <- <-.
      pose proof (IH _ _ k q s _ m _ _ D1 Hn) as H1. destruct (run f e k q s) as [s1 t1|s1 t1| |]; cbn in *; auto; lia.
    - destruct (sd d e n) as [[a1 b1]|] eqn:D1; [|discriminate]. injection H as <- <-.
      pose proof (IH _ _ k true s _ m _ _ D1 Hn) as H1. destruct (run f e k true s) as [s1 t1|s1 t1| |]; cbn in *; auto; lia.
    - pose proof (IH _ _ k q s _ m _ _ H Hn) as H1. destruct (run f e k q s) as [s1 t1|s1 t1| |]; exact H1.
    - apply (IH d e k0 q s n m); assumption.
    - destruct (sd d e n) as [[a1 b1]|] eqn:D1; [|discriminate]. injection H as <- <-.
      pose proof (IH _ _ k q s _ m _ _ D1 Hn) as H1. destruct (run f e k q s) as [s1 t1|s1 t1| |]; cbn in *; auto; lia.
    - destruct n as [|n]; [discriminate|]. injection H as <- <-.
      destruct (stk s) as [|t st] eqn:E; [cbn in Hn; lia|]. apply deep_take. rewrite E. exact Hn.
    - destruct n as [|n]; [discriminate|]. injection H as <- <-.
      destruct (stk s) as [|t st] eqn:E; [cbn in Hn; lia|]. apply deep_take. cbn in *. lia.
    - destruct (unfolded r) eqn:Hu.
      + destruct d as [|d]; [discriminate|]. apply (IH d _ k q s n m); assumption.
      + injection H as <- <-. pose proof (sd_g r Hu) as Hg.
        destruct (sd ds (g r) 0) as [[a b]|] eqn:D1; [|congruence].
        eapply deep_weaken with (o := a + n) (e := b + n); [lia|lia|].
        pose proof (IH _ _ k q s 0 (n + m) _ _ D1) as H1. cbn in H1. specialize (H1 Hn).
        destruct (run f (g r) k q s); cbn in *; try contradiction; lia.
    - injection H as <- <-. destruct k; try exact Hn.
      destruct (sd ds sk 0) as [[a b]|] eqn:D1; [|congruence].
      pose proof (IH _ _ NonAtomic q s 0 (n + m) _ _ D1) as H1. cbn in H1. specialize (H1 Hn).
      destruct (run f sk NonAtomic q s); cbn in *; try contradiction; lia.
  Qed.

  Theorem run_no_panic : forall f e k q s, sd ds e 0 <> None -> run f e k q s <> PPanic.
  Proof.
    intros f e k q s H. destruct (sd ds e 0) as [[a b]|] eqn:D; [|congruence].
    pose proof (run_deep f ds e k q s 0 0 a b D) as H1. cbn in H1. specialize (H1 (Nat.le_0_l _)).
    intro E. rewrite E in H1. exact H1.
  Qed.

  (** *** offsets *)
  Variable at_start : R -> bool.
  (** no [start_of_input], also not through calls *)
  Fixpoint no_soi (e : pexp R) : bool :=
    match e with
    | ESoi => false
    | EThen a b | EElse a b => no_soi a && no_soi b
    | ESeq a | EOpt a | ERep a | ERestore a | ENot a | ERule _ a | EAtomic _ a | EPush a => no_soi a
    | ECall r => negb (at_start r)
    | _ => true
    end.
  Hypothesis no_soi_g : forall r, at_start r = false -> no_soi (g r) = true.
  Hypothesis no_soi_sk : no_soi sk = true.

  Definition shift_state (d : nat) (s : pstate) : pstate := mkPs (pos s + d) (rest s) (stk s).
  Definition shift_res (d : nat) (r : pres) : pres :=
    match r with
    | POk s t => POk (shift_state d s) (map (shift_tree d) t)
    | PErr s t => PErr (shift_state d s) (map (shift_tree d) t)
    | PPanic => PPanic
    | PFuel => PFuel
    end.

  Lemma advance_shift : forall d s k, advance (shift_state d s) k = shift_state d (advance s k).
  Proof. intros. unfold advance, shift_state. cbn. f_equal. lia. Qed.
  Lemma take_shift : forall d s o, take (shift_state d s) o = shift_res d (take s o).
  Proof. intros d s [k|]; cbn [take]; [rewrite advance_shift|]; reflexivity. Qed.
  Lemma take_char_shift : forall d s p, take_char p (shift_state d s) = shift_res d (take_char p s).
  Proof.
    intros. unfold take_char. cbn [rest shift_state]. destruct (rest s); [reflexivity|].
    destruct (p c); [rewrite advance_shift|]; reflexivity.
  Qed.
  Lemma prepend_shift : forall d t r, prepend (map (shift_tree d) t) (shift_res d r) = shift_res d (prepend t r).
  Proof. intros d t [s u|s u| |]; cbn; rewrite ?map_app; reflexivity. Qed.

  Theorem run_shift : forall f d e k q s, no_soi e = true ->
    run f e k q (shift_state d s) = shift_res d (run f e k q s).
  Proof.
    induction f as [|f IH]; intros d e k q s H; [reflexivity|].
    cbn [Peg.run]. destruct e; cbn [no_soi] in H; try discriminate;
      try (apply andb_true_iff in H; destruct H as [Ha Hb]);
      try apply take_shift; try apply take_char_shift; rewrite ?IH by assumption.
    - cbn [rest shift_state]. destruct (rest s); reflexivity.
    - destruct (run f e1 k q s) as [s1 t1|s1 t1| |]; cbn [shift_res]; try reflexivity.
      rewrite IH by assumption. apply prepend_shift.
    - destruct (run f e1 k q s) as [s1 t1|s1 t1| |]; cbn [shift_res]; try reflexivity.
      rewrite IH by assumption. apply prepend_shift.
    - destruct (run f e k q s) as [s1 t1|s1 t1| |]; reflexivity.
    - destruct (run f e k q s) as [s1 t1|s1 t1| |]; reflexivity.
    - destruct (run f e k q s) as [s1 t1|s1 t1| |]; cbn [shift_res]; try reflexivity.
      rewrite IH by exact H. apply prepend_shift.
    - destruct (run f e k q s) as [s1 t1|s1 t1| |]; reflexivity.
    - destruct (run f e k true s) as [s1 t1|s1 t1| |]; reflexivity.
    - destruct (run f e k q s) as [s1 t1|s1 t1| |]; cbn [shift_res]; try reflexivity;
        destruct (emits k q); reflexivity.
    - reflexivity.
    - destruct (run f e k q s) as [s1 t1|s1 t1| |]; reflexivity.
    - cbn [stk shift_state]. destruct (stk s); [reflexivity|]. apply take_shift.
    - cbn [stk shift_state]. destruct (stk s) as [|t st]; [reflexivity|].
      apply (take_shift d (mkPs (pos s) (rest s) st)).
    - apply negb_true_iff in H. apply IH. apply no_soi_g. exact H.
    - destruct k; reflexivity.
  Qed.
End Generic.
