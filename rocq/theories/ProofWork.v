(** How much work the parser does, by the number of nesting signs. *)
From Verif Require Import Base Peg Grammar Build Steps SpecCost.
From Verif Require Import ProofPeg ProofGrammar ProofDepth.
Local Open Scope N_scope.

(** x calls for each n^i: the pair (x, i) *)
Definition cost_add (a b : N * N) : N * N :=
  (fst a + fst b, N.max (if fst a =? 0 then 0 else snd a) (if fst b =? 0 then 0 else snd b)).
Definition cost_rep (a : N * N) : N * N := if fst a =? 0 then (0, 0) else (fst a, snd a + 1).
Definition cost_le (a b : N * N) : bool := (fst a <=? fst b) && (snd a <=? snd b).

Section Value.
  Variable n : N.
  Hypothesis Hn : 1 <= n.
  Definition value (a : N * N) : N := fst a * n ^ snd a.
  Lemma pow_up : forall i j, i <= j -> n ^ i <= n ^ j.
  Proof. intros i j H. apply N.pow_le_mono_r; lia. Qed.
  Lemma value_up : forall x i j, (x =? 0) = true \/ i <= j -> value (x, i) <= x * n ^ j.
  Proof.
    intros x i j [H|H]; unfold value; cbn [fst snd].
    - apply N.eqb_eq in H. subst x. lia.
    - apply N.mul_le_mono_l. apply pow_up. exact H.
  Qed.
  Lemma value_add : forall a b, value a + value b <= value (cost_add a b).
  Proof.
    intros [x i] [y j]. unfold cost_add. cbn [fst snd].
    set (m := N.max (if x =? 0 then 0 else i) (if y =? 0 then 0 else j)).
    assert (A : value (x, i) <= x * n ^ m) by (apply value_up; destruct (x =? 0); [left; reflexivity|right; lia]).
    assert (B : value (y, j) <= y * n ^ m) by (apply value_up; destruct (y =? 0); [left; reflexivity|right; lia]).
    unfold value at 3. cbn [fst snd]. rewrite N.mul_add_distr_r. lia.
  Qed.
  Lemma value_rep : forall a, n * value a <= value (cost_rep a).
  Proof.
    intros [x i]. unfold cost_rep, value. cbn [fst snd]. destruct (x =? 0) eqn:E; cbn [fst snd].
    - apply N.eqb_eq in E. subst x. lia.
    - rewrite N.pow_add_r, N.pow_1_r. nia.
  Qed.
  Lemma value_le : forall a b, cost_le a b = true -> value a <= value b.
  Proof.
    intros [x i] [y j] H. unfold cost_le in H. cbn [fst snd] in H. apply andb_true_iff in H. destruct H as [A B].
    apply N.leb_le in A, B. unfold value. cbn [fst snd]. apply N.mul_le_mono; [exact A|]. apply pow_up. exact B.
  Qed.
End Value.

Section Work.
  Context {R : Type}.
  Variable U : unicode.
  Variable g : R -> pexp R.
  Variable sk : pexp R.
  Notation run := (run U g sk).
  Notation steps := (steps U g sk).
  Variable d0 : nat.
  Variable cost : R -> N * N.
  Variables near_sk far_sk : N * N.

  (** an expression after a nesting sign: every call counts as one *)
  Fixpoint far (e : pexp R) : N * N :=
    match e with
    | EThen a b | EElse a b => cost_add (far a) (far b)
    | ERep a => cost_rep (far a)
    | ECall _ => (1, 0)
    | ESkip => far_sk
    | ESeq a | EOpt a | ERestore a | ENot a | ERule _ a | EAtomic _ a | EPush a => far a
    | _ => (0, 0)
    end.
  (** an expression from its start on *)
  Fixpoint toll (e : pexp R) : N * N :=
    match e with
    | EThen a b => cost_add (toll a) (if spends g d0 a then far b else toll b)
    | EElse a b => cost_add (toll a) (toll b)
    | ERep a => cost_rep (toll a)
    | ECall r => cost_add (1, 0) (cost r)
    | ESkip => near_sk
    | ESeq a | EOpt a | ERestore a | ENot a | ERule _ a | EAtomic _ a | EPush a => toll a
    | _ => (0, 0)
    end.

  Variables dn K0 d1 : nat.
  Notation wf := (wf g sk dn K0 d1).
  Hypothesis wf_g : forall r, wf (g r) = true.
  Hypothesis wf_sk : wf sk = true.
  Hypothesis cost_g : forall r, cost_le (toll (g r)) (cost r) = true.
  Hypothesis cost_near : cost_le (toll sk) near_sk = true.
  Hypothesis cost_far : cost_le (far sk) far_sk = true.
  Variables A K n : N.
  Hypothesis Hn : 1 <= n.
  Hypothesis cost_A : forall r, cost_le (cost_add (1, 0) (cost r)) (A, K) = true.

  Definition level (d : nat) : N := (A * n ^ K) ^ N.of_nat d.
  Lemma level_S : forall d, level (S d) = A * n ^ K * level d.
  Proof. intro d. unfold level. rewrite Nat2N.inj_succ, N.pow_succ_r'. reflexivity. Qed.

  Notation V := (value n).
  Definition room (s : pstate) (d : nat) : Prop := N.of_nat (length (rest s)) < n /\ (signs (rest s) <= d)%nat.
  Lemma room_run : forall f e k q s d, room s d -> match run f e k q s with POk s' _ | PErr s' _ => room s' d | _ => True end.
  Proof.
    intros f e k q s d [L S]. pose proof (run_signs U g sk f e k q s) as S1. pose proof (run_len U g sk f e k q s) as L1.
    destruct (run f e k q s); try exact I; split; lia.
  Qed.

  Lemma add2 : forall x y p q D, x <= V p * D -> y <= V q * D -> x + y <= V (cost_add p q) * D.
  Proof. intros x y p q D X Y. pose proof (value_add n Hn p q) as H. nia. Qed.
  Lemma add1 : forall x p q D, x <= V p * D -> x + 0 <= V (cost_add p q) * D.
  Proof. intros x p q D X. apply add2; [exact X|]. lia. Qed.

  Lemma rep1 : forall m x y D, m + 1 <= n -> n * x <= y -> (m + 1) * (x * D) <= y * D.
  Proof. intros m x y D H1 H2. rewrite N.mul_assoc. apply N.mul_le_mono_r. etransitivity; [|exact H2]. apply N.mul_le_mono_r. exact H1. Qed.

  Theorem work : forall f e k q s d, wf e = true -> room s d ->
    (N.of_nat (steps f e k q s) <= V (toll e) * level d /\
     (room s (Nat.pred d) -> d <> O -> N.of_nat (steps f e k q s) <= V (far e) * level d)) /\
    (forall a, e = ERep a -> N.of_nat (steps f e k q s) <= (N.of_nat (length (rest s)) + 1) * (V (toll a) * level d) /\
      (room s (Nat.pred d) -> d <> O -> N.of_nat (steps f e k q s) <= (N.of_nat (length (rest s)) + 1) * (V (far a) * level d))).
  Proof.
    induction f as [|f IH]; intros e k q s d Hw Hr; [cbn [Steps.steps]; repeat split; lia|].
    assert (I1 : forall e k q s d, wf e = true -> room s d -> N.of_nat (steps f e k q s) <= V (toll e) * level d) by (intros; apply IH; assumption).
    assert (I2 : forall e k q s d, wf e = true -> room s d -> room s (Nat.pred d) -> d <> O -> N.of_nat (steps f e k q s) <= V (far e) * level d) by (intros; apply IH; assumption).
    assert (RP : forall a, e = ERep a -> N.of_nat (steps (S f) e k q s) <= (N.of_nat (length (rest s)) + 1) * (V (toll a) * level d) /\
      (room s (Nat.pred d) -> d <> O -> N.of_nat (steps (S f) e k q s) <= (N.of_nat (length (rest s)) + 1) * (V (far a) * level d))).
    { intros a ->. cbn [Steps.steps]. assert (Hw0 := Hw). cbn [ProofPeg.wf] in Hw. apply andb_true_iff in Hw. destruct Hw as [_ Hw]. apply andb_true_iff in Hw.
      destruct Hw as [Hu Hw]. apply negb_true_iff in Hu. rewrite Nat2N.inj_add. split.
      - pose proof (I1 a k q s d Hw Hr) as X. pose proof (room_run f a k q s d Hr) as Hr1.
        destruct (run f a k q s) as [s1 t1|s1 t1| |] eqn:E; try nia.
        pose proof (nul_sound U g sk _ _ _ _ _ _ _ _ Hu E) as L.
        destruct (IH (ERep a) k q s1 d Hw0 Hr1) as [_ Y]. destruct (Y a eq_refl) as [Y1 _]. nia.
      - intros Hp Hd. pose proof (I2 a k q s d Hw Hr Hp Hd) as X. pose proof (room_run f a k q s d Hr) as Hr1. pose proof (room_run f a k q s _ Hp) as Hr2.
        destruct (run f a k q s) as [s1 t1|s1 t1| |] eqn:E; try nia.
        pose proof (nul_sound U g sk _ _ _ _ _ _ _ _ Hu E) as L.
        destruct (IH (ERep a) k q s1 d Hw0 Hr1) as [_ Y]. destruct (Y a eq_refl) as [_ Y1]. specialize (Y1 Hr2 Hd). nia. }
    split; [|exact RP].
    destruct e; cbn [Steps.steps toll far]; try (split; [lia|intros; lia]); cbn [ProofPeg.wf] in Hw;
      try (apply andb_true_iff in Hw; destruct Hw as [_ Hw]); try (split; [apply I1; assumption|intros; apply I2; assumption]).
    - apply andb_true_iff in Hw. destruct Hw as [Hw1 Hw2]. rewrite Nat2N.inj_add. split.
      + pose proof (I1 e1 k q s d Hw1 Hr) as X. pose proof (room_run f e1 k q s d Hr) as Hr1.
        destruct (run f e1 k q s) as [s1 t1|s1 t1| |] eqn:E; try (apply add1; exact X). apply add2; [exact X|].
        destruct (spends g d0 e1) eqn:P; [|apply I1; assumption].
        pose proof (spends_sound U g sk _ _ _ _ _ _ _ _ P E) as L. destruct Hr as [Ha Hb]. destruct Hr1 as [Hc Hd].
        apply I2; [assumption|split; assumption|split; [assumption|lia]|lia].
      + intros Hp Hd. pose proof (I2 e1 k q s d Hw1 Hr Hp Hd) as X. pose proof (room_run f e1 k q s d Hr) as Hr1. pose proof (room_run f e1 k q s _ Hp) as Hr2.
        destruct (run f e1 k q s) as [s1 t1|s1 t1| |] eqn:E; try (apply add1; exact X). apply add2; [exact X|]. apply I2; assumption.
    - apply andb_true_iff in Hw. destruct Hw as [Hw1 Hw2]. rewrite Nat2N.inj_add. split.
      + pose proof (I1 e1 k q s d Hw1 Hr) as X. pose proof (room_run f e1 k q s d Hr) as Hr1.
        destruct (run f e1 k q s) as [s1 t1|s1 t1| |] eqn:E; try (apply add1; exact X). apply add2; [exact X|]. apply I1; assumption.
      + intros Hp Hd. pose proof (I2 e1 k q s d Hw1 Hr Hp Hd) as X. pose proof (room_run f e1 k q s d Hr) as Hr1. pose proof (room_run f e1 k q s _ Hp) as Hr2.
        destruct (run f e1 k q s) as [s1 t1|s1 t1| |] eqn:E; try (apply add1; exact X). apply add2; [exact X|]. apply I2; assumption.
    - destruct (RP e eq_refl) as [R1 R2]. destruct Hr as [Ha Hb]. split.
      + pose proof (value_rep n Hn (toll e)) as Y. cbn [Steps.steps] in R1. etransitivity; [exact R1|]. apply rep1; [lia|exact Y].
      + intros Hp Hd. specialize (R2 Hp Hd). pose proof (value_rep n Hn (far e)) as Y. cbn [Steps.steps] in R2. etransitivity; [exact R2|]. apply rep1; [lia|exact Y].
    - assert (B : forall d, room s d -> N.of_nat (S (steps f (g r) k q s)) <= V (cost_add (1, 0) (cost r)) * level d).
      { intros d' Hr'. rewrite Nat2N.inj_succ, <- N.add_1_l. pose proof (value_add n Hn (1, 0) (cost r)) as H1.
        assert (A1 : V (1, 0) = 1) by (unfold value; cbn [fst snd]; rewrite N.pow_0_r; lia). rewrite A1 in H1.
        pose proof (I1 (g r) k q s d' (wf_g r) Hr') as X. pose proof (value_le n Hn _ _ (cost_g r)) as H2.
        assert (L1 : 1 <= level d').
        { unfold level. assert (A0 : A <> 0). { pose proof (cost_A r) as C. unfold cost_le, cost_add in C. cbn [fst snd] in C. apply andb_true_iff in C. destruct C as [C _]. apply N.leb_le in C. lia. }
          assert (P : A * n ^ K <> 0) by (apply N.neq_mul_0; split; [exact A0|apply N.pow_nonzero; lia]).
          pose proof (N.pow_nonzero (A * n ^ K) (N.of_nat d') P). lia. }
        nia. }
      split; [apply B; exact Hr|]. intros Hp Hd. destruct d as [|d]; [congruence|]. cbn [Nat.pred] in Hp. specialize (B d Hp).
      rewrite level_S. pose proof (value_le n Hn _ _ (cost_A r)) as H. unfold value at 2 in H. cbn [fst snd] in H.
      unfold value. cbn [fst snd]. rewrite N.pow_0_r. etransitivity; [exact B|]. nia.
    - destruct k; try (split; [lia|intros; lia]). split.
      + pose proof (I1 sk NonAtomic q s d wf_sk Hr) as X. pose proof (value_le n Hn _ _ cost_near). nia.
      + intros Hp Hd. pose proof (I2 sk NonAtomic q s d wf_sk Hr Hp Hd) as X. pose proof (value_le n Hn _ _ cost_far). nia.
  Qed.
End Work.

(** calls made for a function before a nesting sign is passed: coefficient and power of the length *)
Definition grammar_cost (r : rule) : N * N :=
  match r with
  | R_program => (21710, 6)
  | R_statement => (10826, 5)
  | R_emptyStatement => (3, 0)
  | R_eos | R_TypeInfix | R_Multiply | R_Divide => (1, 0)
  | R_comma_or_semi | R_ModuleSplit | R_WHITESPACE => (2, 0)
  | R_block_or_stmt => (21, 3)
  | R_importStatement => (439, 3)
  | R_use_alias => (217, 3)
  | R_use_module_select => (164, 3)
  | R_module_block | R_define_parameter | R_apply | R_dict | R_list | R_slice => (27, 3)
  | R_module_tuple => (383, 3)
  | R_controlFlow => (5883, 5)
  | R_block => (15, 3)
  | R_if_statement => (2000, 5)
  | R_for_statement => (1977, 5)
  | R_for_in_loop => (1958, 5)
  | R_re_control => (1903, 5)
  | R_classStatement | R_traitStatement => (63, 3)
  | R_short_block => (11, 3)
  | R_short_statement => (2255, 5)
  | R_short_annotation | R_annotation => (17, 3)
  | R_extendStatement => (113, 3)
  | R_with_trait => (32, 2)
  | R_assignStatement => (2101, 5)
  | R_assign_terms => (2082, 5)
  | R_assign_name => (138, 3)
  | R_assign_pair => (14, 2)
  | R_defineStatement => (88, 3)
  | R_define_terms => (69, 3)
  | R_define_pair => (1917, 5)
  | R_annotation_call | R_Suffix => (4, 0)
  | R_apply_kv => (3807, 5)
  | R_function_name | R_REPL => (6, 1)
  | R_function_module => (87, 3)
  | R_expression => (1902, 5)
  | R_expr => (1881, 5)
  | R_term => (590, 4)
  | R_node => (546, 4)
  | R_apply_call => (49, 3)
  | R_derivative => (47, 3)
  | R_space_call => (284, 4)
  | R_type_expr => (1849, 5)
  | R_type_hint => (1869, 5)
  | R_data => (155, 3)
  | R_key_valid => (45, 1)
  | R_key_value => (1965, 5)
  | R_index => (11408, 5)
  | R_Start | R_End | R_Step => (1882, 5)
  | R_Number => (27, 1)
  | R_Decimal => (9, 1)
  | R_Integer => (3, 1)
  | R_Byte => (12, 1)
  | R_String => (34, 1)
  | R_StringNormal => (7, 1)
  | R_StringBlock => (19, 1)
  | R_StringText => (10, 1)
  | R_Symbol => (13, 2)
  | R_SYMBOL => (5, 1)
  | R_Slot => (13, 1)
  | R_Positive | R_MultiLineComment => (2, 1)
  | R_COMMENT => (11, 1)
  | R_Prefix => (5, 0)
  | R_Infix => (17, 0)
  | _ => (0, 0)
  end.
Definition grammar_far := far (0, 0) skip_body.
Definition grammar_near := toll grammar 2 grammar_cost (0, 0) (0, 0) skip_body.
Definition grammar_toll := toll grammar 2 grammar_cost grammar_near grammar_far.
Lemma costs_ok : forallb (fun r => cost_le (grammar_toll (grammar r)) (grammar_cost r) && cost_le (cost_add (1, 0) (grammar_cost r)) (46656, 6)) all_rules = true.
Proof. vm_compute. reflexivity. Qed.
Lemma cost_ok : forall r, cost_le (grammar_toll (grammar r)) (grammar_cost r) = true /\ cost_le (cost_add (1, 0) (grammar_cost r)) (46656, 6) = true.
Proof. intro r. pose proof costs_ok as H. rewrite forallb_forall in H. specialize (H r (all_rules_complete r)). apply andb_true_iff in H. exact H. Qed.

Lemma steps_signs : forall U text, (program_steps U text <= (6 * (length text + 1)) ^ (6 * (signs text + 1)))%nat.
Proof.
  intros U text. unfold program_steps. set (n := N.of_nat (length text) + 1).
  assert (Hn : 1 <= n) by (unfold n; lia).
  pose proof (work U grammar skip_body 2 grammar_cost grammar_near grammar_far 15 70 20 wf_rule wf_skip (fun r => proj1 (cost_ok r)) ltac:(vm_compute; reflexivity) ltac:(vm_compute; reflexivity)
    46656 6 n Hn (fun r => proj2 (cost_ok r)) (peg_fuel text) (ECall R_program) NonAtomic false (mkPs 0 text []) (signs text) (wf_call R_program)) as W.
  destruct W as [[W _] _]; [split; cbn [rest]; unfold n; lia|]. cbn [toll] in W.
  pose proof (value_le n Hn _ _ (proj2 (cost_ok R_program))) as H. unfold value at 2 in H. cbn [fst snd] in H.
  assert (X : N.of_nat (steps U grammar skip_body (peg_fuel text) (ECall R_program) NonAtomic false (mkPs 0 text [])) <= level 46656 6 n (S (signs text))).
  { rewrite level_S. nia. }
  assert (Y : level 46656 6 n (S (signs text)) = N.of_nat ((6 * (length text + 1)) ^ (6 * (signs text + 1)))).
  { unfold level. change 46656 with (6 ^ 6). rewrite <- N.pow_mul_l, <- N.pow_mul_r. rewrite Nat2N.inj_pow. f_equal; unfold n; lia. }
  rewrite Y in X. lia.
Qed.
Lemma steps_plain : forall U text, forallb (fun c => negb (nesting_sign c)) text = true -> (program_steps U text <= (6 * (length text + 1)) ^ 6)%nat.
Proof.
  intros U text H. pose proof (steps_signs U text) as S. replace (signs text) with 0%nat in S; [exact S|].
  unfold signs. induction text as [|c w IH]; [reflexivity|]. cbn [forallb filter] in *. apply andb_true_iff in H. destruct H as [H1 H2].
  apply negb_true_iff in H1. rewrite H1. apply IH; [exact H2|apply steps_signs].
Qed.
