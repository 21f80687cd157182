(** How deep the calls of the parser nest. *)
From Verif Require Import Base Ast Display SmError Peg Grammar Climber Build Steps SpecAst SpecPeg SpecClimb SpecParse SpecSyntax SpecText SpecCost.
From Verif Require SpecSource.
From Verif Require Import ProofAst ProofDisplay ProofPeg ProofPegShift ProofSym ProofGrammar ProofClimber ProofBuild ProofPos ProofSpace ProofLex ProofToken ProofNode ProofAtom ProofTerm ProofExpr ProofGroup ProofCall ProofArgs ProofSlice ProofProduct ProofText ProofSource ProofSyntax ProofSteps.
Local Open Scope nat_scope.
Local Open Scope outcome_scope.

Lemma signs_app : forall a b, signs (a ++ b) = signs a + signs b.
Proof. intros a b. unfold signs. rewrite filter_app, app_length. reflexivity. Qed.
Lemma signs_skipn : forall n w, signs (skipn n w) <= signs w.
Proof. intros n w. rewrite <- (firstn_skipn n w) at 2. rewrite signs_app. lia. Qed.
Lemma signs_exists : forall l, existsb nesting_sign l = true -> 1 <= signs l.
Proof.
  induction l as [|c l IH]; [discriminate|]. cbn [existsb]. unfold signs. cbn [filter]. destruct (nesting_sign c); cbn [length]; [lia|].
  intro H. apply IH in H. exact H.
Qed.

Section Depth.
  Context {R : Type}.
  Variable U : unicode.
  Variable g : R -> pexp R.
  Variable sk : pexp R.
  Notation run := (run U g sk).
  Notation depth := (depth U g sk).
  Notation ev := (ev U g sk).

  Lemma run_signs : forall f e k q s, match run f e k q s with POk s' _ | PErr s' _ => signs (rest s') <= signs (rest s) | _ => True end.
  Proof.
    intros f e k q s.
    assert (Hs : at_input (repeat 0%N (pos s) ++ rest s) s).
    { split; [rewrite app_length, repeat_length; lia|].
      pose proof (skipn_app_len (repeat 0%N (pos s)) (rest s)) as H. rewrite repeat_length in H. symmetry. exact H. }
    pose proof (run_good U g sk _ f e k q s Hs) as H. destruct Hs as [_ E].
    destruct (run f e k q s) as [s1 t1|s1 t1| |]; try exact I; destruct H as ((_ & E1) & L & _); rewrite E, E1;
      replace (pos s1) with (pos s + (pos s1 - pos s)) by lia; rewrite <- skipn_skipn'; apply signs_skipn.
  Qed.

  (** an expression that cannot succeed without passing a nesting sign *)
  Fixpoint spends (d : nat) : pexp R -> bool :=
    fix go (e : pexp R) : bool :=
      match e with
      | EStr l => existsb nesting_sign l
      | EThen a b => go a || go b
      | EElse a b => go a && go b
      | ESeq a | ERestore a | ERule _ a | EAtomic _ a | EPush a => go a
      | ECall r => match d with O => false | S d' => spends d' (g r) end
      | _ => false
      end.
  Lemma spends_eq : forall d e, spends d e =
      match e with
      | EStr l => existsb nesting_sign l
      | EThen a b => spends d a || spends d b
      | EElse a b => spends d a && spends d b
      | ESeq a | ERestore a | ERule _ a | EAtomic _ a | EPush a => spends d a
      | ECall r => match d with O => false | S d' => spends d' (g r) end
      | _ => false
      end.
  Proof. intros [|d] e; destruct e; reflexivity. Qed.

  Lemma spends_sound : forall f d e k q s s' t, spends d e = true -> run f e k q s = POk s' t -> signs (rest s') < signs (rest s).
  Proof.
    induction f as [|f IH]; intros d e k q s s' t Hn H; [discriminate|]. rewrite spends_eq in Hn. cbn [Peg.run] in H.
    destruct e; try discriminate.
    - apply signs_exists in Hn. destruct (strip_prefix s0 (rest s)) as [w|] eqn:E; [|discriminate].
      apply strip_prefix_app in E. cbn in H. injection H as <- <-. unfold advance. cbn [rest]. rewrite E, signs_app. lia.
    - destruct (run f e1 k q s) as [s1 t1|s1 t1| |] eqn:E1; try discriminate.
      destruct (run f e2 k q s1) as [s2 t2|s2 t2| |] eqn:E2; try discriminate.
      cbn in H. injection H as <- <-.
      pose proof (run_signs f e1 k q s) as L1. rewrite E1 in L1. pose proof (run_signs f e2 k q s1) as L2. rewrite E2 in L2.
      apply orb_true_iff in Hn. destruct Hn as [Hn|Hn].
      + apply (IH _ _ _ _ _ _ _ Hn) in E1. lia.
      + apply (IH _ _ _ _ _ _ _ Hn) in E2. lia.
    - apply andb_true_iff in Hn. destruct Hn as [Hn1 Hn2].
      destruct (run f e1 k q s) as [s1 t1|s1 t1| |] eqn:E1; try discriminate.
      + injection H as <- <-. eapply IH; [exact Hn1|exact E1].
      + pose proof (run_signs f e1 k q s) as L1. rewrite E1 in L1.
        destruct (run f e2 k q s1) as [s2 t2|s2 t2| |] eqn:E2; try discriminate.
        cbn in H. injection H as <- <-. apply (IH _ _ _ _ _ _ _ Hn2) in E2. lia.
    - destruct (run f e k q s) as [s1 t1|s1 t1| |] eqn:E1; try discriminate. injection H as <- <-. eapply IH; [exact Hn|exact E1].
    - destruct (run f e k q s) as [s1 t1|s1 t1| |] eqn:E1; try discriminate. injection H as <- <-. eapply IH; [exact Hn|exact E1].
    - destruct (run f e k q s) as [s1 t1|s1 t1| |] eqn:E1; try discriminate. injection H as <- <-. eapply IH; [exact Hn|exact E1].
    - eapply IH; [exact Hn|exact H].
    - destruct (run f e k q s) as [s1 t1|s1 t1| |] eqn:E1; try discriminate. injection H as <- <-. cbn. eapply IH; [exact Hn|exact E1].
    - destruct d as [|d]; [discriminate|]. eapply IH; [exact Hn|exact H].
  Qed.

  Section Pairs.
  (** *** pairs *)
  Fixpoint own (e : pexp R) : nat :=
    match e with
    | EThen a b | EElse a b => Nat.max (own a) (own b)
    | ERule _ a => S (own a)
    | ESeq a | EOpt a | ERep a | ERestore a | ENot a | EAtomic _ a | EPush a => own a
    | _ => 0
    end.
  Hypothesis own_g : forall r, own (g r) <= 1.
  Hypothesis own_sk : own sk = 0.
  Definition lv (l : list (tree R)) : nat := list_max (map pair_levels l).
  Lemma lv_app : forall a b, lv (a ++ b) = Nat.max (lv a) (lv b).
  Proof. intros a b. unfold lv. rewrite map_app. apply list_max_app. Qed.
  Lemma lv_prepend : forall n ts r, lv ts <= n -> match r with POk _ us | PErr _ us => lv us <= n | _ => True end ->
    match prepend (R := R) ts r with POk _ us | PErr _ us => lv us <= n | _ => True end.
  Proof. intros n ts [s us|s us| |] H L; cbn; auto; rewrite lv_app; lia. Qed.
  Lemma lv_weak : forall n m (r : pres R), n <= m -> match r with POk _ us | PErr _ us => lv us <= n | _ => True end -> match r with POk _ us | PErr _ us => lv us <= m | _ => True end.
  Proof. intros n m [s us|s us| |] H L; auto; lia. Qed.
  Theorem pairs_depth : forall f e k q s, match run f e k q s with POk _ ts | PErr _ ts => lv ts <= depth f e k q s + own e | _ => True end.
  Proof.
    induction f as [|f IH]; intros e k q s; [exact I|]. cbn [Peg.run Steps.depth].
    assert (HT : forall (s : pstate) o n, match take (R := R) s o with POk _ us | PErr _ us => lv us <= n | _ => True end) by (intros s0 [?|] n; cbn; lia).
    assert (HC : forall p (s : pstate) n, match take_char (R := R) p s with POk _ us | PErr _ us => lv us <= n | _ => True end).
    { intros p s0 n. unfold take_char. destruct (rest s0); [cbn; lia|]. destruct (p c); cbn; lia. }
    assert (N : forall n, lv [] <= n) by (intro; cbn; lia).
    destruct e; cbn [own]; try apply HT; try apply HC.
    - destruct (rest s); apply N.
    - destruct (pos s); apply N.
    - pose proof (IH e1 k q s) as I1. destruct (run f e1 k q s) as [s1 t1|s1 t1| |] eqn:E1; try exact I; [|lia].
      apply lv_prepend; [lia|]. eapply lv_weak; [|apply IH]. lia.
    - pose proof (IH e1 k q s) as I1. destruct (run f e1 k q s) as [s1 t1|s1 t1| |] eqn:E1; try exact I; [lia|].
      apply lv_prepend; [lia|]. eapply lv_weak; [|apply IH]. lia.
    - pose proof (IH e k q s) as I1. destruct (run f e k q s) as [s1 t1|s1 t1| |] eqn:E1; try exact I; [lia|apply N].
    - pose proof (IH e k q s) as I1. destruct (run f e k q s) as [s1 t1|s1 t1| |] eqn:E1; try exact I; lia.
    - pose proof (IH e k q s) as I1. destruct (run f e k q s) as [s1 t1|s1 t1| |] eqn:E1; try exact I; [|lia].
      apply lv_prepend; [lia|]. eapply lv_weak; [|apply IH]. cbn [own]. lia.
    - pose proof (IH e k q s) as I1. destruct (run f e k q s) as [s1 t1|s1 t1| |] eqn:E1; try exact I; lia.
    - destruct (run f e k true s); try exact I; apply N.
    - pose proof (IH e k q s) as I1. destruct (run f e k q s) as [s1 t1|s1 t1| |] eqn:E1; try exact I; destruct (emits k q); try apply N; try lia.
      unfold lv in *. cbn [map list_max fold_right pair_levels]. lia.
    - apply IH.
    - pose proof (IH e k q s) as I1. destruct (run f e k q s) as [s1 t1|s1 t1| |] eqn:E1; try exact I; lia.
    - destruct (stk s); [exact I|apply HT].
    - destruct (stk s); [exact I|apply HT].
    - eapply lv_weak; [|apply IH]. pose proof (own_g r). lia.
    - destruct k; try apply N. eapply lv_weak; [|apply IH]. lia.
  Qed.
  End Pairs.

  (** *** fuel *)
  Lemma depth_mono : forall f f' e k q s, run f e k q s <> PFuel -> f <= f' -> depth f' e k q s = depth f e k q s.
  Proof.
    induction f as [|f IH]; intros f' e k q s H L; [exfalso; apply H; reflexivity|].
    destruct f' as [|f']; [lia|]. assert (L' : f <= f') by lia.
    assert (M : forall e k q s r, run f e k q s = r -> r <> PFuel -> run f' e k q s = r) by (intros; eapply run_mono; eassumption).
    assert (I : forall e k q s, run f e k q s <> PFuel -> depth f' e k q s = depth f e k q s) by (intros; apply IH; assumption).
    assert (PF : forall ts (r : pres R), prepend ts r <> PFuel -> r <> PFuel) by (intros ts [| | |]; cbn; congruence).
    destruct e; cbn [Steps.depth Peg.run] in *; try reflexivity.
    - destruct (run f e1 k q s) as [s1 t1|s1 t1| |] eqn:E; try congruence; rewrite (M _ _ _ _ _ E) by discriminate; rewrite (I e1) by congruence; f_equal.
      apply I. eapply PF. exact H.
    - destruct (run f e1 k q s) as [s1 t1|s1 t1| |] eqn:E; try congruence; rewrite (M _ _ _ _ _ E) by discriminate; rewrite (I e1) by congruence; f_equal.
      apply I. eapply PF. exact H.
    - apply I. destruct (run f e k q s); congruence.
    - apply I. destruct (run f e k q s); congruence.
    - destruct (run f e k q s) as [s1 t1|s1 t1| |] eqn:E; try congruence; rewrite (M _ _ _ _ _ E) by discriminate; rewrite (I e) by congruence; f_equal.
      apply I. eapply PF. exact H.
    - apply I. destruct (run f e k q s); congruence.
    - apply I. destruct (run f e k true s); congruence.
    - apply I. destruct (run f e k q s); congruence.
    - apply I. exact H.
    - apply I. destruct (run f e k q s); congruence.
    - f_equal. apply I. exact H.
    - destruct k; try reflexivity. apply I. exact H.
  Qed.

  (** *** lower bounds *)
  Definition deep (e : pexp R) (k : atomicity) (q : bool) (s : pstate) (n : nat) : Prop := forall f, run f e k q s <> PFuel -> n <= depth f e k q s.
  Ltac enter f F := let f0 := fresh in intros f0 F; destruct f0 as [|f]; [exfalso; apply F; reflexivity|]; cbn [Peg.run Steps.depth] in *.
  Lemma deep_then1 : forall a b k q s n, deep a k q s n -> deep (EThen a b) k q s n.
  Proof. intros a b k q s n H. enter f F. destruct (run f a k q s) eqn:E; try congruence; pose proof (H f ltac:(congruence)); lia. Qed.
  Lemma deep_then2 : forall a b k q s s1 t1 m, ev a k q s (POk s1 t1) -> deep b k q s1 m -> deep (EThen a b) k q s m.
  Proof.
    intros a b k q s s1 t1 m E Hb. enter f F. destruct (run f a k q s) eqn:X; try congruence.
    all: pose proof (ev_det U g sk _ _ _ _ _ _ E (ev_base U g sk _ _ _ _ _ _ X ltac:(discriminate))) as D; try discriminate D.
    injection D as -> ->. specialize (Hb f (pf _ _ F)). lia.
  Qed.
  Lemma deep_else1 : forall a b k q s n, deep a k q s n -> deep (EElse a b) k q s n.
  Proof. intros a b k q s n H. enter f F. destruct (run f a k q s) eqn:E; try congruence; pose proof (H f ltac:(congruence)); lia. Qed.
  Lemma deep_else2 : forall a b k q s s1 t1 m, ev a k q s (PErr s1 t1) -> deep b k q s1 m -> deep (EElse a b) k q s m.
  Proof.
    intros a b k q s s1 t1 m E Hb. enter f F. destruct (run f a k q s) eqn:X; try congruence.
    all: pose proof (ev_det U g sk _ _ _ _ _ _ E (ev_base U g sk _ _ _ _ _ _ X ltac:(discriminate))) as D; try discriminate D.
    injection D as -> ->. specialize (Hb f (pf _ _ F)). lia.
  Qed.
  Lemma deep_seq : forall a k q s n, deep a k q s n -> deep (ESeq a) k q s n.
  Proof. intros a k q s n H. enter f F. apply H. destruct (run f a k q s); congruence. Qed.
  Lemma deep_opt : forall a k q s n, deep a k q s n -> deep (EOpt a) k q s n.
  Proof. intros a k q s n H. enter f F. apply H. destruct (run f a k q s); congruence. Qed.
  Lemma deep_restore : forall a k q s n, deep a k q s n -> deep (ERestore a) k q s n.
  Proof. intros a k q s n H. enter f F. apply H. destruct (run f a k q s); congruence. Qed.
  Lemma deep_rule : forall r a k q s n, deep a k q s n -> deep (ERule r a) k q s n.
  Proof. intros r a k q s n H. enter f F. apply H. destruct (run f a k q s); congruence. Qed.
  Lemma deep_atomic : forall k' a k q s n, deep a k' q s n -> deep (EAtomic k' a) k q s n.
  Proof. intros k' a k q s n H. enter f F. apply H. exact F. Qed.
  Lemma deep_call : forall r k q s n, deep (g r) k q s n -> deep (ECall r) k q s (S n).
  Proof. intros r k q s n H. enter f F. specialize (H f F). lia. Qed.
  Lemma deep_none : forall e k q s, deep e k q s 0.
  Proof. intros e k q s f F. lia. Qed.
  Lemma deep_le : forall e k q s n m, deep e k q s n -> m <= n -> deep e k q s m.
  Proof. intros e k q s n m H L f F. specialize (H f F). lia. Qed.
  (** calls open before a nesting sign is passed, when each function has its rank *)
  Variable rank : R -> nat.
  Variables rsk d0 K : nat.
  Fixpoint near (e : pexp R) : nat :=
    match e with
    | EThen a b => Nat.max (near a) (if spends d0 a then 0 else near b)
    | EElse a b => Nat.max (near a) (near b)
    | ESeq a | EOpt a | ERep a | ERestore a | ENot a | ERule _ a | EAtomic _ a | EPush a => near a
    | ECall r => S (rank r)
    | ESkip => rsk
    | _ => 0
    end.
  Hypothesis rank_g : forall r, near (g r) <= rank r.
  Hypothesis rank_sk : near sk <= rsk.
  Hypothesis rank_K : forall r, S (rank r) <= K.
  Hypothesis rsk_K : rsk <= K.
  Lemma near_K : forall e, near e <= K.
  Proof.
    induction e; cbn [near]; try lia; try apply rank_K; try exact rsk_K. destruct (spends d0 e1); lia.
  Qed.
  Theorem depth_near : forall f e k q s, depth f e k q s <= signs (rest s) * K + near e.
  Proof.
    induction f as [|f IH]; intros e k q s; [cbn; lia|]. cbn [Steps.depth].
    destruct e; cbn [near]; try lia; try apply IH.
    - pose proof (IH e1 k q s) as I1. pose proof (run_signs f e1 k q s) as L1.
      destruct (run f e1 k q s) as [s1 t1|s1 t1| |] eqn:E1; try lia. pose proof (IH e2 k q s1) as I2.
      destruct (spends d0 e1) eqn:D.
      + pose proof (spends_sound _ _ _ _ _ _ _ _ D E1). pose proof (near_K e2). nia.
      + nia.
    - pose proof (IH e1 k q s) as I1. pose proof (run_signs f e1 k q s) as L1.
      destruct (run f e1 k q s) as [s1 t1|s1 t1| |] eqn:E1; try lia. pose proof (IH e2 k q s1) as I2. nia.
    - pose proof (IH e k q s) as I1. pose proof (run_signs f e k q s) as L1.
      destruct (run f e k q s) as [s1 t1|s1 t1| |] eqn:E1; try lia. pose proof (IH (ERep e) k q s1) as I2. cbn [near] in I2. nia.
    - pose proof (IH (g r) k q s). pose proof (rank_g r). lia.
    - destruct k; try lia. pose proof (IH sk NonAtomic q s). lia.
  Qed.
End Depth.

(** ** The grammar *)
Definition grammar_rank (r : rule) : nat :=
  match r with
  | R_program => 13
  | R_statement => 12
  | R_controlFlow | R_short_statement | R_assignStatement => 11
  | R_for_statement | R_assign_terms | R_define_pair | R_index => 10
  | R_if_statement | R_for_in_loop | R_re_control | R_apply_kv | R_expression | R_type_hint | R_key_value | R_Start | R_End | R_Step => 9
  | R_expr | R_type_expr => 8
  | R_term => 7
  | R_node => 6
  | R_importStatement | R_module_tuple | R_defineStatement | R_space_call | R_data => 5
  | R_use_alias | R_classStatement | R_traitStatement | R_extendStatement | R_assign_name | R_define_terms | R_key_valid | R_Number => 4
  | R_with_trait | R_assign_pair | R_apply_call | R_derivative | R_Decimal | R_String | R_Slot => 3
  | R_emptyStatement | R_use_module_select | R_short_annotation | R_annotation | R_function_name | R_function_module | R_Integer | R_StringBlock | R_Symbol | R_REPL | R_Infix => 2
  | R_eos | R_comma_or_semi | R_block_or_stmt | R_ModuleSplit | R_annotation_call | R_TypeInfix | R_Byte | R_StringNormal | R_StringText | R_SYMBOL | R_Positive | R_WHITESPACE | R_COMMENT | R_Prefix | R_Suffix | R_Multiply | R_Divide => 1
  | _ => 0
  end.
Definition near_grammar := near grammar grammar_rank 2 4.
Lemma ranks_ok : forallb (fun r => (near_grammar (grammar r) <=? grammar_rank r) && (grammar_rank r <=? 13) && (own (grammar r) <=? 1)) all_rules = true.
Proof. vm_compute. reflexivity. Qed.
Lemma rank_ok : forall r, near_grammar (grammar r) <= grammar_rank r /\ grammar_rank r <= 13 /\ own (grammar r) <= 1.
Proof.
  intro r. pose proof ranks_ok as H. rewrite forallb_forall in H. specialize (H r (all_rules_complete r)).
  apply andb_true_iff in H. destruct H as [H H3]. apply andb_true_iff in H. destruct H as [H1 H2].
  apply Nat.leb_le in H1, H2, H3. auto.
Qed.
Lemma depth_signs : forall U text, program_depth U text <= 14 * (signs text + 1).
Proof.
  intros U text. unfold program_depth.
  pose proof (depth_near U grammar skip_body grammar_rank 2 4 14 (fun r => proj1 (rank_ok r)) ltac:(vm_compute; lia)
    ltac:(intro r; destruct (rank_ok r); lia) ltac:(lia) (peg_fuel text) (ECall R_program) NonAtomic false (mkPs 0 text [])) as H.
  cbn [rest near] in H. destruct (rank_ok R_program). lia.
Qed.
Lemma pairs_within : forall U text s ts, run_program U text = POk s ts -> list_max (map pair_levels ts) <= program_depth U text.
Proof.
  intros U text s ts H. pose proof (pairs_depth U grammar skip_body (fun r => proj2 (proj2 (rank_ok r))) eq_refl (peg_fuel text) (ECall R_program) NonAtomic false (mkPs 0 text [])) as P.
  unfold run_program in H. rewrite H in P. cbn [own] in P. unfold lv, program_depth in *. lia.
Qed.
Lemma depth_whole : forall U text n, peg_fuel text <= n -> depth U grammar skip_body n (ECall R_program) NonAtomic false (mkPs 0 text []) = program_depth U text.
Proof. intros U text n H. apply depth_mono; [apply program_terminates|exact H]. Qed.

(** ** Parentheses *)
Section Wrapped.
  Variable U : unicode.
  Hypothesis HU : sane U.
  Notation ev := (ev U grammar skip_body).
  Notation deep := (deep U grammar skip_body).

  Lemma wrapped_S : forall n y, wrapped (S n) y = paren (wrapped n y).
  Proof.
    intros n y. unfold wrapped, paren. cbn [repeat]. rewrite (repeat_cons n 41%N). change (lit "(") with [40%N]. change (lit ")") with [41%N].
    cbn [app]. rewrite <- !app_assoc. reflexivity.
  Qed.
  Lemma open_deep : forall n k p w st, deep (ECall R_expr) k false (mkPs p (repeat 40%N n ++ w) st) (3 * n).
  Proof.
    induction n as [|n IH]; intros k p w st; [apply deep_none|].
    replace (3 * S n) with (S (S (S (3 * n)))) by lia.
    apply deep_call. cbn [grammar]. apply deep_atomic, deep_rule, deep_seq, deep_then1, deep_then1.
    apply deep_call. cbn [grammar]. apply deep_atomic, deep_rule, deep_seq, deep_then1.
    eapply deep_then2; [apply no_rep, er_Prefix; reflexivity|].
    apply deep_call. cbn [grammar]. apply deep_rule. do 4 apply deep_else1. apply deep_restore, deep_seq, deep_then1, deep_then1.
    eapply deep_then2; [eapply ok_then; [apply (ev_str U grammar skip_body (lit "(") _ _ _ (repeat 40%N n ++ w))|apply ev_base with (f := 1); [reflexivity|discriminate]]|]. apply IH.
  Qed.
  Lemma program_deep : forall text n, plain_start text = true -> solid text = true -> deep (ECall R_expr) NonAtomic false (mkPs 0 text []) n ->
    n <= program_depth U text.
  Proof.
    intros text n P S H. assert (L : deep (ECall R_program) NonAtomic false (mkPs 0 text []) n); [|exact (L (peg_fuel text) (program_terminates U text))].
    eapply deep_le; [apply deep_call|apply le_S, le_n]. cbn [grammar]. apply deep_seq, deep_then1, deep_then1.
    eapply deep_then2; [eapply ok_then; [|apply skip_nothing; exact S]|].
    - apply ev_call. cbn [grammar]. apply ev_base with (f := 1); [reflexivity|discriminate].
    - apply deep_seq, deep_opt, deep_then1, deep_restore. eapply deep_le; [apply deep_call|apply le_S, le_n].
      change (deep (EElse before_expression (ERestore (ECall R_expression))) NonAtomic false (mkPs 0 text []) n).
      eapply deep_else2; [apply er_before; exact P|]. apply deep_restore. eapply deep_le; [apply deep_call|apply le_S, le_n].
      cbn [grammar]. apply deep_rule, deep_seq, deep_then1, deep_then1. exact H.
  Qed.
  Lemma open_depth : forall n w, 3 * n <= program_depth U (repeat 40%N n ++ w).
  Proof.
    intros [|n] w; [lia|]. apply program_deep; [apply harmless_plain; reflexivity|reflexivity|apply open_deep].
  Qed.
  Lemma wrapped_means : forall n y o, SpecSource.expr U y o -> plain_start (wrapped n y) = true -> denotes U (wrapped n y) o.
  Proof.
    intros n y o H P. pose proof (source_text U HU [] (wrapped n y)) as S. 
    assert (E : forall n, exists o', SpecSource.expr U (wrapped n y) o' /\ omap forget_positions o' = omap forget_positions o).
    { clear - H. induction n as [|n (o' & A & B)].
      - exists o. unfold wrapped. cbn [repeat app]. rewrite app_nil_r. auto.
      - rewrite wrapped_S. eexists. split; [apply node_expr, SpecSource.n_paren; exact A|]. exact B. }
    destruct (E n) as (o' & A & B). specialize (S o' [] eq_refl A P eq_refl). rewrite app_nil_r in S. cbn [app] in S.
    intro fname. rewrite (S fname). clear - B. destruct o, o'; cbn in *; congruence.
  Qed.

  (** ** Sums *)
  Import SpecSource.
  Definition plus (a b : ast) : ast := binary (lit "add") (lit "+") 80 [a; b].
  Lemma plus_levels : forall a n, 1 <= tree_levels a -> tree_levels (plus a (Integer n)) = S (tree_levels a).
  Proof. intros a n H. unfold plus, binary, call. cbn [tree_levels map arguments list_max fold_right]. lia. Qed.
  Lemma sum_rest : forall xs, Forall (fun x => numeral x = true) xs ->
    SpecSource.rest U (flat_map (fun x => lit "+" ++ x) xs) (flat_map (fun x => [Sign (lit "+"); Operand (Ret (Integer (numeral_value x)))]) xs).
  Proof.
    induction xs as [|x xs IH]; intro H; [apply r_nil|]. inversion H as [|? ? Hx Hl]; subst. cbn [flat_map].
    rewrite <- app_assoc.
    apply (r_more U [] (lit "+") [] x _ _ _ eq_refl (or_introl eq_refl) eq_refl); [|discriminate|discriminate|apply IH; exact Hl].
    apply node_term. apply n_integer. exact Hx.
  Qed.
  Definition grown (b : bracketing token) (xs : list str) : bracketing token :=
    fold_left (fun b x => Bin b (Sign (lit "+")) (Leaf (Operand (Ret (Integer (numeral_value x)))))) xs b.
  Lemma grown_written : forall xs b, written (grown b xs) = written b ++ flat_map (fun x => [Sign (lit "+"); Operand (Ret (Integer (numeral_value x)))]) xs.
  Proof.
    induction xs as [|x xs IH]; intro b; cbn [grown fold_left flat_map]; [rewrite app_nil_r; reflexivity|].
    fold (grown (Bin b (Sign (lit "+")) (Leaf (Operand (Ret (Integer (numeral_value x)))))) xs). rewrite IH. cbn [written]. rewrite <- app_assoc. reflexivity.
  Qed.
  Lemma grown_bracketed : forall xs b, well_bracketed token_strength token_to_right b -> (forall p, root_op b = Some p -> p = Sign (lit "+")) ->
    well_bracketed token_strength token_to_right (grown b xs).
  Proof.
    induction xs as [|x xs IH]; intros b H R; [exact H|]. apply IH.
    - apply wb_bin; [exact H|apply wb_leaf| |discriminate]. intros p E. rewrite (R p E). right. split; reflexivity.
    - intros p E. injection E as <-. reflexivity.
  Qed.
  Lemma grown_value : forall xs b a, evaluate token_value token_apply b = Ret a -> 1 <= tree_levels a ->
    exists a', evaluate token_value token_apply (grown b xs) = Ret a' /\ tree_levels a' = tree_levels a + length xs.
  Proof.
    induction xs as [|x xs IH]; intros b a E L; [exists a; split; [exact E|cbn; lia]|].
    cbn [grown fold_left]. destruct (IH (Bin b (Sign (lit "+")) (Leaf (Operand (Ret (Integer (numeral_value x)))))) (plus a (Integer (numeral_value x)))) as (a' & E' & L').
    - cbn [evaluate]. rewrite E. reflexivity.
    - rewrite plus_levels by exact L. lia.
    - exists a'. split; [exact E'|]. rewrite L', plus_levels by exact L. cbn [length]. lia.
  Qed.
  Lemma numeral_signs : forall x, numeral x = true -> signs x = 0.
  Proof.
    assert (D : forall l, forallb digit l = true -> signs l = 0).
    { induction l as [|c l IH]; [reflexivity|]. cbn [forallb]. intro H. apply andb_true_iff in H. destruct H as [H1 H2].
      unfold signs. cbn [filter]. replace (nesting_sign c) with false; [apply IH; exact H2|].
      unfold digit in H1. apply andb_true_iff in H1. destruct H1 as [A B]. apply N.leb_le in A, B.
      symmetry. change (existsb (N.eqb c) [40; 91; 123; 64; 61; 37]%N = false). cbn [existsb]. 
      repeat (match goal with |- context [N.eqb c ?d] => replace (N.eqb c d) with false by (symmetry; apply N.eqb_neq; lia) end). reflexivity. }
    intros x H. apply D. apply (numeral_digits x H).
  Qed.
  Lemma sum_tall : forall x xs, Forall (fun x => numeral x = true) (x :: xs) -> let text := join (lit "+") (x :: xs) in
    (exists a, denotes U text (Ret a) /\ tree_levels a = length (x :: xs)) /\ program_depth U text <= 14.
  Proof.
    intros x xs H text. inversion H as [|? ? Hx Hl]; subst.
    assert (T : text = x ++ flat_map (fun x => lit "+" ++ x) xs).
    { unfold text. clear. revert x. induction xs as [|y xs IH]; intro x; cbn [join flat_map]; [rewrite app_nil_r; reflexivity|].
      rewrite <- app_assoc. f_equal. f_equal. exact (IH y). }
    split.
    - destruct (grown_value xs (Leaf (Operand (Ret (Integer (numeral_value x))))) (Integer (numeral_value x)) eq_refl ltac:(cbn; lia)) as (a & E & L).
      exists a. split; [|rewrite L; reflexivity]. rewrite <- E.
      pose proof (text_operators U HU [] x (Ret (Integer (numeral_value x))) (flat_map (fun x => lit "+" ++ x) xs) (flat_map (fun x => [Sign (lit "+"); Operand (Ret (Integer (numeral_value x)))]) xs) (grown (Leaf (Operand (Ret (Integer (numeral_value x))))) xs) [] eq_refl) as X.
      rewrite app_nil_r in X. cbn [app] in X. rewrite T. apply X.
      + apply node_term, n_integer. exact Hx.
      + apply sum_rest. exact Hl.
      + clear. induction xs as [|y xs IH]; [reflexivity|]. cbn [flat_map app forallb]. rewrite IH. reflexivity.
      + apply harmless_plain, digit_harmless. exact (numeral_lead x _ Hx).
      + rewrite grown_written. reflexivity.
      + apply grown_bracketed; [apply wb_leaf|discriminate].
      + reflexivity.
    - pose proof (depth_signs U text) as D. replace (signs text) with 0 in D; [lia|]. symmetry. rewrite T, signs_app, (numeral_signs x Hx). cbn [Nat.add].
      clear - Hl. induction xs as [|y xs IH]; [reflexivity|]. inversion Hl as [|? ? Hy Hs]; subst. cbn [flat_map]. rewrite !signs_app, (numeral_signs y Hy). exact (IH Hs).
  Qed.
  Lemma depth_unlimited : forall n, exists text a, denotes U text (Ret a) /\ tree_levels a = 1 /\ n < program_depth U text.
  Proof.
    intro n. exists (wrapped (S n) (lit "0")), (Integer 0). split; [|split; [reflexivity|]].
    - apply wrapped_means; [|apply harmless_plain; reflexivity]. apply node_expr. exact (n_integer U (lit "0") eq_refl).
    - pose proof (open_depth (S n) (lit "0" ++ repeat 41%N (S n))). unfold wrapped. lia.
  Qed.
End Wrapped.
