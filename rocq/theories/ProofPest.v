(** The generated parser does what the grammar says. *)
From Verif Require Import Base Peg Grammar SpecPeg ProofPeg ProofPegShift ProofSym ProofGrammar ProofAst SpecPest Source Build.
Local Open Scope nat_scope.

Scheme reads_mut := Induction for reads Sort Prop
  with again_mut := Induction for again Sort Prop
  with skips_mut := Induction for skips Sort Prop.
Combined Scheme reads_all from reads_mut, again_mut, skips_mut.

(** ** Rewriting the grammar as pest's optimizer does *)
Fixpoint chain_then (a b : gexp) : gexp := match a with Then x y => Then x (chain_then y b) | _ => Then a b end.
Fixpoint chain_or (a b : gexp) : gexp := match a with Or x y => Or x (chain_or y b) | _ => Or a b end.
Fixpoint rotate (e : gexp) : gexp :=
  match e with
  | Then a b => chain_then (rotate a) (rotate b)
  | Or a b => chain_or (rotate a) (rotate b)
  | Maybe a => Maybe (rotate a) | Many a => Many (rotate a) | Several a => Several (rotate a) | Times n a => Times n (rotate a)
  | Not a => Not (rotate a) | Push a => Push (rotate a)
  | _ => e
  end.
Fixpoint unroll (e : gexp) : gexp :=
  match e with
  | Then a b => Then (unroll a) (unroll b)
  | Or a b => Or (unroll a) (unroll b)
  | Maybe a => Maybe (unroll a) | Many a => Many (unroll a)
  | Several a => Then (unroll a) (Many (unroll a)) | Times n a => times n (unroll a)
  | Not a => Not (unroll a) | Push a => Push (unroll a)
  | _ => e
  end.
Definition number (r : rule) : nat :=
  match r with
  | R_program => 0 | R_statement => 1 | R_emptyStatement => 2 | R_eos => 3 | R_comma_or_semi => 4 | R_block_or_stmt => 5 | R_importStatement
  => 6 | R_use_alias => 7 | R_use_module_select => 8 | R_module_block => 9 | R_module_tuple => 10 | R_ModuleSplit => 11 | R_As => 12 |
  R_controlFlow => 13 | R_block => 14 | R_if_statement => 15 | R_for_statement => 16 | R_for_in_loop => 17 | R_re_control => 18 | R_Return =>
  19 | R_Yield => 20 | R_Break => 21 | R_Pass => 22 | R_Type => 23 | R_classStatement => 24 | R_traitStatement => 25 | R_short_block => 26 |
  R_short_statement => 27 | R_short_annotation => 28 | R_extendStatement => 29 | R_with_trait => 30 | R_assignStatement => 31 | R_assign_terms
  => 32 | R_assign_name => 33 | R_assign_pair => 34 | R_defineStatement => 35 | R_define_terms => 36 | R_define_parameter => 37 |
  R_define_pair => 38 | R_annotation => 39 | R_annotation_call => 40 | R_apply => 41 | R_apply_kv => 42 | R_function_name => 43 |
  R_function_module => 44 | R_expression => 45 | R_expr => 46 | R_term => 47 | R_node => 48 | R_apply_call => 49 | R_derivative => 50 |
  R_space_call => 51 | R_type_expr => 52 | R_type_hint => 53 | R_TypeInfix => 54 | R_data => 55 | R_dict => 56 | R_list => 57 | R_slice => 58
  | R_key_valid => 59 | R_key_value => 60 | R_index => 61 | R_Start => 62 | R_End => 63 | R_Step => 64 | R_Number => 65 | R_Decimal => 66 |
  R_Integer => 67 | R_Byte => 68 | R_String => 69 | R_StringNormal => 70 | R_StringBlock => 71 | R_StringText => 72 | R_Symbol => 73 |
  R_SYMBOL => 74 | R_Special => 75 | R_Slot => 76 | R_REPL => 77 | R_Positive => 78 | R_WHITESPACE => 79 | R_COMMENT => 80 |
  R_MultiLineComment => 81 | R_Prefix => 82 | R_Suffix => 83 | R_Infix => 84 | R_Set => 85 | R_Derivative => 86 | R_Or => 87 | R_LazyOr => 88
  | R_Star => 89 | R_Slash => 90 | R_Escape => 91 | R_Proportion => 92 | R_Comma => 93 | R_Dot => 94 | R_Separate => 95 | R_Semicolon => 96 |
  R_Colon => 97 | R_Question => 98 | R_Underline => 99 | R_Load => 100 | R_Save => 101 | R_LeftShift => 102 | R_RightShift => 103 |
  R_LessEqual => 104 | R_GraterEqual => 105 | R_Less => 106 | R_Grater => 107 | R_Pipeline => 108 | R_Equivalent => 109 | R_NotEquivalent =>
  110 | R_Equal => 111 | R_NotEqual => 112 | R_Plus => 113 | R_Minus => 114 | R_Multiply => 115 | R_CenterDot => 116 | R_Kronecker => 117 |
  R_TensorProduct => 118 | R_Divide => 119 | R_Quotient => 120 | R_Modulo => 121 | R_Remainder => 122 | R_Power => 123 | R_Surd => 124 |
  R_Increase => 125 | R_Decrease => 126 | R_To => 127 | R_Elvis => 128 | R_Map => 129 | R_Quote => 130 | R_Acute => 131 | R_Apostrophe => 132
  | R_Quotation => 133 | R_LogicOr => 134 | R_LogicAnd => 135 | R_LogicNot => 136 | R_Ellipsis => 137 | R_LogicXor => 138 | R_MapAll => 139 |
  R_Concat => 140 | R_Destruct => 141 | R_DoubleBang => 142 | R_Bang => 143 | R_Not => 144 | R_Sharp => 145 | R_Curry => 146 | R_Apply => 147
  | R_At => 148 | R_ANY => 149 | R_EOI => 150 | R_SOI => 151 | R_PEEK => 152 | R_POP => 153 | R_ASCII_DIGIT => 154 | R_ASCII_NONZERO_DIGIT =>
  155 | R_ASCII_BIN_DIGIT => 156 | R_ASCII_OCT_DIGIT => 157 | R_ASCII_HEX_DIGIT => 158 | R_NEWLINE => 159 | R_WHITE_SPACE => 160 |
  R_XID_CONTINUE => 161 | R_XID_START => 162
  end.
Lemma number_inj : forall a b, number a = number b -> a = b.
Proof.
  assert (H : forall r, nth (number r) all_rules R_program = r) by (intro r; destruct r; reflexivity).
  intros a b E. rewrite <- (H a), <- (H b), E. reflexivity.
Qed.
Fixpoint alike (a b : gexp) : bool :=
  match a, b with
  | Text v, Text w => str_eqb v w
  | Name r, Name q => number r =? number q
  | Then a1 a2, Then b1 b2 => alike a1 b1 && alike a2 b2
  | Maybe x, Maybe y | Many x, Many y => alike x y
  | _, _ => false
  end.
Lemma alike_eq : forall a b, alike a b = true -> a = b.
Proof.
  induction a; destruct b; cbn [alike]; intro H; try discriminate.
  - f_equal. apply str_eqb_eq. exact H.
  - f_equal. apply number_inj. apply Nat.eqb_eq. exact H.
  - apply andb_true_iff in H. destruct H. f_equal; auto.
  - f_equal. auto.
  - f_equal. auto.
Qed.
Fixpoint factor (fuel : nat) (e : gexp) : gexp :=
  match fuel with
  | O => e
  | S f =>
      let e' := match e with
                | Or (Then a b) (Then c d) => if alike a c then Then a (Or b d) else e
                | _ => e
                end in
      match e' with
      | Then a b => Then (factor f a) (factor f b)
      | Or a b => Or (factor f a) (factor f b)
      | Maybe a => Maybe (factor f a) | Many a => Many (factor f a) | Not a => Not (factor f a) | Push a => Push (factor f a)
      | _ => e'
      end
  end.
Definition normal (e : gexp) : gexp := factor 40 (unroll (rotate e)).

(** ** The code for an expression *)
(** functions that may change the stack and then fail *)
Definition stacky (r : rule) : bool :=
  match r with
  | R_End | R_Start | R_Step | R_String | R_StringBlock | R_annotation | R_annotation_call | R_apply | R_apply_call | R_apply_kv | R_assignStatement | R_assign_terms | R_block | R_block_or_stmt | R_classStatement | R_controlFlow | R_data | R_defineStatement | R_define_pair | R_define_parameter | R_define_terms | R_derivative | R_dict | R_expr | R_expression | R_extendStatement | R_for_in_loop | R_for_statement | R_if_statement | R_importStatement | R_index | R_key_valid | R_key_value | R_list | R_module_block | R_module_tuple | R_node | R_program | R_re_control | R_short_annotation | R_short_block | R_short_statement | R_slice | R_space_call | R_statement | R_term | R_traitStatement | R_type_expr | R_type_hint | R_use_alias | R_use_module_select => true
  | R_POP => true
  | _ => false
  end.
Fixpoint touches (e : gexp) : bool :=
  match e with
  | Name r => stacky r
  | Then a b => touches a || touches b
  | Not a => touches a
  | Push _ => true
  | _ => false
  end.
Record code := mkCode { here : pexp rule; after : pexp rule -> pexp rule; instead : pexp rule -> pexp rule }.
Definition link (at_ : bool) (p c : pexp rule) : pexp rule := if at_ then EThen p c else EThen (EThen p ESkip) c.
Definition wrap (e : gexp) (c : pexp rule) : pexp rule := if touches e then ERestore c else c.
Definition leaf (at_ : bool) (e : gexp) (c : pexp rule) : code := mkCode c (fun p => link at_ p c) (fun p => EElse p (wrap e c)).
Fixpoint compile (at_ : bool) (e : gexp) : code :=
  match e with
  | Text w => leaf at_ e (EStr w)
  | AnyCase w => leaf at_ e (EInsens w)
  | Name r => leaf at_ e (ECall r)
  | Then a b =>
      let c := ESeq (after (compile at_ b) (here (compile at_ a))) in
      mkCode c (fun p => after (compile at_ b) (link at_ p (here (compile at_ a)))) (fun p => EElse p (wrap e c))
  | Or a b =>
      let c := instead (compile at_ b) (wrap a (here (compile at_ a))) in
      mkCode c (fun p => link at_ p c) (fun p => instead (compile at_ b) (EElse p (wrap a (here (compile at_ a)))))
  | Maybe a => leaf at_ e (EOpt (wrap a (here (compile at_ a))))
  | Many a =>
      let c := wrap a (here (compile at_ a)) in
      leaf at_ e (if at_ then ERep c else ESeq (EOpt (EThen c (ERep (ESeq (EThen ESkip c))))))
  | Not a => leaf at_ e (ENot (here (compile at_ a)))
  | Push a => leaf at_ e (EPush (here (compile at_ a)))
  | Several _ | Times _ _ => leaf at_ e EAny
  end.
Definition compile_rule (r : rule) (k : sort) (e : gexp) : pexp rule :=
  if implicit r then EAtomic Atomic (here (compile true e)) else
  match k with
  | Plain => ERule r (here (compile false e))
  | Silent => here (compile false e)
  | AtomicRule => ERule r (EAtomic Atomic (here (compile true e)))
  | CompoundRule => EAtomic CompoundAtomic (ERule r (here (compile true e)))
  | NonAtomicRule => EAtomic NonAtomic (ERule r (here (compile false e)))
  end.
Lemma compiled : forall r k e, source r = Rule k e -> grammar r = compile_rule r k (normal e).
Proof. intros r k e H. destruct r; cbn [source] in H; try discriminate; injection H as <- <-; vm_compute; reflexivity. Qed.

Section Meaning.
  Variable U : unicode.
  Notation reads := (reads U source).
  Notation again := (again U source).
  Notation skips := (skips U source).

  (** ** What is read is at the front *)
  Lemma reads_front :
    (forall m e s o, reads m e s o -> forall s1 t, o = Some (s1, t) -> exists w, rest s = w ++ rest s1) /\
    (forall m e s s1 t, again m e s s1 t -> exists w, rest s = w ++ rest s1) /\
    (forall m s s1 t, skips m s s1 t -> exists w, rest s = w ++ rest s1).
  Proof.
    assert (T : forall (s s1 s2 : pstate), (exists w, rest s = w ++ rest s1) -> (exists w, rest s1 = w ++ rest s2) -> exists w, rest s = w ++ rest s2).
    { intros s s1 s2 [w E] [v F]. exists (w ++ v). rewrite E, F. apply app_assoc. }
    assert (Z : forall s : pstate, exists w, rest s = w ++ rest s) by (intro s; exists []; reflexivity).
    apply (reads_all U source
      (fun m e s o _ => forall s1 t, o = Some (s1, t) -> exists w, rest s = w ++ rest s1)
      (fun m e s s1 t _ => exists w, rest s = w ++ rest s1)
      (fun m s s1 t _ => exists w, rest s = w ++ rest s1)); intros; subst; try discriminate;
      try match goal with H : Some _ = Some _ |- _ => injection H as <- <- end;
      try (match goal with P : past ?w _ _ |- _ => destruct P as [P _]; eauto end);
      try apply Z; eauto.
    all: try (eapply T; [eauto|]; eapply T; eauto; fail).
    all: try (cbn [rest with_stack]; eauto; fail).
    all: try (eapply T; eauto; fail).
    all: match goal with H : forall s1 t, _ = Some (s1, t) -> exists w, rest (with_stack _ _) = _ |- _ => exact (H _ _ eq_refl) end.
  Qed.
  Lemma reads_suffix : forall m e s s1 t, reads m e s (Some (s1, t)) -> exists w, rest s = w ++ rest s1.
  Proof. intros m e s s1 t H. exact (proj1 reads_front _ _ _ _ H _ _ eq_refl). Qed.
  Lemma reads_consumed : forall m e s s1 t, reads m e s (Some (s1, t)) -> rest s = consumed (rest s) (rest s1) ++ rest s1.
  Proof. intros m e s s1 t H. destruct (reads_suffix _ _ _ _ _ H) as [w E]. rewrite E at 2. rewrite consumed_app. exact E. Qed.

  (** ** One meaning *)
  Lemma past_unique : forall w s s1 s2, past w s s1 -> past w s s2 -> s1 = s2.
  Proof.
    intros w s [p1 r1 k1] [p2 r2 k2] (A1 & A2 & A3) (B1 & B2 & B3). cbn [rest pos stk] in *. subst. rewrite A1 in B1. apply app_inv_head in B1. subst. reflexivity.
  Qed.
  Lemma letter_lower : forall a b, same_letter a b <-> ascii_lower a = ascii_lower b.
  Proof.
    intros a b. unfold same_letter, between, ascii_lower. destruct ((65 <=? a) && (a <=? 90))%N eqn:A; destruct ((65 <=? b) && (b <=? 90))%N eqn:B;
      repeat rewrite ?andb_true_iff, ?andb_false_iff, ?N.leb_le, ?N.leb_gt in *; lia.
  Qed.
  Lemma case_length : forall v w, same_but_case v w -> length v = length w.
  Proof. intros v w H. induction H; cbn; auto. Qed.
  Lemma app_same_length : forall (a b c d : str), a ++ b = c ++ d -> length a = length c -> a = c.
  Proof. induction a as [|x a IH]; intros b [|y c] d E L; try discriminate; [reflexivity|]. cbn in *. injection E as -> E. f_equal. eapply IH; eauto. Qed.
  Lemma app_tail_eq : forall (a b c : str), a ++ c = b ++ c -> a = b.
  Proof. intros a b c H. apply app_inv_tail in H. exact H. Qed.

  Ltac same_source S := match goal with X : source _ = _ |- _ => tryif constr_eq X S then fail else (rewrite S in X; first [discriminate | injection X; clear X; intros; subst]) | |- _ => idtac end.
  Lemma reads_det :
    (forall m e s o, reads m e s o -> forall o', reads m e s o' -> o = o') /\
    (forall m e s s1 t, again m e s s1 t -> forall s1' t', again m e s s1' t' -> s1 = s1' /\ t = t') /\
    (forall m s s1 t, skips m s s1 t -> forall s1' t', skips m s s1' t' -> s1 = s1' /\ t = t').
  Proof.
    apply (reads_all U source
      (fun m e s o _ => forall o', reads m e s o' -> o = o')
      (fun m e s s1 t _ => forall s1' t', again m e s s1' t' -> s1 = s1' /\ t = t')
      (fun m s s1 t _ => forall s1' t', skips m s s1' t' -> s1 = s1' /\ t = t')).
    - intros m w s s' P o' H. inversion H; subst; [match goal with Q : past w s _ |- _ => rewrite (past_unique _ _ _ _ P Q) end; reflexivity|].
      exfalso. match goal with N : ~ _ |- _ => apply N end. exists (rest s'). apply P.
    - intros m w s N o' H. inversion H; subst; [|reflexivity]. exfalso. apply N. exists (rest s'). match goal with Q : past w s _ |- _ => apply Q end.
    - intros m v w s s' C P o' H. inversion H; subst.
      + match goal with C2 : same_but_case ?v2 w, Q : past ?v2 s _ |- _ => assert (v2 = v); [|subst v2; rewrite (past_unique _ _ _ _ P Q); reflexivity] end.
        apply (app_same_length v0 (rest s'0) v (rest s')); [|rewrite (case_length v w C); apply case_length; assumption].
        match goal with Q : past v0 s _ |- _ => rewrite <- (proj1 Q) end. apply P.
      + exfalso. match goal with N : ~ _ |- _ => apply N end. exists v, (rest s'). split; [exact C|apply P].
    - intros m w s N o' H. inversion H; subst; [|reflexivity]. exfalso. apply N. exists v, (rest s'). split; [assumption|]. match goal with Q : past v s _ |- _ => apply Q end.
    - intros m a b s s1 t1 s2 t2 s3 t3 _ I1 _ I2 _ I3 o' H. inversion H; subst;
        match goal with X : reads m a s _ |- _ => apply I1 in X; try discriminate; injection X as <- <- end;
        match goal with X : skips m s1 _ _ |- _ => apply I2 in X; destruct X as [<- <-] end;
        match goal with X : reads m b s2 _ |- _ => apply I3 in X; try discriminate; injection X as <- <- end. reflexivity.
    - intros m a b s _ I1 o' H. inversion H; subst; try reflexivity; match goal with X : reads m a s _ |- _ => apply I1 in X; discriminate end.
    - intros m a b s s1 t1 s2 t2 _ I1 _ I2 _ I3 o' H. inversion H; subst; try reflexivity;
        match goal with X : reads m a s _ |- _ => apply I1 in X; try discriminate; injection X as <- <- end;
        match goal with X : skips m s1 _ _ |- _ => apply I2 in X; destruct X as [<- <-] end;
        match goal with X : reads m b s2 _ |- _ => apply I3 in X; discriminate end.
    - intros m a b s o _ I1 o' H. inversion H; subst; match goal with X : reads m a s _ |- _ => apply I1 in X; congruence end.
    - intros m a b s o _ I1 _ I2 o' H. inversion H; subst; [match goal with X : reads m a s _ |- _ => apply I1 in X; congruence end|]. auto.
    - intros m a s o _ I1 o' H. inversion H; subst; match goal with X : reads m a s _ |- _ => apply I1 in X; congruence end.
    - intros m a s _ I1 o' H. inversion H; subst; match goal with X : reads m a s _ |- _ => apply I1 in X; congruence end.
    - intros m a s s1 t1 s2 t2 _ I1 _ I2 o' H. inversion H; subst; match goal with X : reads m a s _ |- _ => apply I1 in X; try discriminate; injection X as <- <- end.
      match goal with X : again m a s1 _ _ |- _ => apply I2 in X; destruct X as [<- <-] end. reflexivity.
    - intros m a s _ I1 o' H. inversion H; subst; match goal with X : reads m a s _ |- _ => apply I1 in X; congruence end.
    - intros m a s o _ I1 o' H. inversion H; subst. auto.
    - intros m n a s o _ I1 o' H. inversion H; subst. auto.
    - intros m a s _ I1 o' H. inversion H; subst; match goal with X : reads m a s _ |- _ => apply I1 in X; congruence end.
    - intros m a s o _ I1 o' H. inversion H; subst; match goal with X : reads m a s _ |- _ => apply I1 in X; congruence end.
    - intros m a s s1 t1 w _ I1 E o' H. inversion H; subst; match goal with X : reads m a s _ |- _ => apply I1 in X; try discriminate; injection X as <- <- end.
      match goal with X : rest s = ?v ++ rest s1 |- _ => assert (v = w) as -> by (rewrite E in X; symmetry; exact (app_tail_eq _ _ _ X)) end. reflexivity.
    - intros m a s _ I1 o' H. inversion H; subst; match goal with X : reads m a s _ |- _ => apply I1 in X; congruence end.
    - intros m r k e s s1 t1 w S _ I1 E o' H. inversion H; subst; match goal with X : source r = _ |- _ => rewrite S in X; try discriminate; injection X as <- <- end;
        match goal with X : reads (body_mode r k m) e s _ |- _ => apply I1 in X; try discriminate; injection X as <- <- end.
      match goal with X : rest s = ?v ++ rest s1 |- _ => assert (v = w) as -> by (rewrite E in X; symmetry; exact (app_tail_eq _ _ _ X)) end. reflexivity.
    - intros m r k e s S _ I1 o' H. inversion H; subst; try reflexivity; match goal with X : source r = _ |- _ => rewrite S in X; try discriminate; injection X as <- <- end;
        match goal with X : reads (body_mode r k m) e s _ |- _ => apply I1 in X; discriminate end.
    - intros m r b P c s s' S C Pc Ps o' H. inversion H; subst; same_source S; try (cbn in C; discriminate).
      + match goal with Q : past [?d] s ?s2 |- _ => assert (d = c) as ->; [|rewrite (past_unique _ _ _ _ Ps Q); reflexivity] end.
        destruct Ps as [E1 _]. match goal with Q : past [_] s _ |- _ => destruct Q as [E2 _] end. rewrite E1 in E2. injection E2 as <- _. reflexivity.
      + exfalso. match goal with X : is_char U _ = Some ?P0, N : ~ _ |- _ => rewrite C in X; injection X as <-; apply N end. exists c, (rest s'). split; [apply Ps|exact Pc].
    - intros m r b P s S C N o' H. inversion H; subst; try reflexivity; same_source S; try (cbn in C; discriminate).
      exfalso. match goal with X : is_char U _ = Some ?P0 |- _ => rewrite C in X; injection X as <- end. apply N. exists c, (rest s'). split; [match goal with Q : past [_] s _ |- _ => apply Q end|assumption].
    - intros m r s S E o' H. inversion H; subst; same_source S; try discriminate; congruence.
    - intros m r s S E o' H. inversion H; subst; same_source S; try discriminate; congruence.
    - intros m r s S E o' H. inversion H; subst; same_source S; try discriminate; congruence.
    - intros m r s S E o' H. inversion H; subst; same_source S; try discriminate; congruence.
    - intros m r t st s o S E _ I1 o' H. inversion H; subst; same_source S; try discriminate.
      match goal with X : stk s = _ :: _, Y : reads m (Text _) _ o' |- _ => rewrite E in X; injection X as <- <-; auto end.
    - intros m r t st s o S E _ I1 o' H. inversion H; subst; same_source S; try discriminate.
      match goal with X : stk s = _ :: _, Y : reads m (Text _) _ o' |- _ => rewrite E in X; injection X as <- <-; auto end.
    - intros m a s s1 t1 _ I1 _ I2 s' t' H. inversion H; subst; [auto|]. match goal with X : skips m s _ _ |- _ => apply I1 in X; destruct X as [<- <-] end.
      match goal with X : reads m a s1 _ |- _ => apply I2 in X; discriminate end.
    - intros m a s s1 t1 s2 t2 s3 t3 _ I1 _ I2 _ I3 s' t' H. inversion H; subst; match goal with X : skips m _ _ _ |- _ => apply I1 in X; destruct X as [<- <-] end;
        match goal with X : reads m a s1 _ |- _ => apply I2 in X; try discriminate; injection X as <- <- end.
      match goal with X : again m a s2 _ _ |- _ => apply I3 in X; destruct X as [<- <-] end. auto.
    - intros m s N s' t' H. inversion H; subst; [auto|congruence].
    - intros s s1 t _ I1 s' t' H. inversion H; subst; [congruence|]. match goal with X : reads _ _ s _ |- _ => apply I1 in X; injection X as <- <- end. auto.
  Qed.
  Lemma reads_once : forall m e s o o', reads m e s o -> reads m e s o' -> o = o'.
  Proof. intros m e s o o' H H'. exact (proj1 reads_det _ _ _ _ H _ H'). Qed.
  Lemma skips_once : forall m s s1 t s2 u, skips m s s1 t -> skips m s s2 u -> s1 = s2 /\ t = u.
  Proof. intros m s s1 t s2 u H H'. exact (proj2 (proj2 reads_det) _ _ _ _ H _ _ H'). Qed.

  (** ** Expressions with the same meaning *)
  Definition same (e e' : gexp) : Prop := forall m s o, reads m e s o <-> reads m e' s o.
  Lemma same_refl : forall e, same e e. Proof. intros e m s o. tauto. Qed.
  Lemma same_sym : forall a b, same a b -> same b a. Proof. intros a b H m s o. symmetry. apply H. Qed.
  Lemma same_trans : forall a b c, same a b -> same b c -> same a c.
  Proof. intros a b c H K m s o. rewrite (H m s o). apply K. Qed.
  Lemma then_mono : forall a a' b b', same a a' -> same b b' -> forall m s o, reads m (Then a b) s o -> reads m (Then a' b') s o.
  Proof.
    intros a a' b b' A B m s o H. inversion H; subst.
    - eapply r_then; [apply A; eassumption|eassumption|apply B; assumption].
    - apply r_then_no1. apply A. assumption.
    - eapply r_then_no2; [apply A; eassumption|eassumption|apply B; assumption].
  Qed.
  Lemma same_then : forall a a' b b', same a a' -> same b b' -> same (Then a b) (Then a' b').
  Proof. intros a a' b b' A B m s o. split; apply then_mono; auto using same_sym. Qed.
  Lemma or_mono : forall a a' b b', same a a' -> same b b' -> forall m s o, reads m (Or a b) s o -> reads m (Or a' b') s o.
  Proof.
    intros a a' b b' A B m s o H. inversion H; subst.
    - apply r_or1. apply A. assumption.
    - apply r_or2; [apply A|apply B]; assumption.
  Qed.
  Lemma same_or : forall a a' b b', same a a' -> same b b' -> same (Or a b) (Or a' b').
  Proof. intros a a' b b' A B m s o. split; apply or_mono; auto using same_sym. Qed.
  Lemma maybe_mono : forall a a', same a a' -> forall m s o, reads m (Maybe a) s o -> reads m (Maybe a') s o.
  Proof. intros a a' A m s o H. inversion H; subst; [apply r_maybe|apply r_maybe_no]; apply A; assumption. Qed.
  Lemma same_maybe : forall a a', same a a' -> same (Maybe a) (Maybe a').
  Proof. intros a a' A m s o. split; apply maybe_mono; auto using same_sym. Qed.
  Lemma again_mono : forall a a', same a a' -> forall m s s1 t, again m a s s1 t -> again m a' s s1 t.
  Proof.
    intros a a' A m s s1 t H. remember a as b eqn:E in H. induction H; subst.
    - eapply again_stop; [eassumption|apply A; assumption].
    - eapply again_more; [eassumption|apply A; eassumption|auto].
  Qed.
  Lemma many_mono : forall a a', same a a' -> forall m s o, reads m (Many a) s o -> reads m (Many a') s o.
  Proof.
    intros a a' A m s o H. inversion H; subst.
    - eapply r_many; [apply A; eassumption|eapply again_mono; eassumption].
    - apply r_many_no. apply A. assumption.
  Qed.
  Lemma same_many : forall a a', same a a' -> same (Many a) (Many a').
  Proof. intros a a' A m s o. split; apply many_mono; auto using same_sym. Qed.
  Lemma not_mono : forall a a', same a a' -> forall m s o, reads m (Not a) s o -> reads m (Not a') s o.
  Proof. intros a a' A m s o H. inversion H; subst; [apply r_not|eapply r_not_no]; apply A; eassumption. Qed.
  Lemma same_not : forall a a', same a a' -> same (Not a) (Not a').
  Proof. intros a a' A m s o. split; apply not_mono; auto using same_sym. Qed.
  Lemma push_mono : forall a a', same a a' -> forall m s o, reads m (Push a) s o -> reads m (Push a') s o.
  Proof. intros a a' A m s o H. inversion H; subst; [apply r_push|apply r_push_no]; try apply A; assumption. Qed.
  Lemma same_push : forall a a', same a a' -> same (Push a) (Push a').
  Proof. intros a a' A m s o. split; apply push_mono; auto using same_sym. Qed.
  Lemma several_means : forall a, same (Several a) (Then a (Many a)).
  Proof. intros a m s o. split; intro H; [inversion H; subst; assumption|apply r_several; exact H]. Qed.
  Lemma times_means : forall n a, same (Times n a) (times n a).
  Proof. intros n a m s o. split; intro H; [inversion H; subst; assumption|apply r_times; exact H]. Qed.
  Lemma same_several : forall a a', same a a' -> same (Several a) (Several a').
  Proof.
    intros a a' A. eapply same_trans; [apply several_means|]. eapply same_trans; [|apply same_sym; apply several_means].
    apply same_then; [exact A|]. apply same_many. exact A.
  Qed.
  Lemma same_times_of : forall n a a', same a a' -> same (times n a) (times n a').
  Proof.
    intros n a a' A. induction n as [|n IH]; [exact A|]. destruct n as [|n]; [exact A|].
    cbn [times] in *. apply same_then; [exact A|exact IH].
  Qed.
  Lemma same_times : forall n a a', same a a' -> same (Times n a) (Times n a').
  Proof.
    intros n a a' A. eapply same_trans; [apply times_means|]. eapply same_trans; [|apply same_sym; apply times_means].
    apply same_times_of. exact A.
  Qed.

  Lemma then_assoc : forall a b c, same (Then (Then a b) c) (Then a (Then b c)).
  Proof.
    intros a b c m s o. split; intro H; inversion H; subst.
    - match goal with X : reads m (Then a b) _ _ |- _ => inversion X; subst end.
      rewrite <- !app_assoc. eapply r_then; [eassumption|eassumption|]. eapply r_then; eassumption.
    - match goal with X : reads m (Then a b) _ _ |- _ => inversion X; subst end.
      + apply r_then_no1. assumption.
      + eapply r_then_no2; [eassumption|eassumption|]. apply r_then_no1. assumption.
    - match goal with X : reads m (Then a b) _ _ |- _ => inversion X; subst end.
      eapply r_then_no2; [eassumption|eassumption|]. eapply r_then_no2; eassumption.
    - match goal with X : reads m (Then b c) _ _ |- _ => inversion X; subst end.
      match goal with |- reads m _ _ (Some (_, ?x ++ ?y ++ ?z ++ ?u ++ ?v)) => replace (x ++ y ++ z ++ u ++ v) with ((x ++ y ++ z) ++ u ++ v) by (rewrite <- !app_assoc; reflexivity) end.
      eapply r_then; [eapply r_then; eassumption|eassumption|assumption].
    - apply r_then_no1. apply r_then_no1. assumption.
    - match goal with X : reads m (Then b c) _ _ |- _ => inversion X; subst end.
      + apply r_then_no1. eapply r_then_no2; eassumption.
      + eapply r_then_no2; [eapply r_then; eassumption|eassumption|assumption].
  Qed.
  Lemma or_assoc : forall a b c, same (Or (Or a b) c) (Or a (Or b c)).
  Proof.
    intros a b c m s o. split; intro H; inversion H; subst.
    - match goal with X : reads m (Or a b) _ _ |- _ => inversion X; subst end; [apply r_or1; assumption|].
      apply r_or2; [assumption|]. apply r_or1. assumption.
    - match goal with X : reads m (Or a b) _ _ |- _ => inversion X; subst end.
      apply r_or2; [assumption|]. apply r_or2; assumption.
    - apply r_or1. apply r_or1. assumption.
    - match goal with X : reads m (Or b c) _ _ |- _ => inversion X; subst end.
      + apply r_or1. apply r_or2; assumption.
      + apply r_or2; [|assumption]. apply r_or2; assumption.
  Qed.
  Lemma factored : forall a b c, same (Or (Then a b) (Then a c)) (Then a (Or b c)).
  Proof.
    intros a b c m s o. split; intro H.
    - inversion H; subst.
      + match goal with X : reads m (Then a b) _ _ |- _ => inversion X; subst end. eapply r_then; [eassumption|eassumption|]. apply r_or1. assumption.
      + match goal with X : reads m (Then a b) _ _ |- _ => inversion X; subst end.
        * match goal with X : reads m (Then a c) _ _ |- _ => inversion X; subst end; try (apply r_then_no1; assumption);
            exfalso; match goal with X : reads m a s None, Y : reads m a s (Some _) |- _ => pose proof (reads_once _ _ _ _ _ X Y); discriminate end.
        * match goal with X : reads m (Then a c) _ _ |- _ => inversion X; subst end;
            [|exfalso; match goal with X : reads m a s None, Y : reads m a s (Some _) |- _ => pose proof (reads_once _ _ _ _ _ X Y); discriminate end|];
            (match goal with X : reads m a s (Some (?s1, ?t1)), Y : reads m a s (Some (?s2, ?t2)) |- _ => tryif constr_eq X Y then fail else
                 (pose proof (reads_once _ _ _ _ _ X Y) as Q; injection Q as -> ->; clear X) end);
            (match goal with X : skips m ?s _ _, Y : skips m ?s _ _ |- _ => tryif constr_eq X Y then fail else
                 (destruct (skips_once _ _ _ _ _ _ X Y); subst; clear X) end).
          -- eapply r_then; [eassumption|eassumption|]. apply r_or2; assumption.
          -- eapply r_then_no2; [eassumption|eassumption|]. apply r_or2; assumption.
    - inversion H; subst.
      + match goal with X : reads m (Or b c) _ _ |- _ => inversion X; subst end.
        * apply r_or1. eapply r_then; eassumption.
        * apply r_or2; [eapply r_then_no2; eassumption|]. eapply r_then; eassumption.
      + apply r_or2; apply r_then_no1; assumption.
      + match goal with X : reads m (Or b c) _ _ |- _ => inversion X; subst end.
        apply r_or2; eapply r_then_no2; eassumption.
  Qed.

  Lemma chain_then_means : forall a b, same (Then a b) (chain_then a b).
  Proof.
    induction a; intros b; cbn [chain_then]; try apply same_refl.
    eapply same_trans; [apply then_assoc|]. apply same_then; [apply same_refl|]. auto.
  Qed.
  Lemma chain_or_means : forall a b, same (Or a b) (chain_or a b).
  Proof.
    induction a; intros b; cbn [chain_or]; try apply same_refl.
    eapply same_trans; [apply or_assoc|]. apply same_or; [apply same_refl|]. auto.
  Qed.
  Lemma rotate_means : forall e, same e (rotate e).
  Proof.
    induction e; cbn [rotate]; try apply same_refl; auto using same_maybe, same_many, same_several, same_times, same_not, same_push.
    - eapply same_trans; [apply same_then; eassumption|]. apply chain_then_means.
    - eapply same_trans; [apply same_or; eassumption|]. apply chain_or_means.
  Qed.
  Lemma unroll_means : forall e, same e (unroll e).
  Proof.
    induction e; cbn [unroll]; try apply same_refl; auto using same_maybe, same_many, same_not, same_push, same_then, same_or.
    - eapply same_trans; [apply several_means|]. apply same_then; [assumption|]. apply same_many. assumption.
    - eapply same_trans; [apply times_means|]. apply same_times_of. assumption.
  Qed.
  Lemma factor_means : forall n e, same e (factor n e).
  Proof.
    induction n as [|n IH]; intro e; [apply same_refl|].
    cbn [factor].
    set (e' := match e with Or (Then a b) (Then c d) => if alike a c then Then a (Or b d) else e | _ => e end).
    assert (E : same e e').
    { subst e'. destruct e as [| | | |a b| | | | | |]; try apply same_refl. destruct a; try apply same_refl. destruct b; try apply same_refl.
      destruct (alike a1 b1) eqn:A; [|apply same_refl]. apply alike_eq in A. subst b1. apply factored. }
    eapply same_trans; [exact E|]. clear E. destruct e'; auto using same_refl, same_maybe, same_many, same_not, same_push, same_then, same_or.
  Qed.
  Lemma normal_means : forall e, same e (normal e).
  Proof.
    intro e. eapply same_trans; [apply rotate_means|]. eapply same_trans; [apply unroll_means|]. apply factor_means.
  Qed.

  (** ** The height of the stack *)
  Fixpoint height (e : gexp) (d : nat) : option nat :=
    let still x := match x with Some d' => if d' =? d then Some d else None | None => None end in
    match e with
    | Text _ | AnyCase _ | Not _ => Some d
    | Name R_POP => match d with O => None | S d' => Some d' end
    | Name _ => Some d
    | Then a b => match height a d with Some d' => height b d' | None => None end
    | Or a b => match height a d, height b d with Some x, Some y => if x =? y then Some x else None | _, _ => None end
    | Maybe a | Many a | Several a | Times _ a => still (height a d)
    | Push a => match height a d with Some d' => Some (S d') | None => None end
    end.
  Definition level (e : gexp) : bool := match height e 0 with Some O => true | _ => false end.
  Lemma bodies_level : forall r k e, source r = Rule k e -> level e = true.
  Proof. intros r k e H. destruct r; cbn [source] in H; try discriminate; injection H as <- <-; vm_compute; reflexivity. Qed.
  Lemma pop_is_pop : forall r, source r = Built Pop -> r = R_POP.
  Proof. intros r H. destruct r; cbn [source] in H; try discriminate; reflexivity. Qed.
  Lemma name_height : forall r d d', height (Name r) d = Some d' -> (r <> R_POP /\ d' = d) \/ (r = R_POP /\ d = S d').
  Proof.
    intros r d d' H. cbn [height] in H. destruct r; try (left; split; [discriminate|congruence]).
    right. split; [reflexivity|]. destruct d; congruence.
  Qed.
  Lemma times_height : forall n a d, height a d = Some d -> height (times n a) d = Some d.
  Proof.
    intros n a d H. induction n as [|n IH]; [exact H|]. destruct n as [|n]; [exact H|].
    cbn [times] in *. cbn [height]. rewrite H. exact IH.
  Qed.
  Lemma height_right :
    (forall m e s o, reads m e s o -> forall s1 t d d' xs base, o = Some (s1, t) -> height e d = Some d' -> stk s = xs ++ base -> length xs = d ->
       exists ys, stk s1 = ys ++ base /\ length ys = d') /\
    (forall m e s s1 t, again m e s s1 t -> forall d xs base, height e d = Some d -> stk s = xs ++ base -> length xs = d ->
       exists ys, stk s1 = ys ++ base /\ length ys = d) /\
    (forall m s s1 t, skips m s s1 t -> stk s1 = stk s).
  Proof.
    assert (P : forall r m k e s s1 t, source r = Rule k e ->
      (forall s1' t' d d' xs base, Some (s1, t : list (tree rule)) = Some (s1', t') -> height e d = Some d' -> stk s = xs ++ base -> length xs = d ->
        exists ys, stk s1' = ys ++ base /\ length ys = d') -> m = m :> atomicity -> stk s1 = stk s).
    { intros r m k e s s1 t S H _. pose proof (bodies_level _ _ _ S) as L. unfold level in L. destruct (height e 0) as [[|]|] eqn:E; try discriminate.
      destruct (H s1 t 0 0 [] (stk s) eq_refl E eq_refl eq_refl) as (ys & Y & Z). apply length_zero_iff_nil in Z. subst ys. exact Y. }
    assert (Q : forall r d d' (s s1 : pstate) xs base, r <> R_POP -> stk s1 = stk s -> height (Name r) d = Some d' -> stk s = xs ++ base -> length xs = d ->
      exists ys, stk s1 = ys ++ base /\ length ys = d').
    { intros r d d' s s1 xs base N E H X L. destruct (name_height _ _ _ H) as [[_ ->]|[Z _]]; [|contradiction]. exists xs. rewrite E. auto. }
    assert (B : forall r b, source r = Built b -> b <> Pop -> r <> R_POP).
    { intros r b H N ->. cbn in H. congruence. }
    assert (ST : forall x d d', match x with Some d' => if d' =? d then Some d else None | None => None end = Some d' -> x = Some d /\ d' = d).
    { intros x d d' H. destruct x as [y|]; [|discriminate]. destruct (y =? d) eqn:E; [|discriminate]. apply Nat.eqb_eq in E. split; congruence. }
    apply (reads_all U source
      (fun m e s o _ => forall s1 t d d' xs base, o = Some (s1, t) -> height e d = Some d' -> stk s = xs ++ base -> length xs = d ->
         exists ys, stk s1 = ys ++ base /\ length ys = d')
      (fun m e s s1 t _ => forall d xs base, height e d = Some d -> stk s = xs ++ base -> length xs = d -> exists ys, stk s1 = ys ++ base /\ length ys = d)
      (fun m s s1 t _ => stk s1 = stk s)).
    - intros m w s s' (_ & _ & E) s1 t d d' xs base O H X L. injection O as <- <-. cbn [height] in H. exists xs. split; congruence.
    - discriminate.
    - intros m v w s s' _ (_ & _ & E) s1 t d d' xs base O H X L. injection O as <- <-. cbn [height] in H. exists xs. split; congruence.
    - discriminate.
    - intros m a b s s1 t1 s2 t2 s3 t3 _ I1 _ I2 _ I3 s' t d d' xs base O H X L. injection O as <- <-. cbn [height] in H.
      destruct (height a d) as [d1|] eqn:E1; [|discriminate]. destruct (I1 _ _ _ _ _ _ eq_refl E1 X L) as (ys & Y & M). rewrite <- I2 in Y.
      exact (I3 _ _ _ _ _ _ eq_refl H Y M).
    - discriminate.
    - discriminate.
    - intros m a b s o _ I1 s' t d d' xs base O H X L. cbn [height] in H. destruct (height a d) as [d1|] eqn:E1; [|discriminate].
      destruct (height b d) as [d2|]; [|discriminate]. destruct (d1 =? d2); [|discriminate]. injection H as <-. eauto.
    - intros m a b s o _ _ _ I1 s' t d d' xs base O H X L. cbn [height] in H. destruct (height a d) as [d1|]; [|discriminate].
      destruct (height b d) as [d2|] eqn:E2; [|discriminate]. destruct (d1 =? d2) eqn:E; [|discriminate]. injection H as <-. apply Nat.eqb_eq in E. subst d2. eauto.
    - intros m a s o _ I1 s' t d d' xs base O H X L. cbn [height] in H. apply ST in H. destruct H as [H ->]. eauto.
    - intros m a s _ _ s' t d d' xs base O H X L. injection O as <- <-. cbn [height] in H. apply ST in H. destruct H as [H ->]. eauto.
    - intros m a s s1 t1 s2 t2 _ I1 _ I2 s' t d d' xs base O H X L. injection O as <- <-. cbn [height] in H. apply ST in H. destruct H as [H ->].
      destruct (I1 _ _ _ _ _ _ eq_refl H X L) as (ys & Y & M). eauto.
    - intros m a s _ _ s' t d d' xs base O H X L. injection O as <- <-. cbn [height] in H. apply ST in H. destruct H as [H ->]. eauto.
    - intros m a s o _ I1 s' t d d' xs base O H X L. cbn [height] in H. apply ST in H. destruct H as [H ->]. apply (I1 s' t d d xs base O); try assumption.
      cbn [height]. rewrite H. rewrite H, Nat.eqb_refl. reflexivity.
    - intros m n a s o _ I1 s' t d d' xs base O H X L. cbn [height] in H. apply ST in H. destruct H as [H ->]. apply (I1 s' t d d xs base O); try assumption.
      apply times_height. exact H.
    - intros m a s _ _ s' t d d' xs base O H X L. injection O as <- <-. cbn [height] in H. injection H as <-. eauto.
    - discriminate.
    - intros m a s s1 t1 w _ I1 _ s' t d d' xs base O H X L. injection O as <- <-. cbn [height] in H. destruct (height a d) as [d1|] eqn:E1; [|discriminate].
      injection H as <-. destruct (I1 _ _ _ _ _ _ eq_refl E1 X L) as (ys & Y & M). exists (w :: ys). cbn [stk with_stack]. rewrite Y. split; [reflexivity|]. cbn. congruence.
    - discriminate.
    - intros m r k e s s1 t1 w S _ I1 _ s' t d d' xs base O H X L. injection O as <- _.
      apply (Q r d d' s s1 xs base); try assumption; [intros ->; discriminate S|]. exact (P r m k e s s1 t1 S I1 eq_refl).
    - discriminate.
    - intros m r b C c s s' S I _ (_ & _ & E) s1 t d d' xs base O H X L. injection O as <- <-. apply (Q r d d' s s' xs base); try assumption.
      apply (B r b S). intros ->. discriminate I.
    - discriminate.
    - intros m r s S _ s' t d d' xs base O H X L. injection O as <- <-. apply (Q r d d' s s xs base); try assumption; [|reflexivity]. apply (B r _ S). discriminate.
    - discriminate.
    - intros m r s S _ s' t d d' xs base O H X L. injection O as <- _. apply (Q r d d' s s xs base); try assumption; [|reflexivity]. apply (B r _ S). discriminate.
    - discriminate.
    - intros m r t0 st s o S _ _ I1 s' t d d' xs base O H X L.
      destruct (name_height _ _ _ H) as [[_ ->]|[-> _]]; [|discriminate S]. apply (I1 s' t d d xs base O); auto.
    - intros m r t0 st s o S E _ I1 s' t d d' xs base O H X L.
      apply pop_is_pop in S. subst r. destruct (name_height _ _ _ H) as [[N _]|[_ ->]]; [contradiction|].
      destruct xs as [|x xs]; [discriminate|]. injection L as L. rewrite X in E. injection E as <- <-.
      apply (I1 s' t d' d' xs base O); auto.
    - intros m a s s1 t1 _ _ _ _ d xs base H X L. eauto.
    - intros m a s s1 t1 s2 t2 s3 t3 _ I1 _ I2 _ I3 d xs base H X L. rewrite <- I1 in X. destruct (I2 _ _ _ _ _ _ eq_refl H X L) as (ys & Y & M). eauto.
    - reflexivity.
    - intros s s1 t _ I1. destruct (I1 _ _ 0 0 [] (stk s) eq_refl eq_refl eq_refl eq_refl) as (ys & Y & M). apply length_zero_iff_nil in M. subst ys. exact Y.
  Qed.
  Lemma skips_stack : forall m s s1 t, skips m s s1 t -> stk s1 = stk s.
  Proof. exact (proj2 (proj2 height_right)). Qed.
  Lemma level_stack : forall m e s s1 t, level e = true -> reads m e s (Some (s1, t)) -> stk s1 = stk s.
  Proof.
    intros m e s s1 t L H. unfold level in L. destruct (height e 0) as [[|]|] eqn:E; try discriminate.
    destruct (proj1 height_right _ _ _ _ H s1 t 0 0 [] (stk s) eq_refl E eq_refl eq_refl) as (ys & Y & Z). apply length_zero_iff_nil in Z. subst ys. exact Y.
  Qed.
End Meaning.
