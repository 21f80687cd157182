(** The work of the parser. *)
From Verif Require Import Base Ast Display SmError Peg Grammar Climber Build Steps SpecAst SpecPeg SpecClimb SpecParse SpecSyntax SpecText SpecCost.
From Verif Require SpecSource.
From Verif Require Import SpecPest Source.
From Verif Require Import ProofAst ProofDisplay ProofPeg ProofPegShift ProofSym ProofGrammar ProofClimber ProofBuild ProofPos ProofSpace ProofLex ProofToken ProofNode ProofAtom ProofTerm ProofExpr ProofGroup ProofCall ProofArgs ProofSlice ProofProduct ProofText ProofSource ProofSyntax ProofPest.
From Verif Require ProofFollow.
Local Open Scope nat_scope.
Local Open Scope outcome_scope.

Section Least.
  Context {R : Type}.
  Variable U : unicode.
  Variable g : R -> pexp R.
  Variable sk : pexp R.
  Notation run := (run U g sk).
  Notation steps := (steps U g sk).
  Notation ev := (ev U g sk).

  (** ** Upper bound *)
  Lemma steps_exp : forall f e k q s, steps f e k q s < 2 ^ f.
  Proof.
    induction f as [|f IH]; intros e k q s; [cbn; lia|]. cbn [Steps.steps]. rewrite Nat.pow_succ_r'.
    assert (P : 1 <= 2 ^ f) by (pose proof (Nat.pow_nonzero 2 f); lia).
    assert (D : forall n m, n < 2 ^ f -> m < 2 ^ f -> n + m < 2 * 2 ^ f) by lia.
    destruct e; try lia;
      try (match goal with |- context [Peg.run U g sk f ?a k q s] => destruct (Peg.run U g sk f a k q s) end; try (apply D; [apply IH|]; try apply IH; lia));
      try (match goal with |- context [Steps.steps U g sk f ?a ?k' ?q' s] => pose proof (IH a k' q' s); try lia end).
    destruct k; lia.
  Qed.

  (** ** The count does not depend on the fuel *)
  Lemma steps_mono : forall f f' e k q s, run f e k q s <> PFuel -> f <= f' -> steps f' e k q s = steps f e k q s.
  Proof.
    induction f as [|f IH]; intros f' e k q s H L; [exfalso; apply H; reflexivity|].
    destruct f' as [|f']; [lia|]. assert (L' : f <= f') by lia.
    assert (M : forall e k q s r, run f e k q s = r -> r <> PFuel -> run f' e k q s = r).
    { intros. eapply run_mono; eassumption. }
    assert (I : forall e k q s, run f e k q s <> PFuel -> steps f' e k q s = steps f e k q s) by (intros; apply IH; assumption).
    assert (PF : forall ts (r : pres R), prepend ts r <> PFuel -> r <> PFuel) by (intros ts [| | |]; cbn; congruence).
    destruct e; cbn [Steps.steps Peg.run] in *; try reflexivity.
    - destruct (run f e1 k q s) as [s1 t1|s1 t1| |] eqn:E; try congruence; rewrite (M _ _ _ _ _ E) by discriminate; rewrite (I e1) by congruence; f_equal.
      apply I. eapply PF. exact H.
    - destruct (run f e1 k q s) as [s1 t1|s1 t1| |] eqn:E; try congruence; rewrite (M _ _ _ _ _ E) by discriminate; rewrite (I e1) by congruence; f_equal.
      apply I. eapply PF. exact H.
    - apply I. destruct (run f e k q s); congruence.
    - apply I. destruct (run f e k q s); congruence.
    - destruct (run f e k q s) as [s1 t1|s1 t1| |] eqn:E; try congruence; rewrite (M _ _ _ _ _ E) by discriminate; rewrite (I e) by congruence; f_equal.
      apply I. eapply PF. exact H.
    - apply I. destruct (run f e k q s); congruence.
    - apply I. destruct (run f e k true s); congruence.
    - apply I. destruct (run f e k q s); congruence.
    - apply I. exact H.
    - apply I. destruct (run f e k q s); congruence.
    - f_equal. apply I. exact H.
    - destruct k; try reflexivity. apply I. exact H.
  Qed.

  (** ** Lower bounds *)
  Definition least (e : pexp R) (k : atomicity) (q : bool) (s : pstate) (n : nat) : Prop :=
    forall f, run f e k q s <> PFuel -> n <= steps f e k q s.
  Lemma least_le : forall e k q s n m, least e k q s n -> m <= n -> least e k q s m.
  Proof. intros e k q s n m H L f F. specialize (H f F). lia. Qed.
  Lemma least_zero : forall e k q s, least e k q s 0.
  Proof. intros e k q s f F. lia. Qed.
  Lemma run_ev : forall f e k q s, run f e k q s <> PFuel -> ev e k q s (run f e k q s).
  Proof. intros. split; [assumption|]. eexists. reflexivity. Qed.
  Ltac enter f F := let f0 := fresh in intros f0 F; destruct f0 as [|f]; [exfalso; apply F; reflexivity|]; cbn [Peg.run Steps.steps] in *.
  Lemma pf : forall ts (r : pres R), prepend ts r <> PFuel -> r <> PFuel.
  Proof. intros ts [| | |]; cbn; congruence. Qed.

  Lemma least_then1 : forall a b k q s n, least a k q s n -> least (EThen a b) k q s n.
  Proof.
    intros a b k q s n H. enter f F. destruct (run f a k q s) eqn:E; try congruence; pose proof (H f ltac:(congruence)); lia.
  Qed.
  Lemma least_then : forall a b k q s s1 t1 n m, least a k q s n -> ev a k q s (POk s1 t1) -> least b k q s1 m -> least (EThen a b) k q s (n + m).
  Proof.
    intros a b k q s s1 t1 n m Ha E Hb. enter f F. destruct (run f a k q s) eqn:X; try congruence.
    all: pose proof (Ha f ltac:(congruence)).
    all: pose proof (ev_det U g sk _ _ _ _ _ _ E (ev_base U g sk _ _ _ _ _ _ X ltac:(discriminate))) as D; try discriminate D.
    injection D as -> ->. specialize (Hb f (pf _ _ F)). lia.
  Qed.
  Lemma least_then2 : forall a b k q s s1 t1 m, ev a k q s (POk s1 t1) -> least b k q s1 m -> least (EThen a b) k q s m.
  Proof. intros. eapply least_le; [eapply least_then; [apply least_zero|eassumption|eassumption]|lia]. Qed.
  Lemma least_else1 : forall a b k q s n, least a k q s n -> least (EElse a b) k q s n.
  Proof.
    intros a b k q s n H. enter f F. destruct (run f a k q s) eqn:E; try congruence; pose proof (H f ltac:(congruence)); lia.
  Qed.
  Lemma least_else : forall a b k q s s1 t1 n m, least a k q s n -> ev a k q s (PErr s1 t1) -> least b k q s1 m -> least (EElse a b) k q s (n + m).
  Proof.
    intros a b k q s s1 t1 n m Ha E Hb. enter f F. destruct (run f a k q s) eqn:X; try congruence.
    all: pose proof (Ha f ltac:(congruence)).
    all: pose proof (ev_det U g sk _ _ _ _ _ _ E (ev_base U g sk _ _ _ _ _ _ X ltac:(discriminate))) as D; try discriminate D.
    injection D as -> ->. specialize (Hb f (pf _ _ F)). lia.
  Qed.
  Lemma least_else2 : forall a b k q s s1 t1 m, ev a k q s (PErr s1 t1) -> least b k q s1 m -> least (EElse a b) k q s m.
  Proof. intros. eapply least_le; [eapply least_else; [apply least_zero|eassumption|eassumption]|lia]. Qed.
  Lemma least_seq : forall a k q s n, least a k q s n -> least (ESeq a) k q s n.
  Proof. intros a k q s n H. enter f F. apply H. destruct (run f a k q s); congruence. Qed.
  Lemma least_opt : forall a k q s n, least a k q s n -> least (EOpt a) k q s n.
  Proof. intros a k q s n H. enter f F. apply H. destruct (run f a k q s); congruence. Qed.
  Lemma least_restore : forall a k q s n, least a k q s n -> least (ERestore a) k q s n.
  Proof. intros a k q s n H. enter f F. apply H. destruct (run f a k q s); congruence. Qed.
  Lemma least_rule : forall r a k q s n, least a k q s n -> least (ERule r a) k q s n.
  Proof. intros r a k q s n H. enter f F. apply H. destruct (run f a k q s); congruence. Qed.
  Lemma least_atomic : forall k' a k q s n, least a k' q s n -> least (EAtomic k' a) k q s n.
  Proof. intros k' a k q s n H. enter f F. apply H. exact F. Qed.
  Lemma least_call : forall r k q s n, least (g r) k q s n -> least (ECall r) k q s n.
  Proof. intros r k q s n H. enter f F. specialize (H f F). lia. Qed.
  Lemma least_one : forall r k q s, least (ECall r) k q s 1.
  Proof. intros r k q s. enter f F. lia. Qed.
  Lemma least_rep : forall a k q s n, least a k q s n -> least (ERep a) k q s n.
  Proof.
    intros a k q s n H. enter f F. destruct (run f a k q s) eqn:E; try congruence; pose proof (H f ltac:(congruence)); lia.
  Qed.
End Least.

Section Cost.
  Variable U : unicode.
  Hypothesis HU : sane U.
  Notation ev := (ev U grammar skip_body).
  Notation fails := (fails U).
  Notation expr_means := (expr_means U).
  Notation expr_stop := (expr_stop U).
  Notation node_means := (node_means U).
  Notation least := (least U grammar skip_body).

  Lemma expr_triples : forall x o n y o' ws w p st, node_means x o -> (forall v, head_is prefix_char (x ++ v) = false) ->
    expr_means y o' -> front y = true ->
    (forall p v, least (ECall R_expr) NonAtomic false (mkPs p (y ++ lit "]" ++ v) st) n) ->
    least (ECall R_expr) NonAtomic false (mkPs p ((x ++ lit "[" ++ y ++ lit "]") ++ ws ++ w) st) (3 * n).
  Proof.
    intros x o n y o' ws w p st Hx Px Hy Fy H.
    apply least_call. cbn [grammar]. apply least_atomic, least_rule, least_seq, least_then1, least_then1.
    apply least_call. cbn [grammar]. apply least_atomic, least_rule, least_seq.
    rewrite <- !app_assoc. set (v := ws ++ w).
    destruct (ok_prefixes U [] p (x ++ lit "[" ++ y ++ lit "]" ++ v) st eq_refl (Px _)) as (ts1 & E1 & _).
    cbn [app length] in E1. rewrite Nat.add_0_r in E1.
    destruct (Hx p (lit "[" ++ y ++ lit "]" ++ v) st eq_refl) as (T & E2 & _).
    eapply least_then2; [eapply ok_then; [exact E1|exact E2]|].
    apply least_rep. eapply least_else2; [apply er_Suffix; reflexivity|].
    apply least_restore, least_seq. eapply least_then2; [apply (inline_rep_ok U CompoundAtomic false [] (p + length x) (lit "[" ++ y ++ lit "]" ++ v) st eq_refl eq_refl)|].
    cbn [length]. apply least_call. cbn [grammar]. apply least_atomic, least_rule, least_seq.
    do 6 apply least_then1. 
    eapply least_then2; [eapply ok_then; [apply (ev_str U grammar skip_body (lit "["))|apply skip_nothing; apply front_solid; exact Fy]|].
    apply least_call. cbn [grammar]. apply least_rule.
    set (q := p + length x + 0 + length (lit "[")).
    destruct (er_head1 U HU y o' q [] 93%N v st Hy eq_refl eq_refl) as (s1 & t1 & F1 & S1). change ([] ++ 93%N :: v) with (lit "]" ++ v) in F1.
    assert (B : least (EOpt (ERestore (ECall R_Start))) NonAtomic false (mkPs q (y ++ lit "]" ++ v) st) n).
    { apply least_opt, least_restore, least_call. cbn [grammar]. apply least_rule. apply H. }
    replace (3 * n) with ((n + n) + n) by lia.
    eapply least_else; [eapply least_else| |]; cycle -1.
    - apply least_restore. apply H.
    - apply least_seq. do 8 apply least_then1. exact B.
    - eapply er_seq with (s1 := s1); [|exact S1]. do 6 apply ev_then_err. exact F1.
    - apply least_seq. do 4 apply least_then1. exact B.
    - apply er_else.
      + eapply er_seq with (s1 := s1); [|exact S1]. do 6 apply ev_then_err. exact F1.
      + eapply er_seq with (s1 := s1); [|exact S1]. do 2 apply ev_then_err. exact F1.
  Qed.

  Lemma indexed_node : forall x o y o', SpecSource.node U x o -> SpecSource.expr U y o' -> exists o'', SpecSource.expr U (x ++ lit "[" ++ y ++ lit "]") o''.
  Proof.
    intros x o y o' Hx Hy. eexists. apply term_expr.
    pose proof (SpecSource.t_intro U [] x o ((lit "[" ++ [] ++ (y ++ []) ++ [] ++ lit "]") ++ []) _ eq_refl Hx
      (SpecSource.s_slice U [] [] (y ++ []) _ [] [] _ eq_refl eq_refl (SpecSource.i_one U y o' [] (SpecSource.i_plain U y o' Hy) eq_refl) SpecSource.t_none (SpecSource.s_nil U))) as T.
    rewrite !app_nil_r in T. cbn [app] in T |- *. exact T.
  Qed.
  Lemma indexed_expr : forall xs y, Forall (fun x => exists o, SpecSource.node U x o) xs -> (exists o, SpecSource.expr U y o) -> exists o, SpecSource.expr U (indexed xs y) o.
  Proof.
    induction xs as [|x xs IH]; intros y H Hy; [exact Hy|]. inversion H as [|? ? [o Hx] Hl]; subst. destruct (IH y Hl Hy) as [o' E].
    cbn [indexed]. eapply indexed_node; eassumption.
  Qed.
  Lemma indexed_least : forall xs y, Forall (fun x => exists o, SpecSource.node U x o) xs -> (exists o, SpecSource.expr U y o) ->
    forall p w st, least (ECall R_expr) NonAtomic false (mkPs p (indexed xs y ++ w) st) (3 ^ length xs).
  Proof.
    induction xs as [|x xs IH]; intros y H Hy p w st; [apply least_one|]. inversion H as [|? ? [o Hx] Hl]; subst.
    destruct (indexed_expr xs y Hl Hy) as [o' E]. destruct (source_node U HU x o Hx) as [N P]. destruct (source_expr U HU _ _ E) as [M F].
    cbn [indexed length]. rewrite Nat.pow_succ_r'. apply (expr_triples x o (3 ^ length xs) (indexed xs y) o' [] w p st N P M F).
    intros p' v. apply IH; assumption.
  Qed.

  Lemma program_least : forall text n, plain_start text = true -> solid text = true -> least (ECall R_expr) NonAtomic false (mkPs 0 text []) n ->
    n <= program_steps U text.
  Proof.
    intros text n P S H. assert (L : least (ECall R_program) NonAtomic false (mkPs 0 text []) n); [|exact (L (peg_fuel text) (program_terminates U text))].
    apply least_call. cbn [grammar]. apply least_seq, least_then1, least_then1.
    eapply least_then2; [eapply ok_then; [|apply skip_nothing; exact S]|].
    - apply ev_call. cbn [grammar]. apply ev_base with (f := 1); [reflexivity|discriminate].
    - apply least_seq, least_opt, least_then1, least_restore. apply least_call.
      change (least (EElse before_expression (ERestore (ECall R_expression))) NonAtomic false (mkPs 0 text []) n).
      eapply least_else2; [apply er_before; exact P|]. apply least_restore, least_call. cbn [grammar]. apply least_rule, least_seq, least_then1, least_then1. exact H.
  Qed.

  Lemma indexed_steps : forall xs y, Forall (fun x => exists o, SpecSource.node U x o) xs -> (exists o, SpecSource.expr U y o) ->
    plain_start (indexed xs y) = true -> 3 ^ length xs <= program_steps U (indexed xs y).
  Proof.
    intros xs y Hx Hy P. destruct (indexed_expr xs y Hx Hy) as [o E]. destruct (source_expr U HU _ _ E) as [_ F].
    apply program_least; [exact P|rewrite <- (app_nil_r (indexed xs y)); apply front_solid; exact F|].
    rewrite <- (app_nil_r (indexed xs y)) at 1. apply indexed_least; assumption.
  Qed.

  (** ** Unclosed calls *)
  Notation reads := (reads U source).
  Ltac body H := inversion H as [| | | | | | | | | | | | | | | | | | |? ? ? ? ? ? ? ? ESRC EREAD EREST| | | | | | | | |]; subst; try discriminate; clear H; cbn in ESRC; injection ESRC as <- <-; cbn in EREAD.
  Lemma skips_suffix : forall m s s1 t, skips U source m s s1 t -> exists w, rest s = w ++ rest s1.
  Proof. intros m s s1 t H. inversion H; subst; [exists []; reflexivity|]. eapply reads_suffix. eassumption. Qed.
  Lemma last_close : forall m a s x, reads m (Then a (Text (lit ")"))) s (Some x) -> In 41%N (rest s).
  Proof.
    intros m a s x H. inversion H as [| | | |? ? ? ? s1 ? s2 ? ? ? HA HS HT| | | | | | | | | | | | | | | | | | | | | | | |]; subst.
    destruct (reads_suffix _ _ _ _ _ _ HA) as [w ->]. destruct (skips_suffix _ _ _ _ HS) as [w' ->].
    inversion HT as [? ? ? ? P| | | | | | | | | | | | | | | | | | | | | | | | | | | |]; subst. destruct P as (-> & _).
    apply in_or_app. right. apply in_or_app. right. left. reflexivity.
  Qed.
  Lemma apply_close : forall m s x, reads m (Name R_apply) s (Some x) -> In 41%N (rest s).
  Proof. intros m s x H. body H. eapply last_close. exact EREAD. Qed.
  Lemma then_second : forall m a b s x, reads m (Then a b) s (Some x) -> exists s1 y w, reads m b s1 (Some y) /\ rest s = w ++ rest s1.
  Proof.
    intros m a b s x H. inversion H as [| | | |? ? ? ? s1 ? s2 ? ? ? HA HS HT| | | | | | | | | | | | | | | | | | | | | | | |]; subst.
    destruct (reads_suffix _ _ _ _ _ _ HA) as [w ->]. destruct (skips_suffix _ _ _ _ HS) as [w' ->].
    exists s2. eexists. exists (w ++ w'). split; [exact HT|rewrite app_assoc; reflexivity].
  Qed.
  Lemma then_first : forall m a b s x, reads m (Then a b) s (Some x) -> exists y, reads m a s (Some y).
  Proof. intros m a b s x H. inversion H; subst. eauto. Qed.
  Lemma several_inv : forall m a s o, reads m (Several a) s o -> reads m (Then a (Many a)) s o.
  Proof. intros m a s o H. inversion H; subst. assumption. Qed.
  Lemma apply_call_close : forall m s x, reads m (Name R_apply_call) s (Some x) -> In 41%N (rest s).
  Proof.
    intros m s x H. body H. destruct (then_second _ _ _ _ _ EREAD) as (sa & ya & wa & H2 & ->).
    apply several_inv in H2. rename H2 into H3. destruct (then_first _ _ _ _ _ H3) as [z H4].
    destruct (then_second _ _ _ _ _ H4) as (sb & yb & wb & H5 & ->). apply in_or_app. right. apply in_or_app. right. eapply apply_close. exact H5.
  Qed.
  Lemma refuses : forall r m s, needs_stack r = false -> (forall x, ~ reads m (Name r) s (Some x)) -> fails (ERestore (ECall r)) m false s.
  Proof.
    intros r m s N H. destruct (ProofFollow.run_decides U r m s N) as (r' & E & [(s1 & ts & ->)|(s1 & ts & ->)]).
    - exfalso. eapply H. apply (ProofFollow.run_ok_iff U r m s s1 ts N). exact E.
    - pose proof (ProofFollow.calls_follow U _ r m _ false s (le_n ((length (rest s) + 1) * 70))) as P. rewrite E in P.
      destruct P as (_ & P & _). destruct (P eq_refl) as (P1 & P2 & P3). rewrite (P3 eq_refl) in E.
      pose proof (ev_restore U grammar skip_body _ _ _ _ _ (ev_base U grammar skip_body _ _ _ _ _ _ E ltac:(discriminate))) as X. cbn in X.
      rewrite P1, P2 in X. destruct s. exact X.
  Qed.

  Lemma word_path : forall f, word U f = true -> is_path U f.
  Proof. intros f H. exists f, []. cbn [path_tail]. rewrite app_nil_r. auto. Qed.
  Lemma word_lead : forall f, word U f = true -> head_is (lead U) f = true.
  Proof.
    intros f H. pose proof (path_head U f [] (word_path f H)) as P. rewrite app_nil_r in P. destruct f as [|c f]; [discriminate|]. cbn [head_is] in *.
    unfold lead. rewrite P. rewrite ?orb_true_r. reflexivity.
  Qed.
  Lemma word_solid : forall f w, word U f = true -> solid (f ++ w) = true.
  Proof. intros f w H. apply front_solid. apply (head_front U HU). apply word_lead. exact H. Qed.
  Lemma unclosed_solid : forall f fs y, word U f = true -> solid (unclosed (f :: fs) y) = true.
  Proof. intros f fs y H. cbn [unclosed]. apply word_solid. exact H. Qed.

  Definition open (w : str) : Prop := ~ In 41%N w.
  Lemma open_app : forall a b, open (a ++ b) -> open b.
  Proof. intros a b H I. apply H. apply in_or_app. right. exact I. Qed.
  Lemma open_call : forall m p w st, open w -> fails (ERestore (ECall R_apply_call)) m false (mkPs p w st).
  Proof. intros m p w st H. apply refuses; [reflexivity|]. intros x Hx. apply H. apply (apply_call_close _ _ _ Hx). Qed.
  Lemma open_derivative : forall m f p w st, word U f = true -> fails (ECall R_derivative) m false (mkPs p (f ++ lit "(" ++ w) st).
  Proof.
    intros m f p w st Hf. apply er_call, er_atomic, er_rule.
    destruct (ok_Symbol U CompoundAtomic f p (lit "(" ++ w) st (word_path f Hf) eq_refl) as [t Ht].
    pose proof (ev_then U grammar skip_body _ _ _ _ _ _ _ _ Ht (er_Derivative U CompoundAtomic false (p + length f) (lit "(" ++ w) st eq_refl)) as X.
    eapply er_seq; [do 2 apply ev_then_err; exact X|reflexivity].
  Qed.
  (** the factor before the bracket is the name *)
  Lemma open_factor : forall f p w st, word U f = true -> open (f ++ lit "(" ++ w) -> exists t,
    ev ProofNode.factor CompoundAtomic false (mkPs p (f ++ lit "(" ++ w) st) (POk (mkPs (p + length f) (lit "(" ++ w) st) t).
  Proof.
    intros f p w st Hf H. destruct (ok_Symbol U CompoundAtomic f p (lit "(" ++ w) st (word_path f Hf) eq_refl) as [t Ht].
    eexists. apply ev_else_err; [apply er_else|exact Ht].
    - apply open_call. exact H.
    - apply er_Number, (head_word_digit U), path_head, word_path. exact Hf.
  Qed.
  Lemma open_product : forall f p w st, word U f = true -> open (f ++ lit "(" ++ w) -> fails (ECall R_space_call) CompoundAtomic false (mkPs p (f ++ lit "(" ++ w) st).
  Proof.
    intros f p w st Hf H. apply er_call, er_atomic, er_rule. destruct (open_factor f p w st Hf H) as [t Ht].
    assert (M : fails more_factor CompoundAtomic false (mkPs (p + length f) (lit "(" ++ w) st)).
    { eapply er_seq2; [apply (inline_rep_ok U CompoundAtomic false [] (p + length f) (lit "(" ++ w) st eq_refl eq_refl)| |reflexivity].
      apply er_factor; reflexivity. }
    pose proof (ev_then U grammar skip_body _ _ _ _ _ _ _ _ Ht M) as X. eapply er_seq; [apply ev_then_err; exact X|reflexivity].
  Qed.

  (** ** The work *)
  Lemma node_doubles : forall f p w st n, word U f = true -> open (f ++ lit "(" ++ w) ->
    (forall k, least (ECall R_apply_call) k false (mkPs p (f ++ lit "(" ++ w) st) n) ->
    least (ECall R_expr) NonAtomic false (mkPs p (f ++ lit "(" ++ w) st) (2 * n).
  Proof.
    intros f p w st n Hf Ho H. set (text := f ++ lit "(" ++ w) in *.
    assert (B40 : head_is (N.eqb 40) text = false).
    { pose proof (path_head U f (lit "(" ++ w) (word_path f Hf)) as P. fold text in P. destruct text as [|c v]; [reflexivity|]. cbn [head_is] in *. apply N.eqb_neq. intros <-. discriminate. }
    apply least_call. cbn [grammar]. apply least_atomic, least_rule, least_seq, least_then1, least_then1.
    apply least_call. cbn [grammar]. apply least_atomic, least_rule, least_seq, least_then1.
    eapply least_then2; [apply no_rep, er_Prefix; apply (head_front U HU f (word_lead f Hf))|].
    apply least_call. cbn [grammar]. apply least_rule, least_else1.
    replace (2 * n) with (n + n) by lia. eapply least_else.
    - apply least_else1. eapply least_else2; [apply er_paren; exact B40|]. apply least_restore. apply H.
    - apply er_else; [apply er_else|].
      + apply er_paren. exact B40.
      + apply open_call. exact Ho.
      + apply er_restore, open_derivative. exact Hf.
    - apply least_restore, least_call. cbn [grammar]. apply least_atomic, least_rule, least_seq, least_then1, least_then1, least_else1, least_else1, least_restore. apply H.
  Qed.
  Lemma call_inside : forall f g k p w st n, word U f = true -> word U g = true ->
    (forall q, least (ECall R_expr) NonAtomic false (mkPs q (g ++ lit "(" ++ w) st) n) ->
    least (ECall R_apply_call) k false (mkPs p (f ++ lit "(" ++ g ++ lit "(" ++ w) st) n.
  Proof.
    intros f g k p w st n Hf Hg H. set (v := g ++ lit "(" ++ w) in *.
    apply least_call. cbn [grammar]. apply least_atomic, least_rule, least_seq, least_then1.
    destruct (ok_Symbol U CompoundAtomic f p (lit "(" ++ v) st (word_path f Hf) eq_refl) as [t Ht].
    eapply least_then2; [exact Ht|]. apply least_seq.
    eapply least_then2; [apply (inline_rep_ok U CompoundAtomic false [] (p + length f) (lit "(" ++ v) st eq_refl eq_refl)|].
    apply least_call. cbn [grammar]. apply least_atomic, least_rule, least_seq. do 6 apply least_then1.
    eapply least_then2; [eapply ok_then; [apply (ev_str U grammar skip_body (lit "("))|apply skip_nothing; apply word_solid; exact Hg]|].
    apply least_opt, least_restore, least_call. cbn [grammar]. apply least_rule.
    eapply least_else2; [|apply least_restore; apply H].
    set (q := p + length f + length [] + length (lit "(")).
    pose proof (ok_then1 U _ _ _ _ _ _ _ _ (ok_SYMBOL U NonAtomic g q (lit "(" ++ w) st Hg eq_refl) (skip_nothing U _ (lit "(" ++ w) st eq_refl)) as E1.
    pose proof (ev_then U grammar skip_body _ _ _ _ _ _ _ _ E1 (er_Colon U NonAtomic false _ (lit "(" ++ w) st eq_refl)) as E2. cbn [prepend] in E2.
    apply er_restore. eapply er_seq; [do 2 apply ev_then_err; exact E2|reflexivity].
  Qed.
  Lemma unclosed_least : forall fs f y p st, Forall (fun f => word U f = true) (f :: fs) -> open (unclosed (f :: fs) y) ->
    least (ECall R_expr) NonAtomic false (mkPs p (unclosed (f :: fs) y) st) (2 ^ length (f :: fs)).
  Proof.
    induction fs as [|g fs IH]; intros f y p st H Ho; inversion H as [|? ? Hf Hfs]; subst.
    - cbn [unclosed length]. apply node_doubles; [exact Hf|exact Ho|]. intro k. apply least_one.
    - cbn [length]. rewrite Nat.pow_succ_r'. apply node_doubles; [exact Hf|exact Ho|]. intro k.
      inversion Hfs; subst. apply call_inside; [assumption..|]. intro q. apply (IH g y q st Hfs).
      apply (open_app (f ++ lit "(")). rewrite <- app_assoc. exact Ho.
  Qed.

  (** ** The answer *)
  Lemma no_reads : forall r m s x, fails (ECall r) m false s -> ~ reads m (Name r) s (Some x).
  Proof.
    intros r m s x [_ [f F]] H. pose proof (ProofFollow.run_sound U f r m s) as P. rewrite F in P.
    pose proof (reads_once U _ _ _ _ _ P H). discriminate.
  Qed.
  Lemma or_inv : forall m a b s x, reads m (Or a b) s (Some x) -> reads m a s (Some x) \/ reads m b s (Some x).
  Proof. intros m a b s x H. inversion H; subst; auto. Qed.
  Lemma er_data_open : forall m p w st, fails (ECall R_data) m false (mkPs p (40%N :: w) st).
  Proof.
    intros m p w st. apply er_call, er_atomic, er_rule. repeat apply er_else.
    - apply er_dict. reflexivity.
    - apply er_list. reflexivity.
    - apply er_Special. reflexivity.
    - apply er_REPL. reflexivity.
    - apply er_Slot. reflexivity.
    - apply er_Number. reflexivity.
    - apply er_String_head; reflexivity.
    - apply er_Symbol. reflexivity.
  Qed.
  Lemma no_open_node : forall m p w st x, open w -> ~ reads m (Name R_node) (mkPs p (40%N :: w) st) (Some x).
  Proof.
    intros m p w st x Ho H. body H. apply or_inv in EREAD as [H|H]; [apply or_inv in H as [H|H]; [apply or_inv in H as [H|H]; [apply or_inv in H as [H|H]|]|]|].
    - apply last_close in H. cbn [rest] in H. destruct H as [H|H]; [discriminate|exact (Ho H)].
    - revert H. apply no_reads, er_apply_call_head. reflexivity.
    - revert H. apply no_reads, er_derivative_head. reflexivity.
    - revert H. apply no_reads, er_space_call_head; reflexivity.
    - revert H. apply no_reads, er_data_open.
  Qed.
  Lemma no_open_expression : forall m p w st x, open w -> ~ reads m (Name R_expression) (mkPs p (40%N :: w) st) (Some x).
  Proof.
    intros m p w st x Ho H. body H. destruct (then_first _ _ _ _ _ EREAD) as [y H]. clear EREAD EREST. destruct y as [sy ty].
    body H. destruct (then_first _ _ _ _ _ EREAD) as [[sz tz] H]. clear EREAD EREST.
    body H. destruct (then_first _ _ _ _ _ EREAD) as [[sa ta] H]. clear EREAD EREST.
    inversion H as [| | | |? ? ? ? sb ? sc ? ? ? HA HS HT| | | | | | | | | | | | | | | | | | | | | | | |]; subst.
    assert (E : sb = mkPs p (40%N :: w) st).
    { inversion HA; subst; [|reflexivity]. exfalso. match goal with H : SpecPest.reads _ _ _ (Name R_Prefix) _ (Some _) |- _ => revert H end. apply no_reads, er_Prefix. reflexivity. }
    subst sb. inversion HS; subst. exact (no_open_node _ _ _ _ _ Ho HT).
  Qed.
  Lemma open_statement : forall p w st, open w -> fails (ECall R_statement) NonAtomic false (mkPs p (40%N :: w) st).
  Proof.
    intros p w st Ho. apply er_call. apply (er_else U before_expression); [apply er_before; reflexivity|].
    apply refuses; [reflexivity|]. intro x. apply no_open_expression. exact Ho.
  Qed.
  Lemma open_data : forall f p w st, word U f = true -> no_special (f ++ lit "(" ++ w) = true -> exists t,
    ev (ECall R_data) CompoundAtomic false (mkPs p (f ++ lit "(" ++ w) st) (POk (mkPs (p + length f) (lit "(" ++ w) st) t).
  Proof.
    intros f p w st Hf Hs. destruct (ok_Symbol U CompoundAtomic f p (lit "(" ++ w) st (word_path f Hf) eq_refl) as [t Ht].
    eexists. apply ev_call. cbn [grammar]. apply ev_atomic. apply (ok_rule U R_data _ CompoundAtomic p f (lit "(" ++ w) st st).
    pose proof (path_head U f (lit "(" ++ w) (word_path f Hf)) as H.
    assert (K : head_is (N.eqb 123) (f ++ lit "(" ++ w) = false /\ head_is (N.eqb 91) (f ++ lit "(" ++ w) = false /\
      head_is (N.eqb 35) (f ++ lit "(" ++ w) = false /\ head_is (fun c => (c =? 182) || (c =? 8267))%N (f ++ lit "(" ++ w) = false).
    { destruct (f ++ lit "(" ++ w) as [|c v]; [discriminate|]. cbn [head_is] in *. destruct (word_head_not U HU c H) as (A & B & C & D & E).
      repeat split; try (apply N.eqb_neq; congruence). exact E. }
    destruct K as (K1 & K2 & K3 & K4).
    apply ev_else_err; [|exact Ht].
    apply er_else; [apply er_else; [apply er_else; [apply er_else; [apply er_else; [apply er_else|]|]|]|]|].
    - apply er_dict. exact K1.
    - apply er_list. exact K2.
    - apply er_Special. exact Hs.
    - apply er_REPL. exact K4.
    - apply er_Slot. exact K3.
    - apply er_Number, (head_word_digit U). exact H.
    - apply er_restore, er_call, er_atomic, er_rule. eapply er_seq2; [apply ok_opt, ok_SYMBOL; [exact Hf|reflexivity]|apply er_string_body; reflexivity|reflexivity].
  Qed.
  Lemma open_first : forall f w, word U f = true -> no_special (f ++ lit "(" ++ w) = true -> plain_start (f ++ lit "(" ++ w) = true -> open (f ++ lit "(" ++ w) -> exists t,
    ev (ECall R_statement) NonAtomic false (mkPs 0 (f ++ lit "(" ++ w) []) (POk (mkPs (length f) (lit "(" ++ w) []) t).
  Proof.
    intros f w Hf Hs Hp Ho. destruct (open_data f 0 w [] Hf Hs) as [t Ht].
    assert (B40 : head_is (N.eqb 40) (f ++ lit "(" ++ w) = false).
    { pose proof (path_head U f (lit "(" ++ w) (word_path f Hf)) as P. destruct (f ++ lit "(" ++ w) as [|c v]; [reflexivity|]. cbn [head_is] in *. apply N.eqb_neq. intros <-. discriminate. }
    pose proof (skip_nothing U (length f) (lit "(" ++ w) [] eq_refl) as SK.
    eexists. apply statement_alt; [exact Hp|]. apply ok_restore, ev_call. cbn [grammar].
    apply (ok_rule U R_expression _ NonAtomic 0 f (lit "(" ++ w) [] []). apply ok_seq.
    eapply ok_then1; [|apply (no_opt U _ _ _ _ (er_eos U NonAtomic false (length f) (lit "(" ++ w) [] eq_refl))]. eapply ok_then1; [|exact SK].
    apply ev_call. cbn [grammar]. apply ev_atomic. apply (ok_rule U R_expr _ NonAtomic 0 f (lit "(" ++ w) [] []). apply ok_seq.
    eapply ok_then1; [eapply ok_then1; [|exact SK]|].
    - apply ev_call. cbn [grammar]. apply ev_atomic. apply (ok_rule U R_term _ CompoundAtomic 0 f (lit "(" ++ w) [] []). apply ok_seq.
      eapply ok_then1; [eapply ok_then0|].
      + apply no_rep, er_Prefix. apply (head_front U HU f (word_lead f Hf)).
      + apply ev_call. cbn [grammar]. apply (ok_rule U R_node _ CompoundAtomic 0 f (lit "(" ++ w) [] []).
        apply ev_else_err; [|apply ok_restore; exact Ht].
        apply er_else; [apply er_else; [apply er_else|]|].
        * apply er_paren. exact B40.
        * apply open_call. exact Ho.
        * apply er_restore, open_derivative. exact Hf.
        * apply er_restore, open_product; assumption.
      + apply no_rep, er_else; [apply er_Suffix; reflexivity|]. apply er_restore.
        eapply er_seq2; [apply (inline_rep_ok U CompoundAtomic false [] _ (lit "(" ++ w) [] eq_refl eq_refl)|apply er_slice; reflexivity|reflexivity].
    - apply ok_seq, no_opt, er_then, er_restore, er_seq0. do 2 apply er_then. apply er_Infix. reflexivity.
  Qed.
  Lemma open_refused : forall f w, word U f = true -> no_special (f ++ lit "(" ++ w) = true -> plain_start (f ++ lit "(" ++ w) = true -> open (f ++ lit "(" ++ w) ->
    forall i, parse U i (f ++ lit "(" ++ w) = Ret (Err SMParseError).
  Proof.
    intros f w Hf Hs Hp Ho i. destruct (open_first f w Hf Hs Hp Ho) as [t Ht].
    pose proof (skip_nothing U 0 (f ++ lit "(" ++ w) [] (word_solid f _ Hf)) as SK.
    assert (OW : open w) by (apply (open_app (f ++ lit "(")); rewrite <- app_assoc; exact Ho).
    pose proof (skip_nothing U (length f) (lit "(" ++ w) [] eq_refl) as SK2.
    assert (B : ev program_body NonAtomic false (mkPs 0 (f ++ lit "(" ++ w) []) (POk (mkPs (length f) (lit "(" ++ w) []) t)).
    { apply ok_seq, ok_opt. eapply ok_then1; [apply ok_restore; exact Ht|]. apply no_rep. eapply er_seq2; [exact SK2| |reflexivity].
      apply er_restore. apply open_statement. exact OW. }
    assert (EO : exists s' t', ev (ECall R_EOI) NonAtomic false (mkPs (length f) (lit "(" ++ w) []) (PErr s' t')).
    { eexists. eexists. apply ev_call. exact (ev_rule U grammar skip_body R_EOI EEoi NonAtomic false _ _ (ev_eoi_err U grammar skip_body _ _ _ _ _ _)). }
    destruct EO as (s5 & t5 & EO).
    pose proof (ev_then U grammar skip_body _ _ _ _ _ _ _ _ (ok_then1 U _ _ _ _ _ _ _ _ B SK2) EO) as R1. cbn [prepend] in R1. fold program_rest in R1.
    unfold parse. rewrite (program_unfold U _ _ _ _ SK R1). reflexivity.
  Qed.

  Lemma unclosed_steps : forall fs y, fs <> [] -> Forall (fun f => word U f = true) fs -> open (unclosed fs y) -> plain_start (unclosed fs y) = true ->
    2 ^ length fs <= program_steps U (unclosed fs y).
  Proof.
    intros [|f fs] y N H Ho Hp; [congruence|]. apply program_least; [exact Hp| |].
    - apply unclosed_solid. inversion H. assumption.
    - apply unclosed_least; assumption.
  Qed.
  Lemma unclosed_refused : forall f fs y, word U f = true -> existsb (fun k => starts_with k f) [lit "null"; lit "true"; lit "false"] = false ->
    open (unclosed (f :: fs) y) -> plain_start (unclosed (f :: fs) y) = true -> forall i, parse U i (unclosed (f :: fs) y) = Ret (Err SMParseError).
  Proof.
    intros f fs y Hf Hk Ho Hp i. cbn [unclosed] in *. apply open_refused; try assumption.
    cbn [existsb] in Hk. apply orb_false_iff in Hk as [H1 H]. apply orb_false_iff in H as [H2 H]. apply orb_false_iff in H as [H3 _].
    unfold starts_with in *. unfold no_special.
    destruct (strip_prefix (lit "null") f) eqn:E1; [discriminate|]. destruct (strip_prefix (lit "true") f) eqn:E2; [discriminate|]. destruct (strip_prefix (lit "false") f) eqn:E3; [discriminate|].
    rewrite !(strip_extend U) by (try assumption; reflexivity). reflexivity.
  Qed.

  (** ** No polynomial *)
  Lemma deep_length : forall n y, length (indexed (repeat (lit "a") n) y) = 3 * n + length y.
  Proof. induction n as [|n IH]; intro y; [reflexivity|]. cbn [repeat indexed]. rewrite !app_length, IH. cbn [length lit]. change (length (lit "a")) with 1. change (length (lit "[")) with 1. change (length (lit "]")) with 1. lia. Qed.
  Lemma deep_node : forall n, Forall (fun x => exists o, SpecSource.node U x o) (repeat (lit "a") n).
  Proof.
    intro n. apply Forall_forall. intros x Hx. apply repeat_spec in Hx. subst x. eexists.
    exact (SpecSource.n_name U (lit "a") [] eq_refl eq_refl eq_refl).
  Qed.
  Lemma deep_zero : exists o, SpecSource.expr U (lit "0") o.
  Proof. eexists. apply term_expr, node_term. exact (SpecSource.n_integer U (lit "0") eq_refl). Qed.
  Lemma deep_start : forall n, plain_start (indexed (repeat (lit "a") n) (lit "0")) = true.
  Proof. intros [|n]; reflexivity. Qed.
  Lemma pow_square : forall m, 4 <= m -> m * m <= 2 ^ m.
  Proof.
    intros m H. induction H as [|m H IH]; [cbn; lia|]. rewrite Nat.pow_succ_r'. nia.
  Qed.
  Lemma no_polynomial : forall c k, exists n, c * (3 * n + 2) ^ k < 3 ^ n.
  Proof.
    intros c k. set (m := c + 4 * k + 4). exists (2 ^ m).
    assert (A : c < 2 ^ c) by (apply Nat.pow_gt_lin_r; lia).
    assert (B : 3 * 2 ^ m + 2 <= 2 ^ (m + 3)).
    { rewrite Nat.pow_add_r. change (2 ^ 3) with 8. pose proof (Nat.pow_nonzero 2 m). lia. }
    assert (C : (3 * 2 ^ m + 2) ^ k <= 2 ^ ((m + 3) * k)) by (rewrite Nat.pow_mul_r; apply Nat.pow_le_mono_l; exact B).
    assert (D : c + (m + 3) * k <= 2 ^ m).
    { transitivity (m * m); [|apply pow_square; lia]. unfold m. nia. }
    apply Nat.lt_le_trans with (2 ^ (c + (m + 3) * k)).
    - rewrite Nat.pow_add_r. apply Nat.le_lt_trans with (c * 2 ^ ((m + 3) * k)); [apply Nat.mul_le_mono_l; exact C|].
      apply Nat.mul_lt_mono_pos_r; [|exact A]. pose proof (Nat.pow_nonzero 2 ((m + 3) * k)). lia.
    - transitivity (2 ^ (2 ^ m)); [apply Nat.pow_le_mono_r; [lia|exact D]|]. apply Nat.pow_le_mono_l. lia.
  Qed.
  Lemma deep_expr : forall n, exists a, SpecSource.expr U (indexed (repeat (lit "a") n) (lit "0")) (Ret a).
  Proof.
    induction n as [|n [v IH]]; [eexists; apply term_expr, node_term; exact (SpecSource.n_integer U (lit "0") eq_refl)|].
    eexists. apply term_expr. cbn [repeat indexed]. set (y := indexed (repeat (lit "a") n) (lit "0")) in *.
    pose proof (SpecSource.t_intro U [] (lit "a") _ ((lit "[" ++ [] ++ (y ++ []) ++ [] ++ lit "]") ++ []) _ eq_refl (SpecSource.n_name U (lit "a") [] eq_refl eq_refl eq_refl)
      (SpecSource.s_slice U [] [] (y ++ []) _ [] [] _ eq_refl eq_refl (SpecSource.i_one U y (Ret v) [] (SpecSource.i_plain U y (Ret v) IH) eq_refl) SpecSource.t_none (SpecSource.s_nil U))) as T.
    rewrite !app_nil_r in T. cbn [app obind SpecSource.all SpecSource.suffix_value SpecSource.prefix_value] in T |- *. exact T.
  Qed.
  Lemma deep_expensive : forall c k, exists text a, denotes U text (Ret a) /\ c * (length text + 1) ^ k < program_steps U text.
  Proof.
    intros c k. destruct (no_polynomial c k) as [n H]. exists (indexed (repeat (lit "a") n) (lit "0")).
    destruct (deep_expr n) as [a E]. exists a. split.
    - pose proof (source_text U HU [] _ _ [] eq_refl E (deep_start n) eq_refl) as D. cbn [app] in D. rewrite app_nil_r in D. exact D.
    - pose proof (indexed_steps (repeat (lit "a") n) (lit "0") (deep_node n) deep_zero (deep_start n)) as S. rewrite repeat_length in S.
      eapply Nat.lt_le_trans; [|exact S]. rewrite deep_length. change (length (lit "0")) with 1. replace (3 * n + 1 + 1) with (3 * n + 2) by lia. exact H.
  Qed.
  Lemma steps_below : forall text, program_steps U text < 2 ^ ((length text + 1) * 70).
  Proof. intro text. apply steps_exp. Qed.
  Lemma unclosed_both : forall f fs y, Forall (fun w => word U w = true) (f :: fs) -> open (unclosed (f :: fs) y) ->
    existsb (fun k => starts_with k f) [lit "null"; lit "true"; lit "false"] = false -> plain_start (unclosed (f :: fs) y) = true ->
    2 ^ length (f :: fs) <= program_steps U (unclosed (f :: fs) y) /\ forall i, parse U i (unclosed (f :: fs) y) = Ret (Err SMParseError).
  Proof.
    intros f fs y H Ho Hk Hp. split; [apply unclosed_steps; try assumption; discriminate|]. apply unclosed_refused; try assumption. inversion H. assumption.
  Qed.
  Lemma whole_run : forall text n, peg_fuel text <= n ->
    steps U grammar skip_body n (ECall R_program) NonAtomic false (mkPs 0 text []) = program_steps U text.
  Proof. intros text n H. apply steps_mono; [apply program_terminates|exact H]. Qed.
End Cost.
