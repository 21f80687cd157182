(** Statements that are not expressions, and texts that are refused. *)
From Verif Require Import Base Ast Display SmError Peg Grammar Climber Build SpecAst SpecPeg SpecClimb SpecParse SpecSyntax SpecText.
From Verif Require Import ProofAst ProofDisplay ProofPeg ProofPegShift ProofSym ProofGrammar ProofClimber ProofBuild ProofPos ProofSpace ProofLex ProofToken ProofNode ProofAtom ProofTerm ProofExpr ProofGroup ProofCall ProofArgs ProofText ProofStatement ProofComment ProofSource ProofSyntax.
Local Open Scope nat_scope.
Local Open Scope outcome_scope.

Section Keyword.
  Variable U : unicode.
  Notation ev := (ev U grammar skip_body).
  Notation run := (run U grammar skip_body).
  Notation fails := (fails U).

  (** ** Expressions of the grammar that cannot fail *)
  Fixpoint never (n : nat) (e : pexp rule) : bool :=
    match n with O => false | S n =>
      match e with
      | EOpt _ | ERep _ | ESkip => true
      | EThen a b => never n a && never n b
      | EElse a b => never n a || never n b
      | ESeq a | ERestore a | ERule _ a | EAtomic _ a => never n a
      | ECall r => never n (grammar r)
      | _ => false
      end
    end.
  Definition safe (e : pexp rule) : Prop := forall f k q s s' t, run f e k q s <> PErr s' t.
  Lemma rep_safe : forall e, safe (ERep e).
  Proof.
    intros e. unfold safe. induction f as [|f IH]; intros k q s s' t E; [discriminate|]. cbn [Peg.run] in E. destruct (run f e k q s) as [s1 t1|? ?| |]; try discriminate.
    destruct (run f (ERep e) k q s1) eqn:E1; cbn [prepend] in E; try discriminate. exact (IH _ _ _ _ _ E1).
  Qed.
  Lemma then_safe : forall a b, safe a -> safe b -> safe (EThen a b).
  Proof.
    intros a b Ha Hb [|f] k q s s' t E; [discriminate|]. cbn [Peg.run] in E. destruct (run f a k q s) as [s1 t1|s1 t1| |] eqn:E1; try discriminate; [|exact (Ha _ _ _ _ _ _ E1)].
    destruct (run f b k q s1) as [s2 t2|s2 t2| |] eqn:E2; cbn [prepend] in E; try discriminate. exact (Hb _ _ _ _ _ _ E2).
  Qed.
  Lemma seq_safe : forall a, safe a -> safe (ESeq a).
  Proof. intros a Ha [|f] k q s s' t E; [discriminate|]. cbn [Peg.run] in E. destruct (run f a k q s) as [s1 t1|s1 t1| |] eqn:E1; try discriminate. exact (Ha _ _ _ _ _ _ E1). Qed.
  Lemma skip_safe : safe ESkip.
  Proof.
    intros [|f] k q s s' t E; [discriminate|]. cbn [Peg.run] in E. destruct k; try discriminate. revert E. unfold skip_body. apply seq_safe, then_safe; apply rep_safe.
  Qed.
  Lemma never_safe : forall n e, never n e = true -> safe e.
  Proof.
    induction n as [|n IH]; intros e H; [discriminate|]. destruct e; cbn [never] in H; try discriminate.
    - apply andb_prop in H as [Ha Hb]. apply then_safe; apply IH; assumption.
    - intros [|f] k q s s' t E; [discriminate|]. cbn [Peg.run] in E. destruct (run f e1 k q s) as [s1 t1|s1 t1| |] eqn:E1; try discriminate.
      destruct (run f e2 k q s1) as [s2 t2|s2 t2| |] eqn:E2; cbn [prepend] in E; try discriminate.
      apply orb_prop in H as [H|H]; [exact (IH _ H _ _ _ _ _ _ E1)|exact (IH _ H _ _ _ _ _ _ E2)].
    - apply seq_safe, IH, H.
    - intros [|f] k q s s' t E; [discriminate|]. cbn [Peg.run] in E. destruct (run f e k q s) as [s1 t1|s1 t1| |] eqn:E1; discriminate.
    - apply rep_safe.
    - intros [|f] k q s s' t E; [discriminate|]. cbn [Peg.run] in E. destruct (run f e k q s) as [s1 t1|s1 t1| |] eqn:E1; try discriminate. exact (IH _ H _ _ _ _ _ _ E1).
    - intros [|f] k q s s' t E; [discriminate|]. cbn [Peg.run] in E. destruct (run f e k q s) as [s1 t1|s1 t1| |] eqn:E1; try discriminate. exact (IH _ H _ _ _ _ _ _ E1).
    - intros [|f] k' q s s' t E; [discriminate|]. cbn [Peg.run] in E. exact (IH _ H _ _ _ _ _ _ E).
    - intros [|f] k q s s' t E; [discriminate|]. cbn [Peg.run] in E. exact (IH _ H _ _ _ _ _ _ E).
    - apply skip_safe.
  Qed.

  (** ** Expressions that do not fail before a letter *)
  (** a failure leaves the place in the text *)
  Fixpoint restores (n : nat) (e : pexp rule) : bool :=
    match n with O => false | S n =>
      match e with
      | ESeq _ | EStr _ | EClass _ => true
      | EElse a b => restores n a && restores n b
      | ERestore a | ERule _ a | EAtomic _ a => restores n a
      | ECall r => restores n (grammar r)
      | _ => false
      end
    end.
  Lemma restores_sound : forall n e, restores n e = true -> forall f k q s s' t, run f e k q s = PErr s' t -> rest s' = rest s.
  Proof.
    induction n as [|n IH]; intros e H; [discriminate|]. intros [|f] k q s s' t E; [discriminate|]. destruct e; cbn [restores] in H; try discriminate; cbn [Peg.run] in E.
    - match type of E with take _ ?x = _ => destruct x end; cbn [take] in E; try discriminate. injection E as <- _. reflexivity.
    - unfold take_char in E. destruct (rest s) eqn:R; [injection E as <- _; exact R|]. match type of E with (if ?x then _ else _) = _ => destruct x end; [discriminate|]. injection E as <- _. exact R.
    - apply andb_prop in H as [Ha Hb]. destruct (run f e1 k q s) as [s1 t1|s1 t1| |] eqn:E1; try discriminate.
      destruct (run f e2 k q s1) as [s2 t2|s2 t2| |] eqn:E2; cbn [prepend] in E; try discriminate. injection E as <- _.
      rewrite (IH _ Hb _ _ _ _ _ _ E2). exact (IH _ Ha _ _ _ _ _ _ E1).
    - destruct (run f e k q s) as [s1 t1|s1 t1| |] eqn:E1; try discriminate. injection E as <- _. reflexivity.
    - destruct (run f e k q s) as [s1 t1|s1 t1| |] eqn:E1; try discriminate. injection E as <- _. exact (IH _ H _ _ _ _ _ _ E1).
    - destruct (run f e k q s) as [s1 t1|s1 t1| |] eqn:E1; try discriminate. injection E as <- _. exact (IH _ H _ _ _ _ _ _ E1).
    - exact (IH _ H _ _ _ _ _ _ E).
    - exact (IH _ H _ _ _ _ _ _ E).
  Qed.
  Fixpoint accepts (n : nat) (e : pexp rule) : bool :=
    match n with O => false | S n =>
      match e with
      | EClass XidStart => true
      | EThen a b => accepts n a && never n b
      | EElse a b => accepts n a || restores n a && accepts n b
      | ESeq a | ERestore a | ERule _ a | EAtomic _ a => accepts n a
      | ECall r => accepts n (grammar r)
      | _ => false
      end
    end.
  Lemma accepts_sound : forall n e, accepts n e = true -> forall f k q s s' t, head_is (xid_start U) (rest s) = true -> run f e k q s <> PErr s' t.
  Proof.
    induction n as [|n IH]; intros e H; [discriminate|]. intros [|f] k q s s' t Hs E; [discriminate|]. destruct e; cbn [accepts] in H; try discriminate; cbn [Peg.run] in E.
    - match type of H with match ?x with _ => _ end = _ => destruct x end; try discriminate. unfold take_char in E. destruct (rest s) as [|c w]; [discriminate|]. cbn [head_is] in Hs. cbn [in_class] in E. rewrite Hs in E. discriminate.
    - apply andb_prop in H as [Ha Hb]. destruct (run f e1 k q s) as [s1 t1|s1 t1| |] eqn:E1; try discriminate; [|exact (IH _ Ha _ _ _ _ _ _ Hs E1)].
      destruct (run f e2 k q s1) as [s2 t2|s2 t2| |] eqn:E2; cbn [prepend] in E; try discriminate. exact (never_safe _ _ Hb _ _ _ _ _ _ E2).
    - destruct (run f e1 k q s) as [s1 t1|s1 t1| |] eqn:E1; try discriminate. apply orb_prop in H as [H|H]; [exact (IH _ H _ _ _ _ _ _ Hs E1)|].
      apply andb_prop in H as [Hr H]. destruct (run f e2 k q s1) as [s2 t2|s2 t2| |] eqn:E2; cbn [prepend] in E; try discriminate.
      refine (IH _ H _ _ _ _ _ _ _ E2). rewrite (restores_sound _ _ Hr _ _ _ _ _ _ E1). exact Hs.
    - destruct (run f e k q s) as [s1 t1|s1 t1| |] eqn:E1; try discriminate. exact (IH _ H _ _ _ _ _ _ Hs E1).
    - destruct (run f e k q s) as [s1 t1|s1 t1| |] eqn:E1; try discriminate. exact (IH _ H _ _ _ _ _ _ Hs E1).
    - destruct (run f e k q s) as [s1 t1|s1 t1| |] eqn:E1; try discriminate. exact (IH _ H _ _ _ _ _ _ Hs E1).
    - exact (IH _ H _ _ _ _ _ _ Hs E).
    - exact (IH _ H _ _ _ _ _ _ Hs E).
  Qed.
  Lemma accepts_call : forall r k q s, accepts 60 (ECall r) = true -> needs_stack r = false -> head_is (xid_start U) (rest s) = true -> exists s' t, ev (ECall r) k q s (POk s' t).
  Proof.
    intros r k q s H N Hs. destruct (call_decides U r k q s N) as [X|(s' & t & _ & f & E)]; [exact X|]. exfalso. exact (accepts_sound _ _ H _ _ _ _ _ _ Hs E).
  Qed.
  Lemma rule_emits : forall r e k s s' t, grammar r = ERule r e -> emits k false = true -> ev (ECall r) k false s (POk s' t) -> exists T, t = [T] /\ t_rule T = r.
  Proof.
    intros r e k s s' t G M [_ [f E]]. do 2 (destruct f as [|f]; [discriminate|]). cbn [Peg.run] in E. rewrite G in E. cbn [Peg.run] in E.
    destruct (run f e k false s); try discriminate. rewrite M in E. injection E as _ <-. eexists. split; reflexivity.
  Qed.

  (** ** Texts that are refused *)
  Lemma statement_refused : forall text, solid text = true -> text <> [] -> fails (ECall R_statement) NonAtomic false (mkPs 0 text []) ->
    forall f, parse U f text = Ret (Err SMParseError).
  Proof.
    intros text Hs N F f. pose proof (skip_nothing U 0 text [] Hs) as SK.
    assert (B : ev program_body NonAtomic false (mkPs 0 text []) (POk (mkPs 0 text []) [])) by (apply ok_seq, no_opt, er_then, er_restore, F).
    assert (EO : exists s t, ev (ECall R_EOI) NonAtomic false (mkPs 0 text []) (PErr s t)).
    { destruct text as [|c w]; [congruence|]. eexists. eexists. apply ev_call. exact (ev_rule U grammar skip_body R_EOI EEoi NonAtomic false _ _ (ev_eoi_err U grammar skip_body _ _ _ _ _ _)). }
    destruct EO as (s5 & t5 & EO).
    pose proof (ev_then U grammar skip_body _ _ _ _ _ _ _ _ (ok_then1 U _ _ _ _ _ _ _ _ B SK) EO) as R1. cbn [prepend app] in R1. fold program_rest in R1.
    unfold parse. rewrite (program_unfold U text _ _ _ SK R1). reflexivity.
  Qed.
  Hypothesis HU : sane U.
  Lemma expr_refused : forall text, solid text = true -> plain_start text = true -> text <> [] -> fails (ECall R_expr) NonAtomic false (mkPs 0 text []) ->
    forall f, parse U f text = Ret (Err SMParseError).
  Proof.
    intros text Hs Hp N F. apply statement_refused; [exact Hs|exact N|]. apply er_call. apply (er_else U before_expression); [apply er_before; exact Hp|].
    apply er_restore, er_call, er_rule, er_seq0. do 2 apply er_then. exact F.
  Qed.
  Lemma white_dead : forall c, white_space c = true -> dead U c = true.
  Proof.
    intros c H. unfold dead, joins, word_head. destruct (HU c) as [X _]; [rewrite H; apply orb_true_r|]. rewrite X.
    assert (N : forall d, white_space d = false -> (c =? d)%N = false) by (intros d Hd; apply N.eqb_neq; intros ->; congruence).
    unfold prefix_char. rewrite !N by reflexivity.
    assert (D : digit c = false). { unfold digit. destruct (N.leb_spec 48 c); [|reflexivity]. destruct (N.leb_spec c 57); [|reflexivity]. cbn [andb].
      assert (Y : In c [48; 49; 50; 51; 52; 53; 54; 55; 56; 57]%N) by (cbn; lia). cbn [In] in Y. repeat (destruct Y as [<-|Y]; [discriminate H|]). contradiction. }
    rewrite D. cbn [existsb]. rewrite !N by reflexivity. reflexivity.
  Qed.
  (** an opening bracket with white space after it *)
  Lemma node_space : forall p c w, white_space c = true -> fails (ECall R_node) CompoundAtomic false (mkPs p (40%N :: c :: w) []).
  Proof.
    intros p c w Hc. apply er_call, er_rule. repeat apply er_else.
    - assert (E1 : ev (EStr (lit "(")) CompoundAtomic false (mkPs p (40%N :: c :: w) []) (POk (mkPs (p + 1) (c :: w) []) [])) by exact (ev_str U grammar skip_body (lit "(") _ _ p (c :: w) []).
      assert (E2 : ev ESkip CompoundAtomic false (mkPs (p + 1) (c :: w) []) (POk (mkPs (p + 1) (c :: w) []) [])) by (split; [discriminate|exists 1; reflexivity]).
      pose proof (ok_then U _ _ _ _ _ _ _ _ _ E1 E2) as E3. pose proof (ev_then U grammar skip_body _ _ _ _ _ _ _ _ E3 (er_expr_dead U CompoundAtomic (p + 1) c w [] (white_dead c Hc))) as E4.
      cbn [prepend app] in E4. apply er_restore. eapply er_seq; [do 2 apply ev_then_err; exact E4|reflexivity].
    - apply er_restore, er_apply_call_head. reflexivity.
    - apply er_restore, er_derivative_head. reflexivity.
    - apply er_restore, er_space_call_head; reflexivity.
    - apply er_restore, er_call, er_atomic, er_rule. repeat apply er_else.
      + apply er_dict. reflexivity.
      + apply er_list. reflexivity.
      + apply er_Special. reflexivity.
      + apply er_REPL. reflexivity.
      + apply er_Slot. reflexivity.
      + apply er_Number. reflexivity.
      + apply er_String_head; reflexivity.
      + apply er_Symbol. reflexivity.
  Qed.
  Lemma text_space : forall g cs c w, spacing g = true -> forallb prefix_char cs = true -> white_space c = true ->
    forall f, parse U f (g ++ cs ++ 40%N :: c :: w) = Ret (Err SMParseError).
  Proof.
    intros g cs c w Hg Hcs Hc f.
    assert (R : forall f, parse U f (cs ++ 40%N :: c :: w) = Ret (Err SMParseError)).
    { apply expr_refused.
      - destruct cs as [|d cs]; [reflexivity|]. cbn [forallb] in Hcs. apply andb_prop in Hcs as [Hd _]. unfold prefix_char in Hd.
        repeat (apply orb_prop in Hd as [Hd|Hd]); apply N.eqb_eq in Hd; subst d; reflexivity.
      - destruct cs as [|d cs]; [reflexivity|]. cbn [forallb] in Hcs. apply andb_prop in Hcs as [Hd _]. unfold prefix_char in Hd.
        repeat (apply orb_prop in Hd as [Hd|Hd]); apply N.eqb_eq in Hd; subst d; reflexivity.
      - destruct cs; discriminate.
      - apply er_call, er_atomic, er_rule, er_seq0. do 2 apply er_then. apply er_call, er_atomic, er_rule.
        destruct (ok_prefixes U cs 0 (40%N :: c :: w) [] Hcs eq_refl) as (ts & E & _). pose proof (ev_then U grammar skip_body _ _ _ _ _ _ _ _ E (node_space (0 + length cs) c w Hc)) as E1. cbn [prepend] in E1.
        eapply er_seq; [apply ev_then_err; exact E1|reflexivity]. }
    pose proof (leading_spacing U f g (cs ++ 40%N :: c :: w) Hg) as L. rewrite R in L. cbn in L.
    destruct (parse U f (g ++ cs ++ 40%N :: c :: w)) as [[a|e]| |]; cbn in L; try discriminate. injection L as ->. reflexivity.
  Qed.
  Lemma refused_after : forall g text, spacing g = true -> (forall f, parse U f text = Ret (Err SMParseError)) -> forall f, parse U f (g ++ text) = Ret (Err SMParseError).
  Proof.
    intros g text Hg R f. pose proof (leading_spacing U f g text Hg) as L. rewrite R in L. cbn in L.
    destruct (parse U f (g ++ text)) as [[a|e]| |]; cbn in L; try discriminate. injection L as ->. reflexivity.
  Qed.
  Lemma text_no_start : forall g c w, spacing g = true -> In c no_start -> forall f, parse U f (g ++ c :: w) = Ret (Err SMParseError).
  Proof.
    intros g c w Hg Hc. apply refused_after; [exact Hg|]. cbn [no_start In] in Hc.
    assert (D : dead U c = true /\ solid (c :: w) = true /\ plain_start (c :: w) = true) by (repeat (destruct Hc as [<-|Hc]; [repeat split; reflexivity|]); contradiction).
    destruct D as (D & S & P). apply expr_refused; [exact S|exact P|discriminate|]. apply er_expr_dead. exact D.
  Qed.

  (** ** Declarations *)
  Definition before_class : pexp rule :=
    EElse (ECall R_emptyStatement) (ERestore (ESeq (EThen (EThen (ECall R_importStatement) ESkip) (EOpt (ECall R_eos))))).
  Definition before_trait : pexp rule := EElse before_class (ERestore (ESeq (EThen (EThen (ECall R_classStatement) ESkip) (EOpt (ECall R_eos))))).
  Definition before_assign : pexp rule := EElse before_control (ERestore (ESeq (EThen (EThen (ECall R_controlFlow) ESkip) (EOpt (ECall R_eos))))).
  Definition before_annotation : pexp rule := EElse (EElse before_assign
    (ERestore (ESeq (EThen (EThen (ECall R_assignStatement) ESkip) (EOpt (ECall R_eos))))))
    (ERestore (ESeq (EThen (EThen (ECall R_defineStatement) ESkip) (EOpt (ECall R_eos))))).
  Lemma look_fails : forall e word w, fails_on U grammar skip_body 60 e NonAtomic false (mkLook word true) = true -> fails e NonAtomic false (mkPs 0 (word ++ w) []).
  Proof.
    intros e word w H. apply (fails_sound U grammar skip_body 60 e NonAtomic false [mkLook word true] 0 (word ++ w) []).
    - cbn [forallb]. rewrite H. reflexivity.
    - exists (mkLook word true). split; [left; reflexivity|]. exists w. split; [reflexivity|discriminate].
  Qed.
  (** a statement with its optional semicolon *)
  Lemma with_eos : forall r p w s t, ev (ECall r) NonAtomic false (mkPs p w []) (POk s t) -> exists s' t',
    ev (ERestore (ESeq (EThen (EThen (ECall r) ESkip) (EOpt (ECall R_eos))))) NonAtomic false (mkPs p w []) (POk s' (t ++ t')).
  Proof.
    intros r p w s t E. destruct (skip_total U s) as (s1 & t1 & E1). destruct (opt_total U R_eos NonAtomic false s1 eq_refl) as (s2 & t2 & E2).
    pose proof (ok_then U _ _ _ _ _ _ _ _ _ (ok_then U _ _ _ _ _ _ _ _ _ E E1) E2) as X. apply ok_seq, ok_restore in X. rewrite <- app_assoc in X. eauto.
  Qed.
  Lemma other_statement : forall r e text s t, grammar r = ERule r e -> solid text = true -> r <> R_expression -> r <> R_EOI -> r <> R_COMMENT ->
    ev (ECall r) NonAtomic false (mkPs 0 text []) (POk s t) ->
    (forall s t, ev (ERestore (ESeq (EThen (EThen (ECall r) ESkip) (EOpt (ECall R_eos))))) NonAtomic false (mkPs 0 text []) (POk s t) -> ev (ECall R_statement) NonAtomic false (mkPs 0 text []) (POk s t)) ->
    denotes_or_refused U text (Panic PUnreachable).
  Proof.
    intros r e text s t G Hs N1 N2 N3 E C. destruct (rule_emits r e NonAtomic _ _ _ G eq_refl E) as (T & -> & R). destruct (with_eos r 0 text s [T] E) as (s' & t' & X).
    cbn [app] in X. apply (first_other U text s' T t' Hs (C _ _ X)); congruence.
  Qed.
  Lemma letter_solid : forall w, head_is (xid_start U) w = true -> solid w = true /\ head_is (N.eqb 46) w = false.
  Proof.
    intros [|c w] H; [discriminate|]. cbn [head_is] in H.
    assert (N : forall d, xid_start U d = false -> (d =? c)%N = false) by (intros d Hd; apply N.eqb_neq; intros ->; congruence).
    unfold solid. cbn [head_is strip_prefix lit]. split; [|apply N; reflexivity].
    assert (W : white_space c = false) by (apply not_true_iff_false; intros W; destruct (HU c) as [X _]; [rewrite W; apply orb_true_r|congruence]).
    rewrite W. change (lit "//") with [47; 47]%N. change (lit "%%%") with [37; 37; 37]%N. cbn [strip_prefix]. rewrite !N by reflexivity. reflexivity.
  Qed.
  (** keyword, white space, letter *)
  Lemma keyword_call : forall word r g w, spacing g = true -> head_is (xid_start U) w = true -> accepts 60 (ECall r) = true -> needs_stack r = false ->
    exists s t, ev (EThen (EThen (EStr word) ESkip) (ECall r)) NonAtomic false (mkPs 0 (word ++ g ++ w) []) (POk s t).
  Proof.
    intros word r g w Hg Hw Ha N. pose proof (ev_str U grammar skip_body word NonAtomic false 0 (g ++ w) []) as E1.
    pose proof (skip_spacing U g (0 + length word) w [] Hg (proj1 (letter_solid w Hw))) as E2.
    destruct (accepts_call r NonAtomic false (mkPs (0 + length word + length g) w []) Ha N Hw) as (s & t & E3). exists s. eexists.
    exact (ok_then U _ _ _ _ _ _ _ _ _ (ok_then U _ _ _ _ _ _ _ _ _ E1 E2) E3).
  Qed.
  Lemma opt_restore_total : forall r k q s, needs_stack r = false -> exists s' t, ev (EOpt (ERestore (ECall r))) k q s (POk s' t).
  Proof.
    intros r k q s H. destruct (call_decides U r k q s H) as [(s' & t & E)|(s' & t & E)]; apply (ev_restore U grammar skip_body) in E; apply (ev_opt U grammar skip_body) in E; cbn [opt_res restore_res] in E; eauto.
  Qed.
  Lemma text_let : forall g w, spacing g = true -> head_is (xid_start U) w = true -> denotes_or_refused U (lit "let" ++ g ++ w) (Panic PUnreachable).
  Proof.
    intros g w Hg Hw. destruct (keyword_call (lit "let") R_assign_terms g w Hg Hw ltac:(vm_compute; reflexivity) eq_refl) as (s & t & E). apply ok_seq in E.
    pose proof (ev_rule U grammar skip_body R_assignStatement _ NonAtomic false _ _ E) as E'. cbn [rule_res] in E'.
    eapply (other_statement R_assignStatement); [reflexivity|reflexivity|discriminate|discriminate|discriminate|apply ev_call; exact E'|].
    intros s1 t1 X. apply ev_call. cbn [grammar]. do 3 apply ev_else_ok. eapply (ev_else_err U before_assign); [apply look_fails; vm_compute; reflexivity|exact X].
  Qed.
  Lemma pair_block : forall word g w, spacing g = true -> head_is (xid_start U) w = true ->
    exists s t, ev (ESeq (EThen (EThen (EThen (EThen (EStr word) ESkip) (ECall R_assign_pair)) ESkip) (EOpt (ERestore (ECall R_short_block))))) NonAtomic false (mkPs 0 (word ++ g ++ w) []) (POk s t).
  Proof.
    intros word g w Hg Hw. destruct (keyword_call word R_assign_pair g w Hg Hw ltac:(vm_compute; reflexivity) eq_refl) as (s & t & E).
    destruct (skip_total U s) as (s1 & t1 & E1). destruct (opt_restore_total R_short_block NonAtomic false s1 eq_refl) as (s2 & t2 & E2). exists s2. eexists.
    apply ok_seq. exact (ok_then U _ _ _ _ _ _ _ _ _ (ok_then U _ _ _ _ _ _ _ _ _ E E1) E2).
  Qed.
  Lemma text_class : forall g w, spacing g = true -> head_is (xid_start U) w = true -> denotes_or_refused U (lit "class" ++ g ++ w) (Panic PUnreachable).
  Proof.
    intros g w Hg Hw. destruct (pair_block (lit "class") g w Hg Hw) as (s & t & E).
    pose proof (ev_rule U grammar skip_body R_classStatement _ NonAtomic false _ _ E) as E'. cbn [rule_res] in E'.
    eapply (other_statement R_classStatement); [reflexivity|reflexivity|discriminate|discriminate|discriminate|apply ev_call; exact E'|].
    intros s1 t1 X. apply ev_call. cbn [grammar]. do 7 apply ev_else_ok. eapply (ev_else_err U before_class); [apply look_fails; vm_compute; reflexivity|exact X].
  Qed.
  Lemma text_trait : forall g w, spacing g = true -> head_is (xid_start U) w = true -> denotes_or_refused U (lit "trait" ++ g ++ w) (Panic PUnreachable).
  Proof.
    intros g w Hg Hw. destruct (pair_block (lit "trait") g w Hg Hw) as (s & t & E).
    pose proof (ev_rule U grammar skip_body R_traitStatement _ NonAtomic false _ _ E) as E'. cbn [rule_res] in E'.
    eapply (other_statement R_traitStatement); [reflexivity|reflexivity|discriminate|discriminate|discriminate|apply ev_call; exact E'|].
    intros s1 t1 X. apply ev_call. cbn [grammar]. do 6 apply ev_else_ok. eapply (ev_else_err U before_trait); [apply look_fails; vm_compute; reflexivity|exact X].
  Qed.
  Lemma text_using : forall g w, spacing g = true -> head_is (xid_start U) w = true -> denotes_or_refused U (lit "using" ++ g ++ w) (Panic PUnreachable).
  Proof.
    intros g w Hg Hw. destruct (letter_solid w Hw) as [Hs Hd].
    pose proof (ev_str U grammar skip_body (lit "using") NonAtomic false 0 (g ++ w) []) as E1. pose proof (skip_spacing U g (0 + 5) w [] Hg Hs) as E2.
    pose proof (ok_then U _ _ _ _ _ _ _ _ _ E1 E2) as E3.
    assert (E4 : ev (ESeq (EOpt (EThen (ECall R_Dot) (ERep (ESeq (EThen ESkip (ECall R_Dot))))))) NonAtomic false (mkPs (0 + 5 + length g) w []) (POk (mkPs (0 + 5 + length g) w []) [])).
    { apply ok_seq, no_opt, er_then, er_Dot. exact Hd. }
    pose proof (ok_then U _ _ _ _ _ _ _ _ _ (ok_then U _ _ _ _ _ _ _ _ _ E3 E4) (skip_nothing U (0 + 5 + length g) w [] Hs)) as E5.
    assert (E6 : exists s t, ev (EElse (ERestore (ECall R_use_alias)) (ERestore (ECall R_use_module_select))) NonAtomic false (mkPs (0 + 5 + length g) w []) (POk s t)).
    { destruct (call_decides U R_use_alias NonAtomic false (mkPs (0 + 5 + length g) w []) eq_refl) as [(s & t & E)|(s & t & E)].
      - exists s, t. apply ev_else_ok, ok_restore, E.
      - apply (ev_restore U grammar skip_body) in E. cbn [restore_res] in E. destruct E as [Q [f E]].
        assert (R : rest (mkPs (pos s) (rest s) []) = w).
        { refine (restores_sound 60 (ERestore (ECall R_use_alias)) _ _ _ _ _ _ _ E). vm_compute. reflexivity. }
        destruct (accepts_call R_use_module_select NonAtomic false (mkPs (pos s) (rest s) []) ltac:(vm_compute; reflexivity) eq_refl) as (s' & t' & E').
        { rewrite R. exact Hw. }
        apply ok_restore in E'. pose proof (ev_else U grammar skip_body _ _ _ _ _ _ _ _ (conj Q (ex_intro _ f E)) E') as X. cbn [prepend] in X. eauto. }
    destruct E6 as (s & t & E6). pose proof (ok_seq U _ _ _ _ _ _ (ok_then U _ _ _ _ _ _ _ _ _ E5 E6)) as E7.
    pose proof (ev_rule U grammar skip_body R_importStatement _ NonAtomic false _ _ E7) as E'. cbn [rule_res] in E'.
    eapply (other_statement R_importStatement); [reflexivity|reflexivity|discriminate|discriminate|discriminate|apply ev_call; exact E'|].
    intros s1 t1 X. apply ev_call. cbn [grammar]. do 8 apply ev_else_ok. eapply (ev_else_err U (ECall R_emptyStatement)); [apply look_fails; vm_compute; reflexivity|exact X].
  Qed.
  Lemma er_guard : forall a k q s s1 t1, ev a k q s (PErr s1 t1) -> fails (ERestore (ESeq a)) k q s.
  Proof.
    intros a k q s s1 t1 E. pose proof (ev_restore U grammar skip_body _ _ _ _ _ (ev_seq U grammar skip_body _ _ _ _ _ E)) as X. cbn [seq_res restore_res pos rest] in X. destruct s. exact X.
  Qed.
  (** @ at the start: an annotation, or nothing *)
  Lemma text_at : forall w, denotes_or_refused U (64%N :: w) (Panic PUnreachable).
  Proof.
    intros w. destruct (call_decides U R_annotation NonAtomic false (mkPs 0 (64%N :: w) []) eq_refl) as [(s & t & E)|(s & t & E)].
    - eapply (other_statement R_annotation); [reflexivity|reflexivity|discriminate|discriminate|discriminate|exact E|].
      intros s1 t1 X. apply ev_call. cbn [grammar]. apply ev_else_ok. eapply (ev_else_err U before_annotation); [apply (look_fails _ (lit "@")); vm_compute; reflexivity|exact X].
    - left. apply statement_refused; [reflexivity|discriminate|]. apply er_call. apply er_else; [apply (er_else U before_annotation); [apply (look_fails _ (lit "@")); vm_compute; reflexivity|]|].
      + apply (er_guard _ _ _ _ s t). do 2 apply ev_then_err. exact E.
      + apply er_restore, er_call, er_rule, er_seq0. do 2 apply er_then. apply er_expr_dead. reflexivity.
  Qed.
  (** return and an expression *)
  Lemma text_return : forall g x o ws c w, spacing g = true -> expr_means U x o -> front x = true ->
    (closing ws = true -> denotes_or_refused U (lit "return" ++ g ++ x ++ ws) (Panic PUnreachable)) /\ (spacing ws = true -> semi c = true -> denotes_or_refused U (lit "return" ++ g ++ x ++ ws ++ c :: w) (Panic PUnreachable)).
  Proof.
    intros g x o ws c w Hg Hx Fx.
    assert (G : forall v, expr_stop U ws v -> denotes_or_refused U (lit "return" ++ g ++ x ++ ws ++ v) (Panic PUnreachable)).
    { intros v Hv.
      assert (F : fails before_control NonAtomic false (mkPs 0 (lit "return" ++ g ++ x ++ ws ++ v) [])) by (apply look_fails; vm_compute; reflexivity).
      assert (E1 : exists T, ev (ECall R_Return) NonAtomic false (mkPs 0 (lit "return" ++ g ++ x ++ ws ++ v) []) (POk (mkPs 6 (g ++ x ++ ws ++ v) []) [T])).
      { eexists. apply ev_call. cbn [grammar]. apply (ok_rule U R_Return _ NonAtomic 0 (lit "return") (g ++ x ++ ws ++ v) [] []). apply ev_atomic. apply (ev_str U grammar skip_body (lit "return")). }
      destruct E1 as (T & E1). pose proof (skip_spacing U g 6 (x ++ ws ++ v) [] Hg (front_solid _ _ Fx)) as E2.
      destruct (Hx NonAtomic (6 + length g) ws v [] Hv) as (s & T2 & E3 & _ & _ & _).
      pose proof (ok_restore U _ _ _ _ _ _ (ok_seq U _ _ _ _ _ _ (ok_then U _ _ _ _ _ _ _ _ _ (ok_then U _ _ _ _ _ _ _ _ _ E1 E2) E3))) as E4.
      pose proof (ev_rule U grammar skip_body R_re_control _ NonAtomic false _ _ (ev_else_ok U grammar skip_body _ (ECall R_Pass) _ _ _ _ _ (ev_else_ok U grammar skip_body _ (ECall R_Break) _ _ _ _ _ E4))) as E5.
      cbn [rule_res emits negb] in E5.
      assert (C : exists T t', ev (ECall R_controlFlow) NonAtomic false (mkPs 0 (lit "return" ++ g ++ x ++ ws ++ v) []) (POk s (T :: t')) /\ t_rule T = R_re_control).
      { eexists. eexists. split; [apply ev_call; cbn [grammar]; do 2 apply ev_else_ok; apply ok_restore, ev_call; exact E5|reflexivity]. }
      destruct C as (T' & t' & C & R). destruct (with_eos R_controlFlow 0 _ s _ C) as (s' & t2 & X). cbn [app] in X.
      eapply (first_other U _ s' T' (t' ++ t2)); [reflexivity| |congruence|congruence|congruence].
      apply ev_call. cbn [grammar]. do 4 apply ev_else_ok. eapply (ev_else_err U before_control); [exact F|exact X]. }
    split.
    - intro Hws. pose proof (G [] (end_stop U HU ws Hws)) as X. rewrite !app_nil_r in X. exact X.
    - intros Hws Hc. apply G, ends_stop; [exact HU|exact Hws|]. apply orb_prop in Hc as [Hc|Hc]; apply N.eqb_eq in Hc; subst c; reflexivity.
  Qed.

  (** ** A block comment before statements *)
  Lemma first_of : forall w, statements U w -> closing w = true \/ exists g text w', w = g ++ text /\ spacing g = true /\ solid text = true /\ more_ok U w' /\
    forall p, exists p' ts, ev (ECall R_statement) NonAtomic false (mkPs p text []) (POk (mkPs p' w' []) ts).
  Proof.
    intros w [ws Hw|g x o ws Hg Hx Hp Hw|g x o ws c w' Hg Hx Hp Hw Hc H]; [left; exact Hw| |]; right; destruct (source_expr U HU x o Hx) as [Mx Fx];
      assert (N : x <> []) by (intros ->; discriminate).
    - exists g, (x ++ ws), []. split; [reflexivity|]. split; [exact Hg|]. split; [apply front_solid; exact Fx|]. split; [apply more_white; reflexivity|].
      intros p. pose proof (statement_expr U x o p ws [] []) as S. rewrite app_nil_r in S.
      pose proof (plain_start_app x (ws ++ []) N Hp (closing_lower ws Hw)) as P. rewrite app_nil_r in P.
      destruct (S P Mx (end_stop U HU ws Hw) eq_refl) as (T & E & _). eauto.
    - assert (L : forall r, head_is lower (c :: r) = false) by (intro; apply orb_prop in Hc as [Hc|Hc]; apply N.eqb_eq in Hc; subst c; reflexivity).
      assert (E : ends c = true) by (apply orb_prop in Hc as [Hc|Hc]; apply N.eqb_eq in Hc; subst c; reflexivity).
      exists g, (x ++ ws ++ c :: w'), w'. split; [reflexivity|]. split; [exact Hg|]. split; [apply front_solid; exact Fx|]. split; [apply statements_more; assumption|].
      intros p. destruct (statement_semi U x o p ws c w' [] (plain_start_app _ _ N Hp (white_lower _ _ Hw (L _))) Mx (ends_stop U HU ws c _ Hw E) Hc) as (T & E1 & _). eauto.
  Qed.
  Lemma eoi_ev : forall p, exists E, ev (ECall R_EOI) NonAtomic false (mkPs p [] []) (POk (mkPs p [] []) E).
  Proof. intros p. eexists. apply ev_call. cbn [grammar]. exact (ev_rule U grammar skip_body R_EOI EEoi NonAtomic false _ _ (ev_eoi U grammar skip_body _ _ _ _)). Qed.
  Lemma text_comment : forall g body w, spacing g = true -> no_percent body = true -> statements U w -> no_percent w = true ->
    denotes U (g ++ comment body ++ w) (Panic PUnreachable).
  Proof.
    intros g body w Hg Hb Hw Np. apply denotes_skip; [exact Hg|].
    assert (K : forall T s E, t_rule T = R_MultiLineComment -> run_program U (comment body ++ w) = POk s (T :: E) -> denotes U (comment body ++ w) (Panic PUnreachable)).
    { intros T s E RT P f. unfold parse. rewrite P. cbn [parse_pairs]. rewrite RT. reflexivity. }
    destruct (first_of w Hw) as [H|(g1 & text & w' & -> & H1 & H2 & H3 & H4)].
    - destruct (skip_comment_gone U [] body w 0 [] [] eq_refl Hb (closing_gone U w H)) as (T & E0 & RT); [rewrite app_nil_r; exact Np|]. rewrite app_nil_r in E0. cbn [app] in E0.
      set (p := 0 + length (comment body ++ w)) in *.
      assert (E1 : ev program_body NonAtomic false (mkPs p [] []) (POk (mkPs p [] []) [])) by (apply ok_seq, no_opt, er_then, er_restore, er_statement_end).
      pose proof (ok_then1 U _ _ _ _ _ _ _ _ E1 (skip_nothing U p [] [] eq_refl)) as E2. destruct (eoi_ev p) as [E E3].
      pose proof (ok_then U _ _ _ _ _ _ _ _ _ E2 E3) as E4. fold program_rest in E4. eapply (K T _ _ RT).
      rewrite (program_unfold U _ _ _ _ E0 E4). reflexivity.
    - destruct (skip_comment U [] body g1 0 text [] eq_refl Hb H1 Np H2) as (T & E0 & RT). cbn [app] in E0.
      set (p := 0 + length (comment body ++ g1)) in *. destruct (H4 p) as (p1 & ts & H). destruct (H3 p1) as (p' & ws & Em & Hws & Hm).
      assert (S : ev ESkip NonAtomic false (mkPs p' ws []) (POk (mkPs (p' + length ws) [] []) [])).
      { apply skip_closing. exact Hws. }
      pose proof (ok_then U _ _ _ _ _ _ _ _ _ (ok_restore U _ _ _ _ _ _ H) Hm) as E1.
      apply ok_opt in E1. apply ok_seq in E1. unfold more_statements in E1. fold program_body in E1.
      pose proof (ok_then1 U _ _ _ _ _ _ _ _ E1 S) as E2. destruct (eoi_ev (p' + length ws)) as [E E3].
      pose proof (ok_then U _ _ _ _ _ _ _ _ _ E2 E3) as E4. fold program_rest in E4. eapply (K T _ _ RT).
      rewrite (program_unfold U _ _ _ _ E0 E4). reflexivity.
  Qed.

  Lemma or_refused_skip : forall g text o, spacing g = true -> denotes_or_refused U text o -> denotes_or_refused U (g ++ text) o.
  Proof. intros g text o Hg [H|H]; [left; apply refused_after; assumption|right; apply denotes_skip; assumption]. Qed.
  Lemma text_other : forall g text, spacing g = true -> other_start U text -> denotes_or_refused U (g ++ text) (Panic PUnreachable).
  Proof.
    intros g text Hg H. apply or_refused_skip; [exact Hg|]. destruct H as [c w Hc|w|w|w|k g' w Hk Hg' Hw|g' x o ws Hg' Hx Hw|g' x o ws c w Hg' Hx Hw Hc].
    - apply first_semi. exact Hc.
    - apply text_at.
    - apply first_break.
    - apply first_pass.
    - destruct Hk as [<-|[<-|[<-|[<-|[]]]]]; [apply text_let|apply text_class|apply text_trait|apply text_using]; assumption.
    - destruct (source_expr U HU x o Hx) as [Mx Fx]. exact (proj1 (text_return g' x o ws 59%N [] Hg' Mx Fx) Hw).
    - destruct (source_expr U HU x o Hx) as [Mx Fx]. exact (proj2 (text_return g' x o ws c w Hg' Mx Fx) Hw Hc).
  Qed.

  Lemma text_based_value : forall g b P s ws, spacing g = true -> based b P -> s <> [] -> grouped P s = true -> hd_error s <> Some 95%N -> closing ws = true ->
    denotes U (g ++ ([48%N; b] ++ s) ++ ws) (Ret (Integer (based_value (base_of b) s))).
  Proof.
    intros g b P s ws Hg Hb N Gs Hh Hw. pose proof (text_based U HU g b P s ws Hg Hb N Gs Hw) as H. cbn [app]. replace (Ret (Integer (based_value (base_of b) s))) with (byte_value b s); [exact H|].
    unfold byte_value. destruct s as [|c s]; [congruence|]. destruct (N.eq_dec c 95) as [->|E]; [elim Hh; reflexivity|].
    destruct c as [|c]; [reflexivity|]. do 7 (destruct c as [c|c|]; try reflexivity). elim E. reflexivity.
  Qed.
  Lemma text_based_panic : forall g b P s ws, spacing g = true -> based b P -> s <> [] -> grouped P s = true -> hd_error s = Some 95%N -> closing ws = true ->
    denotes U (g ++ ([48%N; b] ++ s) ++ ws) (Panic PUnwrap).
  Proof.
    intros g b P s ws Hg Hb N Gs Hh Hw. pose proof (text_based U HU g b P s ws Hg Hb N Gs Hw) as H. destruct s as [|c s]; [congruence|]. injection Hh as ->. exact H.
  Qed.
  Lemma text_verbatim : forall g s ws, spacing g = true -> ~ In 34%N s -> ~ In 92%N s -> closing ws = true -> denotes U (g ++ quoted s ++ ws) (Ret (Str s)).
  Proof.
    intros g s ws Hg H1 H2 Hw. apply text_string; [exact HU|exact Hg| |exact Hw]. rewrite <- (escape_plain s H1 H2). apply quotable_escape.
  Qed.
  Lemma text_break_pass : forall g w, spacing g = true -> denotes_or_refused U (g ++ lit "break" ++ w) (Panic PUnreachable) /\ denotes_or_refused U (g ++ lit "pass" ++ w) (Panic PUnreachable).
  Proof. intros g w Hg. split; apply text_other; [exact Hg|apply os_break|exact Hg|apply os_pass]. Qed.
  Lemma number_argument : forall x n, numeral_of n x -> SpecSource.argument U x (None, Ret (Integer n)).
  Proof. intros x n H. apply numeral_of_numeral in H as [H <-]. apply SpecSource.a_plain, node_expr, SpecSource.n_integer. exact H. Qed.
  Lemma text_call_numbers : forall g w l ls nss ws, spacing g = true -> segment U w = true -> forallb (segment U) l = true ->
    existsb (fun k => starts_with k (w ++ path_tail l)) statement_words = false -> ls <> [] -> Forall2 (Forall2 (fun x n => numeral_of n x)) ls nss -> closing ws = true ->
    denotes U (g ++ ((w ++ path_tail l) ++ lists_text ls) ++ ws) (Ret (Function (SpecSource.named w l) (map (fun ns => mkParam (map Integer ns) [] default_position) nss))).
  Proof.
    intros g w l ls nss ws Hg Hw Hl K N F Hws.
    pose proof (text_call U HU g w l ls (map (map (fun n => (None, Ret (Integer n)))) nss) ws Hg Hw Hl K N) as T.
    replace (Ret (Function (SpecSource.named w l) (map (fun ns => mkParam (map Integer ns) [] default_position) nss))) with
      (ps <- SpecSource.all (map SpecSource.parameter_of (map (map (fun n => (@None str, Ret (Integer n)))) nss)); Ret (Function (SpecSource.named w l) ps)).
    - apply T; [|exact Hws]. clear -F. induction F as [|xs ns ls nss H F IH]; cbn [map]; constructor; [|exact IH].
      clear -H. induction H as [|x n xs ns Hx H IH]; cbn [map]; constructor; [|exact IH]. apply number_argument. exact Hx.
    - replace (map SpecSource.parameter_of (map (map (fun n => (@None str, Ret (Integer n)))) nss)) with (map Ret (map (fun ns => mkParam (map Integer ns) [] default_position) nss)).
      + rewrite all_ret. reflexivity.
      + rewrite !map_map. apply map_ext. intros ns. symmetry.
        pose proof (parameter_plain (map (fun n => Ret (Integer n)) ns)) as P. rewrite map_map in P. unfold none_of in P. etransitivity; [exact P|].
        rewrite <- (map_map Integer Ret), all_ret. reflexivity.
  Qed.

  Lemma text_range : forall g x o a oa b ob s os ws, spacing g = true -> SpecSource.node U x o -> plain_start x = true ->
    bound_is U (Integer 1) a oa -> bound_is U (Sym (SpecSource.core (lit "All"))) b ob -> bound_is U (Integer 1) (match s with Some s => s | None => None end) os ->
    (a <> None -> b = None -> match s with Some (Some s) => head_is (word_head U) s = false | _ => True end) -> closing ws = true ->
    denotes U (g ++ (x ++ lit "[" ++ range_text a b s ++ lit "]") ++ ws)
      (v <- o; x <- oa; y <- ob; z <- os; Ret (SpecSource.call (SpecSource.core (lit "Index")) [v; SpecSource.call (SpecSource.core (lit "Span")) [x; y; z]])).
  Proof.
    intros g x o a oa b ob s os ws Hg Hx Hp Ha Hb Hs C Hw. pose proof (index_range U HU a oa b ob s os Ha Hb Hs C) as R.
    pose proof (text_slice U HU g x o [range_text a b s] [SpecSource.span oa ob os] ws Hg Hx Hp ltac:(discriminate) (Forall2_cons _ _ R (Forall2_nil _)) Hw) as T. cbn [join] in T.
    match type of T with denotes _ _ ?A => match goal with |- denotes _ _ ?B => replace B with A end end; [exact T|]. destruct o, oa, ob, os; reflexivity.
  Qed.
End Keyword.
