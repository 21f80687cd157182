(** Several statements, statements that are not expressions, comments. *)
From Verif Require Import Base Ast Display SmError Peg Grammar Climber Build SpecAst SpecPeg SpecClimb SpecParse SpecSyntax SpecText.
From Verif Require Import ProofAst ProofDisplay ProofPeg ProofPegShift ProofSym ProofGrammar ProofClimber ProofBuild ProofPos ProofSpace ProofLex ProofToken ProofNode ProofAtom ProofTerm ProofExpr ProofGroup ProofCall ProofArgs ProofSlice ProofProduct ProofText.
Local Open Scope nat_scope.
Local Open Scope outcome_scope.

Section Statement.
  Variable U : unicode.
  Notation ev := (ev U grammar skip_body).
  Notation fails := (fails U).
  Notation tstop := (tstop U).
  Notation expr_means := (expr_means U).
  Notation expr_stop := (expr_stop U).

  (** ** Parts that cannot fail *)
  Lemma skip_total : forall s, exists s' t, ev ESkip NonAtomic false s (POk s' t).
  Proof.
    intros [p w st]. destruct (comments_terminates U false (mkPs (p + (length w - length (drop_white w))) (drop_white w) st)) as [r Hr].
    destruct (comments_ok U _ _ _ Hr) as (s1 & t1 & ->). pose proof (skip_ev U _ _ _ _ _ Hr) as X. cbn [seq_res] in X. eauto.
  Qed.
  Lemma call_decides : forall r k q s, needs_stack r = false ->
    (exists s' t, ev (ECall r) k q s (POk s' t)) \/ (exists s' t, ev (ECall r) k q s (PErr s' t)).
  Proof.
    intros r k q s H. pose proof (rule_ev U r k q s) as E.
    assert (P : run U grammar skip_body ((length (rest s) + 1) * 70) (ECall r) k q s <> PPanic).
    { apply (run_no_panic U grammar skip_body needs_stack 5 sd_rule sd_skip). cbn [sd]. rewrite H. discriminate. }
    assert (F : run U grammar skip_body ((length (rest s) + 1) * 70) (ECall r) k q s <> PFuel) by (apply rule_terminates; lia).
    destruct (run U grammar skip_body ((length (rest s) + 1) * 70) (ECall r) k q s) as [s1 t1|s1 t1| |]; eauto; congruence.
  Qed.
  Lemma opt_total : forall r k q s, needs_stack r = false -> exists s' t, ev (EOpt (ECall r)) k q s (POk s' t).
  Proof.
    intros r k q s H. destruct (call_decides r k q s H) as [(s' & t & E)|(s' & t & E)]; apply (ev_opt U grammar skip_body) in E; cbn [opt_res] in E; eauto.
  Qed.

  (** ** A first statement that is not an expression *)
  (** the outcome of parsing when the first statement is of another kind *)
  Lemma first_other : forall text s T ts, solid text = true -> ev (ECall R_statement) NonAtomic false (mkPs 0 text []) (POk s (T :: ts)) ->
    t_rule T <> R_expression -> t_rule T <> R_EOI -> t_rule T <> R_COMMENT -> denotes_or_refused U text (Panic PUnreachable).
  Proof.
    intros text s T ts Hs E N1 N2 N3. destruct (program_first U _ _ _ Hs E) as [(s' & t & P)|(s' & more & P)].
    - left. intros f. unfold parse. rewrite P. reflexivity.
    - right. intros f. unfold parse. rewrite P. cbn [app parse_pairs]. destruct (t_rule T); try congruence; reflexivity.
  Qed.
  Lemma first_semi : forall c rest, semi c = true -> denotes_or_refused U (c :: rest) (Panic PUnreachable).
  Proof.
    intros c rest Hc. destruct (ok_eos U c 0 rest [] Hc) as (S & E & R).
    pose proof (ev_rule U grammar skip_body R_emptyStatement _ _ _ _ _ (ev_else_ok U grammar skip_body _ (ECall R_Separate) _ _ _ _ _ E)) as X.
    cbn [rule_res emits negb] in X. eapply first_other; [|apply ev_call; cbn [grammar]; do 9 apply ev_else_ok; apply ev_call; exact X|discriminate..].
    apply orb_prop in Hc as [Hc|Hc]; apply N.eqb_eq in Hc; subst c; reflexivity.
  Qed.
  Definition before_control : pexp rule :=
    EElse (EElse (EElse (EElse (ECall R_emptyStatement)
      (ERestore (ESeq (EThen (EThen (ECall R_importStatement) ESkip) (EOpt (ECall R_eos))))))
      (ERestore (ESeq (EThen (EThen (ECall R_classStatement) ESkip) (EOpt (ECall R_eos))))))
      (ERestore (ESeq (EThen (EThen (ECall R_traitStatement) ESkip) (EOpt (ECall R_eos))))))
      (ERestore (ESeq (EThen (EThen (ECall R_extendStatement) ESkip) (EOpt (ECall R_eos))))).
  Lemma first_control : forall word t rest, In word [lit "break"; lit "pass"] ->
    ev (ECall R_re_control) NonAtomic false (mkPs 0 (word ++ rest) []) (POk (mkPs (length word) rest []) [t]) -> t_rule t = R_re_control ->
    denotes_or_refused U (word ++ rest) (Panic PUnreachable).
  Proof.
    intros word t rest Hw E R.
    assert (F : fails before_control NonAtomic false (mkPs 0 (word ++ rest) [])).
    { apply (fails_sound U grammar skip_body 60 before_control NonAtomic false [mkLook word true] 0 (word ++ rest) []).
      - destruct Hw as [<-|[<-|[]]]; vm_compute; reflexivity.
      - exists (mkLook word true). split; [left; reflexivity|]. exists rest. split; [reflexivity|discriminate]. }
    destruct (skip_total (mkPs (length word) rest [])) as (s1 & t1 & E1). destruct (opt_total R_eos NonAtomic false s1 eq_refl) as (s2 & t2 & E2).
    assert (C : ev (ECall R_controlFlow) NonAtomic false (mkPs 0 (word ++ rest) []) (POk (mkPs (length word) rest []) [t])).
    { apply ev_call. do 2 apply ev_else_ok. apply ok_restore. exact E. }
    pose proof (ok_then U _ _ _ _ _ _ _ _ _ (ok_then U _ _ _ _ _ _ _ _ _ C E1) E2) as X. apply ok_seq, ok_restore in X. cbn [app] in X.
    eapply first_other with (T := t) (ts := t1 ++ t2).
    - destruct Hw as [<-|[<-|[]]]; reflexivity.
    - apply ev_call. cbn [grammar]. do 4 apply ev_else_ok. eapply ev_else_err; [exact F|exact X].
    - congruence.
    - congruence.
    - congruence.
  Qed.
  Lemma first_break : forall rest, denotes_or_refused U (lit "break" ++ rest) (Panic PUnreachable).
  Proof.
    intros rest. eapply first_control; [left; reflexivity| |].
    - apply ev_call. cbn [grammar]. apply (ok_rule U R_re_control _ NonAtomic 0 (lit "break") rest [] []). apply ev_else_ok.
      eapply ev_else_err.
      + apply er_restore, er_seq0. do 2 apply er_then. apply er_call, er_rule, er_atomic, er_str. reflexivity.
      + apply ev_call. cbn [grammar]. apply (ok_rule U R_Break _ NonAtomic 0 (lit "break") rest [] []). apply ev_atomic. apply (ev_str U grammar skip_body (lit "break")).
    - reflexivity.
  Qed.
  Lemma first_pass : forall rest, denotes_or_refused U (lit "pass" ++ rest) (Panic PUnreachable).
  Proof.
    intros rest. eapply first_control; [right; left; reflexivity| |].
    - apply ev_call. cbn [grammar]. apply (ok_rule U R_re_control _ NonAtomic 0 (lit "pass") rest [] []).
      eapply ev_else_err; [apply er_else|].
      + apply er_restore, er_seq0. do 2 apply er_then. apply er_call, er_rule, er_atomic, er_str. reflexivity.
      + apply er_call, er_rule, er_atomic, er_str. reflexivity.
      + apply ev_call. cbn [grammar]. apply (ok_rule U R_Pass _ NonAtomic 0 (lit "pass") rest [] []). apply ev_atomic. apply (ev_str U grammar skip_body (lit "pass")).
    - reflexivity.
  Qed.

  (** ** No statement at all *)
  Lemma text_empty : forall g, closing g = true -> denotes U g (Ret EmptyStatement).
  Proof.
    intros g Hg f.
    pose proof (skip_closing U g 0 [] Hg) as S0. cbn [Nat.add] in S0. pose proof (skip_nothing U (length g) [] [] eq_refl) as E0.
    assert (E1 : ev program_body NonAtomic false (mkPs (length g) [] []) (POk (mkPs (length g) [] []) [])).
    { apply ok_seq, no_opt, er_then, er_restore, er_statement_end. }
    pose proof (ok_then1 U _ _ _ _ _ _ _ _ E1 E0) as E2.
    assert (E3 : exists E, ev (ECall R_EOI) NonAtomic false (mkPs (length g) [] []) (POk (mkPs (length g) [] []) [E]) /\ t_rule E = R_EOI).
    { eexists. split; [apply ev_call; cbn [grammar]; exact (ev_rule U grammar skip_body R_EOI EEoi NonAtomic false _ _ (ev_eoi U grammar skip_body _ _ _ _))|reflexivity]. }
    destruct E3 as (E & E3 & RE). pose proof (ok_then U _ _ _ _ _ _ _ _ _ E2 E3) as E4. fold program_rest in E4.
    unfold parse. rewrite (program_unfold U g _ _ _ S0 E4). cbn [prepend seq_res app parse_pairs]. rewrite RE. reflexivity.
  Qed.

  (** ** Several statements *)
  Definition more_statements : pexp rule := ERep (ESeq (EThen ESkip (ERestore (ECall R_statement)))).
  Definition more_ok (w : str) : Prop := forall p, exists p' ws E, closing ws = true /\ ev more_statements NonAtomic false (mkPs p w []) (POk (mkPs p' ws []) E).
  Lemma more_white : forall ws, closing ws = true -> more_ok ws.
  Proof. intros ws H p. exists p, ws, []. split; [exact H|]. apply no_more. exact H. Qed.
  Lemma more_one : forall g text w p1 ts, spacing g = true -> solid text = true -> more_ok w ->
    (forall p, ev (ECall R_statement) NonAtomic false (mkPs p text []) (POk (mkPs (p1 p) w []) ts) \/ exists ts', ev (ECall R_statement) NonAtomic false (mkPs p text []) (POk (mkPs (p1 p) w []) ts')) ->
    more_ok (g ++ text).
  Proof.
    intros g text w p1 ts Hg Ht Hw H p. assert (E : exists ts, ev (ECall R_statement) NonAtomic false (mkPs (p + length g) text []) (POk (mkPs (p1 (p + length g)) w []) ts)).
    { destruct (H (p + length g)) as [E|E]; eauto. }
    clear H ts. destruct E as [ts E]. destruct (Hw (p1 (p + length g))) as (p' & ws & E2 & W & X). exists p', ws, (ts ++ E2). split; [exact W|].
    apply (ok_rep U _ NonAtomic false _ (mkPs (p1 (p + length g)) w []) ts); [|exact X].
    apply ok_seq. eapply ok_then0; [apply skip_spacing; assumption|]. apply ok_restore. exact E.
  Qed.
  Lemma program_more : forall text p w ts, solid text = true -> more_ok w ->
    ev (ECall R_statement) NonAtomic false (mkPs 0 text []) (POk (mkPs p w []) ts) -> exists s E, run_program U text = POk s (ts ++ E).
  Proof.
    intros text p w ts Hs Hw H. pose proof (skip_nothing U 0 text [] Hs) as E0. destruct (Hw p) as (p' & ws & Em & Hws & Hm).
    assert (S : ev ESkip NonAtomic false (mkPs p' ws []) (POk (mkPs (p' + length ws) [] []) [])).
    { apply skip_closing. exact Hws. }
    pose proof (ok_then U _ _ _ _ _ _ _ _ _ (ok_restore U _ _ _ _ _ _ H) Hm) as E1.
    apply ok_opt in E1. apply ok_seq in E1. unfold more_statements in E1. fold program_body in E1.
    pose proof (ok_then1 U _ _ _ _ _ _ _ _ E1 S) as E2.
    assert (E3 : exists E, ev (ECall R_EOI) NonAtomic false (mkPs (p' + length ws) [] []) (POk (mkPs (p' + length ws) [] []) E)).
    { eexists. apply ev_call. cbn [grammar]. exact (ev_rule U grammar skip_body R_EOI EEoi NonAtomic false _ _ (ev_eoi U grammar skip_body _ _ _ _)). }
    destruct E3 as [E E3]. pose proof (ok_then U _ _ _ _ _ _ _ _ _ E2 E3) as E4. fold program_rest in E4.
    rewrite (program_unfold U text _ _ _ E0 E4). cbn [prepend seq_res app]. rewrite <- app_assoc. eauto.
  Qed.

  Hypothesis HU : sane U.
  (** statements g x ws c, the last one with or without its semicolon *)
  Definition line := (str * str * outcome ast * str * char)%type.
  Definition line_text (q : line) : str := let '(g, x, _, ws, c) := q in g ++ x ++ ws ++ [c].
  Definition good_line (q : line) : Prop := let '(g, x, o, ws, c) := q in
    spacing g = true /\ front x = true /\ plain_start x = true /\ expr_means x o /\ spacing ws = true /\ semi c = true.
  Lemma more_lines : forall l w, Forall good_line l -> more_ok w -> more_ok (concat (map line_text l) ++ w).
  Proof.
    induction l as [|[[[[g x] o] ws] c] l IH]; intros w Hl Hw; [exact Hw|]. pose proof (Forall_inv Hl) as (Hg & Hf & Hp & Hx & Hws & Hc). pose proof (Forall_inv_tail Hl) as Hl'.
    cbn [map concat line_text]. rewrite <- !app_assoc. cbn [app].
    assert (N : x <> []) by (intros ->; discriminate).
    assert (L : forall r, head_is lower (c :: r) = false) by (intro; apply orb_prop in Hc as [Hc|Hc]; apply N.eqb_eq in Hc; subst c; reflexivity).
    assert (E : ends c = true) by (apply orb_prop in Hc as [Hc|Hc]; apply N.eqb_eq in Hc; subst c; reflexivity).
    eapply (more_one g (x ++ ws ++ c :: concat (map line_text l) ++ w) (concat (map line_text l) ++ w) (fun p => p + length x + length ws + 1) []);
      [exact Hg|apply front_solid; exact Hf|apply IH; assumption|].
    intros p. right. destruct (statement_semi U x o p ws c (concat (map line_text l) ++ w) [] (plain_start_app _ _ N Hp (white_lower _ _ Hws (L _))) Hx (ends_stop U HU ws c _ Hws E) Hc) as (T & E1 & _). eauto.
  Qed.
  Lemma more_last : forall g x o ws, spacing g = true -> front x = true -> plain_start x = true -> expr_means x o -> closing ws = true -> more_ok (g ++ x ++ ws).
  Proof.
    intros g x o ws Hg Hf Hp Hx Hws. assert (N : x <> []) by (intros ->; discriminate).
    eapply (more_one g (x ++ ws) [] (fun p => p + length x + length ws) []); [exact Hg|apply front_solid; exact Hf|apply more_white; reflexivity|].
    intros p. right. pose proof (statement_expr U x o p ws [] []) as S. rewrite app_nil_r in S.
    pose proof (plain_start_app x (ws ++ []) N Hp (closing_lower ws Hws)) as P. rewrite app_nil_r in P.
    destruct (S P Hx (end_stop U HU ws Hws) eq_refl) as (T & E & _). eauto.
  Qed.
  Theorem text_lines : forall g x o ws c l w, good_line (g, x, o, ws, c) -> Forall good_line l -> more_ok w ->
    denotes U (line_text (g, x, o, ws, c) ++ concat (map line_text l) ++ w) o.
  Proof.
    intros g x o ws c l w (Hg & Hf & Hp & Hx & Hws & Hc) Hl Hw. cbn [line_text]. rewrite <- !app_assoc. cbn [app]. apply denotes_skip; [exact Hg|].
    assert (N : x <> []) by (intros ->; discriminate).
    assert (L : forall r, head_is lower (c :: r) = false) by (intro; apply orb_prop in Hc as [Hc|Hc]; apply N.eqb_eq in Hc; subst c; reflexivity).
    assert (E : ends c = true) by (apply orb_prop in Hc as [Hc|Hc]; apply N.eqb_eq in Hc; subst c; reflexivity).
    destruct (statement_semi U x o 0 ws c (concat (map line_text l) ++ w) [] (plain_start_app _ _ N Hp (white_lower _ _ Hws (L _))) Hx (ends_stop U HU ws c _ Hws E) Hc) as (T & E1 & V).
    destruct (program_more _ _ _ _ (front_solid _ _ Hf) (more_lines l w Hl Hw) E1) as (s & E' & P). eapply denotes_pairs; [exact V|exact P].
  Qed.
End Statement.
