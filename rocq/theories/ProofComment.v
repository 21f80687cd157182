(** Words that begin with a constant, and comments. *)
From Verif Require Import Base Ast Display SmError Peg Grammar Climber Build SpecAst SpecPeg SpecClimb SpecParse SpecSyntax SpecText.
From Verif Require Import ProofAst ProofDisplay ProofPeg ProofPegShift ProofSym ProofGrammar ProofClimber ProofBuild ProofPos ProofSpace ProofLex ProofToken ProofNode ProofAtom ProofTerm ProofExpr ProofGroup ProofCall ProofArgs ProofSlice ProofProduct ProofText ProofStatement.
Local Open Scope nat_scope.
Local Open Scope outcome_scope.

Section Comment.
  Variable U : unicode.
  Notation ev := (ev U grammar skip_body).
  Notation fails := (fails U).
  Notation tstop := (tstop U).
  Notation term_means := (term_means U).
  Notation expr_means := (expr_means U).
  Notation expr_stop := (expr_stop U).
  Notation good_item := (good_item U).
  Hypothesis HU : sane U.

  (** ** A statement from an expression pair *)
  Lemma statement_of : forall text p p' ws w st T o, plain_start text = true ->
    ev (ECall R_expr) NonAtomic false (mkPs p text st) (POk (mkPs p' (ws ++ w) st) [T]) -> t_rule T = R_expr ->
    (forall f i, orel sim (parse_expr f i T) o) -> gone U ws w -> head_is semi w = false ->
    exists TT, ev (ECall R_statement) NonAtomic false (mkPs p text st) (POk (mkPs (p' + length ws) w st) [TT]) /\ value_of TT o.
  Proof.
    intros text p p' ws w st T o Hp E R V Hws Hs.
    pose proof (ok_then1 U _ _ _ _ _ _ _ _ E (Hws p' st)) as E1.
    pose proof (ok_then1 U _ (EOpt (ECall R_eos)) _ _ _ _ _ _ E1 (no_opt U _ _ _ _ (er_eos U _ _ _ _ _ Hs))) as E2. apply ok_seq in E2.
    pose proof (ev_rule U grammar skip_body R_expression _ _ _ _ _ E2) as X. cbn [rule_res emits negb] in X.
    eexists. split; [apply statement_alt; [exact Hp|]; apply ok_restore, ev_call; exact X|].
    eapply expression_value; [reflexivity|reflexivity|exact R|left; reflexivity|exact V].
  Qed.

  (** ** true, false and null as beginnings of words *)
  Lemma continue_quiet : forall c, xid_continue U c = true ->
    white_space c = false /\ infix_head c = false /\ semi c = false /\ (c =? 33)%N = false /\ (c =? 39)%N = false /\ (c =? 63)%N = false /\ (c =? 91)%N = false /\ (c =? 47)%N = false /\ (c =? 37)%N = false.
  Proof.
    intros c Hc.
    assert (S : forall d, existsb (N.eqb d) signs || white_space d = true -> c <> d).
    { intros d Hd ->. destruct (HU d Hd) as [_ X]. congruence. }
    assert (A : forall d, xid_continue U d = false -> c <> d) by congruence.
    repeat split; try (apply N.eqb_neq, A; reflexivity).
    - destruct (white_space c) eqn:E; [|reflexivity]. exfalso. apply (S c); [rewrite E; apply orb_true_r|reflexivity].
    - destruct (infix_head c) eqn:E; [|reflexivity]. exfalso. unfold infix_head in E. cbn [existsb] in E.
      repeat (apply orb_prop in E as [E|E]; [apply N.eqb_eq in E; first [revert E; apply A; reflexivity|revert E; apply S; reflexivity]|]). discriminate.
    - destruct (semi c) eqn:E; [|reflexivity]. exfalso. unfold semi in E. apply orb_prop in E as [E|E]; apply N.eqb_eq in E; revert E; [apply A|apply S]; reflexivity.
  Qed.
  Lemma special_statement : forall x a c y w p st, special x a -> is_path U (x ++ c :: y) -> xid_continue U c = true -> nstop U w = true ->
    exists TT, ev (ECall R_statement) NonAtomic false (mkPs p (x ++ c :: y ++ w) st) (POk (mkPs (p + length x) (c :: y ++ w) st) [TT]) /\ value_of TT (Ret a).
  Proof.
    intros x a c y w p st Hx Hp Hc Hw. destruct (node_special_more U x a (c :: y) p w st Hx Hp Hw) as (T & E & R & V).
    change (x ++ (c :: y) ++ w) with (x ++ c :: y ++ w) in E. change ((c :: y) ++ w) with (c :: y ++ w) in E.
    destruct (continue_quiet c Hc) as (Q1 & Q2 & Q3 & Q4 & Q5 & Q6 & Q7 & Q8 & Q9).
    assert (P0 : head_is prefix_char (x ++ c :: y ++ w) = false) by (destruct Hx; reflexivity).
    destruct (ok_prefixes U [] p (x ++ c :: y ++ w) st eq_refl P0) as (ts1 & E1 & M1). cbn [app length] in E1. rewrite Nat.add_0_r in E1.
    assert (E3 : ev (ERep post_item) CompoundAtomic false (mkPs (p + length x) (c :: y ++ w) st) (POk (mkPs (p + length x) (c :: y ++ w) st) [])).
    { apply no_rep, er_else.
      - apply er_Suffix. cbn [head_is]. rewrite Q4, Q5, Q6. reflexivity.
      - apply er_restore. assert (I0 : inline_space c = false) by (unfold inline_space; rewrite Q1; reflexivity).
        eapply er_seq2; [apply (inline_rep_ok U CompoundAtomic false [] (p + length x) (c :: y ++ w) st); [reflexivity|exact I0]| |reflexivity].
        cbn [length]. apply er_slice. cbn [head_is]. rewrite N.eqb_sym. exact Q7. }
    pose proof (ok_then1 U _ _ _ _ _ _ _ _ (ok_then U _ _ _ _ _ _ _ _ _ E1 E) E3) as ET. apply ok_seq in ET.
    apply (ok_rule U R_term _ CompoundAtomic p x (c :: y ++ w) st st) in ET.
    assert (SO : solid (c :: y ++ w) = true).
    { unfold solid. cbn [head_is]. rewrite Q1. change (lit "//") with [47; 47]%N. change (lit "%%%") with [37; 37; 37]%N.
      rewrite !strip_head by (apply not_eq_sym, N.eqb_neq; assumption). reflexivity. }
    assert (EE : exists TE, ev (ECall R_expr) NonAtomic false (mkPs p (x ++ c :: y ++ w) st) (POk (mkPs (p + length x) ([] ++ c :: y ++ w) st) [TE]) /\ t_rule TE = R_expr /\
       forall f i, orel sim (parse_expr f i TE) (Ret a)).
    { eexists. split; [|split].
      - apply ev_call. cbn [grammar]. apply ev_atomic. apply (ok_rule U R_expr _ NonAtomic p x (c :: y ++ w) st st). apply ok_seq.
        eapply ok_then1; [eapply ok_then1; [apply ev_call, ev_atomic; exact ET|apply skip_nothing; exact SO]|].
        apply ok_seq, no_opt, er_then, er_restore, er_seq0. do 2 apply er_then. apply er_Infix. exact Q2.
      - reflexivity.
      - intros f i. cbn [node_of emits]. destruct (M1 f i) as (qs & Eq & M). destruct qs; [|discriminate].
        assert (PT : parse_term f i (parse_expr f i) (Node R_term p (p + length x) x (ts1 ++ [T])) = Ret a).
        { unfold parse_term. cbn [t_inner]. rewrite M. cbn [rev app parse_term_loop]. rewrite R. rewrite V. reflexivity. }
        destruct (expression_precedence f i R_expr p (p + length x) x (Node R_term p (p + length x) x (ts1 ++ [T])) [] (Forall_nil _)) as (t & W1 & W2 & W3 & W4).
        unfold alternate in W4. cbn [flat_map] in W4. unfold node_of. cbn [emits negb]. cbn zeta in W4. rewrite W4.
        assert (t = Leaf (Node R_term p (p + length x) x (ts1 ++ [T]))) as ->.
        { symmetry. apply W3; [constructor|reflexivity]. }
        cbn [evaluate]. unfold primary. cbn [t_rule]. rewrite PT. reflexivity. }
    destruct EE as (TE & E4 & R4 & V4).
    pose proof (statement_of (x ++ c :: y ++ w) p (p + length x) [] (c :: y ++ w) st TE (Ret a)) as S. rewrite Nat.add_0_r in S.
    apply S; try assumption; try reflexivity; try (apply spacing_gone; [reflexivity|assumption]); destruct Hx; reflexivity.
  Qed.

  Lemma special_front : forall x a, special x a -> front x = true.
  Proof. intros x a H. destruct H; reflexivity. Qed.
  Lemma front_app : forall x y, front x = true -> front (x ++ y) = true.
  Proof. intros [|c x] y H; [discriminate|]. exact H. Qed.
  Lemma white_nstop : forall ws, closing ws = true -> nstop U ws = true.
  Proof. intros ws H. rewrite <- (app_nil_r ws). apply (tstop_nstop U). exact (proj1 (proj2 (end_stop U HU ws H))). Qed.
  Lemma word_continue : forall x c y, word U (x ++ c :: y) = true -> x <> [] -> xid_continue U c = true.
  Proof.
    intros [|b x] c y H N; [congruence|]. cbn [app word] in H.
    assert (X : forallb (xid_continue U) (x ++ c :: y) = true).
    { apply orb_prop in H as [H|H]; apply andb_prop in H as [_ H]; [exact H|]. destruct (x ++ c :: y); [discriminate|exact H]. }
    rewrite forallb_forall in X. apply X. apply in_or_app. right. left. reflexivity.
  Qed.
  Lemma word_path : forall x, word U x = true -> is_path U x.
  Proof. intros x H. exists x, []. split; [cbn; rewrite app_nil_r; reflexivity|]. split; [exact H|reflexivity]. Qed.
  (** a word that begins with a constant is that constant, or not accepted *)
  Theorem text_special_more : forall g x a c y ws, spacing g = true -> special x a -> word U (x ++ c :: y) = true -> closing ws = true ->
    denotes_or_refused U (g ++ x ++ c :: y ++ ws) (Ret a).
  Proof.
    intros g x a c y ws Hg Hx Hc Hws. apply refused_skip; [exact Hg|].
    assert (N : x <> []) by (destruct Hx; discriminate).
    destruct (special_statement x a c y ws 0 [] Hx (word_path _ Hc) (word_continue _ _ _ Hc N) (white_nstop ws Hws)) as (T & E & V).
    destruct (program_first U _ _ _ (front_solid _ _ (special_front x a Hx)) E) as [(s & t & P)|(s & more & P)].
    - left. intros f. unfold parse. rewrite P. reflexivity.
    - right. eapply denotes_pairs; [exact V|exact P].
  Qed.
  Theorem text_special_word : forall g x a y o ws, spacing g = true -> special x a -> word U (x ++ y) = true -> closing ws = true ->
    front y = true -> plain_start y = true -> expr_means y o -> denotes U (g ++ x ++ y ++ ws) (Ret a).
  Proof.
    intros g x a y o ws Hg Hx Hc Hws Hf Hp Hy. apply denotes_skip; [exact Hg|].
    assert (N : x <> []) by (destruct Hx; discriminate). destruct y as [|c y]; [discriminate|].
    destruct (special_statement x a c y ws 0 [] Hx (word_path _ Hc) (word_continue _ _ _ Hc N) (white_nstop ws Hws)) as (T & E & V).
    pose proof (more_last U HU [] (c :: y) o ws eq_refl Hf Hp Hy Hws) as M.
    destruct (program_more U _ _ _ _ (front_solid _ _ (special_front x a Hx)) M E) as (s & E' & P).
    eapply denotes_pairs; [exact V|exact P].
  Qed.

  (** ** Block comments *)
  Definition in_comment : pexp rule := EElse (ECall R_MultiLineComment) (ESeq (EThen (ENot (EStr (lit "%%%"))) (ECall R_ANY))).
  Lemma not_percent : forall c w l, (c =? 37)%N = false -> strip_prefix (37%N :: l) (c :: w) = None.
  Proof. intros c w l H. apply strip_head. apply not_eq_sym, N.eqb_neq. exact H. Qed.
  Lemma er_MLC_head : forall k q p w st, strip_prefix (lit "%%%") w = None -> fails (ECall R_MultiLineComment) k q (mkPs p w st).
  Proof. intros. apply er_call, er_atomic, er_rule, er_seq0. do 2 apply er_then. apply er_str. assumption. Qed.
  Lemma ok_plain : forall b p w st, no_percent b = true ->
    (fails in_comment CompoundAtomic false (mkPs (p + length b) w st)) ->
    ev (ERep in_comment) CompoundAtomic false (mkPs p (b ++ w) st) (POk (mkPs (p + length b) w st) []).
  Proof.
    induction b as [|c b IH]; intros p w st Hb Hw.
    - cbn [app length] in *. rewrite Nat.add_0_r in *. apply no_rep. exact Hw.
    - unfold no_percent in *. cbn [forallb] in Hb. apply andb_prop in Hb as [Hc Hb]. apply negb_true_iff in Hc. cbn [app length].
      assert (N : strip_prefix (lit "%%%") (c :: b ++ w) = None) by (apply not_percent; exact Hc).
      apply (ok_rep U _ CompoundAtomic false _ (mkPs (p + 1) (b ++ w) st) [] _ []).
      + apply ev_else_err; [apply er_MLC_head; exact N|]. apply ok_seq. eapply ok_then0; [eapply ok_not, er_str; exact N|].
        apply ev_call. apply (ev_any U grammar skip_body).
      + eapply ok_pos; [apply IH; [exact Hb|]|lia]. replace (p + 1 + length b) with (p + S (length b)) by lia. exact Hw.
  Qed.
  Lemma er_in_comment_end : forall p st, fails in_comment CompoundAtomic false (mkPs p [] st).
  Proof.
    intros. apply er_else; [apply er_MLC_head; reflexivity|]. apply er_seq0. eapply ok_then0; [eapply ok_not, er_str; reflexivity|].
    apply er_call. apply (ev_char_err U grammar skip_body EAny (fun _ => true)); [reflexivity|discriminate].
  Qed.
  (** an opening without a closing is no comment *)
  Lemma er_MLC_open : forall k p b st, no_percent b = true -> fails (ECall R_MultiLineComment) k false (mkPs p (lit "%%%" ++ b) st).
  Proof.
    intros k p b st Hb. apply er_call, er_atomic, er_rule. pose proof (ok_plain b (p + 3) [] st Hb (er_in_comment_end _ _)) as E. rewrite app_nil_r in E.
    eapply er_seq2; [eapply ok_then0; [apply (ev_str U grammar skip_body (lit "%%%"))|exact E]|apply er_str; reflexivity|reflexivity].
  Qed.
  Lemma ok_MLC : forall k p b w st, no_percent b = true -> no_percent w = true -> exists T,
    ev (ECall R_MultiLineComment) k false (mkPs p (comment b ++ w) st) (POk (mkPs (p + length (comment b)) w st) [T]) /\ t_rule T = R_MultiLineComment.
  Proof.
    intros k p b w st Hb Hw. eexists. split; [|cycle 1].
    - apply ev_call. cbn [grammar]. apply ev_atomic. apply (ok_rule U R_MultiLineComment _ CompoundAtomic p (comment b) w st st). apply ok_seq.
      unfold comment. rewrite <- !app_assoc.
      assert (F : fails in_comment CompoundAtomic false (mkPs (p + 3 + length b) (lit "%%%" ++ w) st)).
      { apply er_else; [apply er_MLC_open; exact Hw|]. apply er_seq0, er_then. eapply er_not. apply (ev_str U grammar skip_body (lit "%%%")). }
      pose proof (ok_plain b (p + 3) (lit "%%%" ++ w) st Hb F) as E.
      eapply ok_then0; [eapply ok_then0; [apply (ev_str U grammar skip_body (lit "%%%"))|exact E]|].
      eapply ok_pos; [apply (ev_str U grammar skip_body (lit "%%%"))|]. lens.
    - reflexivity.
  Qed.
  Lemma comment_node : forall T, t_rule T = R_MultiLineComment -> exists a b x l, T = Node R_MultiLineComment a b x l.
  Proof. intros [r a b x l] H. cbn in H. subst. eauto. Qed.
  (** white space, a comment, white space *)
  Lemma skip_comment_gone : forall ws b ws' p w st, spacing ws = true -> no_percent b = true -> gone U ws' w -> no_percent (ws' ++ w) = true ->
    exists T, ev ESkip NonAtomic false (mkPs p (ws ++ comment b ++ ws' ++ w) st) (POk (mkPs (p + length (ws ++ comment b ++ ws')) w st) [T]) /\ t_rule T = R_MultiLineComment.
  Proof.
    intros ws b ws' p w st Hws Hb Hws' Hw.
    pose proof (ok_MLC Atomic (p + length ws) b (ws' ++ w) st Hb Hw) as (T & E & R). exists T. split; [|exact R].
    apply spacing_skipped; [exact Hws|].
    pose proof (skip_ev U false (p + length ws) (comment b ++ ws' ++ w) st (POk (mkPs (p + length (ws ++ comment b ++ ws')) w st) [T])) as X. cbn [seq_res] in X. apply X. clear X.
    assert (D : forall v, drop_white (comment b ++ v) = comment b ++ v) by (intro; apply drop_white_stop; reflexivity). rewrite D, Nat.sub_diag, Nat.add_0_r.
    set (n := p + length ws + length (comment b)) in *. pose proof (white_rep U NonAtomic false (length (ws' ++ w)) (ws' ++ w) n st (le_n _)) as X.
    destruct (comments_terminates U false (mkPs (n + (length (ws' ++ w) - length (drop_white (ws' ++ w)))) (drop_white (ws' ++ w)) st)) as [rc Hc].
    destruct (comments_ok _ _ _ _ Hc) as (s2 & t2 & ->). pose proof (skip_ev _ _ _ _ _ _ Hc) as S. cbn [seq_res] in S.
    pose proof (ev_det U grammar skip_body _ _ _ _ _ _ S (Hws' n st)) as Q. injection Q as -> ->.
    replace (p + length (ws ++ comment b ++ ws')) with (n + length ws') by (unfold n, str, char in *; rewrite !app_length; lia).
    unfold comments. change [T] with ([T] ++ []). eapply ok_rep; [|exact Hc].
    apply ok_seq. eapply ok_then1; [|exact X]. apply ev_call. cbn [grammar]. apply ev_atomic. do 4 apply ev_else_ok. exact E.
  Qed.

  Lemma skip_comment : forall ws b ws' p w st, spacing ws = true -> no_percent b = true -> spacing ws' = true -> no_percent (ws' ++ w) = true -> solid w = true ->
    exists T, ev ESkip NonAtomic false (mkPs p (ws ++ comment b ++ ws' ++ w) st) (POk (mkPs (p + length (ws ++ comment b ++ ws')) w st) [T]) /\ t_rule T = R_MultiLineComment.
  Proof. intros ws b ws' p w st H1 H2 H3 H4 H5. apply skip_comment_gone; try assumption. apply spacing_gone; assumption. Qed.

  (** comments leave the stack alone *)
  Fixpoint stackless (calls : rule -> bool) (e : pexp rule) : bool :=
    match e with
    | EThen a b | EElse a b => stackless calls a && stackless calls b
    | ESeq a | EOpt a | ERep a | ERestore a | ENot a | ERule _ a | EAtomic _ a => stackless calls a
    | ECall r => calls r
    | EPush _ | EPeek | EPop | ESkip => false
    | _ => true
    end.
  Definition kept (s : pstate) (r : pres rule) : Prop := match r with POk s1 _ | PErr s1 _ => stk s1 = stk s | _ => True end.
  Lemma kept_prepend : forall s t r, kept s r -> kept s (prepend t r).
  Proof. intros s t [| | |]; exact (fun x => x). Qed.
  Lemma run_stackless : forall calls, (forall r, calls r = true -> stackless calls (grammar r) = true) ->
    forall f e k q s, stackless calls e = true -> kept s (Peg.run U grammar skip_body f e k q s).
  Proof.
    intros calls HC. induction f as [|f IH]; intros e k q s He; [exact Logic.I|].
    assert (T : forall o, kept s (take s o)) by (intros [|]; reflexivity).
    assert (TC : forall P, kept s (take_char P s)) by (intros P; unfold take_char; destruct (rest s) as [|c w]; [reflexivity|]; destruct (P c); reflexivity).
    destruct e; cbn [Peg.run stackless] in *; try discriminate; auto.
    - destruct (rest s); reflexivity.
    - destruct (pos s); reflexivity.
    - apply andb_prop in He as [H1 H2]. pose proof (IH e1 k q s H1) as K. destruct (Peg.run U grammar skip_body f e1 k q s) as [s1 t1|s1 t1| |]; try exact K.
      apply kept_prepend. pose proof (IH e2 k q s1 H2) as K2. cbn [kept] in K. destruct (Peg.run U grammar skip_body f e2 k q s1); cbn [kept] in *; congruence.
    - apply andb_prop in He as [H1 H2]. pose proof (IH e1 k q s H1) as K. destruct (Peg.run U grammar skip_body f e1 k q s) as [s1 t1|s1 t1| |]; try exact K.
      apply kept_prepend. pose proof (IH e2 k q s1 H2) as K2. cbn [kept] in K. destruct (Peg.run U grammar skip_body f e2 k q s1); cbn [kept] in *; congruence.
    - pose proof (IH e k q s He) as K. destruct (Peg.run U grammar skip_body f e k q s) as [s1 t1|s1 t1| |]; exact K.
    - pose proof (IH e k q s He) as K. destruct (Peg.run U grammar skip_body f e k q s) as [s1 t1|s1 t1| |]; exact K.
    - pose proof (IH e k q s He) as K. destruct (Peg.run U grammar skip_body f e k q s) as [s1 t1|s1 t1| |]; try exact K.
      apply kept_prepend. pose proof (IH (ERep e) k q s1 He) as K2. cbn [kept] in K. destruct (Peg.run U grammar skip_body f (ERep e) k q s1); cbn [kept] in *; congruence.
    - pose proof (IH e k q s He) as K. destruct (Peg.run U grammar skip_body f e k q s) as [s1 t1|s1 t1| |]; try exact K. reflexivity.
    - destruct (Peg.run U grammar skip_body f e k true s) as [s1 t1|s1 t1| |]; try exact Logic.I; reflexivity.
    - pose proof (IH e k q s He) as K. destruct (Peg.run U grammar skip_body f e k q s) as [s1 t1|s1 t1| |]; exact K.
  Qed.
  Lemma MLC_fails : forall k s s1 t1, ev (ECall R_MultiLineComment) k false s (PErr s1 t1) -> fails (ECall R_MultiLineComment) k false s.
  Proof.
    intros k s s1 t1 E. pose proof E as [_ [f F]].
    assert (K : kept s (PErr s1 t1)) by (rewrite <- F; apply (run_stackless (fun r => match r with R_MultiLineComment | R_ANY => true | _ => false end)); [intros []; discriminate || reflexivity|reflexivity]).
    do 4 (destruct f as [|f]; [discriminate|]). cbn [Peg.run grammar] in F.
    match type of F with match match ?x with _ => _ end with _ => _ end = _ => destruct x end; try discriminate. injection F as <- <-.
    cbn [kept stk] in K. rewrite K in E. destruct s as [p w st]. cbn [pos rest stk] in *. exact E.
  Qed.

  (** what starts like a comment and is none cannot be read *)
  Lemma uncommented_refused : forall v s2 t2, ev (ECall R_MultiLineComment) Atomic false (mkPs 0 (lit "%%%" ++ v) []) (PErr s2 t2) ->
    forall f, parse U f (lit "%%%" ++ v) = Ret (Err SMParseError).
  Proof.
    intros v s2 t2 E. set (text := lit "%%%" ++ v) in *.
    assert (D : drop_white text = text) by (apply drop_white_stop; reflexivity).
    destruct (comments_terminates U false (mkPs 0 text [])) as [r Hr]. destruct (comments_ok U _ _ _ Hr) as (s1 & t1 & ->).
    pose proof (skip_ev U false 0 text [] (POk s1 t1)) as SK. rewrite D, Nat.sub_diag in SK. specialize (SK Hr). cbn [seq_res] in SK.
    destruct (body_terminates U false s1) as [r Hb]. pose proof (program_unfold U text _ _ _ SK Hb) as P. apply MLC_fails in E.
    assert (F : fails (ECall R_COMMENT) NonAtomic false (mkPs 0 text [])).
    { apply er_call, er_atomic. do 4 (apply er_else; [|apply er_seq0, er_then, er_str; reflexivity]). exact E. }
    assert (CM : ev comments NonAtomic false (mkPs 0 text []) (POk (mkPs 0 text []) [])) by (apply no_rep, er_seq0, er_then; exact F).
    pose proof (ev_det U grammar skip_body _ _ _ _ _ _ Hr CM) as D2. injection D2 as -> ->.
    assert (SF : fails (ECall R_statement) NonAtomic false (mkPs 0 text [])).
    { apply er_call. apply (er_else U before_expression); [apply er_before; reflexivity|]. apply er_restore, er_call, er_rule, er_seq0. do 2 apply er_then.
      apply (er_expr_dead U). reflexivity. }
    assert (B : ev program_body NonAtomic false (mkPs 0 text []) (POk (mkPs 0 text []) [])) by (apply ok_seq, no_opt, er_then, er_restore, SF).
    assert (EO : exists s t, ev (ECall R_EOI) NonAtomic false (mkPs 0 text []) (PErr s t)).
    { eexists. eexists. apply ev_call. exact (ev_rule U grammar skip_body R_EOI EEoi NonAtomic false _ _ (ev_eoi_err U grammar skip_body _ _ _ _ _ _)). }
    destruct EO as (s5 & t5 & EO).
    pose proof (ev_then U grammar skip_body _ _ _ _ _ _ _ _ (ok_then1 U _ _ _ _ _ _ _ _ B SK) EO) as R1. cbn [prepend app] in R1. fold program_rest in R1.
    pose proof (ev_det U grammar skip_body _ _ _ _ _ _ Hb R1) as D2. subst r. intros f. unfold parse. rewrite P. reflexivity.
  Qed.
  (** nothing that starts like a comment is ever a value *)
  Lemma comment_or_refused : forall v, denotes_or_refused U (lit "%%%" ++ v) (Panic PUnreachable).
  Proof.
    intros v. set (text := lit "%%%" ++ v).
    assert (D : drop_white text = text) by (apply drop_white_stop; reflexivity).
    destruct (comments_terminates U false (mkPs 0 text [])) as [r Hr]. destruct (comments_ok U _ _ _ Hr) as (s1 & t1 & ->).
    pose proof (skip_ev U false 0 text [] (POk s1 t1)) as SK. rewrite D, Nat.sub_diag in SK. specialize (SK Hr). cbn [seq_res] in SK.
    destruct (body_terminates U false s1) as [r Hb]. pose proof (program_unfold U text _ _ _ SK Hb) as P.
    pose proof (program_no_panic U text) as NP. pose proof (program_terminates U text) as NF.
    destruct (call_decides U R_MultiLineComment Atomic false (mkPs 0 text []) eq_refl) as [(s2 & t2 & E)|(s2 & t2 & E)].
    - assert (X : exists T, t2 = [T] /\ t_rule T = R_MultiLineComment).
      { pose proof E as E'. destruct E' as [_ [f F]]. do 3 (destruct f as [|f]; [discriminate|]). cbn [Peg.run grammar] in F.
        match type of F with match ?x with _ => _ end = _ => destruct x end; try discriminate. injection F as _ <-. eexists. split; reflexivity. }
      destruct X as (T & -> & RT). destruct s2 as [p2 w2 st2]. pose proof (white_rep U NonAtomic false (length w2) w2 p2 st2 (le_n _)) as W.
      destruct (comments_terminates U false (mkPs (p2 + (length w2 - length (drop_white w2))) (drop_white w2) st2)) as [r2 Hr2]. destruct (comments_ok U _ _ _ Hr2) as (s3 & t3 & ->).
      assert (CM : ev comments NonAtomic false (mkPs 0 text []) (POk s3 ([T] ++ t3))).
      { unfold comments. eapply ok_rep; [|exact Hr2]. apply ok_seq. eapply ok_then1; [|exact W].
        apply ev_call. cbn [grammar]. apply ev_atomic. do 4 apply ev_else_ok. exact E. }
      pose proof (ev_det U grammar skip_body _ _ _ _ _ _ Hr CM) as D2. injection D2 as _ ->.
      destruct r as [s4 t4|s4 t4| |]; cbn [prepend seq_res app] in P; [right|left|congruence|congruence]; intros f; unfold parse; rewrite P; [|reflexivity].
      cbn [parse_pairs]. rewrite RT. reflexivity.
    - left. exact (uncommented_refused v s2 t2 E).
  Qed.

  (** ** An expression broken by a comment *)
  Lemma percent_stop : forall ws v, spacing ws = true -> tstop (ws ++ lit "%%%" ++ v) = true.
  Proof. intros ws v H. apply tstop_white; [exact HU|exact H|]. reflexivity. Qed.
  Lemma items_before : forall l v, Forall good_item l -> tstop v = true -> tstop (items_text l ++ v) = true.
  Proof.
    intros [|i l] v Hl Hv; [exact Hv|]. pose proof (Forall_inv Hl) as Hi. unfold items_text. cbn [map concat]. unfold item_text. rewrite <- !app_assoc.
    apply tstop_white; [exact HU|exact (proj1 Hi)|]. apply op_after; assumption.
  Qed.
  Lemma more_items : forall l p v st s ts, Forall good_item l -> tstop v = true ->
    (forall p', p' = p + length (items_text l) -> ev more_ops NonAtomic false (mkPs p' v st) (POk s ts)) -> exists L,
    ev more_ops NonAtomic false (mkPs p (items_text l ++ v) st) (POk s (flat_map (fun q => [fst q; snd q]) L ++ ts)) /\
    Forall2 (fun i => pair_tree (item_toks i)) l L.
  Proof.
    induction l as [|i l IH]; intros p v st s ts Hl Hv H.
    - exists []. split; [|constructor]. apply H. cbn. lia.
    - pose proof (Forall_inv Hl) as Hi. pose proof (Forall_inv_tail Hl) as Hl'. change (items_text (i :: l)) with (item_text i ++ items_text l) in *.
      destruct (ok_opterm U i (p + length (before i)) (items_text l ++ v) st Hi (items_before l v Hl' Hv)) as (T & ET & FT).
      destruct (IH (p + length (item_text i)) v st s ts Hl' Hv) as (L & EL & FL).
      { intros p' ->. apply H. unfold str, char in *. rewrite app_length. lia. }
      exists (T :: L). split; [|constructor; assumption]. cbn [flat_map]. rewrite <- !app_assoc.
      eapply (ok_rep U _ NonAtomic false _ _ [fst T; snd T]); [|exact EL].
      apply ok_seq. unfold item_text at 1. rewrite <- !app_assoc.
      eapply ok_then0; [apply skip_spacing; [exact (proj1 Hi)|apply op_solid with (r := op i); apply Hi]|]. eapply ok_pos; [exact ET|unfold item_text; lens].
  Qed.
  Lemma expr_broken : forall x0 o0 l b ws body ws' i m ws2 p,
    term_means x0 o0 -> front x0 = true -> Forall good_item l -> Forall (fun j => has_meaning (op j)) l ->
    written b = alternate (TX x0 o0) (map item_toks l) -> well_bracketed tok_strength tok_to_right b ->
    spacing ws = true -> no_percent body = true -> spacing ws' = true -> before i = [] -> Forall good_item (i :: m) -> closing ws2 = true ->
    no_percent (ws' ++ items_text (i :: m) ++ ws2) = true ->
    exists T p', ev (ECall R_expr) NonAtomic false (mkPs p ((x0 ++ items_text l) ++ ws ++ comment body ++ ws' ++ items_text (i :: m) ++ ws2) []) (POk (mkPs p' ws2 []) [T]) /\
      t_rule T = R_expr /\ forall f i', orel sim (parse_expr f i' T) (evaluate tok_operand tok_apply b).
  Proof.
    intros x0 o0 l b ws body ws' i m ws2 p H0 F0 Hl Ml Wb Bb Hws Hb Hws' Bi Him Hw2 Np.
    set (v := ws ++ comment body ++ ws' ++ items_text (i :: m) ++ ws2).
    assert (Sv : tstop v = true) by (unfold v, comment; rewrite <- !app_assoc; apply percent_stop; exact Hws).
    pose proof (end_stop U HU ws2 Hw2) as W2. pose proof (Forall_inv Him) as Hi. pose proof (Forall_inv_tail Him) as Hm.
    assert (T2 : tstop (ws2 ++ []) = true) by exact (proj1 (proj2 W2)).
    (* the comment and what follows *)
    assert (TL : forall p, exists s C J, t_rule C = R_MultiLineComment /\ rest s = ws2 /\ stk s = [] /\
        ev ESkip NonAtomic false (mkPs p v []) (POk (mkPs (p + length (ws ++ comment body ++ ws')) (sign i ++ after i ++ ProofExpr.arg i ++ items_text m ++ ws2) []) [C]) /\
        ev (EThen opterm more_ops) NonAtomic false (mkPs (p + length (ws ++ comment body ++ ws')) (sign i ++ after i ++ ProofExpr.arg i ++ items_text m ++ ws2) []) (POk s J) /\
        ev more_ops NonAtomic false (mkPs p v []) (POk s (C :: J))).
    { intros q. assert (TX : items_text (i :: m) ++ ws2 = sign i ++ after i ++ ProofExpr.arg i ++ items_text m ++ ws2).
      { change (items_text (i :: m)) with (item_text i ++ items_text m). unfold item_text. rewrite Bi. cbn [app]. rewrite <- !app_assoc. reflexivity. }
      rewrite TX in Np.
      destruct (skip_comment ws body ws' q (sign i ++ after i ++ ProofExpr.arg i ++ items_text m ++ ws2) [] Hws Hb Hws' Np) as (C & EC & RC).
      { apply op_solid with (r := op i); apply Hi. }
      rewrite <- TX in EC at 1. fold v in EC.
      destruct (ok_opterm U i (q + length (ws ++ comment body ++ ws')) (items_text m ++ ws2) [] Hi) as (T & ET & FT).
      { apply items_before; [exact Hm|]. rewrite app_nil_r in T2. exact T2. }
      destruct (ok_items U HU m (q + length (ws ++ comment body ++ ws') + length (sign i ++ after i ++ ProofExpr.arg i)) ws2 [] [] Hm W2) as (L & EL & FL). rewrite app_nil_r in EL.
      pose proof (ok_then U _ _ _ _ _ _ _ _ _ ET EL) as E2.
      eexists. exists C. eexists. split; [exact RC|]. split; [|split; [|split; [exact EC|split; [exact E2|]]]]; [reflexivity|reflexivity|].
      change (C :: [fst T; snd T] ++ flat_map (fun q0 => [fst q0; snd q0]) L) with (([C] ++ [fst T; snd T]) ++ flat_map (fun q0 => [fst q0; snd q0]) L).
      eapply ok_rep; [|exact EL]. apply ok_seq. eapply ok_then; [exact EC|exact ET]. }
    assert (P : exists p' L1 C J, ev (ESeq (EThen (EThen (ECall R_term) ESkip) (ESeq (EOpt (EThen opterm more_ops))))) NonAtomic false
        (mkPs p (x0 ++ items_text l ++ v) []) (POk (mkPs p' ws2 []) (alternate L1 (snd C) ++ fst C :: J)) /\
        tok_tree (TX x0 o0) L1 /\ t_rule (fst C) = R_MultiLineComment /\ Forall2 (fun i => pair_tree (item_toks i)) l (snd C)).
    { destruct (H0 NonAtomic p (items_text l ++ v) [] (items_before l v Hl Sv)) as (T0 & E0 & R0 & X0 & M0).
      destruct l as [|j l].
      - cbn [items_text map concat app] in *. destruct (TL (p + length x0)) as ([p' w' st'] & C & J & RC & R1 & R2 & EC & E2 & _). cbn [rest stk] in R1, R2. subst w' st'.
        exists p', T0, (C, []), J. cbn [fst snd]. split; [|split; [cbn; auto|split; [exact RC|constructor]]].
        apply ok_seq. unfold alternate. cbn [flat_map app]. eapply (ok_then U _ _ _ _ _ _ [T0; C] _ J).
        + eapply (ok_then U _ _ _ _ _ _ [T0]); [exact E0|exact EC].
        + apply ok_seq, ok_opt. exact E2.
      - pose proof (Forall_inv Hl) as Hj. pose proof (Forall_inv_tail Hl) as Hl'. change (items_text (j :: l)) with (item_text j ++ items_text l) in *.
        destruct (ok_opterm U j (p + length x0 + length (before j)) (items_text l ++ v) [] Hj (items_before l v Hl' Sv)) as (T & ET & FT).
        destruct (TL (p + length x0 + length (item_text j) + length (items_text l))) as ([p' w' st'] & C & J & RC & R1 & R2 & _ & _ & E2). cbn [rest stk] in R1, R2. subst w' st'.
        destruct (more_items l (p + length x0 + length (item_text j)) v [] (mkPs p' ws2 []) (C :: J) Hl' Sv) as (L & EL & FL).
        { intros q ->. exact E2. }
        exists p', T0, (C, T :: L), J. cbn [fst snd]. split; [|split; [cbn; auto|split; [exact RC|constructor; assumption]]].
        apply ok_seq. unfold alternate. cbn [flat_map app].
        apply (ok_then U _ _ _ _ _ (mkPs (p + length x0 + length (before j)) (sign j ++ after j ++ ProofExpr.arg j ++ items_text l ++ v) []) [T0]).
        + eapply ok_then1; [exact E0|]. unfold item_text. rewrite <- !app_assoc. apply skip_spacing; [exact (proj1 Hj)|]. apply op_solid with (r := op j); apply Hj.
        + apply ok_seq, ok_opt.
          apply (ok_then U _ _ _ _ _ (mkPs (p + length x0 + length (item_text j)) (items_text l ++ v) []) [fst T; snd T] _ (flat_map (fun q => [fst q; snd q]) L ++ C :: J)).
          * eapply ok_pos; [exact ET|unfold item_text; lens].
          * exact EL. }
    destruct P as (p' & T0 & (C & L1) & J & E & K0 & RC & F1). cbn [fst snd] in *.
    pose proof (ev_rule U grammar skip_body R_expr _ _ _ _ _ E) as X. cbn [rule_res emits negb pos rest] in X.
    eexists. exists p'. split; [apply ev_call; cbn [grammar]; apply ev_atomic; rewrite <- app_assoc; exact X|].
    split; [reflexivity|]. intros f i'.
    assert (S1 : Forall (fun q => supported (fst q)) L1).
    { clear - F1 Ml. induction F1 as [|j q l' L Hq _ IH]; [constructor|]. inversion Ml; subst. constructor; [|auto].
      destruct Hq as [(_ & Hq & _) _]. apply (supported_rule _ _ Hq). assumption. }
    assert (S2 : ~ supported C).
    { destruct C as [r ? ? ? ?]. cbn [t_rule] in RC. subst r. unfold supported. cbn. lia. }
    set (tx := consumed (x0 ++ items_text l ++ v) ws2).
    destruct (expression_precedence f i' R_expr p p' tx T0 L1 S1) as (t & Wt & Et & Ut & Pt).
    destruct (transfer tok_tree b (alternate T0 L1)) as (b' & Eb & Rb).
    { rewrite Wb. unfold alternate. constructor; [exact K0|]. clear - F1. induction F1 as [|j q l' L [H1 H2] _ IH]; [constructor|].
      cbn [map flat_map]. constructor; [exact H1|]. constructor; [exact H2|]. exact IH. }
    assert (Et' : b' = t) by (apply Ut; [eapply brel_well; [apply tok_tables|exact Rb|exact Bb]|exact Eb]). subst b'.
    pose proof (brel_evaluate f i' (get_position f i' (Node R_expr p p' tx (alternate T0 L1))) b t Rb) as Q.
    rewrite <- Pt in Q. rewrite <- (unsupported_truncates f i' _ _ _ _ T0 L1 C J S1 S2) in Q. exact Q.
  Qed.
  Theorem text_broken : forall g x0 o0 l b ws body ws' i m ws2,
    spacing g = true -> term_means x0 o0 -> front x0 = true -> plain_start (x0 ++ items_text l) = true -> Forall good_item l -> Forall (fun j => has_meaning (op j)) l ->
    written b = alternate (TX x0 o0) (map item_toks l) -> well_bracketed tok_strength tok_to_right b ->
    spacing ws = true -> no_percent body = true -> spacing ws' = true -> before i = [] -> Forall good_item (i :: m) -> closing ws2 = true ->
    no_percent (ws' ++ items_text (i :: m) ++ ws2) = true ->
    denotes U (g ++ (x0 ++ items_text l) ++ ws ++ comment body ++ ws' ++ items_text (i :: m) ++ ws2) (evaluate tok_operand tok_apply b).
  Proof.
    intros g x0 o0 l b ws body ws' i m ws2 Hg H0 F0 Hp Hl Ml Wb Bb Hws Hb Hws' Bi Him Hw2 Np. apply denotes_skip; [exact Hg|].
    destruct (expr_broken x0 o0 l b ws body ws' i m ws2 0 H0 F0 Hl Ml Wb Bb Hws Hb Hws' Bi Him Hw2 Np) as (T & p' & E & R & V).
    assert (N : x0 ++ items_text l <> []) by (intro Z; apply app_eq_nil in Z as [-> _]; discriminate).
    rewrite <- (app_nil_r ws2) in E at 2.
    destruct (statement_of _ 0 p' ws2 [] [] T _ (plain_start_app _ _ N Hp (white_lower ws (comment body ++ ws' ++ items_text (i :: m) ++ ws2) Hws eq_refl)) E R V (closing_gone U ws2 Hw2) eq_refl) as (TT & E' & V').
    destruct (program_one U _ _ [] _ (front_solid _ _ (front_app x0 (items_text l) F0)) eq_refl E') as (s & E'' & P). eapply denotes_pairs; [exact V'|exact P].
  Qed.
End Comment.
