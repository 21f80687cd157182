(** Whole texts. *)
From Verif Require Import Base Ast Display SmError Peg Grammar Climber Build SpecAst SpecPeg SpecClimb SpecParse SpecSyntax SpecText.
From Verif Require Import ProofAst ProofDisplay ProofPeg ProofPegShift ProofSym ProofGrammar ProofClimber ProofBuild ProofPos ProofSpace ProofLex ProofToken ProofNode ProofAtom ProofTerm ProofExpr ProofGroup ProofCall ProofArgs ProofSlice ProofProduct.
Local Open Scope nat_scope.
Local Open Scope outcome_scope.

Section Text.
  Variable U : unicode.
  Notation ev := (ev U grammar skip_body).
  Notation fails := (fails U).
  Notation tstop := (tstop U).
  Notation expr_means := (expr_means U).
  Notation expr_stop := (expr_stop U).

  (** ** Statements that are not expressions *)
  Lemma er_Semicolon : forall k q p w st, head_is semi w = false -> fails (ECall R_Semicolon) k q (mkPs p w st).
  Proof.
    intros k q p w st H. apply er_call, er_rule, er_atomic, er_else; apply er_str; destruct w as [|c w]; try reflexivity; apply strip_head; intros <-; discriminate H.
  Qed.
  Lemma er_eos : forall k q p w st, head_is semi w = false -> fails (ECall R_eos) k q (mkPs p w st).
  Proof. intros. apply er_call, er_rule, er_Semicolon. assumption. Qed.
  Lemma ok_eos : forall c p w st, semi c = true -> exists T,
    ev (ECall R_eos) NonAtomic false (mkPs p (c :: w) st) (POk (mkPs (p + 1) w st) [T]) /\ t_rule T = R_eos.
  Proof.
    intros c p w st H. eexists. split; [|cycle 1].
    - apply ev_call. cbn [grammar]. apply (ok_rule U R_eos _ NonAtomic p [c] w st st). apply ev_call. cbn [grammar].
      apply (ok_rule U R_Semicolon _ NonAtomic p [c] w st st). apply ev_atomic.
      apply orb_prop in H as [H|H]; apply N.eqb_eq in H; subst c.
      + apply ev_else_ok. apply (ev_str U grammar skip_body (lit ";")).
      + apply ev_else_err; [apply er_str; reflexivity|]. apply (ev_str U grammar skip_body [65307%N]).
    - reflexivity.
  Qed.
  Lemma starts_with_none : forall k x, starts_with k x = false -> strip_prefix k x = None.
  Proof. intros k x H. unfold starts_with in H. destruct (strip_prefix k x); congruence. Qed.

  Definition before_expression : pexp rule :=
    EElse (EElse (EElse (EElse (EElse (EElse (EElse (EElse (ECall R_emptyStatement)
      (ERestore (ESeq (EThen (EThen (ECall R_importStatement) ESkip) (EOpt (ECall R_eos))))))
      (ERestore (ESeq (EThen (EThen (ECall R_classStatement) ESkip) (EOpt (ECall R_eos))))))
      (ERestore (ESeq (EThen (EThen (ECall R_traitStatement) ESkip) (EOpt (ECall R_eos))))))
      (ERestore (ESeq (EThen (EThen (ECall R_extendStatement) ESkip) (EOpt (ECall R_eos))))))
      (ERestore (ESeq (EThen (EThen (ECall R_controlFlow) ESkip) (EOpt (ECall R_eos))))))
      (ERestore (ESeq (EThen (EThen (ECall R_assignStatement) ESkip) (EOpt (ECall R_eos))))))
      (ERestore (ESeq (EThen (EThen (ECall R_defineStatement) ESkip) (EOpt (ECall R_eos))))))
      (ERestore (ESeq (EThen (EThen (ECall R_annotation) ESkip) (EOpt (ECall R_eos))))).
  Lemma er_before : forall p w st, plain_start w = true -> fails before_expression NonAtomic false (mkPs p w st).
  Proof.
    intros p w st H. unfold plain_start in H. apply andb_prop in H as [H1 H2]. apply negb_true_iff in H1. apply negb_true_iff in H2.
    cbn [existsb statement_words] in H2. repeat match goal with H : (_ || _)%bool = false |- _ => apply orb_false_iff in H as [? H] end.
    repeat match goal with H : starts_with _ _ = false |- _ => apply starts_with_none in H end.
    assert (S : head_is semi w = false).
    { destruct w as [|c w]; [reflexivity|]. cbn [head_is] in *. apply orb_false_iff in H1. apply H1. }
    assert (A : strip_prefix (lit "@") w = None).
    { destruct w as [|c w]; [reflexivity|]. cbn [head_is] in H1. apply orb_false_iff in H1 as [_ H1]. apply strip_head. intros <-. discriminate H1. }
    unfold before_expression.
    apply er_else; [apply er_else; [apply er_else; [apply er_else; [apply er_else; [apply er_else; [apply er_else; [apply er_else|]|]|]|]|]|]|].
    - apply er_call, er_rule, er_else; [apply er_eos; exact S|]. apply er_call, er_rule, er_atomic, er_str.
      destruct w as [|c w]; [reflexivity|]. apply strip_head. intros <-. discriminate S.
    - apply er_restore, er_seq0. do 2 apply er_then. apply er_call, er_rule, er_seq0. repeat apply er_then. apply er_str. assumption.
    - apply er_restore, er_seq0. do 2 apply er_then. apply er_call, er_rule, er_seq0. repeat apply er_then. apply er_str. assumption.
    - apply er_restore, er_seq0. do 2 apply er_then. apply er_call, er_rule, er_seq0. repeat apply er_then. apply er_str. assumption.
    - apply er_restore, er_seq0. do 2 apply er_then. apply er_call, er_rule, er_seq0. repeat apply er_then. apply er_str. assumption.
    - apply er_restore, er_seq0. do 2 apply er_then. apply er_call. apply er_else; [apply er_else|].
      + apply er_restore, er_call, er_rule. apply er_else; [apply er_else|].
        * apply er_restore, er_seq0. do 2 apply er_then. apply er_call, er_rule, er_atomic, er_str. assumption.
        * apply er_call, er_rule, er_atomic, er_str. assumption.
        * apply er_call, er_rule, er_atomic, er_str. assumption.
      + apply er_restore, er_call, er_rule, er_seq0. repeat apply er_then. apply er_str. assumption.
      + apply er_restore, er_call, er_rule, er_seq0. repeat apply er_then. apply er_str. assumption.
    - apply er_restore, er_seq0. do 2 apply er_then. apply er_call, er_rule, er_seq0. repeat apply er_then. apply er_str. assumption.
    - apply er_restore, er_seq0. do 2 apply er_then. apply er_call, er_rule, er_seq0. repeat apply er_then. apply er_str. assumption.
    - apply er_restore, er_seq0. do 2 apply er_then. apply er_call, er_rule, er_seq0. do 2 apply er_then. apply er_seq0. do 2 apply er_then.
      apply er_call, er_rule, er_atomic, er_seq0. apply er_then. apply er_call, er_rule, er_atomic, er_str. exact A.
  Qed.

  (** ** The first statement decides *)
  Lemma program_first : forall text s1 ts, solid text = true -> ev (ECall R_statement) NonAtomic false (mkPs 0 text []) (POk s1 ts) ->
    (exists s t, run_program U text = PErr s t) \/ (exists s more, run_program U text = POk s (ts ++ more)).
  Proof.
    intros text s1 ts Hs H. pose proof (skip_nothing U 0 text [] Hs) as E0.
    destruct (body_terminates U false (mkPs 0 text [])) as [r Hr]. pose proof (program_unfold U text _ _ _ E0 Hr) as P.
    pose proof (program_no_panic U text) as NP. pose proof (program_terminates U text) as NF. rewrite P in NP, NF |- *.
    destruct r as [s2 t2|s2 t2| |]; cbn [prepend seq_res app] in *; [|left; eauto|congruence|congruence].
    right. exists s2. unfold program_rest in Hr.
    destruct (ev_then_inv U _ _ _ _ _ _ Hr) as [(s3 & t3 & r3 & H1 & H2 & E)|[_ N]]; [|exfalso; eapply N; reflexivity].
    destruct r3 as [s4 t4|? ?| |]; cbn [prepend] in E; try discriminate. injection E as <- ->.
    destruct (ev_then_inv U _ _ _ _ _ _ H1) as [(s5 & t5 & r5 & H3 & H4 & E)|[_ N]]; [|exfalso; eapply N; reflexivity].
    destruct r5 as [s6 t6|? ?| |]; cbn [prepend] in E; try discriminate. injection E as <- ->.
    assert (X : exists more, t5 = ts ++ more).
    { clear - H H3. unfold program_body in H3. destruct H3 as [_ [f F]]. destruct f as [|f]; [discriminate|]. cbn [Peg.run] in F.
      destruct f as [|f]; [discriminate|]. cbn [Peg.run] in F.
      destruct (Peg.run U grammar skip_body f (EThen (ERestore (ECall R_statement)) (ERep (ESeq (EThen ESkip (ERestore (ECall R_statement)))))) NonAtomic false (mkPs 0 text [])) as [sa ta|sa ta| |] eqn:EX; try discriminate.
      - destruct (ev_then_inv U (ERestore (ECall R_statement)) (ERep (ESeq (EThen ESkip (ERestore (ECall R_statement))))) NonAtomic false (mkPs 0 text []) (POk sa ta)) as [(sb & tb & rb & K1 & K2 & E)|[K N]].
        + split; [discriminate|]. eauto.
        + pose proof (ev_det U grammar skip_body _ _ _ _ _ _ K1 (ok_restore U _ _ _ _ _ _ H)) as D. injection D as -> ->.
          destruct rb as [sc tc|sc tc| |]; cbn [prepend] in E; try discriminate. injection E as -> ->. injection F as _ <-. eauto.
        + exfalso. eapply N. reflexivity.
      - exfalso. destruct (ev_then_inv U (ERestore (ECall R_statement)) (ERep (ESeq (EThen ESkip (ERestore (ECall R_statement))))) NonAtomic false (mkPs 0 text []) (PErr sa ta)) as [(sb & tb & rb & K1 & K2 & E)|[K N]].
        + split; [discriminate|]. eauto.
        + destruct rb as [sc tc|sc tc| |]; cbn [prepend] in E; try discriminate. destruct K2 as [_ [f' F']]. clear - F'. revert sb sc tc F'.
          induction f' as [|f' IH]; intros sb sc tc F'; [discriminate|]. cbn [Peg.run] in F'.
          match type of F' with match ?x with _ => _ end = _ => destruct x as [s1 t1|s1 t1| |] end; try discriminate.
          destruct (Peg.run U grammar skip_body f' (ERep (ESeq (EThen ESkip (ERestore (ECall R_statement))))) NonAtomic false s1) as [? ?|? ?| |] eqn:G; cbn [prepend] in F'; try discriminate.
          eapply IH. exact G.
        + pose proof (ev_det U grammar skip_body _ _ _ _ _ _ K (ok_restore U _ _ _ _ _ _ H)) as D. discriminate. }
    destruct X as [more ->]. exists ((more ++ t6) ++ t4). rewrite <- !app_assoc. reflexivity.
  Qed.

  (** ** An expression as a statement *)
  Lemma statement_alt : forall p w st r, plain_start w = true -> ev (ERestore (ECall R_expression)) NonAtomic false (mkPs p w st) r ->
    ev (ECall R_statement) NonAtomic false (mkPs p w st) r.
  Proof. intros p w st r H E. apply ev_call. apply (ev_else_err U before_expression); [apply er_before; exact H|exact E]. Qed.
  Definition value_of (T : tree rule) (o : outcome ast) : Prop :=
    t_rule T = R_expression /\ forall f i, orel sim ('(a, _) <- parse_expression f i T; Ret a) o.
  Lemma expression_value : forall (T E : tree rule) (o : outcome ast) l, t_rule T = R_expression -> t_inner T = E :: l -> t_rule E = R_expr ->
    (l = [] \/ exists S, l = [S] /\ t_rule S = R_eos) -> (forall f i, orel sim (parse_expr f i E) o) -> value_of T o.
  Proof.
    intros T E o l R I RE Hl H. split; [exact R|]. intros f i. specialize (H f i). unfold parse_expression. rewrite I. cbn [parse_expression_loop]. rewrite RE.
    assert (X : forall a, exists b, parse_expression_loop f i l a false = Ret (a, b)).
    { intros a. destruct Hl as [-> | (S & -> & RS)]; cbn [parse_expression_loop]; [|rewrite RS]; eauto. }
    destruct (parse_expr f i E) as [a|k|]; cbn [obind]; [|exact H|exact H]. destruct (X a) as [b ->]. exact H.
  Qed.
  Lemma statement_expr : forall x o p ws w st, plain_start (x ++ ws ++ w) = true -> expr_means x o -> expr_stop ws w -> head_is semi w = false ->
    exists T, ev (ECall R_statement) NonAtomic false (mkPs p (x ++ ws ++ w) st) (POk (mkPs (p + length x + length ws) w st) [T]) /\ value_of T o.
  Proof.
    intros x o p ws w st HP Hx Hw Hs. destruct (expr_skip U _ _ p ws w st Hx Hw) as (T & E & R & M).
    exists (Node R_expression p (p + length (x ++ ws)) (x ++ ws) [T]). split.
    - apply statement_alt; [exact HP|]. apply ok_restore, ev_call. cbn [grammar].
      pose proof (ok_then1 U _ (EOpt (ECall R_eos)) _ _ _ _ _ _ E (no_opt U _ _ _ _ (er_eos _ _ _ _ _ Hs))) as E1. apply ok_seq in E1.
      replace (x ++ ws ++ w) with ((x ++ ws) ++ w) in * by (rewrite app_assoc; reflexivity).
      assert (L : p + length x + length ws = p + length (x ++ ws)) by (unfold str, char in *; rewrite app_length; lia).
      rewrite L in E1 |- *. apply (ok_rule U R_expression _ NonAtomic p (x ++ ws) w st st [T]) in E1. exact E1.
    - eapply expression_value; [reflexivity|reflexivity|exact R|left; reflexivity|exact M].
  Qed.
  Lemma statement_semi : forall x o p ws c w st, plain_start (x ++ ws ++ c :: w) = true -> expr_means x o -> expr_stop ws (c :: w) -> semi c = true ->
    exists T, ev (ECall R_statement) NonAtomic false (mkPs p (x ++ ws ++ c :: w) st) (POk (mkPs (p + length x + length ws + 1) w st) [T]) /\ value_of T o.
  Proof.
    intros x o p ws c w st HP Hx Hw Hs. destruct (expr_skip U _ _ p ws (c :: w) st Hx Hw) as (T & E & R & M).
    destruct (ok_eos c (p + length x + length ws) w st Hs) as (S & ES & RS).
    exists (Node R_expression p (p + length (x ++ ws ++ [c])) (x ++ ws ++ [c]) [T; S]). split.
    - apply statement_alt; [exact HP|]. apply ok_restore, ev_call. cbn [grammar].
      pose proof (ok_then U _ (EOpt (ECall R_eos)) _ _ _ _ _ _ _ E (ok_opt U _ _ _ _ _ _ ES)) as E1. apply ok_seq in E1. cbn [app] in E1.
      replace (x ++ ws ++ c :: w) with ((x ++ ws ++ [c]) ++ w) in * by (rewrite <- !app_assoc; reflexivity).
      assert (L : p + length x + length ws + 1 = p + length (x ++ ws ++ [c])) by (unfold str, char in *; repeat (rewrite app_length || cbn [length]); lia).
      rewrite L in E1 |- *. apply (ok_rule U R_expression _ NonAtomic p (x ++ ws ++ [c]) w st st [T; S]) in E1. exact E1.
    - eapply expression_value; [reflexivity|reflexivity|exact R|right; eauto|exact M].
  Qed.

  (** ** The end of the text *)
  Lemma er_statement_end : forall p st, fails (ECall R_statement) NonAtomic false (mkPs p [] st).
  Proof.
    intros. apply (fails_sound U grammar skip_body 60 (ECall R_statement) NonAtomic false [mkLook [] false] p [] st); [vm_compute; reflexivity|].
    exists (mkLook [] false). split; [left; reflexivity|]. exists []. split; reflexivity.
  Qed.
  Lemma no_more : forall p ws st, closing ws = true ->
    ev (ERep (ESeq (EThen ESkip (ERestore (ECall R_statement))))) NonAtomic false (mkPs p ws st) (POk (mkPs p ws st) []).
  Proof.
    intros p ws st H. apply ev_rep_stop. assert (S : ev ESkip NonAtomic false (mkPs p ws st) (POk (mkPs (p + length ws) [] st) [])).
    { apply skip_closing. exact H. }
    eapply er_seq2; [exact S|apply er_restore, er_statement_end|reflexivity].
  Qed.
  Lemma program_one : forall text p ws ts, solid text = true -> closing ws = true ->
    ev (ECall R_statement) NonAtomic false (mkPs 0 text []) (POk (mkPs p ws []) ts) ->
    exists s E, run_program U text = POk s (ts ++ E).
  Proof.
    intros text p ws ts Hs Hws H. pose proof (skip_nothing U 0 text [] Hs) as E0.
    assert (S : ev ESkip NonAtomic false (mkPs p ws []) (POk (mkPs (p + length ws) [] []) [])).
    { apply skip_closing. exact Hws. }
    pose proof (ok_then1 U _ _ _ _ _ _ _ _ (ok_restore U _ _ _ _ _ _ H) (no_more p ws [] Hws)) as E1.
    apply ok_opt in E1. apply ok_seq in E1. fold program_body in E1.
    pose proof (ok_then1 U _ _ _ _ _ _ _ _ E1 S) as E2.
    assert (E3 : exists E, ev (ECall R_EOI) NonAtomic false (mkPs (p + length ws) [] []) (POk (mkPs (p + length ws) [] []) E)).
    { eexists. apply ev_call. cbn [grammar]. exact (ev_rule U grammar skip_body R_EOI EEoi NonAtomic false _ _ (ev_eoi U grammar skip_body _ _ _ _)). }
    destruct E3 as [E E3]. pose proof (ok_then U _ _ _ _ _ _ _ _ _ E2 E3) as E4. fold program_rest in E4.
    rewrite (program_unfold U text _ _ _ E0 E4). cbn [prepend seq_res app]. eauto.
  Qed.

  (** ** Texts *)
  Lemma denotes_pairs : forall text s T more o, value_of T o -> run_program U text = POk s ([T] ++ more) -> denotes U text o.
  Proof.
    intros text s T more o [R H] E f. unfold parse. rewrite E. cbn [app parse_pairs]. rewrite R. specialize (H f text). unfold orel in H.
    destruct ('(a, _) <- parse_expression f text T; Ret a) as [a|k|], o as [b|k'|]; cbn [obind omap]; try contradiction; unfold sim in H; cbn [forget_result] in *; congruence.
  Qed.
  Lemma denotes_skip : forall g x o, spacing g = true -> denotes U x o -> denotes U (g ++ x) o.
  Proof. intros g x o Hg H f. rewrite (leading_spacing U f g x Hg). apply H. Qed.
  Lemma refused_skip : forall g x o, spacing g = true -> denotes_or_refused U x o -> denotes_or_refused U (g ++ x) o.
  Proof.
    intros g x o Hg [H|H]; [left|right; apply denotes_skip; assumption]. intros f.
    pose proof (leading_spacing U f g x Hg) as E. rewrite H in E. cbn [omap forget_result] in E.
    destruct (parse U f (g ++ x)) as [[a|e]|k|]; cbn in E; try discriminate. injection E as ->. reflexivity.
  Qed.

  (** no word of the list is broken by the end of the expression *)
  Lemma starts_with_app : forall k x w, starts_with k (x ++ w) = true -> starts_with k x = true \/ exists y d z, k = x ++ d :: y /\ w = d :: z.
  Proof.
    unfold starts_with. induction k as [|a k IH]; intros x w H; [left; reflexivity|].
    destruct x as [|b x]; cbn [app strip_prefix] in *.
    - right. destruct w as [|d w]; [discriminate|]. destruct (N.eqb a d) eqn:E; [|discriminate]. apply N.eqb_eq in E. subst d. exists k, a, w. split; reflexivity.
    - destruct (N.eqb a b) eqn:E; [|discriminate]. apply N.eqb_eq in E. subst b. destruct (IH x w H) as [L|(y & d & z & -> & ->)]; [left; exact L|]. right. exists y, d, z. split; reflexivity.
  Qed.
  Definition lower (c : char) : bool := ((97 <=? c) && (c <=? 122))%N.
  Lemma plain_start_app : forall x w, x <> [] -> plain_start x = true -> head_is lower w = false -> plain_start (x ++ w) = true.
  Proof.
    intros x w Hx H Hw. unfold plain_start in *. apply andb_prop in H as [H1 H2]. apply andb_true_intro. split.
    - destruct x as [|c x]; [congruence|]. exact H1.
    - apply negb_true_iff. apply negb_true_iff in H2. apply not_true_iff_false. intros E. apply existsb_exists in E as (k & Hk & E).
      apply starts_with_app in E as [E|(y & d & z & E & ->)].
      + apply not_true_iff_false in H2. apply H2. apply existsb_exists. eauto.
      + assert (D : In d k) by (rewrite E; apply in_or_app; right; left; reflexivity). clear - Hk D Hw. cbn [head_is] in Hw.
        assert (L : forallb (forallb lower) statement_words = true) by reflexivity. rewrite forallb_forall in L. specialize (L k Hk). rewrite forallb_forall in L. rewrite (L d D) in Hw. discriminate.
  Qed.
  Lemma white_lower : forall ws w, spacing ws = true -> head_is lower w = false -> head_is lower (ws ++ w) = false.
  Proof.
    intros [|c ws] w H Hw; [exact Hw|]. cbn [app head_is]. destruct (spacing_head c ws H) as [H'| ->]; [|reflexivity]. clear H. rename H' into H. apply not_true_iff_false. intros L.
    unfold lower in L. apply andb_prop in L as [L1 L2]. apply N.leb_le in L1, L2.
    assert (X : forall n, (n <= 25)%nat -> white_space (97 + N.of_nat n)%N = false).
    { intros n Hn. do 26 (destruct n as [|n]; [reflexivity|]). lia. }
    specialize (X (N.to_nat (c - 97)) ltac:(lia)). replace (97 + N.of_nat (N.to_nat (c - 97)))%N with c in X by lia. congruence.
  Qed.

  Hypothesis HU : sane U.

  Lemma closing_lower : forall ws, closing ws = true -> head_is lower (ws ++ []) = false.
  Proof.
    intros ws H. rewrite app_nil_r. destruct (closing_split ws H) as [S|(a & d & l & -> & Ha & _)].
    - rewrite <- (app_nil_r ws). apply white_lower; [exact S|reflexivity].
    - apply white_lower; [exact Ha|reflexivity].
  Qed.
  Theorem text_whole : forall g x o ws, spacing g = true -> closing ws = true -> front x = true -> plain_start x = true -> expr_means x o ->
    denotes U (g ++ x ++ ws) o.
  Proof.
    intros g x o ws Hg Hws Hf Hp Hx. apply denotes_skip; [exact Hg|]. rewrite <- (app_nil_r ws).
    assert (N : x <> []) by (intros ->; discriminate).
    destruct (statement_expr x o 0 ws [] [] (plain_start_app _ _ N Hp (closing_lower ws Hws)) Hx (end_stop U HU ws Hws) eq_refl) as (T & E & V).
    destruct (program_one _ _ [] _ (front_solid _ _ Hf) eq_refl E) as (s & E' & P). eapply denotes_pairs; [exact V|exact P].
  Qed.
  Theorem text_semi : forall g x o ws c ws', spacing g = true -> spacing ws = true -> front x = true -> plain_start x = true -> expr_means x o -> semi c = true -> closing ws' = true ->
    denotes U (g ++ x ++ ws ++ c :: ws') o.
  Proof.
    intros g x o ws c ws' Hg Hws Hf Hp Hx Hc Hw'. apply denotes_skip; [exact Hg|]. assert (N : x <> []) by (intros ->; discriminate).
    assert (L : head_is lower (c :: ws') = false) by (apply orb_prop in Hc as [Hc|Hc]; apply N.eqb_eq in Hc; subst c; reflexivity).
    assert (E : ends c = true) by (apply orb_prop in Hc as [Hc|Hc]; apply N.eqb_eq in Hc; subst c; reflexivity).
    destruct (statement_semi x o 0 ws c ws' [] (plain_start_app _ _ N Hp (white_lower _ _ Hws L)) Hx (ends_stop U HU ws c ws' Hws E) Hc) as (T & E1 & V).
    destruct (program_one _ _ ws' _ (front_solid _ _ Hf) Hw' E1) as (s & E' & P). eapply denotes_pairs; [exact V|exact P].
  Qed.
  (** whatever follows the first semicolon *)
  Theorem text_first : forall g x o ws c rest, spacing g = true -> spacing ws = true -> front x = true -> plain_start x = true -> expr_means x o -> semi c = true ->
    denotes_or_refused U (g ++ x ++ ws ++ c :: rest) o.
  Proof.
    intros g x o ws c rest Hg Hws Hf Hp Hx Hc. apply refused_skip; [exact Hg|]. assert (N : x <> []) by (intros ->; discriminate).
    assert (L : head_is lower (c :: rest) = false) by (apply orb_prop in Hc as [Hc|Hc]; apply N.eqb_eq in Hc; subst c; reflexivity).
    assert (E : ends c = true) by (apply orb_prop in Hc as [Hc|Hc]; apply N.eqb_eq in Hc; subst c; reflexivity).
    destruct (statement_semi x o 0 ws c rest [] (plain_start_app _ _ N Hp (white_lower _ _ Hws L)) Hx (ends_stop U HU ws c rest Hws E) Hc) as (T & E1 & V).
    destruct (program_first _ _ _ (front_solid _ _ Hf) E1) as [(s & t & P)|(s & more & P)].
    - left. intros f. unfold parse. rewrite P. reflexivity.
    - right. eapply denotes_pairs; [exact V|exact P].
  Qed.
End Text.
