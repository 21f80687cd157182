(** Products written without an operator. *)
From Verif Require Import Base Ast Display SmError Peg Grammar Climber Build SpecAst SpecPeg SpecClimb SpecParse SpecSyntax.
From Verif Require Import ProofAst ProofDisplay ProofPeg ProofPegShift ProofSym ProofGrammar ProofClimber ProofBuild ProofPos ProofSpace ProofLex ProofToken ProofNode ProofAtom ProofTerm ProofExpr ProofGroup ProofCall ProofArgs ProofSlice.
Local Open Scope nat_scope.
Local Open Scope outcome_scope.

Section Product.
  Variable U : unicode.
  Notation ev := (ev U grammar skip_body).
  Notation fails := (fails U).
  Notation node_means := (node_means U).
  Notation nstop := (nstop U).
  Hypothesis HU : sane U.

  Inductive fac :=
  | FSym (x : str)
  | FInt (x : str)
  | FDec (x y : str)
  | FByte (b : char) (P : char -> bool) (s : str)
  | FCall (h : str) (a : str * str * outcome parameter) (l : call_args).
  Definition fac_text (f : fac) : str :=
    match f with
    | FSym x => x
    | FInt x => x
    | FDec x y => x ++ lit "." ++ y
    | FByte b _ s => [48%N; b] ++ s
    | FCall h a l => h ++ calls_text (a :: l)
    end.
  Definition fac_value (f : fac) : outcome ast :=
    match f with
    | FSym x => Ret (ast_symbol x)
    | FInt x => Ret (Integer (numeral_value x))
    | _ => Panic PUnreachable
    end.
  Definition good_fac (f : fac) : Prop :=
    match f with
    | FSym x => is_path U x
    | FInt x => numeral x = true
    | FDec x y => numeral x = true /\ numeral y = true
    | FByte b P s => based b P /\ s <> [] /\ grouped P s = true
    | FCall h a l => is_path U h /\ Forall (good_call U) (a :: l)
    end.
  Definition no_call (w : str) : bool := negb (head_is (N.eqb 40) (drop_inline w)).
  (** what may follow a factor *)
  Definition fol (f : fac) (w : str) : bool :=
    match f with
    | FSym _ => sym_stop U w && no_call w && negb (primed w)
    | FInt x => int_stop x w && negb (dot_digit w) && (negb (str_eqb x [48%N]) || negb (head_is base_letter w))
    | FDec _ y => int_stop y w
    | FByte _ P _ => group_stop P w
    | FCall _ _ _ => no_call w
    end.
  Lemma nstop_fol : forall f w, good_fac f -> nstop w = true -> fol f w = true.
  Proof.
    intros f w Hf H. pose proof (nstop_join U w H) as J. apply joins_off in J as (J1 & _ & _).
    destruct f as [x|x|x y|b P s|h a l]; cbn [fol good_fac] in *; unfold no_call; rewrite ?J1.
    - rewrite (nstop_sym U w H), (nstop_primed U w H). reflexivity.
    - rewrite (nstop_int U x w H), (nstop_dot U w H), (nstop_base U w H). apply orb_true_r.
    - apply (nstop_int U). exact H.
    - destruct Hf as (Hb & _). apply (group_stop_xid U); [intros c Hc; apply (based_figures b P Hb); exact Hc|]. apply nstop_xid. exact H.
    - reflexivity.
  Qed.
  Definition in_space (c : tree rule) : outcome (list ast) :=
    match t_rule c with
    | R_WHITESPACE => Ret []
    | R_Symbol => Ret [ast_symbol (t_text c)]
    | R_Integer => i <- parse_integer c; Ret [i]
    | _ => Panic PUnreachable
    end.
  Definition Qfac (f : fac) (T : tree rule) : Prop := in_space T = (v <- fac_value f; Ret [v]).

  Lemma er_more_apply_at : forall k q p w st, no_call w = true ->
    fails (ESeq (EThen inline_rep (ECall R_apply))) k q (mkPs p w st).
  Proof.
    intros k q p w st H. apply negb_true_iff in H.
    destruct (inline_rep_any U k q p w st) as [p' Hp]. eapply er_seq2; [exact Hp| |reflexivity].
    apply er_apply. exact H.
  Qed.
  Lemma er_apply_call_at : forall k x p w st, is_path U x -> sym_stop U w = true -> no_call w = true ->
    fails (ECall R_apply_call) k false (mkPs p (x ++ w) st).
  Proof.
    intros k x p w st Hx Hs Hw. apply er_call, er_atomic, er_rule.
    destruct (ok_Symbol U CompoundAtomic x p w st Hx Hs) as [t Ht].
    pose proof (ev_then U grammar skip_body _ _ _ _ _ _ _ _ Ht (er_more_apply_at CompoundAtomic false (p + length x) w st Hw)) as X.
    eapply er_seq; [apply ev_then_err; exact X|reflexivity].
  Qed.
  Lemma ok_Number_at : forall k x p w st, numeral x = true -> fol (FInt x) w = true ->
    ev (ECall R_Number) k false (mkPs p (x ++ w) st) (POk (mkPs (p + length x) w st) (node_of R_Integer k p x [])).
  Proof.
    intros k x p w st Hx H. cbn [fol] in H. apply andb_prop in H as [H B]. apply andb_prop in H as [I D]. apply negb_true_iff in D.
    apply ev_call. cbn [grammar]. apply ev_else_err; [apply er_else|].
    - apply er_Byte. destruct (numeral_cases x Hx) as [->|(c & y & -> & Hc & Hy)]; cbn [app].
      + cbn [N.eqb Pos.eqb andb]. cbn in B. apply negb_true_iff in B. exact B.
      + destruct (N.eqb_spec c 48) as [->|]; [discriminate|reflexivity].
    - apply er_Decimal; assumption.
    - apply ok_Integer; assumption.
  Qed.
  Lemma ok_calls_at : forall l p w st, Forall (good_call U) l -> no_call w = true -> exists ts,
    ev (ERep (ERestore (ESeq (EThen inline_rep (ECall R_apply))))) CompoundAtomic false (mkPs p (calls_text l ++ w) st)
      (POk (mkPs (p + length (calls_text l)) w st) ts).
  Proof.
    induction l as [|a l IH]; intros p w st Hl Hw.
    - exists []. cbn [calls_text map concat app length]. rewrite Nat.add_0_r. apply no_rep, er_restore, er_more_apply_at, Hw.
    - pose proof (Forall_inv Hl) as Ha. pose proof (Forall_inv_tail Hl) as Hl'.
      change (calls_text (a :: l)) with ((fst (fst a) ++ snd (fst a)) ++ calls_text l). rewrite <- !app_assoc.
      destruct (ok_call_one U a p (calls_text l ++ w) st Ha) as (T & E & Q).
      destruct (IH (p + length (fst (fst a) ++ snd (fst a))) w st Hl' Hw) as (ts & E2).
      exists (T :: ts).
      apply (ok_rep U _ CompoundAtomic false _ (mkPs (p + length (fst (fst a) ++ snd (fst a))) (calls_text l ++ w) st) [T]); [apply ok_restore; exact E|].
      eapply ok_pos; [exact E2|lens].
  Qed.
  Lemma ok_call_at : forall h a l p w st, is_path U h -> Forall (good_call U) (a :: l) -> no_call w = true -> exists T,
    ev (ECall R_apply_call) CompoundAtomic false (mkPs p ((h ++ calls_text (a :: l)) ++ w) st)
      (POk (mkPs (p + length (h ++ calls_text (a :: l))) w st) [T]) /\ t_rule T = R_apply_call.
  Proof.
    intros h a l p w st Hh Hl Hw. pose proof (Forall_inv Hl) as Ha. pose proof (Forall_inv_tail Hl) as Hl'.
    change (calls_text (a :: l)) with ((fst (fst a) ++ snd (fst a)) ++ calls_text l).
    destruct (ok_Symbol U CompoundAtomic h p (fst (fst a) ++ snd (fst a) ++ calls_text l ++ w) st Hh (call_sym_stop U HU a _ Ha)) as [t Et].
    destruct (ok_call_one U a (p + length h) (calls_text l ++ w) st Ha) as (T & E & Q).
    destruct (ok_calls_at l (p + length h + length (fst (fst a) ++ snd (fst a))) w st Hl' Hw) as (ts & E2).
    exists (Node R_apply_call p (p + length (h ++ (fst (fst a) ++ snd (fst a)) ++ calls_text l)) (h ++ (fst (fst a) ++ snd (fst a)) ++ calls_text l) (Node R_Symbol p (p + length h) h t :: T :: ts)).
    split; [|reflexivity].
    apply ev_call. cbn [grammar]. apply ev_atomic. apply (ok_rule U R_apply_call _ CompoundAtomic p _ w st st).
    apply ok_seq. rewrite <- !app_assoc.
    apply (ok_then U _ _ _ _ _ (mkPs (p + length h + length (fst (fst a) ++ snd (fst a))) (calls_text l ++ w) st) [_; T]).
    - apply (ok_then U _ _ _ _ _ (mkPs (p + length h) (fst (fst a) ++ snd (fst a) ++ calls_text l ++ w) st) [_] _ [T]); [exact Et|exact E].
    - eapply ok_pos; [exact E2|lens].
  Qed.

  Lemma ok_factor : forall f p w st, good_fac f -> fol f w = true -> exists T,
    ev factor CompoundAtomic false (mkPs p (fac_text f ++ w) st) (POk (mkPs (p + length (fac_text f)) w st) [T]) /\ Qfac f T.
  Proof.
    intros [x|x|x y|b P s|h a l] p w st Hf Hw; cbn [fac_text good_fac] in *.
    - cbn [fol] in Hw. apply andb_prop in Hw as [Hw H3]. apply andb_prop in Hw as [H1 H2].
      destruct (ok_Symbol U CompoundAtomic x p w st Hf H1) as [t Ht]. exists (Node R_Symbol p (p + length x) x t). split; [|reflexivity].
      apply ev_else_err; [apply er_else|exact Ht].
      + apply er_restore, er_apply_call_at; assumption.
      + apply er_Number, (head_word_digit U), (path_head U). exact Hf.
    - eexists. split.
      + apply ev_else_ok, ev_else_err; [|exact (ok_Number_at CompoundAtomic x p w st Hf Hw)].
        destruct (numeral_digits x Hf) as [N D]. apply er_restore, er_apply_call_head, (head_digit_word U), digit_head; assumption.
      + unfold Qfac, in_space. cbn [t_rule]. unfold parse_integer. cbn [t_text fac_value]. rewrite numeral_int by exact Hf. reflexivity.
    - destruct Hf as [Hx Hy]. destruct (ok_Number_dec U CompoundAtomic x y p w st Hx Hy Hw) as [t Ht].
      exists (Node R_Decimal p (p + length (x ++ lit "." ++ y)) (x ++ lit "." ++ y) t). split; [|reflexivity]. rewrite <- !app_assoc.
      apply ev_else_ok, ev_else_err; [|exact Ht].
      destruct (numeral_digits x Hx) as [N D]. apply er_restore, er_apply_call_head, (head_digit_word U), digit_head; assumption.
    - destruct Hf as (Hb & N & Hs). destruct (ok_Number_byte U CompoundAtomic b P s p w st Hb N Hs Hw) as [t Ht].
      exists (Node R_Byte p (p + length ([48%N; b] ++ s)) ([48%N; b] ++ s) t). split; [|reflexivity]. rewrite <- app_assoc. apply ev_else_ok, ev_else_err; [|exact Ht].
      apply er_restore, er_apply_call_head. reflexivity.
    - destruct Hf as [Hh Hl]. destruct (ok_call_at h a l p w st Hh Hl Hw) as (T & E & R). exists T. split.
      + do 2 apply ev_else_ok. apply ok_restore. exact E.
      + unfold Qfac, in_space. rewrite R. reflexivity.
  Qed.
  Lemma fac_head : forall f w, good_fac f -> head_is inline_space (fac_text f ++ w) = false.
  Proof.
    intros f w Hf.
    assert (K : forall c, word_head U c = true \/ digit c = true -> inline_space c = false).
    { intros c H. unfold inline_space. destruct (white_space c) eqn:E; [|reflexivity]. destruct (white_quiet U HU c E) as (_ & W & _ & _ & _ & _ & J & _).
      unfold joins in J. apply orb_false_iff in J as [J _]. apply orb_false_iff in J as [_ J]. destruct H; congruence. }
    assert (KW : forall v, head_is (word_head U) v = true \/ head_is digit v = true -> head_is inline_space v = false).
    { intros [|c v] H; [reflexivity|]. apply K. exact H. }
    destruct f as [x|x|x y|b P s|h a l]; cbn [fac_text good_fac] in *; apply KW.
    - left. apply path_head. exact Hf.
    - right. destruct (numeral_digits x Hf). apply digit_head; assumption.
    - right. destruct Hf as [Hx _]. destruct (numeral_digits x Hx). rewrite <- app_assoc. apply digit_head; assumption.
    - right. reflexivity.
    - left. rewrite <- app_assoc. apply path_head. apply Hf.
  Qed.

  Lemma not40 : forall v, head_is (word_head U) v = true \/ head_is digit v = true -> head_is (N.eqb 40) v = false.
  Proof. intros [|c v] H; [reflexivity|]. cbn [head_is] in *. apply N.eqb_neq. intros <-. destruct H; discriminate. Qed.

  (** ** Products *)
  Fixpoint facs_text (l : list (str * fac)) : str := match l with [] => [] | (g, f) :: l' => g ++ fac_text f ++ facs_text l' end.
  Fixpoint good_facs (l : list (str * fac)) (w : str) : Prop :=
    match l with
    | [] => True
    | (g, f) :: l' => inline g = true /\ good_fac f /\ fol f (facs_text l' ++ w) = true /\ good_facs l' w
    end.
  Lemma ok_facs : forall l p w st, good_facs l w -> nstop w = true -> exists ts,
    ev (ERep more_factor) CompoundAtomic false (mkPs p (facs_text l ++ w) st) (POk (mkPs (p + length (facs_text l)) w st) ts) /\
    Forall2 (fun a => Qfac (snd a)) l ts.
  Proof.
    induction l as [|[g f] l IH]; intros p w st Hl Hw.
    - exists []. split; [|constructor]. cbn [facs_text app length]. rewrite Nat.add_0_r. apply no_rep, er_more_factor, nstop_join, Hw.
    - cbn [good_facs facs_text] in *. destruct Hl as (Hg & Hf & Fo & Hl).
      destruct (ok_factor f (p + length g) (facs_text l ++ w) st Hf Fo) as (T & E & Q).
      destruct (IH (p + length g + length (fac_text f)) w st Hl Hw) as (ts & E2 & Q2).
      exists (T :: ts). split; [|constructor; assumption]. rewrite <- !app_assoc.
      apply (ok_rep U _ CompoundAtomic false _ (mkPs (p + length g + length (fac_text f)) (facs_text l ++ w) st) [T]).
      + apply ok_seq. eapply ok_then0; [apply inline_rep_ok; [exact Hg|apply fac_head; exact Hf]|exact E].
      + eapply ok_pos; [exact E2|lens].
  Qed.
  Definition product_value (l : list fac) : outcome ast :=
    vs <- oall (map fac_value l); Ret (Function (infix_map (lit "*")) [plain_param vs default_position]).
  Lemma collect_facs : forall fs ts, Forall2 Qfac fs ts ->
    orel eq (l <- omapM in_space ts; Ret (concat l)) (oall (map fac_value fs)).
  Proof.
    induction 1 as [|f T fs ts Q _ IH]; [reflexivity|]. cbn [omapM map]. unfold oall in *. cbn [omapM]. rewrite Q.
    destruct (fac_value f) as [v|e|]; cbn [obind orel]; [|reflexivity|exact Logic.I].
    destruct (omapM in_space ts) as [l|e|], (omapM (fun o => o) (map fac_value fs)) as [m|e'|]; cbn [obind orel concat app] in *; try contradiction; congruence || auto.
  Qed.
  Definition not_call (f : fac) : Prop := match f with FCall _ _ _ => False | _ => True end.

  Lemma node_product_at : forall f g f' l p w st, not_call f -> good_fac f -> inline g = true -> good_fac f' ->
    fol f (g ++ fac_text f' ++ facs_text l ++ w) = true -> fol f' (facs_text l ++ w) = true -> good_facs l w -> nstop w = true -> exists T,
      ev (ECall R_node) CompoundAtomic false (mkPs p ((fac_text f ++ facs_text ((g, f') :: l)) ++ w) st)
        (POk (mkPs (p + length (fac_text f ++ facs_text ((g, f') :: l))) w st) [T]) /\
      t_rule T = R_node /\ forall a i, orel sim (parse_node a i (parse_expr a i) T) (product_value (f :: f' :: map snd l)).
  Proof.
    intros f g f' l p w st Nc Hf Hg Hf' F1 F2 Hl Hw.
    destruct (ok_factor f p (g ++ fac_text f' ++ facs_text l ++ w) st Hf F1) as (T1 & E1 & Q1).
    destruct (ok_factor f' (p + length (fac_text f) + length g) (facs_text l ++ w) st Hf' F2) as (T2 & E2 & Q2).
    destruct (ok_facs l (p + length (fac_text f) + length g + length (fac_text f')) w st Hl Hw) as (ts & E3 & Q3).
    cbn [facs_text]. set (x := fac_text f ++ g ++ fac_text f' ++ facs_text l) in *.
    assert (TX : x ++ w = fac_text f ++ g ++ fac_text f' ++ facs_text l ++ w) by (unfold x; rewrite <- !app_assoc; reflexivity).
    assert (X : ev (ECall R_space_call) CompoundAtomic false (mkPs p (x ++ w) st) (POk (mkPs (p + length x) w st) [Node R_space_call p (p + length x) x (T1 :: T2 :: ts)])).
    { apply ev_call. cbn [grammar]. apply ev_atomic. apply (ok_rule U R_space_call _ CompoundAtomic p x w st st). apply ok_seq. rewrite TX.
      apply (ok_then U _ _ _ _ _ (mkPs (p + length (fac_text f) + length g + length (fac_text f')) (facs_text l ++ w) st) [T1; T2]).
      - apply (ok_then U _ _ _ _ _ (mkPs (p + length (fac_text f)) (g ++ fac_text f' ++ facs_text l ++ w) st) [T1] _ [T2]); [exact E1|].
        apply ok_seq. eapply ok_then0; [apply inline_rep_ok; [exact Hg|apply fac_head; exact Hf']|exact E2].
      - eapply ok_pos; [exact E3|unfold x; lens]. }
    assert (N : head_is (N.eqb 40) (x ++ w) = false /\ fails (ECall R_apply_call) CompoundAtomic false (mkPs p (x ++ w) st) /\
      fails (ECall R_derivative) CompoundAtomic false (mkPs p (x ++ w) st)).
    { rewrite TX. destruct f as [y|y|y z|b P s|h a k]; cbn [fac_text good_fac fol] in *; [| | | |contradiction].
      - apply andb_prop in F1 as [F1 A3]. apply andb_prop in F1 as [A1 A2]. split; [|split].
        + apply not40. left. apply path_head. exact Hf.
        + apply er_apply_call_at; assumption.
        + apply (er_derivative_bare U); try assumption. apply negb_true_iff. exact A3.
      - destruct (numeral_digits y Hf) as [N D]. assert (HD : head_is digit (y ++ g ++ fac_text f' ++ facs_text l ++ w) = true) by (apply digit_head; assumption). split; [|split].
        + apply not40. right. exact HD.
        + apply er_apply_call_head, (head_digit_word U). exact HD.
        + apply er_derivative_head, (head_digit_word U). exact HD.
      - destruct Hf as [Hy Hz]. rewrite <- app_assoc. destruct (numeral_digits y Hy) as [N D].
        assert (HD : forall v, head_is digit (y ++ v) = true) by (intro; apply digit_head; assumption). split; [|split].
        + apply not40. right. apply HD.
        + apply er_apply_call_head, (head_digit_word U). apply HD.
        + apply er_derivative_head, (head_digit_word U). apply HD.
      - split; [reflexivity|]. split; [apply er_apply_call_head|apply er_derivative_head]; reflexivity. }
    destruct N as (N1 & N2 & N3). eexists. split; [|split].
    - apply ev_call. cbn [grammar]. apply (ok_rule U R_node _ CompoundAtomic p x w st st).
      apply ev_else_ok. apply ev_else_err; [|apply ok_restore; exact X]. apply er_else; [apply er_else|].
      + apply er_paren. exact N1.
      + apply er_restore. exact N2.
      + apply er_restore. exact N3.
    - reflexivity.
    - intros a i. unfold parse_node. cbn [t_inner node_of emits t_rule]. unfold parse_space_call. cbn [t_inner].
      assert (F : Forall2 Qfac (f :: f' :: map snd l) (T1 :: T2 :: ts)).
      { constructor; [exact Q1|]. constructor; [exact Q2|]. clear - Q3. induction Q3; constructor; auto. }
      pose proof (collect_facs _ _ F) as C. unfold product_value. fold in_space.
      change (fun c : tree rule => match t_rule c with R_WHITESPACE => Ret [] | R_Integer => i0 <- parse_integer c; Ret [i0] | R_Symbol => Ret [ast_symbol (t_text c)] | _ => Panic PUnreachable end) with in_space.
      destruct (omapM in_space (T1 :: T2 :: ts)) as [v|e|], (oall (map fac_value (f :: f' :: map snd l))) as [v'|e'|]; cbn [obind orel] in *; try contradiction; try assumption.
      subst v'. apply sim_call. clear. induction (concat v); constructor; [apply sim_refl|assumption].
  Qed.

  (** ** Factors with white space between them *)
  Lemma fol_gap : forall f d g f' w, inline (d :: g) = true -> good_fac f -> good_fac f' -> fol f ((d :: g) ++ fac_text f' ++ w) = true.
  Proof.
    intros f d g f' w Hg Hf Hf'. pose proof Hg as Hg'. unfold inline in Hg'. cbn [forallb] in Hg'. apply andb_prop in Hg' as [Hd _].
    pose proof Hd as Hd'. unfold inline_space in Hd'. do 2 apply andb_prop in Hd' as [Hd' _].
    destruct (white_quiet U HU d Hd') as (X1 & X2 & X3 & X4 & X5 & X6 & X7 & X8 & X9).
    assert (DI : forall g v, inline g = true -> head_is inline_space v = false -> drop_inline (g ++ v) = v).
    { clear. induction g as [|c g IH]; intros v Hg Hv; cbn [app].
      - destruct v as [|c v]; [reflexivity|]. cbn [drop_inline head_is] in *. rewrite Hv. reflexivity.
      - unfold inline in *. cbn [forallb] in Hg. apply andb_prop in Hg as [Hc Hg]. cbn [drop_inline]. rewrite Hc. apply IH; assumption. }
    assert (NC : no_call ((d :: g) ++ fac_text f' ++ w) = true).
    { unfold no_call. rewrite DI; [|exact Hg|apply fac_head; exact Hf']. apply negb_true_iff.
      destruct f' as [x|x|x y|b P s|h a l]; cbn [fac_text good_fac] in *; apply not40.
      - left. apply path_head. exact Hf'.
      - right. destruct (numeral_digits x Hf'). apply digit_head; assumption.
      - right. destruct Hf' as [Hx _]. destruct (numeral_digits x Hx). rewrite <- app_assoc. apply digit_head; assumption.
      - right. reflexivity.
      - left. rewrite <- app_assoc. apply path_head. apply Hf'. }
    assert (DD : digit d = false) by (unfold joins in X7; apply orb_false_iff in X7 as [X7 _]; apply orb_false_iff in X7; apply X7).
    assert (BL : base_letter d = false).
    { destruct (base_letter d) eqn:E; [|reflexivity]. rewrite letter_xid in X1; [discriminate|].
      unfold base_letter in E. repeat (apply orb_prop in E as [E|E]); apply N.eqb_eq in E; subst d; reflexivity. }
    destruct f as [x|x|x y|b P s|h a l]; cbn [fol].
    - rewrite NC. unfold sym_stop, path_more. cbn [app head_is]. change (lit "::") with [58; 58]%N. rewrite !strip_other by assumption.
      rewrite X1, no_primes by (apply orb_false_iff in X8; apply X8). reflexivity.
    - unfold int_stop. cbn [app head_is dot_digit]. rewrite DD, X5, BL. rewrite !orb_true_r. reflexivity.
    - unfold int_stop. cbn [app head_is]. rewrite DD. apply orb_true_r.
    - apply (group_stop_xid U); [|exact X1]. intros c Hc. apply (based_figures b P); [apply Hf|exact Hc].
    - exact NC.
  Qed.
  (** factors that may stand next to each other without white space: `2x`, `2f(x)`, `1.5x`, and the
      zeros of `012` and `1.05` *)
  Definition touch (f f' : fac) : Prop :=
    match f, f' with
    | FInt x, FSym h | FInt x, FCall h _ _ => x <> [48%N] \/ head_is base_letter h = false
    | FInt x, FInt _ => x = [48%N]
    | FDec _ _, FSym _ | FDec _ _, FCall _ _ _ => True
    | FDec _ y, FInt _ => y = [48%N]
    | _, _ => False
    end.
  Lemma int_word : forall x h w, is_path U h -> (x <> [48%N] \/ head_is base_letter h = false) -> fol (FInt x) (h ++ w) = true.
  Proof.
    intros x h w Hh T. pose proof (path_head U h w Hh) as P. pose proof (head_word_digit U _ P) as D.
    assert (E : dot_digit (h ++ w) = false).
    { destruct (h ++ w) as [|c v]; [reflexivity|]. cbn [head_is] in P. unfold dot_digit. destruct (N.eqb_spec c 46) as [->|]; [discriminate P|reflexivity]. }
    cbn [fol]. unfold int_stop. rewrite D, E, orb_true_r. cbn [negb andb]. destruct T as [T|T].
    - destruct (str_eqb x [48%N]) eqn:Q; [|reflexivity]. apply str_eqb_eq in Q. congruence.
    - replace (head_is base_letter (h ++ w)) with false; [apply orb_true_r|]. destruct h as [|c h]; [|symmetry; exact T].
      destruct Hh as (z & l & E' & Hz & _). destruct z; [discriminate|discriminate].
  Qed.
  Lemma dec_word : forall y h w, is_path U h -> int_stop y (h ++ w) = true.
  Proof. intros y h w Hh. unfold int_stop. rewrite (head_word_digit U _ (path_head U h w Hh)). apply orb_true_r. Qed.
  Lemma fol_touch : forall f f' w, touch f f' -> good_fac f -> good_fac f' -> fol f (fac_text f' ++ w) = true.
  Proof.
    intros f f' w T Hf Hf'. destruct f as [|x|x z| |]; try contradiction; destruct f' as [h|y| | |h a l]; try contradiction; cbn [fac_text touch good_fac] in *.
    - apply int_word; assumption.
    - subst x. destruct (numeral_digits y Hf') as [N D]. pose proof (digit_head y w N D) as H. cbn [fol int_stop str_eqb].
      destruct (y ++ w) as [|c v]; [discriminate|]. cbn [head_is] in *. pose proof (digit_not_base c H) as B. rewrite B.
      unfold dot_digit. destruct (N.eqb_spec c 46) as [->|]; [discriminate|reflexivity].
    - rewrite <- app_assoc. apply int_word; [apply Hf'|exact T].
    - apply dec_word. exact Hf'.
    - subst z. reflexivity.
    - rewrite <- app_assoc. apply dec_word. apply Hf'.
  Qed.
  Fixpoint good_list (f : fac) (l : list (str * fac)) : Prop :=
    match l with
    | [] => True
    | (g, f') :: l' => inline g = true /\ (g = [] -> touch f f') /\ good_fac f' /\ good_list f' l'
    end.
  Lemma good_list_fol : forall f g f' w, good_fac f -> inline g = true -> (g = [] -> touch f f') -> good_fac f' -> fol f (g ++ fac_text f' ++ w) = true.
  Proof. intros f [|d g] f' w Hf Hg Ht Hf'; [apply fol_touch; auto|apply fol_gap; assumption]. Qed.
  Lemma good_list_facs : forall l f w, good_fac f -> good_list f l -> nstop w = true -> good_facs l w.
  Proof.
    induction l as [|[g f'] l IH]; intros f w Hf Hl Hw; [exact Logic.I|]. destruct Hl as (H1 & H2 & H3 & H4).
    cbn [good_facs]. split; [exact H1|]. split; [exact H3|]. split; [|eapply IH; eassumption].
    destruct l as [|[g2 f2] l]; [apply nstop_fol; assumption|]. destruct H4 as (K1 & K2 & K3 & K4). cbn [facs_text]. rewrite <- !app_assoc.
    apply good_list_fol; assumption.
  Qed.
  Lemma node_product : forall f l, l <> [] -> not_call f -> good_fac f -> good_list f l ->
    node_means (fac_text f ++ facs_text l) (product_value (f :: map snd l)).
  Proof.
    intros f [|[g f'] l] N Nc Hf Hl; [congruence|]. intros p w st Hw. pose proof (good_list_facs _ f w Hf Hl Hw) as (G1 & G2 & G3 & G4).
    destruct Hl as (H1 & H2 & H3 & H4). apply node_product_at; try assumption. apply good_list_fol; assumption.
  Qed.
End Product.
