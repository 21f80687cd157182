(** Reading numbers and symbols. *)
From Verif Require Import Base Ast SmError Peg Grammar Build SpecAst SpecPeg SpecSyntax.
From Verif Require Import ProofAst ProofPeg ProofPegShift ProofSym ProofGrammar ProofBuild ProofPos ProofSpace ProofLex.
Local Open Scope nat_scope.

Section Token.
  Variable U : unicode.
  Notation ev := (ev U grammar skip_body).
  Notation fails := (fails U).

  (** ** Words *)
  Lemma er_SYMBOL : forall k q p w st, head_is (word_head U) w = false -> fails (ECall R_SYMBOL) k q (mkPs p w st).
  Proof.
    intros k q p w st H. apply er_call, er_rule, er_atomic. apply er_else.
    - apply er_seq0, er_then, er_call, er_class. destruct w as [|c w]; [reflexivity|]. cbn in *. unfold word_head in H.
      destruct (xid_start U c); [discriminate|reflexivity].
    - apply er_seq0, er_then, er_then, er_call, er_rule, er_atomic, er_str. destruct w as [|c w]; [reflexivity|].
      apply strip_head. intros <-. discriminate.
  Qed.

  Lemma rep_continue : forall k q l p w st, forallb (xid_continue U) l = true -> head_is (xid_continue U) w = false ->
    ev (ERep (ECall R_XID_CONTINUE)) k q (mkPs p (l ++ w) st) (POk (mkPs (p + length l) w st) []).
  Proof.
    intros k q l p w st Hl Hw. apply rep_chars with (P := xid_continue U); auto.
    - intros. apply ev_call. apply ev_class. assumption.
    - intros. apply er_call, er_class. assumption.
  Qed.

  Lemma ok_SYMBOL : forall k x p w st, word U x = true -> head_is (xid_continue U) w = false ->
    ev (ECall R_SYMBOL) k false (mkPs p (x ++ w) st) (POk (mkPs (p + length x) w st) (node_of R_SYMBOL k p x [])).
  Proof.
    intros k x p w st Hx Hw. apply ev_call. cbn [grammar]. apply ok_rule. apply ev_atomic.
    destruct x as [|c x]; [discriminate|]. unfold word in Hx.
    destruct (xid_start U c) eqn:E.
    - cbn [andb] in Hx. apply ev_else_ok. apply ok_seq.
      assert (Hx' : forallb (xid_continue U) x = true).
      { apply orb_prop in Hx as [H|H]; [exact H|]. apply andb_prop in H as [_ H]. destruct x; [discriminate|exact H]. }
      eapply ok_then0; [apply ev_call; cbn [app grammar]; apply ev_class; exact E|].
      replace (p + length (c :: x)) with (p + 1 + length x) by (cbn [length lit]; unfold str, char in *; lia). apply rep_continue; assumption.
    - cbn [andb orb] in Hx. apply andb_prop in Hx as [Hc Hx]. apply N.eqb_eq in Hc. subst c.
      apply ev_else_err.
      + apply er_seq0, er_then, er_call, er_class. exact E.
      + destruct x as [|d x]; [discriminate|]. cbn [forallb] in Hx. apply andb_prop in Hx as [Hd Hx].
        apply ok_seq. cbn [app length].
        eapply ok_then0.
        * eapply ok_then0.
          -- apply ev_call. pose proof (ok_rule U R_Underline (EAtomic Atomic (EStr (lit "_"))) Atomic p [95%N] (d :: x ++ w) st st []) as X.
             cbn [node_of emits] in X. apply X. apply ev_atomic. apply (ev_str U grammar skip_body (lit "_")).
          -- apply ev_call. cbn [length]. apply ev_class. exact Hd.
        * replace (p + S (S (length x))) with (p + 1 + 1 + length x) by lia. apply rep_continue; assumption.
  Qed.

  (** ** Symbols: words joined by :: *)
  Definition path_more (w : str) : bool :=
    match strip_prefix (lit "::") w with
    | Some w' => head_is (word_head U) w'
    | None => match strip_prefix [8759%N] w with Some w' => head_is (word_head U) w' | None => false end
    end.
  Definition sym_stop (w : str) : bool := negb (head_is (xid_continue U) w) && negb (path_more w).

  Lemma word_word_head : forall x w, word U x = true -> head_is (word_head U) (x ++ w) = true.
  Proof.
    intros [|c x] w H; [discriminate|]. cbn. unfold word in H. unfold word_head.
    apply orb_prop in H as [H|H]; apply andb_prop in H as [H _]; rewrite H, ?orb_true_r; reflexivity.
  Qed.


  (** words, each with its :: or the single character *)
  Fixpoint steps_tail (l : list (bool * str)) : str :=
    match l with [] => [] | (b, x) :: l' => (if b then [8759%N] else lit "::") ++ x ++ steps_tail l' end.
  Definition good_step (p : bool * str) : bool := word U (snd p) && negb (fst p && xid_continue U 8759%N).
  Definition is_path (x : str) : Prop := exists y l, x = y ++ steps_tail l /\ word U y = true /\ forallb good_step l = true.
  Lemma tail_stop : forall l w, forallb good_step l = true -> sym_stop w = true -> head_is (xid_continue U) (steps_tail l ++ w) = false.
  Proof.
    intros [|[[] x] l] w L H; [| |reflexivity].
    - cbn [steps_tail app]. unfold sym_stop in H. apply andb_prop in H as [H _]. apply negb_true_iff in H. exact H.
    - cbn [steps_tail app head_is]. cbn [forallb] in L. apply andb_prop in L as [L _]. unfold good_step in L. apply andb_prop in L as [_ L].
      apply negb_true_iff in L. exact L.
  Qed.

  Lemma path_rest : forall l p w st, forallb good_step l = true -> sym_stop w = true ->
    exists t, ev (ERep (ESeq (EThen (ECall R_Proportion) (ECall R_SYMBOL)))) CompoundAtomic false (mkPs p (steps_tail l ++ w) st)
      (POk (mkPs (p + length (steps_tail l)) w st) t).
  Proof.
    induction l as [|x l IH]; intros p w st Hl Hw.
    - exists []. cbn [steps_tail app length]. rewrite Nat.add_0_r. apply no_rep.
      unfold sym_stop, path_more in Hw. apply andb_prop in Hw as [_ Hw]. apply negb_true_iff in Hw.
      destruct (strip_prefix (lit "::") w) as [w'|] eqn:E.
      + apply strip_prefix_app in E. subst w. eapply er_seq2; [| |].
        * apply ev_call. pose proof (ok_rule U R_Proportion (EAtomic Atomic (EElse (EStr (lit "::")) (EStr ([8759%N])))) CompoundAtomic p (lit "::") w' st st []) as X.
          apply X. apply ev_atomic, ev_else_ok. apply (ev_str U grammar skip_body (lit "::")).
        * apply er_SYMBOL. exact Hw.
        * reflexivity.
      + destruct (strip_prefix [8759%N] w) as [w'|] eqn:E2.
        * pose proof E2 as E3. apply strip_prefix_app in E3. subst w. eapply er_seq2; [| |].
          -- apply ev_call. pose proof (ok_rule U R_Proportion (EAtomic Atomic (EElse (EStr (lit "::")) (EStr ([8759%N])))) CompoundAtomic p [8759%N] w' st st []) as X.
             apply X. apply ev_atomic, ev_else_err; [apply er_str; exact E|]. apply (ev_str U grammar skip_body [8759%N]).
          -- apply er_SYMBOL. exact Hw.
          -- reflexivity.
        * apply er_seq0, er_then, er_call, er_rule, er_atomic, er_else; apply er_str; assumption.
    - cbn [forallb] in Hl. apply andb_prop in Hl as [Hx Hl]. destruct x as [b x]. apply andb_prop in Hx as [Hx _]. cbn [snd] in Hx.
      set (sep := if b then [8759%N] else lit "::").
      destruct (IH (p + length sep + length x) w st Hl Hw) as [t Ht].
      cbn [steps_tail]. fold sep. rewrite <- !app_assoc.
      eexists. eapply ok_rep; [apply ok_seq; eapply ok_then|].
      + apply ev_call. pose proof (ok_rule U R_Proportion (EAtomic Atomic (EElse (EStr (lit "::")) (EStr ([8759%N])))) CompoundAtomic p sep (x ++ steps_tail l ++ w) st st []) as X.
        apply X. apply ev_atomic. subst sep. destruct b.
        * apply ev_else_err; [apply er_str; reflexivity|]. apply (ev_str U grammar skip_body [8759%N]).
        * apply ev_else_ok. apply (ev_str U grammar skip_body (lit "::")).
      + apply ok_SYMBOL; [exact Hx|apply tail_stop; assumption].
      + rewrite !app_length.
        replace (p + (length sep + (length x + length (steps_tail l)))) with (p + length sep + length x + length (steps_tail l)) by lia.
        exact Ht.
  Qed.

  Lemma ok_Symbol : forall k x p w st, is_path x -> sym_stop w = true ->
    exists t, ev (ECall R_Symbol) k false (mkPs p (x ++ w) st)
      (POk (mkPs (p + length x) w st) [Node R_Symbol p (p + length x) x t]).
  Proof.
    intros k x p w st (y & l & -> & Hy & Hl) Hw.
    destruct (path_rest l (p + length y) w st Hl Hw) as [t Ht]. rewrite <- app_assoc.
    eexists. apply ev_call. cbn [grammar]. apply ev_atomic.
    rewrite app_assoc.
    apply (ok_rule U R_Symbol _ CompoundAtomic p (y ++ steps_tail l) w st st).
    apply ok_seq. rewrite <- app_assoc. eapply ok_then.
    - apply ok_SYMBOL; [exact Hy|apply tail_stop; assumption].
    - rewrite app_length, Nat.add_assoc. exact Ht.
  Qed.
  Lemma er_Symbol : forall k q p w st, head_is (word_head U) w = false -> fails (ECall R_Symbol) k q (mkPs p w st).
  Proof.
    intros k q p w st H. apply er_call, er_atomic, er_rule, er_seq0, er_then, er_SYMBOL. exact H.
  Qed.

  (** ** Integers *)
  Definition int_stop (x w : str) : bool := str_eqb x [48%N] || negb (head_is digit w).
  Lemma er_Integer : forall k q p w st, head_is digit w = false -> fails (ECall R_Integer) k q (mkPs p w st).
  Proof.
    intros k q p w st H. apply er_call, er_rule, er_atomic. apply er_else.
    - apply er_str. destruct w as [|c w]; [reflexivity|]. apply strip_head. intros <-. discriminate.
    - apply er_call, er_rule, er_atomic, er_seq0, er_then, er_call, er_range. destruct w as [|c w]; [reflexivity|].
      cbn in *. unfold digit in H. destruct (49 <=? c)%N eqn:E; [|reflexivity]. apply N.leb_le in E.
      replace (48 <=? c)%N with true in H by (symmetry; apply N.leb_le; lia). exact H.
  Qed.

  Lemma numeral_cases : forall x, numeral x = true -> x = [48%N] \/
    exists c y, x = c :: y /\ ((49 <=? c) && (c <=? 57))%N = true /\ forallb digit y = true.
  Proof.
    intros [|c x] H; [discriminate|]. cbn in H. destruct (N.eqb_spec c 48) as [->|N].
    - destruct x; [left; reflexivity|discriminate].
    - right. exists c, x. apply andb_prop in H as [H1 H2]. split; [reflexivity|]. split; [|exact H2].
      unfold digit in H1. apply andb_prop in H1 as [H3 H4]. rewrite H4, andb_true_r. apply N.leb_le in H3. apply N.leb_le. lia.
  Qed.

  Lemma ok_Integer : forall k x p w st, numeral x = true -> int_stop x w = true ->
    ev (ECall R_Integer) k false (mkPs p (x ++ w) st) (POk (mkPs (p + length x) w st) (node_of R_Integer k p x [])).
  Proof.
    intros k x p w st Hx Hw. apply ev_call. cbn [grammar]. apply ok_rule. apply ev_atomic.
    destruct (numeral_cases x Hx) as [->|(c & y & -> & Hc & Hy)].
    - apply ev_else_ok. apply (ev_str U grammar skip_body (lit "0")).
    - assert (Hd : head_is digit w = false).
      { unfold int_stop in Hw. apply orb_prop in Hw as [H|H]; [|apply negb_true_iff in H; exact H].
        apply str_eqb_eq in H. injection H as -> ->. discriminate. }
      apply ev_else_err.
      + apply er_str. apply strip_head. intros <-. discriminate.
      + apply ev_call. cbn [grammar].
        pose proof (ok_rule U R_Positive (EAtomic Atomic (ESeq (EThen (ECall R_ASCII_NONZERO_DIGIT) (ERep (ECall
      R_ASCII_DIGIT))))) Atomic p (c :: y) w st st []) as X. cbn [node_of emits] in X. apply X.
        apply ev_atomic, ok_seq. eapply ok_then0.
        * apply ev_call. cbn [app]. apply ev_range. exact Hc.
        * replace (p + length (c :: y)) with (p + 1 + length y) by (cbn [length lit]; unfold str, char in *; lia).
          apply rep_chars with (P := digit); auto.
          -- intros. apply ev_call. apply ev_range. assumption.
          -- intros. apply er_call, er_range. assumption.
  Qed.

  (** ** Numbers *)
  (** the text goes on neither as a 0x literal nor as a decimal *)
  Definition dot_digit (w : str) : bool := match w with c :: w' => (c =? 46)%N && head_is digit w' | [] => false end.
  Definition num_stop (w : str) : bool := negb (head_is base_letter w) && negb (dot_digit w).

  Lemma er_insens : forall l k q p w st, strip_prefix_insensitive l w = None -> fails (EInsens l) k q (mkPs p w st).
  Proof. intros l k q p w st H. split; [discriminate|]. exists 1. cbn [Peg.run rest]. rewrite H. reflexivity. Qed.

  Lemma er_Byte : forall k q p w st,
    match w with c :: w' => (c =? 48)%N && head_is base_letter w' | [] => false end = false ->
    fails (ECall R_Byte) k q (mkPs p w st).
  Proof.
    intros k q p w st H. apply er_call, er_atomic, er_rule.
    assert (X : forall b, base_letter b = true -> ascii_lower b = b -> strip_prefix_insensitive [48%N; b] w = None).
    { intros b Hb Lb. destruct w as [|c w]; [reflexivity|]. cbn [strip_prefix_insensitive].
      replace (ascii_lower 48%N) with 48%N by reflexivity. rewrite Lb.
      destruct (N.eqb_spec 48 (ascii_lower c)) as [E|E]; [|reflexivity].
      assert (c = 48%N) as ->.
      { unfold ascii_lower in E. destruct ((65 <=? c) && (c <=? 90))%N eqn:R; [|congruence].
        apply andb_prop in R as [R1 R2]. apply N.leb_le in R1. lia. }
      cbn in H. destruct w as [|d w]; [reflexivity|]. cbn in H.
      destruct (N.eqb_spec b (ascii_lower d)) as [E2|E2]; [|reflexivity].
      exfalso. unfold ascii_lower in E2. destruct ((65 <=? d) && (d <=? 90))%N eqn:R.
      - unfold base_letter in H, Hb. repeat (apply orb_false_iff in H as [H ?]).
        repeat match goal with H : (_ =? _)%N = false |- _ => apply N.eqb_neq in H end.
        apply andb_prop in R as [R1 R2]. apply N.leb_le in R1. apply N.leb_le in R2.
        repeat (apply orb_prop in Hb as [Hb|Hb]); apply N.eqb_eq in Hb; lia.
      - subst d. congruence. }
    apply er_else; [apply er_else|]; apply er_seq0, er_then, er_then, er_insens; apply X; reflexivity.
  Qed.

  Lemma er_Number : forall k q p w st, head_is digit w = false -> fails (ECall R_Number) k q (mkPs p w st).
  Proof.
    intros k q p w st H. apply er_call. apply er_else; [apply er_else|].
    - apply er_Byte. destruct w as [|c w]; [reflexivity|]. destruct (N.eqb_spec c 48) as [->|]; [discriminate|reflexivity].
    - apply er_call, er_atomic, er_rule, er_seq0, er_then, er_then, er_Integer. exact H.
    - apply er_Integer. exact H.
  Qed.

  Lemma er_Dot : forall k q p w st, head_is (N.eqb 46) w = false -> fails (ECall R_Dot) k q (mkPs p w st).
  Proof.
    intros k q p w st H. apply er_call, er_rule, er_atomic, er_str. destruct w as [|c w]; [reflexivity|].
    apply strip_head. intros <-. discriminate.
  Qed.
  Lemma ok_Dot : forall k p w st, ev (ECall R_Dot) k false (mkPs p (46%N :: w) st)
    (POk (mkPs (p + 1) w st) (node_of R_Dot k p (lit ".") [])).
  Proof.
    intros k p w st. apply ev_call. apply (ok_rule U R_Dot _ k p (lit ".") w st st).
    apply ev_atomic. apply (ev_str U grammar skip_body (lit ".")).
  Qed.

  Lemma er_Decimal : forall k x p w st, numeral x = true -> int_stop x w = true -> dot_digit w = false ->
    fails (ECall R_Decimal) k false (mkPs p (x ++ w) st).
  Proof.
    intros k x p w st Hx Hi Hw. apply er_call, er_atomic, er_rule.
    destruct (head_is (N.eqb 46) w) eqn:E.
    - destruct w as [|c w]; [discriminate|]. cbn [head_is] in E. apply N.eqb_eq in E. subst c. cbn in Hw.
      eapply er_seq2; [eapply ok_then; [apply ok_Integer; assumption|apply ok_Dot]|apply er_Integer; exact Hw|reflexivity].
    - eapply er_seq with (s1 := mkPs (p + length x) w st); [|reflexivity].
      apply ev_then_err.
      pose proof (ev_then U grammar skip_body _ (ECall R_Dot) _ _ _ _ _ _ (ok_Integer CompoundAtomic x p w st Hx Hi) (er_Dot CompoundAtomic false (p + length x) w st E)) as X.
      exact X.
  Qed.

  Lemma digit_not_base : forall c, digit c = true -> base_letter c = false.
  Proof.
    intros c H. unfold digit in H. apply andb_prop in H as [H1 H2]. apply N.leb_le in H1. apply N.leb_le in H2.
    unfold base_letter. repeat (apply orb_false_iff; split); apply N.eqb_neq; lia.
  Qed.
  Lemma er_Byte_int : forall k q x p w st, numeral x = true -> num_stop w = true ->
    fails (ECall R_Byte) k q (mkPs p (x ++ w) st).
  Proof.
    intros k q x p w st Hx Hw. apply er_Byte. apply andb_prop in Hw as [Hw _]. apply negb_true_iff in Hw.
    destruct (numeral_cases x Hx) as [->|(c & y & -> & Hc & Hy)]; cbn [app].
    - cbn [N.eqb Pos.eqb andb]. exact Hw.
    - destruct (N.eqb_spec c 48) as [->|]; [discriminate|reflexivity].
  Qed.

  Lemma ok_Number_int : forall k x p w st, numeral x = true -> int_stop x w = true -> num_stop w = true ->
    ev (ECall R_Number) k false (mkPs p (x ++ w) st) (POk (mkPs (p + length x) w st) (node_of R_Integer k p x [])).
  Proof.
    intros k x p w st Hx Hi Hw. apply ev_call. cbn [grammar]. apply ev_else_err; [apply er_else|].
    - apply er_Byte_int; assumption.
    - apply er_Decimal; try assumption. apply andb_prop in Hw as [_ Hw]. apply negb_true_iff in Hw. exact Hw.
    - apply ok_Integer; assumption.
  Qed.

  (** ** Decimals *)
  Lemma ok_Decimal : forall k x y p w st, numeral x = true -> numeral y = true -> int_stop y w = true ->
    exists t, ev (ECall R_Decimal) k false (mkPs p (x ++ lit "." ++ y ++ w) st)
      (POk (mkPs (p + length (x ++ lit "." ++ y)) w st)
           [Node R_Decimal p (p + length (x ++ lit "." ++ y)) (x ++ lit "." ++ y) t]).
  Proof.
    intros k x y p w st Hx Hy Hw. eexists. apply ev_call. cbn [grammar]. apply ev_atomic.
    replace (x ++ lit "." ++ y ++ w) with ((x ++ lit "." ++ y) ++ w) by (rewrite <- !app_assoc; reflexivity).
    apply (ok_rule U R_Decimal _ CompoundAtomic p (x ++ lit "." ++ y) w st st).
    apply ok_seq. rewrite <- !app_assoc. eapply ok_then; [eapply ok_then|].
    - apply ok_Integer; [exact Hx|]. unfold int_stop. rewrite orb_true_r. reflexivity.
    - apply ok_Dot.
    - rewrite !app_length. replace (p + (length x + (length (lit ".") + length y))) with (p + length x + 1 + length y) by (cbn [length lit]; unfold str, char in *; lia).
      apply ok_Integer; assumption.
  Qed.
  Lemma ok_Number_dec : forall k x y p w st, numeral x = true -> numeral y = true -> int_stop y w = true ->
    exists t, ev (ECall R_Number) k false (mkPs p (x ++ lit "." ++ y ++ w) st)
      (POk (mkPs (p + length (x ++ lit "." ++ y)) w st)
           [Node R_Decimal p (p + length (x ++ lit "." ++ y)) (x ++ lit "." ++ y) t]).
  Proof.
    intros k x y p w st Hx Hy Hw. destruct (ok_Decimal k x y p w st Hx Hy Hw) as [t Ht]. exists t.
    apply ev_call. cbn [grammar]. apply ev_else_ok. apply ev_else_err; [|exact Ht].
    apply er_Byte. destruct (numeral_cases x Hx) as [->|(c & z & -> & Hc & Hz)]; cbn [app].
    - reflexivity.
    - destruct (N.eqb_spec c 48) as [->|]; [discriminate|reflexivity].
  Qed.

  (** ** 0x, 0o, 0b *)
  Definition group (d : rule) : pexp rule := ESeq (EThen (EOpt (ECall R_Underline)) (ECall d)).
  Definition group_stop (P : char -> bool) (w : str) : bool :=
    negb (head_is P w) && negb (match w with c :: w' => (c =? 95)%N && head_is P w' | [] => false end).

  Section Group.
    Variable d : rule.
    Variable P : char -> bool.
    Hypothesis Hok : forall k q p c w st, P c = true -> ev (ECall d) k q (mkPs p (c :: w) st) (POk (mkPs (p + 1) w st) []).
    Hypothesis Her : forall k q p w st, head_is P w = false -> fails (ECall d) k q (mkPs p w st).
    Hypothesis Hu : P 95%N = false.

    Lemma er_Underline : forall k q p w st, head_is (N.eqb 95) w = false -> fails (ECall R_Underline) k q (mkPs p w st).
    Proof.
      intros k q p w st H. apply er_call, er_rule, er_atomic, er_str. destruct w as [|c w]; [reflexivity|].
      apply strip_head. intros <-. discriminate.
    Qed.
    Lemma ok_Underline : forall p w st, ev (ECall R_Underline) CompoundAtomic false (mkPs p (95%N :: w) st)
      (POk (mkPs (p + 1) w st) (node_of R_Underline CompoundAtomic p (lit "_") [])).
    Proof.
      intros p w st. apply ev_call. apply (ok_rule U R_Underline _ CompoundAtomic p (lit "_") w st st).
      apply ev_atomic. apply (ev_str U grammar skip_body (lit "_")).
    Qed.
    Lemma group_one : forall p c w st, P c = true ->
      ev (group d) CompoundAtomic false (mkPs p (c :: w) st) (POk (mkPs (p + 1) w st) []).
    Proof.
      intros p c w st Hc. apply ok_seq. eapply ok_then0; [apply no_opt, er_Underline|apply Hok; exact Hc].
      cbn [head_is]. apply N.eqb_neq. intros <-. congruence.
    Qed.
    Lemma group_under : forall p c w st, P c = true -> exists t,
      ev (group d) CompoundAtomic false (mkPs p (95%N :: c :: w) st) (POk (mkPs (p + 2) w st) t).
    Proof.
      intros p c w st Hc. eexists. apply ok_seq. replace (p + 2) with (p + 1 + 1) by lia.
      eapply ok_then; [apply ok_opt, ok_Underline|apply Hok; exact Hc].
    Qed.
    Lemma group_fail : forall p w st, group_stop P w = true -> fails (group d) CompoundAtomic false (mkPs p w st).
    Proof.
      intros p w st H. unfold group_stop in H. apply andb_prop in H as [H1 H2].
      apply negb_true_iff in H1. apply negb_true_iff in H2. unfold group.
      destruct (head_is (N.eqb 95) w) eqn:E.
      - destruct w as [|c w]; [discriminate|]. cbn [head_is] in E. apply N.eqb_eq in E. subst c.
        cbn [N.eqb Pos.eqb andb] in H2.
        eapply er_seq2; [apply ok_opt, ok_Underline|apply Her; exact H2|reflexivity].
      - eapply er_seq2; [apply no_opt, er_Underline; exact E|apply Her; exact H1|reflexivity].
    Qed.
    Lemma group_rep : forall n s p w st, length s <= n -> grouped P s = true -> group_stop P w = true -> exists t,
      ev (ERep (group d)) CompoundAtomic false (mkPs p (s ++ w) st) (POk (mkPs (p + length s) w st) t).
    Proof.
      induction n as [|n IH]; intros s p w st Hn Hs Hw.
      { destruct s; [|cbn in Hn; lia]. exists []. cbn. rewrite Nat.add_0_r. apply no_rep, group_fail. exact Hw. }
      destruct s as [|c s].
      { exists []. cbn. rewrite Nat.add_0_r. apply no_rep, group_fail. exact Hw. }
      cbn [grouped] in Hs. destruct (N.eqb_spec c 95) as [->|N95].
      - destruct s as [|c s]; [discriminate|]. apply andb_prop in Hs as [Hc Hs]. cbn [length] in Hn.
        destruct (group_under p c (s ++ w) st Hc) as [t1 H1].
        destruct (IH s (p + 2) w st ltac:(lia) Hs Hw) as [t2 H2]. eexists.
        cbn [app]. eapply ok_rep; [exact H1|eapply ok_pos; [exact H2|lens]].
      - apply andb_prop in Hs as [Hc Hs]. cbn [length] in Hn.
        destruct (IH s (p + 1) w st ltac:(lia) Hs Hw) as [t2 H2]. eexists.
        cbn [app]. eapply ok_rep; [apply group_one; exact Hc|eapply ok_pos; [exact H2|lens]].
    Qed.
    (** the prefix and the digits *)
    Lemma byte_body : forall pre s p w st, s <> [] -> grouped P s = true -> group_stop P w = true ->
      forall l, (forall v, strip_prefix_insensitive l (pre ++ v) = Some v) -> exists t,
      ev (ESeq (EThen (EThen (EInsens l) (group d)) (ERep (group d)))) CompoundAtomic false
        (mkPs p (pre ++ s ++ w) st) (POk (mkPs (p + length (pre ++ s)) w st) t).
    Proof.
      intros pre s p w st Hne Hs Hw l Hl.
      assert (H0 : forall v, ev (EInsens l) CompoundAtomic false (mkPs p (pre ++ v) st) (POk (mkPs (p + length pre) v st) [])).
      { intros v. split; [discriminate|]. exists 1. cbn [Peg.run rest]. rewrite Hl. unfold take. rewrite advance_app. reflexivity. }
      rewrite app_length. destruct s as [|c s]; [congruence|]. cbn [grouped] in Hs.
      destruct (N.eqb_spec c 95) as [->|N95].
      - destruct s as [|c s]; [discriminate|]. apply andb_prop in Hs as [Hc Hs].
        destruct (group_under (p + length pre) c (s ++ w) st Hc) as [t1 H1].
        destruct (group_rep (length s) s (p + length pre + 2) w st ltac:(lia) Hs Hw) as [t2 H2].
        eexists. apply ok_seq. eapply ok_then; [eapply ok_then0; [apply H0|exact H1]|].
        eapply ok_pos; [exact H2|lens].
      - apply andb_prop in Hs as [Hc Hs].
        destruct (group_rep (length s) s (p + length pre + 1) w st ltac:(lia) Hs Hw) as [t2 H2].
        eexists. apply ok_seq. eapply ok_then0; [eapply ok_then0; [apply H0|apply group_one; exact Hc]|].
        eapply ok_pos; [exact H2|lens].
    Qed.
  End Group.

  (** base letter and digits of a literal *)

  Lemma ok_bin : forall k q p c w st, bin_digit c = true -> ev (ECall R_ASCII_BIN_DIGIT) k q (mkPs p (c :: w) st) (POk (mkPs (p + 1) w st) []).
  Proof. intros. apply ev_call. apply ev_range. assumption. Qed.
  Lemma er_bin : forall k q p w st, head_is bin_digit w = false -> fails (ECall R_ASCII_BIN_DIGIT) k q (mkPs p w st).
  Proof. intros. apply er_call, er_range. assumption. Qed.
  Lemma ok_oct : forall k q p c w st, oct_digit c = true -> ev (ECall R_ASCII_OCT_DIGIT) k q (mkPs p (c :: w) st) (POk (mkPs (p + 1) w st) []).
  Proof. intros. apply ev_call. apply ev_range. assumption. Qed.
  Lemma er_oct : forall k q p w st, head_is oct_digit w = false -> fails (ECall R_ASCII_OCT_DIGIT) k q (mkPs p w st).
  Proof. intros. apply er_call, er_range. assumption. Qed.
  Lemma ok_hex : forall k q p c w st, hex_digit c = true -> ev (ECall R_ASCII_HEX_DIGIT) k q (mkPs p (c :: w) st) (POk (mkPs (p + 1) w st) []).
  Proof.
    intros k q p c w st H. apply ev_call. cbn [grammar]. unfold hex_digit in H.
    destruct ((48 <=? c) && (c <=? 57))%N eqn:E1; [apply ev_else_ok, ev_else_ok, ev_range; exact E1|].
    destruct ((97 <=? c) && (c <=? 102))%N eqn:E2.
    - apply ev_else_ok. apply ev_else_err; [apply er_range; exact E1|apply ev_range; exact E2].
    - apply ev_else_err; [apply er_else; apply er_range; assumption|apply ev_range; exact H].
  Qed.
  Lemma er_hex : forall k q p w st, head_is hex_digit w = false -> fails (ECall R_ASCII_HEX_DIGIT) k q (mkPs p w st).
  Proof.
    intros k q p w st H. apply er_call. unfold hex_digit in H.
    assert (head_is (fun c => (48 <=? c) && (c <=? 57))%N w = false /\ head_is (fun c => (97 <=? c) && (c <=? 102))%N w = false /\
      head_is (fun c => (65 <=? c) && (c <=? 70))%N w = false) as (A & B & C).
    { destruct w as [|c w]; [auto|]. cbn [head_is] in *. apply orb_false_iff in H as [H H3]. apply orb_false_iff in H as [H1 H2]. auto. }
    apply er_else; [apply er_else|]; apply er_range; assumption.
  Qed.

  Lemma ok_Byte : forall k b P s p w st, based b P -> s <> [] -> grouped P s = true -> group_stop P w = true ->
    exists t, ev (ECall R_Byte) k false (mkPs p ([48%N; b] ++ s ++ w) st)
      (POk (mkPs (p + length ([48%N; b] ++ s)) w st) [Node R_Byte p (p + length ([48%N; b] ++ s)) ([48%N; b] ++ s) t]).
  Proof.
    intros k b P s p w st Hb Hne Hs Hw.
    assert (X : exists t, ev (EElse (EElse (ESeq (EThen (EThen (EInsens (lit "0b")) (group R_ASCII_BIN_DIGIT)) (ERep (group R_ASCII_BIN_DIGIT))))
        (ESeq (EThen (EThen (EInsens (lit "0o")) (group R_ASCII_OCT_DIGIT)) (ERep (group R_ASCII_OCT_DIGIT)))))
        (ESeq (EThen (EThen (EInsens (lit "0x")) (group R_ASCII_HEX_DIGIT)) (ERep (group R_ASCII_HEX_DIGIT)))))
        CompoundAtomic false (mkPs p ([48%N; b] ++ s ++ w) st) (POk (mkPs (p + length ([48%N; b] ++ s)) w st) t)).
    { assert (B0 : forall b, ascii_lower b = 98%N -> forall v, strip_prefix_insensitive (lit "0b") ([48%N; b] ++ v) = Some v).
      { intros c Hc v. cbn [app strip_prefix_insensitive lit]. cbn. rewrite Hc. reflexivity. }
      assert (O0 : forall b, ascii_lower b = 111%N -> forall v, strip_prefix_insensitive (lit "0o") ([48%N; b] ++ v) = Some v).
      { intros c Hc v. cbn [app strip_prefix_insensitive lit]. cbn. rewrite Hc. reflexivity. }
      assert (X0 : forall b, ascii_lower b = 120%N -> forall v, strip_prefix_insensitive (lit "0x") ([48%N; b] ++ v) = Some v).
      { intros c Hc v. cbn [app strip_prefix_insensitive lit]. cbn. rewrite Hc. reflexivity. }
      destruct Hb.
      1: destruct (byte_body R_ASCII_BIN_DIGIT bin_digit ok_bin er_bin eq_refl [48%N; 98%N] s p w st Hne Hs Hw _ (B0 98%N eq_refl)) as [t Ht].
      2: destruct (byte_body R_ASCII_BIN_DIGIT bin_digit ok_bin er_bin eq_refl [48%N; 66%N] s p w st Hne Hs Hw _ (B0 66%N eq_refl)) as [t Ht].
      3: destruct (byte_body R_ASCII_OCT_DIGIT oct_digit ok_oct er_oct eq_refl [48%N; 111%N] s p w st Hne Hs Hw _ (O0 111%N eq_refl)) as [t Ht].
      4: destruct (byte_body R_ASCII_OCT_DIGIT oct_digit ok_oct er_oct eq_refl [48%N; 79%N] s p w st Hne Hs Hw _ (O0 79%N eq_refl)) as [t Ht].
      5: destruct (byte_body R_ASCII_HEX_DIGIT hex_digit ok_hex er_hex eq_refl [48%N; 120%N] s p w st Hne Hs Hw _ (X0 120%N eq_refl)) as [t Ht].
      6: destruct (byte_body R_ASCII_HEX_DIGIT hex_digit ok_hex er_hex eq_refl [48%N; 88%N] s p w st Hne Hs Hw _ (X0 88%N eq_refl)) as [t Ht].
      1,2: exists t; apply ev_else_ok, ev_else_ok; exact Ht.
      1,2: exists t; apply ev_else_ok; apply ev_else_err; [apply er_seq0, er_then, er_then, er_insens; reflexivity|exact Ht].
      1,2: exists t; apply ev_else_err; [apply er_else; apply er_seq0, er_then, er_then, er_insens; reflexivity|exact Ht]. }
    destruct X as [t Ht]. exists t. apply ev_call. cbn [grammar]. apply ev_atomic.
    replace ([48%N; b] ++ s ++ w) with (([48%N; b] ++ s) ++ w) by (rewrite <- app_assoc; reflexivity).
    apply (ok_rule U R_Byte _ CompoundAtomic p ([48%N; b] ++ s) w st st). rewrite <- app_assoc. exact Ht.
  Qed.
  Lemma ok_Number_byte : forall k b P s p w st, based b P -> s <> [] -> grouped P s = true -> group_stop P w = true ->
    exists t, ev (ECall R_Number) k false (mkPs p ([48%N; b] ++ s ++ w) st)
      (POk (mkPs (p + length ([48%N; b] ++ s)) w st) [Node R_Byte p (p + length ([48%N; b] ++ s)) ([48%N; b] ++ s) t]).
  Proof.
    intros k b P s p w st Hb Hne Hs Hw. destruct (ok_Byte k b P s p w st Hb Hne Hs Hw) as [t Ht]. exists t.
    apply ev_call. cbn [grammar]. apply ev_else_ok, ev_else_ok. exact Ht.
  Qed.
End Token.
