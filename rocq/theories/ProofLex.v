(** Reading tokens: evaluation lemmas for success and failure, white space,
    numbers and symbols. *)
From Verif Require Import Base Ast SmError Peg Grammar Build SpecAst SpecPeg SpecSyntax.
From Verif Require Import ProofPeg ProofPegShift ProofSym ProofGrammar ProofBuild ProofPos ProofSpace.
Local Open Scope nat_scope.

(** equations between offsets *)
Ltac lens := cbn [length app lit]; rewrite ?app_length; cbn [length app lit]; unfold str, char in *; lia.

Section Lex.
  Variable U : unicode.
  Notation ev := (ev U grammar skip_body).

  (** ** Combinators on success and on failure *)

  (** fails and leaves the state as it was *)
  Definition fails (e : pexp rule) (k : atomicity) (q : bool) (s : pstate) : Prop := ev e k q s (PErr s []).

  Lemma ok_then : forall a b k q s s1 t1 s2 t2,
    ev a k q s (POk s1 t1) -> ev b k q s1 (POk s2 t2) -> ev (EThen a b) k q s (POk s2 (t1 ++ t2)).
  Proof. intros. exact (ev_then U grammar skip_body _ _ _ _ _ _ _ _ H H0). Qed.
  Lemma ok_then0 : forall a b k q s s1 r,
    ev a k q s (POk s1 []) -> ev b k q s1 r -> ev (EThen a b) k q s r.
  Proof. intros. pose proof (ev_then U grammar skip_body _ _ _ _ _ _ _ _ H H0) as X. destruct r; exact X. Qed.
  Lemma ok_then1 : forall a b k q s s1 s2 t2,
    ev a k q s (POk s1 t2) -> ev b k q s1 (POk s2 []) -> ev (EThen a b) k q s (POk s2 t2).
  Proof. intros. pose proof (ok_then _ _ _ _ _ _ _ _ _ H H0) as X. rewrite app_nil_r in X. exact X. Qed.
  Lemma er_then : forall a b k q s, fails a k q s -> fails (EThen a b) k q s.
  Proof. intros. apply ev_then_err. assumption. Qed.
  Lemma ok_seq : forall a k q s s1 t1, ev a k q s (POk s1 t1) -> ev (ESeq a) k q s (POk s1 t1).
  Proof. intros. exact (ev_seq U grammar skip_body _ _ _ _ _ H). Qed.
  Lemma er_seq : forall a k q s s1 t1, ev a k q s (PErr s1 t1) -> stk s1 = stk s -> fails (ESeq a) k q s.
  Proof.
    intros a k q s s1 t1 H E. pose proof (ev_seq U grammar skip_body _ _ _ _ _ H) as X. cbn [seq_res] in X.
    rewrite E in X. destruct s. exact X.
  Qed.
  Lemma er_seq0 : forall a k q s, fails a k q s -> fails (ESeq a) k q s.
  Proof. intros. eapply er_seq; [exact H|reflexivity]. Qed.
  (** the first part succeeds, the second fails *)
  Lemma er_seq2 : forall a b k q s s1 t1, ev a k q s (POk s1 t1) -> fails b k q s1 -> stk s1 = stk s ->
    fails (ESeq (EThen a b)) k q s.
  Proof.
    intros a b k q s s1 t1 Ha Hb E. eapply er_seq with (s1 := s1); [|exact E].
    pose proof (ev_then U grammar skip_body _ _ _ _ _ _ _ _ Ha Hb) as X. cbn [prepend] in X. exact X.
  Qed.
  Lemma ok_restore : forall a k q s s1 t1, ev a k q s (POk s1 t1) -> ev (ERestore a) k q s (POk s1 t1).
  Proof. intros. exact (ev_restore U grammar skip_body _ _ _ _ _ H). Qed.
  Lemma er_restore : forall a k q s, fails a k q s -> fails (ERestore a) k q s.
  Proof.
    intros a k q s H. pose proof (ev_restore U grammar skip_body _ _ _ _ _ H) as X. cbn [restore_res] in X.
    destruct s. exact X.
  Qed.
  Lemma ok_opt : forall a k q s s1 t1, ev a k q s (POk s1 t1) -> ev (EOpt a) k q s (POk s1 t1).
  Proof. intros. exact (ev_opt U grammar skip_body _ _ _ _ _ H). Qed.
  Lemma no_opt : forall a k q s, fails a k q s -> ev (EOpt a) k q s (POk s []).
  Proof. intros. exact (ev_opt U grammar skip_body _ _ _ _ _ H). Qed.
  Lemma no_rep : forall a k q s, fails a k q s -> ev (ERep a) k q s (POk s []).
  Proof. intros. apply ev_rep_stop. exact H. Qed.
  Lemma ok_rep : forall a k q s s1 t1 s2 t2,
    ev a k q s (POk s1 t1) -> ev (ERep a) k q s1 (POk s2 t2) -> ev (ERep a) k q s (POk s2 (t1 ++ t2)).
  Proof. intros. exact (ev_rep_step U grammar skip_body _ _ _ _ _ _ _ H H0). Qed.
  Lemma er_else : forall a b k q s, fails a k q s -> fails b k q s -> fails (EElse a b) k q s.
  Proof. intros. apply ev_else_err; assumption. Qed.
  Lemma er_rule : forall x a k q s, fails a k q s -> fails (ERule x a) k q s.
  Proof.
    intros x a k q s H. pose proof (ev_rule U grammar skip_body x _ _ _ _ _ H) as X. cbn [rule_res] in X.
    unfold fails. destruct (emits k q); exact X.
  Qed.
  Lemma er_not : forall a k q s s1 t1, ev a k true s (POk s1 t1) -> fails (ENot a) k q s.
  Proof. intros. exact (ev_not U grammar skip_body _ _ _ _ _ H). Qed.
  Lemma ok_not : forall a k q s s1 t1, ev a k true s (PErr s1 t1) -> ev (ENot a) k q s (POk s []).
  Proof. intros. exact (ev_not U grammar skip_body _ _ _ _ _ H). Qed.
  Lemma er_atomic : forall k' a k q s, fails a k' q s -> fails (EAtomic k' a) k q s.
  Proof. intros. apply ev_atomic. assumption. Qed.
  Lemma er_call : forall x k q s, fails (grammar x) k q s -> fails (ECall x) k q s.
  Proof. intros. apply ev_call. assumption. Qed.

  Definition node_of (x : rule) (k : atomicity) (p : nat) (text : str) (t : list (tree rule)) : list (tree rule) :=
    if emits k false then [Node x p (p + length text) text t] else t.
  Lemma ok_rule : forall x a k p text w st st' t,
    ev a k false (mkPs p (text ++ w) st) (POk (mkPs (p + length text) w st') t) ->
    ev (ERule x a) k false (mkPs p (text ++ w) st) (POk (mkPs (p + length text) w st') (node_of x k p text t)).
  Proof.
    intros x a k p text w st st' t H. pose proof (ev_rule U grammar skip_body x _ _ _ _ _ H) as X.
    cbn [rule_res pos rest] in X. rewrite consumed_app in X. exact X.
  Qed.

  Lemma ok_pos : forall e k q s p1 p2 w st t, ev e k q s (POk (mkPs p1 w st) t) -> p1 = p2 ->
    ev e k q s (POk (mkPs p2 w st) t).
  Proof. intros. subst. assumption. Qed.

  (** ** Single characters *)
  Lemma er_str : forall l k q p w st, strip_prefix l w = None -> fails (EStr l) k q (mkPs p w st).
  Proof. intros. apply ev_str_err. assumption. Qed.
  Lemma strip_head : forall a l c w, a <> c -> strip_prefix (a :: l) (c :: w) = None.
  Proof. intros a l c w H. cbn [strip_prefix]. apply N.eqb_neq in H. rewrite H. reflexivity. Qed.

  Lemma er_range : forall a b k q p w st, head_is (fun c => (a <=? c) && (c <=? b))%N w = false ->
    fails (ERange a b) k q (mkPs p w st).
  Proof.
    intros a b k q p w st H. apply ev_char_err with (P := fun c => ((a <=? c) && (c <=? b))%N); [reflexivity|].
    intros c w' ->. exact H.
  Qed.
  Lemma er_class : forall u k q p w st, head_is (in_class U u) w = false -> fails (EClass u) k q (mkPs p w st).
  Proof.
    intros u k q p w st H. apply ev_char_err with (P := in_class U u); [reflexivity|].
    intros c w' ->. exact H.
  Qed.

  (** the repetition of one class of characters *)
  Lemma rep_chars : forall e (P : char -> bool) k q,
    (forall p c w st, P c = true -> ev e k q (mkPs p (c :: w) st) (POk (mkPs (p + 1) w st) [])) ->
    (forall p w st, head_is P w = false -> fails e k q (mkPs p w st)) ->
    forall l p w st, forallb P l = true -> head_is P w = false ->
      ev (ERep e) k q (mkPs p (l ++ w) st) (POk (mkPs (p + length l) w st) []).
  Proof.
    intros e P k q Hok Her l. induction l as [|c l IH]; intros p w st Hl Hw.
    - cbn. rewrite Nat.add_0_r. apply no_rep. auto.
    - cbn [forallb] in Hl. apply andb_prop in Hl as [Hc Hl]. cbn [app length].
      pose proof (ok_rep _ _ _ _ _ _ _ _ (Hok p c (l ++ w) st Hc) (IH (p + 1) w st Hl Hw)) as X. cbn [app] in X.
      replace (p + S (length l)) with (p + 1 + length l) by lia. exact X.
  Qed.

  (** ** White space *)

  (** [skip] on a text that is neither white space nor a comment *)
  Definition solid (w : str) : bool :=
    negb (head_is white_space w) &&
    match strip_prefix (lit "//") w, strip_prefix (lit "%%%") w with
    | None, None => true
    | Some w', None => negb (head_is (fun c => existsb (N.eqb c) [47; 63; 33; 42]%N) w')
    | _, _ => false
    end.

  Lemma strip_longer : forall a b w, strip_prefix a w = None -> strip_prefix (a ++ b) w = None.
  Proof.
    induction a as [|c a IH]; intros b w H; [discriminate|]. destruct w as [|d w]; [reflexivity|]. cbn [app strip_prefix] in *.
    destruct (c =? d)%N; auto.
  Qed.

  Lemma strip_more : forall a b w w', strip_prefix a w = Some w' -> strip_prefix (a ++ b) w = strip_prefix b w'.
  Proof.
    induction a as [|c a IH]; intros b w w' H; [injection H as ->; reflexivity|]. destruct w as [|d w]; [discriminate|]. cbn [app strip_prefix] in *.
    destruct (c =? d)%N; [auto|discriminate].
  Qed.
  Lemma solid_spec : forall w, head_is white_space w = false -> comment_start w = false -> solid w = true.
  Proof.
    intros w H C. unfold comment_start in C. cbn [existsb] in C. repeat (apply orb_false_iff in C as [? C]).
    unfold solid. rewrite H. unfold starts_with in *. destruct (strip_prefix (lit "%%%") w); [discriminate|].
    destruct (strip_prefix (lit "//") w) as [w'|] eqn:E; [|reflexivity].
    destruct w' as [|c w']; [reflexivity|]. cbn [head_is existsb].
    assert (X : forall d, strip_prefix (lit "//" ++ [d]) w = (if (d =? c)%N then Some w' else None)) by (intro d; rewrite (strip_more _ [d] _ _ E); reflexivity).
    pose proof (X 47%N) as X1. pose proof (X 63%N) as X2. pose proof (X 33%N) as X3. pose proof (X 42%N) as X4.
    change (lit "//" ++ [47%N]) with (lit "///") in X1. change (lit "//" ++ [63%N]) with (lit "//?") in X2.
    change (lit "//" ++ [33%N]) with (lit "//!") in X3. change (lit "//" ++ [42%N]) with (lit "//*") in X4.
    rewrite X1, X2, X3, X4 in *. rewrite !(N.eqb_sym c). destruct (47 =? c)%N, (63 =? c)%N, (33 =? c)%N, (42 =? c)%N; try discriminate; reflexivity.
  Qed.

  Lemma er_comment : forall q k p w st, solid w = true -> fails (ECall R_COMMENT) k q (mkPs p w st).
  Proof.
    intros q k p w st H. unfold solid in H. apply andb_prop in H as [_ H].
    destruct (strip_prefix (lit "%%%") w) eqn:E2; [destruct (strip_prefix (lit "//") w); discriminate|].
    assert (X : forall c, existsb (N.eqb c) [47; 63; 33; 42]%N = true -> strip_prefix (lit "//" ++ [c]) w = None).
    { intros c Hc. destruct (strip_prefix (lit "//") w) as [w'|] eqn:E1; [|apply strip_longer; exact E1].
      rewrite (strip_more _ [c] _ _ E1). destruct w' as [|d w']; [reflexivity|]. cbn [strip_prefix]. destruct (N.eqb_spec c d) as [->|]; [|reflexivity].
      cbn [head_is] in H. rewrite Hc in H. discriminate. }
    apply er_call, er_atomic.
    repeat apply er_else.
    - apply er_call, er_atomic, er_rule, er_seq0, er_then, er_then, er_str. exact E2.
    - apply er_seq0, er_then, er_str. exact (X 47%N eq_refl).
    - apply er_seq0, er_then, er_str. exact (X 63%N eq_refl).
    - apply er_seq0, er_then, er_str. exact (X 33%N eq_refl).
    - apply er_seq0, er_then, er_str. exact (X 42%N eq_refl).
  Qed.

  Lemma drop_white_head : forall s, head_is white_space (drop_white s) = false.
  Proof. induction s as [|c s IH]; [reflexivity|]. cbn [drop_white]. destruct (white_space c) eqn:E; [exact IH|exact E]. Qed.

  Lemma white_Forall : forall s, white s = true -> Forall (fun c => white_space c = true) s.
  Proof. intros s H. apply Forall_forall. unfold white in H. rewrite forallb_forall in H. exact H. Qed.

  (** white space within a line, before an argument list, a slice or a factor *)
  Definition inline_rep : pexp rule := ERep (ESeq (EThen (ENot (ECall R_NEWLINE)) (ECall R_WHITESPACE))).

  Lemma newline_head : forall k q p w st, head_is (fun c => (c =? 10) || (c =? 13))%N w = false ->
    fails (ECall R_NEWLINE) k q (mkPs p w st).
  Proof.
    intros k q p w st H. apply er_call.
    assert (A : forall l, strip_prefix (10%N :: l) w = None).
    { intros l. destruct w as [|c w]; [reflexivity|]. cbn in H. apply strip_head. intros <-. discriminate. }
    assert (B : forall l, strip_prefix (13%N :: l) w = None).
    { intros l. destruct w as [|c w]; [reflexivity|]. cbn in H. apply strip_head. intros <-. discriminate. }
    apply er_else; [apply er_else|]; apply er_str; auto.
  Qed.

  Lemma inline_rep_ok : forall k q ws p w st, forallb inline_space ws = true -> head_is inline_space w = false ->
    ev inline_rep k q (mkPs p (ws ++ w) st) (POk (mkPs (p + length ws) w st) []).
  Proof.
    intros k q ws p w st Hws Hw. unfold inline_rep. apply rep_chars with (P := inline_space); auto.
    - intros p' c w' st' Hc. unfold inline_space in Hc. apply andb_prop in Hc as [Hc H13]. apply andb_prop in Hc as [Hc H10].
      apply ok_seq. eapply ok_then0.
      + eapply ok_not. apply newline_head. cbn. destruct (c =? 10)%N, (c =? 13)%N; try discriminate; reflexivity.
      + apply ev_call, ev_atomic. apply ev_else_err; [apply newline_head; cbn; destruct (c =? 10)%N, (c =? 13)%N; try discriminate; reflexivity|].
        apply ev_call. apply ev_class. exact Hc.
    - intros p' w' st' H. apply er_seq0.
      destruct (head_is (fun c => (c =? 10) || (c =? 13))%N w') eqn:E.
      + apply er_then.
        destruct w' as [|c w']; [discriminate|]. cbn in E.
        destruct (N.eqb_spec c 10) as [->|].
        * eapply er_not. apply ev_call. apply ev_else_ok, ev_else_ok. apply (ev_str U grammar skip_body [10%N]).
        * destruct (N.eqb_spec c 13) as [->|]; [|discriminate].
          destruct (strip_prefix [13%N; 10%N] (13%N :: w')) as [w''|] eqn:E2.
          -- apply strip_prefix_app in E2. injection E2 as ->.
             eapply er_not. apply ev_call. apply ev_else_ok. apply ev_else_err; [apply er_str; reflexivity|].
             apply (ev_str U grammar skip_body [13%N; 10%N]).
          -- eapply er_not. apply ev_call. apply ev_else_err; [apply er_else; apply er_str; [reflexivity|exact E2]|].
             apply (ev_str U grammar skip_body [13%N]).
      + apply ok_then0 with (s1 := mkPs p' w' st').
        * eapply ok_not. apply newline_head. exact E.
        * apply white_none. destruct w' as [|c w']; [exact I|]. cbn in H, E. unfold inline_space in H.
          destruct (white_space c); [|reflexivity]. destruct (c =? 10)%N, (c =? 13)%N; discriminate.
  Qed.

  (** ** Line comments *)
  Definition line_mark (d : char) : bool := ((d =? 47) || (d =? 63) || (d =? 33) || (d =? 42))%N.
  Definition in_line (c : char) : bool := negb (line_end c).
  Definition comment_rest : pexp rule := ERep (ESeq (EThen (ENot (ECall R_NEWLINE)) (ECall R_ANY))).
  Lemma newline_ok : forall k q p c w st, line_end c = true -> exists s1 t1, ev (ECall R_NEWLINE) k q (mkPs p (c :: w) st) (POk s1 t1).
  Proof.
    intros k q p c w st H. unfold line_end in H. destruct (N.eqb_spec c 10) as [->|].
    - do 2 eexists. apply ev_call. apply ev_else_ok, ev_else_ok. apply (ev_str U grammar skip_body [10%N]).
    - destruct (N.eqb_spec c 13) as [->|]; [|discriminate]. destruct (strip_prefix [13%N; 10%N] (13%N :: w)) as [w''|] eqn:E2.
      + apply strip_prefix_app in E2. injection E2 as ->. do 2 eexists. apply ev_call. apply ev_else_ok. apply ev_else_err; [apply er_str; reflexivity|].
        apply (ev_str U grammar skip_body [13%N; 10%N]).
      + do 2 eexists. apply ev_call. apply ev_else_err; [apply er_else; apply er_str; [reflexivity|exact E2]|]. apply (ev_str U grammar skip_body [13%N]).
  Qed.
  Lemma comment_rest_ok : forall k q l p w st, forallb in_line l = true -> head_is in_line w = false ->
    ev comment_rest k q (mkPs p (l ++ w) st) (POk (mkPs (p + length l) w st) []).
  Proof.
    intros k q l p w st Hl Hw. unfold comment_rest. apply rep_chars with (P := in_line); auto.
    - intros p' c w' st' Hc. apply ok_seq. eapply ok_then0; [eapply ok_not; apply newline_head|].
      + unfold in_line in Hc. apply negb_true_iff in Hc. exact Hc.
      + apply ev_call. apply ev_any.
    - intros p' [|c w'] st' H; apply er_seq0.
      + apply ok_then0 with (s1 := mkPs p' [] st'); [eapply ok_not; apply newline_head; reflexivity|]. apply er_call.
        apply (ev_char_err U grammar skip_body EAny (fun _ => true)); [reflexivity|]. discriminate.
      + apply er_then. cbn [head_is] in H. unfold in_line in H. apply negb_false_iff in H.
        destruct (newline_ok k true p' c w' st' H) as (s1 & t1 & E). eapply er_not. exact E.
  Qed.
  Lemma comment_ok : forall k q d l p w st, line_mark d = true -> forallb in_line l = true -> head_is in_line w = false ->
    ev (ECall R_COMMENT) k q (mkPs p (47%N :: 47%N :: d :: l ++ w) st) (POk (mkPs (p + 3 + length l) w st) []).
  Proof.
    intros k q d l p w st Hd Hl Hw. apply ev_call, ev_atomic.
    assert (M : fails (ECall R_MultiLineComment) Atomic q (mkPs p (47%N :: 47%N :: d :: l ++ w) st)).
    { apply er_call, er_atomic, er_rule, er_seq0, er_then, er_then, er_str. reflexivity. }
    assert (A : forall x, line_mark x = true -> x <> d -> fails (ESeq (EThen (EStr (47%N :: 47%N :: [x])) comment_rest)) Atomic q (mkPs p (47%N :: 47%N :: d :: l ++ w) st)).
    { intros x _ Hx. apply er_seq0, er_then, er_str. cbn [strip_prefix N.eqb Pos.eqb]. destruct (N.eqb_spec x d); [contradiction|reflexivity]. }
    assert (B : ev (ESeq (EThen (EStr (47%N :: 47%N :: [d])) comment_rest)) Atomic q (mkPs p (47%N :: 47%N :: d :: l ++ w) st) (POk (mkPs (p + 3 + length l) w st) [])).
    { apply ok_seq. eapply ok_then0; [apply (ev_str U grammar skip_body [47%N; 47%N; d])|]. apply comment_rest_ok; assumption. }
    unfold line_mark in Hd. destruct (N.eqb_spec d 47) as [->|]; [|destruct (N.eqb_spec d 63) as [->|]; [|destruct (N.eqb_spec d 33) as [->|]; [|destruct (N.eqb_spec d 42) as [->|]; [|discriminate]]]].
    - apply ev_else_ok, ev_else_ok, ev_else_ok. apply ev_else_err; [exact M|]. exact B.
    - apply ev_else_ok, ev_else_ok. apply ev_else_err; [apply er_else; [exact M|apply (A 47%N); [reflexivity|discriminate]]|]. exact B.
    - apply ev_else_ok. apply ev_else_err; [apply er_else; [apply er_else; [exact M|apply (A 47%N)]|apply (A 63%N)]; (reflexivity || discriminate)|]. exact B.
    - apply ev_else_err; [|exact B]. apply er_else; [apply er_else; [apply er_else; [exact M|apply (A 47%N)]|apply (A 63%N)]|apply (A 33%N)]; (reflexivity || discriminate).
  Qed.
  Lemma comment_skipped : forall d l e, line_mark d = true -> forallb in_line l = true -> line_end e = true -> skipped U (47%N :: 47%N :: d :: l ++ [e]).
  Proof.
    intros d l e Hd Hl He q p t st s1 t1 H.
    set (n := p + length (47%N :: 47%N :: d :: l ++ [e])) in *.
    destruct (comments_terminates U q (mkPs (n + (length t - length (drop_white t))) (drop_white t) st)) as [rc Hc].
    destruct (comments_ok _ _ _ _ Hc) as (s2 & t2 & ->). pose proof (skip_ev _ _ _ _ _ _ Hc) as Hs. cbn [seq_res] in Hs.
    pose proof (ev_det U grammar skip_body _ _ _ _ _ _ H Hs) as E. injection E as -> ->.
    apply (skip_ev U q p ((47%N :: 47%N :: d :: l ++ [e]) ++ t) st (POk s2 t2)).
    rewrite (drop_white_stop ((47%N :: 47%N :: d :: l ++ [e]) ++ t)) by reflexivity. rewrite Nat.sub_diag, Nat.add_0_r.
    change (POk s2 t2) with (POk s2 ([] ++ t2)). unfold comments. eapply ok_rep; [|exact Hc].
    apply ok_seq. eapply ok_then0.
    - cbn [app]. rewrite <- app_assoc. cbn [app]. apply comment_ok; [exact Hd|exact Hl|]. cbn [head_is]. unfold in_line. rewrite He. reflexivity.
    - assert (W : white_space e = true) by (unfold line_end in He; destruct (N.eqb_spec e 10) as [->|]; [reflexivity|]; destruct (N.eqb_spec e 13) as [->|]; [reflexivity|discriminate]).
      pose proof (white_rep U NonAtomic q (S (length t)) (e :: t) (p + 3 + length l) st (Nat.le_refl _)) as X. cbn [drop_white] in X. rewrite W in X.
      eapply ok_pos; [exact X|]. pose proof (drop_white_len t). unfold n. cbn [length]. rewrite app_length. cbn [length]. lia.
  Qed.
  Lemma skipped_app : forall a b, skipped U a -> skipped U b -> skipped U (a ++ b).
  Proof.
    intros a b Ha Hb q p t st s1 t1 H. rewrite app_length, Nat.add_assoc in H. rewrite <- app_assoc. apply Ha, Hb, H.
  Qed.
  Lemma in_comment_split : forall s, spacing_from true s = true -> exists l e s', s = l ++ e :: s' /\ forallb in_line l = true /\ line_end e = true /\ spacing s' = true.
  Proof.
    induction s as [|c s IH]; intro H; [discriminate|]. cbn [spacing_from] in H. destruct (line_end c) eqn:E.
    - exists [], c, s. auto.
    - destruct (IH H) as (l & e & s' & -> & Hl & He & Hs). exists (c :: l), e, s'. cbn [app forallb]. unfold in_line at 1. rewrite E. auto.
  Qed.
  (** white space or a comment first *)
  Lemma spacing_cons : forall c s, spacing (c :: s) = true ->
    (white_space c = true /\ spacing s = true) \/
    (c = 47%N /\ exists d l e s', s = 47%N :: d :: l ++ e :: s' /\ line_mark d = true /\ forallb in_line l = true /\ line_end e = true /\ spacing s' = true).
  Proof.
    intros c s H. unfold spacing in H. cbn [spacing_from] in H. destruct (white_space c) eqn:W; [left; auto|]. right.
    destruct s as [|b [|d s2]]; try discriminate. apply andb_prop in H as [H S]. apply andb_prop in H as [H D]. apply andb_prop in H as [C B].
    apply N.eqb_eq in C, B. subst c b. split; [reflexivity|]. destruct (in_comment_split s2 S) as (l & e & s' & -> & Hl & He & Hs). exists d, l, e, s'. auto.
  Qed.
  Lemma spacing_ind' : forall P : str -> Prop, P [] -> (forall c s, white_space c = true -> spacing s = true -> P s -> P (c :: s)) ->
    (forall d l e s, line_mark d = true -> forallb in_line l = true -> line_end e = true -> spacing s = true -> P s -> P (47%N :: 47%N :: d :: l ++ e :: s)) ->
    forall s, spacing s = true -> P s.
  Proof.
    intros P P0 P1 P2 s. remember (length s) as n eqn:En. revert s En. induction n as [n IH] using lt_wf_ind. intros [|c s] En H; [exact P0|].
    destruct (spacing_cons c s H) as [[W S]|(-> & d & l & e & s' & -> & Hd & Hl & He & Hs)].
    - apply P1; [exact W|exact S|]. apply (IH (length s)); [subst; cbn; lia|reflexivity|exact S].
    - apply P2; try assumption. apply (IH (length s')); [subst; cbn; rewrite app_length; cbn; lia|reflexivity|exact Hs].
  Qed.
  Lemma spacing_skipped : forall g, spacing g = true -> skipped U g.
  Proof.
    apply spacing_ind'; [|intros c s W S IH|intros d l e s Hd Hl He S IH].
    - intros q p t st s1 t1 E. cbn [length] in E. rewrite Nat.add_0_r in E. exact E.
    - apply (skipped_app [c] s); [apply white_skipped; constructor; [exact W|constructor]|exact IH].
    - replace (47%N :: 47%N :: d :: l ++ e :: s) with ((47%N :: 47%N :: d :: l ++ [e]) ++ s) by (cbn [app]; rewrite <- app_assoc; reflexivity).
      apply skipped_app; [apply comment_skipped; assumption|exact IH].
  Qed.
  Lemma in_comment_app : forall l e s, forallb in_line l = true -> line_end e = true -> spacing_from true (l ++ e :: s) = spacing s.
  Proof.
    induction l as [|c l IH]; intros e s Hl He; cbn [app spacing_from].
    - rewrite He. reflexivity.
    - cbn [forallb] in Hl. apply andb_prop in Hl as [Hc Hl]. unfold in_line in Hc. rewrite Hc. apply IH; assumption.
  Qed.
  Lemma spacing_app : forall a b, spacing a = true -> spacing b = true -> spacing (a ++ b) = true.
  Proof.
    intros a b H Hb. revert a H. apply (spacing_ind' (fun a => spacing (a ++ b) = true)); [exact Hb|intros c s W S IH|intros d l e s Hd Hl He S IH].
    - unfold spacing. cbn [app spacing_from]. rewrite W. exact IH.
    - unfold spacing. cbn [app spacing_from]. change (white_space 47%N) with false. cbn iota. rewrite <- app_assoc. cbn [app].
      rewrite in_comment_app by assumption. unfold line_mark in Hd. cbn [N.eqb Pos.eqb andb]. rewrite Hd. exact IH.
  Qed.
  Lemma white_spacing : forall g, white g = true -> spacing g = true.
  Proof.
    unfold white, spacing. induction g as [|c g IH]; intro H; [reflexivity|]. cbn [forallb] in H. apply andb_prop in H as [W H]. cbn [spacing_from]. rewrite W. auto.
  Qed.

  (** [skip] consumes exactly the spacing before a token *)
  Lemma skip_nothing : forall p w st, solid w = true -> ev ESkip NonAtomic false (mkPs p w st) (POk (mkPs p w st) []).
  Proof.
    intros p w st Hw. pose proof (skip_ev U false p w st (POk (mkPs p w st) [])) as X. cbn [seq_res] in X. apply X.
    assert (D : drop_white w = w).
    { apply drop_white_stop. unfold solid in Hw. apply andb_prop in Hw as [Hw _].
      destruct w as [|c w]; [exact I|]. cbn in Hw. destruct (white_space c); [discriminate|reflexivity]. }
    rewrite D, Nat.sub_diag, Nat.add_0_r. apply no_rep. apply er_seq0, er_then, er_comment. exact Hw.
  Qed.
  Lemma skip_spacing : forall ws p w st, spacing ws = true -> solid w = true ->
    ev ESkip NonAtomic false (mkPs p (ws ++ w) st) (POk (mkPs (p + length ws) w st) []).
  Proof. intros ws p w st Hws Hw. apply spacing_skipped; [exact Hws|]. apply skip_nothing. exact Hw. Qed.

  (** at the end of a text *)
  Lemma spacing_closing : forall ws, spacing ws = true -> closing ws = true.
  Proof. intros ws H. unfold closing. apply spacing_app; [exact H|reflexivity]. Qed.
  Lemma closing_split : forall ws, closing ws = true ->
    spacing ws = true \/ exists a d l, ws = a ++ 47%N :: 47%N :: d :: l /\ spacing a = true /\ line_mark d = true /\ forallb in_line l = true.
  Proof.
    intros ws. remember (length ws) as n eqn:En. revert ws En. induction n as [n IH] using lt_wf_ind. intros [|c s] En H; [left; reflexivity|].
    unfold closing in H. cbn [app] in H.
    destruct (spacing_cons c (s ++ [10%N]) H) as [[W S]|(-> & d & l & e & s' & E & Hd & Hl & He & Hs)].
    - destruct (IH (length s) ltac:(subst; cbn; lia) s eq_refl S) as [X|(a & d & l & -> & Ha & Hd & Hl)].
      + left. unfold spacing. cbn [spacing_from]. rewrite W. exact X.
      + right. exists (c :: a), d, l. split; [reflexivity|]. split; [|auto]. unfold spacing. cbn [spacing_from]. rewrite W. exact Ha.
    - destruct s' as [|b s'] using rev_ind; [|clear IHs'].
      + change (47%N :: d :: l ++ [e]) with ((47%N :: d :: l) ++ [e]) in E. apply app_inj_tail in E as [-> _]. right. exists [], d, l. auto.
      + replace (47%N :: d :: l ++ e :: s' ++ [b]) with ((47%N :: d :: l ++ e :: s') ++ [b]) in E by (cbn [app]; rewrite <- app_assoc; reflexivity).
        apply app_inj_tail in E as [-> <-].
        assert (P : forall x, spacing x = true -> spacing (47%N :: 47%N :: d :: l ++ e :: x) = true).
        { intros x Hx. unfold spacing. cbn [spacing_from]. change (white_space 47%N) with false. cbn iota.
          rewrite in_comment_app by assumption. unfold line_mark in Hd. cbn [N.eqb Pos.eqb andb]. rewrite Hd. exact Hx. }
        destruct (IH (length s') ltac:(subst; cbn; rewrite app_length; cbn; lia) s' eq_refl Hs) as [X|(a & d' & l' & -> & Ha & Hd' & Hl')].
        * left. apply P, X.
        * right. exists (47%N :: 47%N :: d :: l ++ e :: a), d', l'. split; [cbn [app]; rewrite <- app_assoc; reflexivity|]. split; [apply P, Ha|auto].
  Qed.
  Lemma skip_closing : forall ws p st, closing ws = true -> ev ESkip NonAtomic false (mkPs p ws st) (POk (mkPs (p + length ws) [] st) []).
  Proof.
    intros ws p st H. destruct (closing_split ws H) as [S|(a & d & l & -> & Ha & Hd & Hl)].
    - pose proof (skip_spacing ws p [] st S eq_refl) as X. rewrite app_nil_r in X. exact X.
    - apply spacing_skipped; [exact Ha|].
      change (POk (mkPs (p + length (a ++ 47%N :: 47%N :: d :: l)) [] st) []) with (seq_res (mkPs (p + length a) (47%N :: 47%N :: d :: l) st) (POk (mkPs (p + length (a ++ 47%N :: 47%N :: d :: l)) ([] : str) st) ([] : list (tree rule)))).
      apply skip_ev. rewrite drop_white_stop by reflexivity. rewrite Nat.sub_diag, Nat.add_0_r.
      eapply ok_pos.
      + unfold comments. eapply (ok_rep _ NonAtomic false _ _ []); [|apply no_rep, er_seq0, er_then, er_comment; reflexivity].
        apply ok_seq. eapply ok_then0.
        * rewrite <- (app_nil_r l) at 1. apply comment_ok; [exact Hd|exact Hl|reflexivity].
        * pose proof (white_rep U NonAtomic false 0 [] (p + length a + 3 + length l) st (Nat.le_refl _)) as X. exact X.
      + rewrite app_length. cbn [length]. lia.
  Qed.

  Fixpoint drop_inline (w : str) : str :=
    match w with c :: w' => if inline_space c then drop_inline w' else w | [] => [] end.
  Lemma drop_inline_split : forall w, exists ws, w = ws ++ drop_inline w /\ forallb inline_space ws = true /\
    head_is inline_space (drop_inline w) = false.
  Proof.
    induction w as [|c w IH]; [exists []; auto|]. cbn [drop_inline]. destruct (inline_space c) eqn:E.
    - destruct IH as (ws & E1 & E2 & E3). exists (c :: ws). cbn. rewrite E, <- E1. auto.
    - exists []. cbn. rewrite E. auto.
  Qed.
  Lemma inline_rep_any : forall k q p w st, exists p',
    ev inline_rep k q (mkPs p w st) (POk (mkPs p' (drop_inline w) st) []).
  Proof.
    intros k q p w st. destruct (drop_inline_split w) as (ws & E & H1 & H2). exists (p + length ws).
    rewrite E at 1. apply inline_rep_ok; assumption.
  Qed.
  Theorem leading_spacing : forall fname w t, spacing w = true ->
    omap forget_result (parse U fname (w ++ t)) = omap forget_result (parse U fname t).
  Proof. intros fname w t Hw. apply leading, spacing_skipped, Hw. Qed.
End Lex.
