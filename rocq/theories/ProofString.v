(** String literals. *)
From Verif Require Import Base Ast Display SmError Peg Grammar Climber Build SpecAst SpecPeg SpecSyntax.
From Verif Require Import ProofAst ProofDisplay ProofPeg ProofPegShift ProofSym ProofGrammar ProofBuild ProofPos ProofSpace ProofLex ProofToken ProofNode ProofAtom.
Local Open Scope nat_scope.

Section Quoted.
  Variable U : unicode.
  Hypothesis HU : sane U.
  Notation ev := (ev U grammar skip_body).
  Notation fails := (fails U).
  Notation node_means := (node_means U).
  Notation nstop := (nstop U).

  Lemma er_then2 : forall a b k q s s1 t1, ev a k q s (POk s1 t1) -> fails b k q s1 -> ev (EThen a b) k q s (PErr s1 (t1 ++ [])).
  Proof. intros a b k q s s1 t1 Ha Hb. exact (ev_then U grammar skip_body _ _ _ _ _ _ _ _ Ha Hb). Qed.

  Lemma ok_quote : forall k p w st, ev (ECall R_Quotation) k false (mkPs p (34%N :: w) st) (POk (mkPs (p + 1) w st) (node_of R_Quotation k p [34%N] [])).
  Proof. intros k p w st. apply ev_call. apply (ok_rule U R_Quotation _ k p [34%N] w st st). apply ev_atomic, (ev_str U grammar skip_body [34%N]). Qed.
  Lemma er_quote : forall k q p w st, head_is (N.eqb 34) w = false -> fails (ECall R_Quotation) k q (mkPs p w st).
  Proof.
    intros k q p w st H. apply er_call, er_rule, er_atomic, er_str. destruct w as [|c w]; [reflexivity|]. apply strip_head. intros <-. discriminate.
  Qed.
  Lemma ok_quote_quiet : forall k p w st, exists t, ev (ECall R_Quotation) k true (mkPs p (34%N :: w) st) (POk (mkPs (p + 1) w st) t).
  Proof.
    intros k p w st.
    assert (H : ev (EAtomic Atomic (EStr [34%N])) k true (mkPs p (34%N :: w) st) (POk (mkPs (p + 1) w st) []))
      by apply ev_atomic, (ev_str U grammar skip_body [34%N]).
    apply (ev_rule U grammar skip_body R_Quotation) in H. cbn [rule_res] in H. eexists. apply ev_call. exact H.
  Qed.

  Definition string_item : pexp rule :=
    EElse (ESeq (EThen (ECall R_Escape) (EElse (ECall R_Quotation) (ECall R_Escape)))) (ESeq (EThen (ENot (ECall R_Quotation)) (ECall R_ANY))).

  Lemma ok_escape : forall p w st, ev (ECall R_Escape) Atomic false (mkPs p (92%N :: w) st) (POk (mkPs (p + 1) w st) []).
  Proof. intros p w st. apply ev_call. apply (ok_rule U R_Escape _ Atomic p [92%N] w st st). apply ev_atomic, (ev_str U grammar skip_body [92%N]). Qed.
  Lemma er_escape : forall p w st, head_is (N.eqb 92) w = false -> fails (ECall R_Escape) Atomic false (mkPs p w st).
  Proof.
    intros p w st H. apply er_call, er_rule, er_atomic, er_str. destruct w as [|c w]; [reflexivity|]. apply strip_head. intros <-. discriminate.
  Qed.
  Lemma item_plain : forall p c w st, (c =? 34)%N = false ->
    (c =? 92)%N = false \/ head_is (fun d => (d =? 34) || (d =? 92))%N w = false ->
    ev string_item Atomic false (mkPs p (c :: w) st) (POk (mkPs (p + 1) w st) []).
  Proof.
    intros p c w st Hc Hw. apply ev_else_err.
    - destruct (N.eqb_spec c 92) as [->|N].
      + destruct Hw as [Hw|Hw]; [discriminate|]. eapply er_seq2; [apply ok_escape| |reflexivity].
        apply er_else; [apply er_quote|apply er_escape]; destruct w as [|d w]; try reflexivity; cbn [head_is] in *;
          apply orb_false_iff in Hw as [H1 H2]; rewrite N.eqb_sym; assumption.
      + apply er_seq0, er_then, er_escape. cbn [head_is]. apply N.eqb_neq. congruence.
    - apply ok_seq. eapply ok_then0.
      + eapply ok_not. apply er_quote. cbn [head_is]. rewrite N.eqb_sym. exact Hc.
      + apply ev_call. apply ev_any.
  Qed.
  Lemma item_escape : forall p c w st, ((c =? 34) || (c =? 92))%N = true ->
    ev string_item Atomic false (mkPs p (92%N :: c :: w) st) (POk (mkPs (p + 2) w st) []).
  Proof.
    intros p c w st Hc. apply ev_else_ok, ok_seq. eapply ok_then0; [apply ok_escape|].
    apply orb_prop in Hc as [Hc|Hc]; apply N.eqb_eq in Hc; subst c.
    - apply ev_else_ok. eapply ok_pos; [apply (ok_quote Atomic)|lia].
    - apply ev_else_err; [apply er_quote; reflexivity|]. eapply ok_pos; [apply ok_escape|lia].
  Qed.
  Lemma item_end : forall p w st, fails string_item Atomic false (mkPs p (34%N :: w) st).
  Proof.
    intros p w st. apply er_else.
    - apply er_seq0, er_then, er_escape. reflexivity.
    - apply er_seq0, er_then. destruct (ok_quote_quiet Atomic p w st) as [t Ht]. eapply er_not. exact Ht.
  Qed.
  Lemma string_items : forall n s p w st, length s <= n -> quotable s = true ->
    ev (ERep string_item) Atomic false (mkPs p (s ++ 34%N :: w) st) (POk (mkPs (p + length s) (34%N :: w) st) []).
  Proof.
    induction n as [|n IH]; intros s p w st L H.
    { destruct s; [|cbn in L; lia]. eapply ok_pos; [apply no_rep, item_end|cbn; lia]. }
    destruct s as [|c s]; [eapply ok_pos; [apply no_rep, item_end|cbn; lia]|]. cbn [length] in L.
    cbn [quotable] in H. destruct (c =? 92)%N eqn:E.
    - apply N.eqb_eq in E. subst c. destruct s as [|d s]; [discriminate|]. destruct ((d =? 34) || (d =? 92))%N eqn:Ed.
      + cbn [app]. apply (ok_rep U string_item Atomic false _ (mkPs (p + 2) (s ++ 34%N :: w) st) [] _ []); [apply item_escape; exact Ed|].
        eapply ok_pos; [apply IH; [cbn in L; lia|exact H]|lens].
      + apply (ok_rep U string_item Atomic false _ (mkPs (p + 1) ((d :: s) ++ 34%N :: w) st) [] _ []).
        { apply item_plain; [reflexivity|]. right. cbn [app head_is]. exact Ed. }
        eapply ok_pos; [apply IH; [cbn in *; lia|exact H]|lens].
    - apply andb_prop in H as [Hc Hs]. apply negb_true_iff in Hc.
      apply (ok_rep U string_item Atomic false _ (mkPs (p + 1) (s ++ 34%N :: w) st) [] _ []).
      { apply item_plain; [exact Hc|left; exact E]. }
      eapply ok_pos; [apply IH; [lia|exact Hs]|lens].
  Qed.

  Lemma ok_StringNormal : forall k s p w st, quotable s = true ->
    ev (ECall R_StringNormal) k false (mkPs p (quoted s ++ w) st)
       (POk (mkPs (p + length (quoted s)) w st) (node_of R_StringNormal k p (quoted s) [])).
  Proof.
    intros k s p w st H. apply ev_call. cbn [grammar]. apply ok_rule, ev_atomic, ok_seq.
    unfold quoted. cbn [app]. rewrite <- app_assoc. cbn [app].
    eapply ok_then0; [eapply ok_then0; [apply (ok_quote Atomic)|apply (string_items (length s)); [lia|exact H]]|].
    eapply ok_pos; [apply (ok_quote Atomic)|lens].
  Qed.
  Lemma quotable_head : forall s, quotable s = true -> head_is (N.eqb 34) s = false.
  Proof.
    intros [|c s] H; [reflexivity|]. cbn [head_is]. apply N.eqb_neq. intros <-. discriminate.
  Qed.
  Lemma er_Block : forall k s p w st, quotable s = true -> head_is (N.eqb 34) w = false ->
    fails (ERestore (ECall R_StringBlock)) k false (mkPs p (quoted s ++ w) st).
  Proof.
    intros k s p w st H Hw. apply er_restore, er_call, er_atomic, er_rule, er_seq0. do 6 apply er_then.
    pose proof (quotable_head s H) as Hh. unfold quoted. cbn [app]. rewrite <- app_assoc.
    destruct s as [|c s].
    - eapply er_seq2; [|apply er_quote; exact Hw|].
      + eapply ok_then; apply ok_quote.
      + reflexivity.
    - eapply er_seq.
      + apply ev_then_err. eapply er_then2; [apply ok_quote|]. apply er_quote. exact Hh.
      + reflexivity.
  Qed.
  (** what may stand in a string literal, with or without a name before it *)
  Definition body : pexp rule := EElse (ERestore (ECall R_StringBlock)) (ECall R_StringNormal).
  Definition body_means (x s : str) : Prop :=
    head_is (N.eqb 34) x = true /\
    forall p w st, head_is (N.eqb 34) w = false -> exists B,
      ev body CompoundAtomic false (mkPs p (x ++ w) st) (POk (mkPs (p + length x) w st) [B]) /\
      forall s0, parse_string_loop [B] s0 = Ret (Str s).
  Lemma body_quoted : forall s, quotable s = true -> body_means (quoted s) s.
  Proof.
    intros s H. split; [reflexivity|]. intros p w st Hw. eexists. split.
    - apply ev_else_err; [apply er_Block; assumption|]. apply (ok_StringNormal CompoundAtomic); exact H.
    - intro s0. cbn [node_of emits parse_string_loop t_rule t_text].
      assert (E : unquote (34%N :: s ++ [34%N]) = Ret (removelast (s ++ [34%N]))) by (destruct s; reflexivity).
      change (obind (unquote (34%N :: s ++ [34%N])) (fun s' => Ret (Str s')) = Ret (Str s)). rewrite E, removelast_last. reflexivity.
  Qed.
  Definition handle (h : str) : Prop := h = [] \/ word U h = true.
  Lemma ok_String : forall k h x s p w st, handle h -> body_means x s -> head_is (N.eqb 34) w = false -> exists T,
    ev (ERestore (ECall R_String)) k false (mkPs p ((h ++ x) ++ w) st) (POk (mkPs (p + length (h ++ x)) w st) [T]) /\
    t_rule T = R_String /\ parse_string T = Ret (Str s).
  Proof.
    intros k h x s p w st Hh [Hx H] Hw. destruct (H (p + length h) w st Hw) as (B & E & M).
    assert (Q : head_is (N.eqb 34) (x ++ w) = true) by (destruct x; [discriminate|exact Hx]).
    destruct (x ++ w) as [|c v] eqn:Ex; [discriminate|]. cbn [head_is] in Q. apply N.eqb_eq in Q. subst c.
    assert (X : exists t, ev (EOpt (ECall R_SYMBOL)) CompoundAtomic false (mkPs p ((h ++ x) ++ w) st) (POk (mkPs (p + length h) (34%N :: v) st) t) /\
      forall l s0, parse_string_loop (t ++ l) s0 = parse_string_loop l s0).
    { rewrite <- app_assoc, Ex. destruct Hh as [->|Hh].
      - exists []. cbn [app length]. rewrite Nat.add_0_r. split; [apply no_opt, er_SYMBOL; reflexivity|reflexivity].
      - eexists. split; [apply ok_opt, ok_SYMBOL; [exact Hh|reflexivity]|]. reflexivity. }
    destruct X as (t & Et & Pt). eexists. split; [|split].
    - apply ok_restore, ev_call. cbn [grammar]. apply ev_atomic. apply (ok_rule U R_String _ CompoundAtomic p (h ++ x) w st st).
      apply ok_seq. eapply ok_then; [exact Et|]. eapply ok_pos; [exact E|lens].
    - reflexivity.
    - unfold parse_string. cbn [t_inner]. rewrite Pt. apply M.
  Qed.

  Lemma data_before_string : forall p w st, head_is (fun c => (c =? 34))%N w = true ->
    fails (EElse (EElse (EElse (EElse (EElse (ERestore (ECall R_dict)) (ERestore (ECall R_list))) (ECall R_Special)) (ECall R_REPL)) (ECall R_Slot)) (ECall R_Number))
      CompoundAtomic false (mkPs p w st).
  Proof.
    intros p [|c w] st H; [discriminate|]. cbn [head_is] in H. apply N.eqb_eq in H. subst c.
    apply er_else; [apply er_else; [apply er_else; [apply er_else; [apply er_else|]|]|]|].
    - apply er_dict. reflexivity.
    - apply er_list. reflexivity.
    - apply er_Special. reflexivity.
    - apply er_REPL. reflexivity.
    - apply er_Slot. reflexivity.
    - apply er_Number. reflexivity.
  Qed.

  Lemma nstop_no_quote : forall w, nstop w = true -> head_is (N.eqb 34) w = false.
  Proof.
    intros w H. apply nstop_cling in H. destruct w as [|c w]; [reflexivity|]. cbn [head_is] in *. apply orb_false_iff in H as [H _].
    rewrite N.eqb_sym. exact H.
  Qed.

  Lemma data_before_word : forall p h w st, word U h = true -> no_special (h ++ w) = true ->
    fails (EElse (EElse (EElse (EElse (EElse (ERestore (ECall R_dict)) (ERestore (ECall R_list))) (ECall R_Special)) (ECall R_REPL)) (ECall R_Slot)) (ECall R_Number))
      CompoundAtomic false (mkPs p (h ++ w) st).
  Proof.
    intros p h w st Hh Hs. pose proof (word_word_head U h w Hh) as H. destruct (h ++ w) as [|c v]; [discriminate|]. cbn [head_is] in H.
    destruct (word_head_not U HU c H) as (A & B & C & D & E).
    apply er_else; [apply er_else; [apply er_else; [apply er_else; [apply er_else|]|]|]|].
    - apply er_dict. cbn [head_is]. apply N.eqb_neq. congruence.
    - apply er_list. cbn [head_is]. apply N.eqb_neq. congruence.
    - apply er_Special. exact Hs.
    - apply er_REPL. exact E.
    - apply er_Slot. cbn [head_is]. apply N.eqb_neq. congruence.
    - apply er_Number. cbn [head_is]. apply (word_head_not_digit U). exact H.
  Qed.
  Lemma node_string : forall h x s, h = [] \/ word U h = true /\ (forall w, no_special (h ++ 34%N :: w) = true) -> body_means x s ->
    forall S, (forall w, S w = true -> head_is (N.eqb 34) w = false) -> node_in U S (h ++ x) (Ret (Str s)).
  Proof.
    intros h x s Hh Hx S HS.
    assert (Hh' : handle h) by (destruct Hh as [->|[Hh _]]; [left; reflexivity|right; exact Hh]).
    assert (HX : forall w, exists v, x ++ w = 34%N :: v).
    { intro w. destruct Hx as [Hx _]. destruct x as [|c x]; [discriminate|]. cbn [head_is] in Hx. apply N.eqb_eq in Hx. subst c. eexists. reflexivity. }
    apply node_data.
    - intros p w st Hw. destruct (HX w) as [v Ev]. rewrite <- app_assoc, Ev. destruct Hh as [->|[Hh Hs]].
      + cbn [app]. split; [reflexivity|]. split; [apply er_apply_call_head; reflexivity|]. split; [apply er_derivative_head; reflexivity|].
        apply er_space_call_head; reflexivity.
      + assert (P : is_path U h) by (exists h, []; cbn [path_tail]; rewrite app_nil_r; auto). split; [|split; [|split]].
        * pose proof (path_head U h (34%N :: v) P) as H. destruct (h ++ 34%N :: v) as [|c u]; [reflexivity|]. cbn [head_is] in *.
          apply N.eqb_neq. intros <-. discriminate.
        * apply er_apply_call_bare; [exact P|reflexivity|reflexivity].
        * apply er_derivative_bare; [exact P|reflexivity|reflexivity].
        * apply er_space_call_bare; [exact P|reflexivity|reflexivity].
    - intros p w st Hw. destruct (ok_String CompoundAtomic h x s p w st Hh' Hx (HS w Hw)) as (T & HT & HR & HM). eexists. split; [|split].
      + apply ev_call. cbn [grammar]. apply ev_atomic. apply (ok_rule U R_data _ CompoundAtomic p (h ++ x) w st st).
        apply ev_else_ok. apply ev_else_err; [|exact HT]. destruct (HX w) as [v Ev]. rewrite <- app_assoc, Ev.
        destruct Hh as [->|[Hh Hs]]; [apply data_before_string; reflexivity|]. apply data_before_word; [exact Hh|apply Hs].
      + reflexivity.
      + intros f i. unfold parse_data. cbn [node_of emits t_inner]. rewrite HR, HM. cbn. reflexivity.
  Qed.

  (** ** Block strings *)
  Notation triple := [34%N; 34%N; 34%N].
  Lemma three : forall k p w st, exists t, ev (ESeq (EThen (EThen (ECall R_Quotation) (ECall R_Quotation)) (ECall R_Quotation))) k false
      (mkPs p (triple ++ w) st) (POk (mkPs (p + 3) w st) t) /\ (forall l s, parse_string_block (t ++ l) s = parse_string_block l s) /\ (k = Atomic -> t = []).
  Proof.
    intros k p w st. eexists. split; [|split].
    - apply ok_seq. eapply ok_then; [eapply ok_then; apply ok_quote|]. eapply ok_pos; [apply ok_quote|lia].
    - intros l s. destruct k; reflexivity.
    - intros ->. reflexivity.
  Qed.
  Lemma three_quiet : forall k p w st, exists t, ev (ESeq (EThen (EThen (ECall R_Quotation) (ECall R_Quotation)) (ECall R_Quotation))) k true
      (mkPs p (triple ++ w) st) (POk (mkPs (p + 3) w st) t).
  Proof.
    intros k p w st. destruct (ok_quote_quiet k p (34 :: 34 :: w)%N st) as [t1 H1]. destruct (ok_quote_quiet k (p + 1) (34 :: w)%N st) as [t2 H2].
    destruct (ok_quote_quiet k (p + 1 + 1) w st) as [t3 H3]. eexists. apply ok_seq. eapply ok_then; [eapply ok_then; [exact H1|exact H2]|].
    eapply ok_pos; [exact H3|lia].
  Qed.
  Lemma er_three : forall k p w st, strip_prefix triple w = None -> fails (ESeq (EThen (EThen (ECall R_Quotation) (ECall R_Quotation)) (ECall R_Quotation))) k true (mkPs p w st).
  Proof.
    intros k p w st H. destruct (head_is (N.eqb 34) w) eqn:E1; [|apply er_seq0; do 2 apply er_then; apply er_quote; exact E1].
    destruct w as [|c1 w1]; [discriminate|]. cbn [head_is] in E1. apply N.eqb_eq in E1. subst c1.
    destruct (ok_quote_quiet k p w1 st) as [t1 H1]. destruct (head_is (N.eqb 34) w1) eqn:E2.
    - destruct w1 as [|c2 w2]; [discriminate|]. cbn [head_is] in E2. apply N.eqb_eq in E2. subst c2.
      destruct (ok_quote_quiet k (p + 1) w2 st) as [t2 H2]. eapply er_seq2; [eapply ok_then; [exact H1|exact H2]| |reflexivity].
      apply er_quote. destruct w2 as [|c3 w3]; [reflexivity|]. cbn [head_is]. apply N.eqb_neq. intros <-. discriminate.
    - eapply er_seq; [apply ev_then_err; eapply er_then2; [exact H1|apply er_quote; exact E2]|reflexivity].
  Qed.
  Definition block_end : pexp rule := ESeq (EThen (ESeq (EThen (EThen (ECall R_Quotation) (ECall R_Quotation)) (ECall R_Quotation))) (ECall R_PEEK)).
  Definition block_char : pexp rule := ESeq (EThen (ENot block_end) (ECall R_ANY)).
  Lemma strip_app : forall a b w, strip_prefix (a ++ b) w = match strip_prefix a w with Some v => strip_prefix b v | None => None end.
  Proof. induction a as [|c a IH]; intros b w; [reflexivity|]. destruct w as [|d w]; [reflexivity|]. cbn [app strip_prefix]. destruct (c =? d)%N; [apply IH|reflexivity]. Qed.
  Lemma fence_split : forall n, fence n = triple ++ repeat 34%N n.
  Proof. reflexivity. Qed.
  Lemma fence_split' : forall n, fence n = repeat 34%N n ++ triple.
  Proof. intro n. change triple with (repeat 34%N 3). rewrite <- repeat_app. unfold fence. f_equal. lia. Qed.
  Section Fence.
    Variable n : nat.
    Notation inner := (repeat 34%N n).
    Lemma block_one : forall p c w st, strip_prefix (fence n) (c :: w) = None ->
      ev block_char Atomic false (mkPs p (c :: w) (inner :: st)) (POk (mkPs (p + 1) w (inner :: st)) []).
    Proof.
      intros p c w st H. apply ok_seq.
      cut (ev (ENot block_end) Atomic false (mkPs p (c :: w) (inner :: st)) (POk (mkPs p (c :: w) (inner :: st)) [])).
      { intro X. eapply ok_then0; [exact X|apply ev_call, ev_any]. }
      rewrite fence_split, strip_app in H. destruct (strip_prefix triple (c :: w)) as [v|] eqn:E.
      - apply strip_prefix_app in E. rewrite E. destruct (three_quiet Atomic p v (inner :: st)) as [t Ht].
        eapply ok_not. eapply er_seq2; [exact Ht| |reflexivity]. apply er_call. split; [discriminate|]. exists 1. cbn [Peg.run grammar rest stk]. rewrite H. reflexivity.
      - eapply ok_not. apply er_seq0, er_then, er_three. exact E.
    Qed.
    Lemma block_none : forall p w st, fails block_char Atomic false (mkPs p (fence n ++ w) (inner :: st)).
    Proof.
      intros p w st. apply er_seq0, er_then. rewrite fence_split, <- app_assoc.
      destruct (three_quiet Atomic p (inner ++ w) (inner :: st)) as [t Ht]. eapply er_not. apply ok_seq.
      eapply ok_then; [exact Ht|]. apply ev_call. apply (ev_peek U grammar skip_body _ _ _ inner w (inner :: st) st). reflexivity.
    Qed.
    Lemma strip_longer : forall k a b, length k <= length a -> strip_prefix k a = None -> strip_prefix k (a ++ b) = None.
    Proof.
      induction k as [|c k IH]; intros a b L H; [discriminate|]. destruct a as [|d a]; [cbn in L; lia|]. cbn [app strip_prefix length] in *.
      destruct (c =? d)%N; [|reflexivity]. apply IH; [lia|exact H].
    Qed.
    Lemma fence_pad : forall s w, contains (fence n) (s ++ repeat 34%N (2 + n)) = false -> s <> [] -> strip_prefix (fence n) (s ++ fence n ++ w) = None.
    Proof.
      intros s w H N. assert (E : s ++ fence n ++ w = (s ++ repeat 34%N (2 + n)) ++ 34%N :: w).
      { unfold fence. change (34%N :: w) with (repeat 34%N 1 ++ w). replace (3 + n) with ((2 + n) + 1) by lia. rewrite repeat_app, <- !app_assoc. reflexivity. }
      rewrite E. apply strip_longer.
      - rewrite app_length. unfold fence. rewrite !repeat_length. destruct s; [congruence|]. cbn [length]. lia.
      - destruct (s ++ repeat 34%N (2 + n)) as [|c v]; [reflexivity|]. cbn [contains] in H. destruct (strip_prefix (fence n) (c :: v)); [discriminate|reflexivity].
    Qed.
    Lemma contains_tail : forall k c s, contains k (c :: s) = false -> contains k s = false.
    Proof. intros k c s H. cbn [contains] in H. destruct (strip_prefix k (c :: s)); [discriminate|]. exact H. Qed.
    Lemma block_chars : forall s p w st, contains (fence n) (s ++ repeat 34%N (2 + n)) = false ->
      ev (ERep block_char) Atomic false (mkPs p (s ++ fence n ++ w) (inner :: st)) (POk (mkPs (p + length s) (fence n ++ w) (inner :: st)) []).
    Proof.
      induction s as [|c s IH]; intros p w st H.
      - eapply ok_pos; [apply no_rep, block_none|cbn; lia].
      - apply (ok_rep U block_char Atomic false _ (mkPs (p + 1) (s ++ fence n ++ w) (inner :: st)) [] _ []).
        + apply block_one. apply (fence_pad (c :: s)); [exact H|discriminate].
        + eapply ok_pos; [apply IH; eapply contains_tail; exact H|lens].
    Qed.
    Lemma ok_text : forall s p w st, s <> [] -> contains (fence n) (s ++ repeat 34%N (2 + n)) = false ->
      ev (ECall R_StringText) CompoundAtomic false (mkPs p (s ++ fence n ++ w) (inner :: st))
         (POk (mkPs (p + length s) (fence n ++ w) (inner :: st)) [Node R_StringText p (p + length s) s []]).
    Proof.
      intros s p w st N H. apply ev_call. cbn [grammar]. apply (ok_rule U R_StringText _ CompoundAtomic p s (fence n ++ w) (inner :: st) (inner :: st)).
      apply ev_atomic, ok_seq. destruct s as [|c s]; [congruence|]. eapply ok_then0.
      - apply block_one. apply (fence_pad (c :: s)); [exact H|discriminate].
      - eapply ok_pos; [apply block_chars; eapply contains_tail; exact H|lens].
    Qed.
    Lemma ok_inner : forall m p w st, head_is (N.eqb 34) w = false -> exists t,
      ev (ERep (ECall R_Quotation)) CompoundAtomic false (mkPs p (repeat 34%N m ++ w) st) (POk (mkPs (p + m) w st) t) /\
      forall l s, parse_string_block (t ++ l) s = parse_string_block l s.
    Proof.
      induction m as [|m IH]; intros p w st H.
      - exists []. split; [|reflexivity]. rewrite Nat.add_0_r. apply no_rep, er_quote. exact H.
      - destruct (IH (p + 1) w st H) as (t & E & P). exists (node_of R_Quotation CompoundAtomic p [34%N] [] ++ t). split; [|exact P].
        cbn [repeat app]. eapply ok_rep; [apply ok_quote|]. eapply ok_pos; [exact E|lia].
    Qed.
    Lemma body_fenced : forall s, fenceable n s = true -> body_means (fenced n s) s.
    Proof.
      intros s F. split; [reflexivity|]. intros p w st _. unfold fenceable in F. apply andb_prop in F as [Hh H]. apply negb_true_iff in H.
      assert (N : s <> []) by (destruct s; discriminate).
      destruct (three CompoundAtomic p (inner ++ s ++ fence n ++ w) st) as (t1 & H1 & P1 & _).
      assert (Hh' : head_is (N.eqb 34) (s ++ fence n ++ w) = false) by (destruct s as [|c s]; [congruence|]; cbn [app head_is]; rewrite N.eqb_sym; apply negb_true_iff; exact Hh).
      destruct (ok_inner n (p + 3) (s ++ fence n ++ w) st Hh') as (t2 & H2 & P2).
      pose proof (ev_push U grammar skip_body (ERep (ECall R_Quotation)) CompoundAtomic false _ _ H2) as X.
      assert (C : consumed (inner ++ s ++ fence n ++ w) (s ++ fence n ++ w) = inner) by apply consumed_app.
      cbn [push_res rest pos stk] in X. rewrite C in X.
      eexists. split.
      - apply ev_else_ok, ok_restore, ev_call. cbn [grammar]. apply ev_atomic. apply (ok_rule U R_StringBlock _ CompoundAtomic p (fenced n s) w st st).
        apply ok_seq. unfold fenced. rewrite <- !app_assoc. rewrite (fence_split n) at 1. rewrite <- app_assoc.
        eapply ok_then; [eapply ok_then; [eapply ok_then; [eapply ok_then1; [eapply ok_then; [eapply ok_then; [exact H1|]|]|]|]|]|].
        + exact X.
        + apply ok_text; assumption.
        + rewrite fence_split', <- app_assoc. apply ev_call. exact (ev_pop U grammar skip_body CompoundAtomic false _ inner (triple ++ w) st).
        + cbn. apply ok_quote.
        + apply ok_quote.
        + eapply ok_pos; [apply ok_quote|unfold fenced, fence; rewrite ?app_length, ?repeat_length; cbn [length]; unfold str, char in *; lia].
      - intro s0. cbn [node_of emits parse_string_loop t_rule t_inner]. rewrite <- ?app_assoc. rewrite P1, P2. reflexivity.
    Qed.
  End Fence.
End Quoted.
