(** Terms: prefix operators, an operand, suffix operators and slices. *)
From Verif Require Import Base Ast Display SmError Peg Grammar Climber Build SpecAst SpecPeg SpecSyntax.
From Verif Require Import ProofAst ProofDisplay ProofPeg ProofPegShift ProofSym ProofGrammar ProofBuild ProofPos ProofSpace ProofLex ProofToken ProofNode ProofAtom.
Local Open Scope nat_scope.
Local Open Scope outcome_scope.

Section Term.
  Variable U : unicode.
  Notation ev := (ev U grammar skip_body).
  Notation fails := (fails U).
  Notation nstop := (nstop U).

  (** what may follow a term *)
  Definition tstop (w : str) : bool :=
    nstop w && negb (head_is (fun c => (c =? 33) || (c =? 63) || (c =? 39))%N w) && negb (head_is (N.eqb 91) (drop_inline w)).
  Lemma tstop_nstop : forall w, tstop w = true -> nstop w = true.
  Proof. intros w H. unfold tstop in H. do 2 apply andb_prop in H as [H _]. exact H. Qed.

  Lemma tstop_signs : forall w, tstop w = true -> head_is (fun c => (c =? 33) || (c =? 63) || (c =? 39))%N w = false.
  Proof. intros w H. unfold tstop in H. apply andb_prop in H as [H _]. apply andb_prop in H as [_ H]. apply negb_true_iff. exact H. Qed.

  (** no suffix follows *)
  Definition pstop (w : str) : bool :=
    negb (head_is (fun c => (c =? 33) || (c =? 63) || (c =? 39))%N w) && negb (head_is (N.eqb 91) (drop_inline w)).
  Lemma tstop_pstop : forall w, tstop w = true -> pstop w = true.
  Proof. intros w H. unfold tstop in H. rewrite <- andb_assoc in H. apply andb_prop in H as [_ H]. exact H. Qed.
  Lemma pstop_signs : forall w, pstop w = true -> head_is (fun c => (c =? 33) || (c =? 63) || (c =? 39))%N w = false.
  Proof. intros w H. apply andb_prop in H as [H _]. apply negb_true_iff. exact H. Qed.

  Definition term_in (S : str -> bool) (x : str) (o : outcome ast) : Prop :=
    forall k p w st, S w = true -> exists T,
      ev (ECall R_term) k false (mkPs p (x ++ w) st) (POk (mkPs (p + length x) w st) [T]) /\
      t_rule T = R_term /\ t_text T = x /\ forall f i, orel sim (parse_term f i (parse_expr f i) T) o.
  Definition term_means : str -> outcome ast -> Prop := term_in tstop.

  (** ** Prefixes *)
  Lemma ok_Prefix : forall p c w st, prefix_char c = true ->
    ev (ECall R_Prefix) CompoundAtomic false (mkPs p (c :: w) st) (POk (mkPs (p + 1) w st) [Node R_Prefix p (p + 1) [c] []]).
  Proof.
    intros p c w st H. apply ev_call. cbn [grammar]. apply (ok_rule U R_Prefix _ CompoundAtomic p [c] w st st). apply ev_atomic.
    assert (X : forall r d, grammar r = ERule r (EAtomic Atomic (EStr [d])) ->
      ev (ECall r) Atomic false (mkPs p (d :: w) st) (POk (mkPs (p + 1) w st) []) /\
      forall e, d <> e -> fails (ECall r) Atomic false (mkPs p (e :: w) st)).
    { intros r d E. split.
      - apply ev_call. rewrite E. apply (ok_rule U r _ Atomic p [d] w st st). apply ev_atomic. apply (ev_str U grammar skip_body [d]).
      - intros e N. apply er_call. rewrite E. apply er_rule, er_atomic, er_str. apply strip_head. exact N. }
    destruct (X R_Bang 33%N eq_refl) as [B1 B2]. destruct (X R_Not 172%N eq_refl) as [N1 N2]. destruct (X R_Plus 43%N eq_refl) as [P1 P2].
    destruct (X R_Minus 45%N eq_refl) as [M1 M2]. destruct (X R_Star 42%N eq_refl) as [S1 S2].
    unfold prefix_char in H. repeat (apply orb_prop in H as [H|H]); apply N.eqb_eq in H; subst c.
    - do 4 apply ev_else_ok. exact B1.
    - do 3 apply ev_else_ok. apply ev_else_err; [apply B2; discriminate|exact N1].
    - do 2 apply ev_else_ok. apply ev_else_err; [apply er_else; [apply B2|apply N2]; discriminate|exact P1].
    - apply ev_else_ok. apply ev_else_err; [apply er_else; [apply er_else; [apply B2|apply N2]|apply P2]; discriminate|exact M1].
    - apply ev_else_err; [apply er_else; [apply er_else; [apply er_else; [apply B2|apply N2]|apply P2]|apply M2]; discriminate|exact S1].
  Qed.
  Lemma er_Prefix : forall k q p w st, head_is prefix_char w = false -> fails (ECall R_Prefix) k q (mkPs p w st).
  Proof.
    intros k q p w st H. apply er_call, er_rule, er_atomic. repeat apply er_else; apply er_call, er_rule, er_atomic, er_str;
      (destruct w as [|c w]; [reflexivity|]; apply strip_head; intros <-; discriminate H).
  Qed.

  (** the prefix operators around an operand, the first one outermost *)
  Fixpoint prefixed (cs : str) (b : ast) : outcome ast :=
    match cs with
    | [] => Ret b
    | c :: cs' => a <- prefixed cs' b; s <- prefix_map [c]; Ret (Function s [plain_param [a] default_position])
    end.
  Lemma apply_prefixes_snoc : forall l a q b,
    apply_prefixes (l ++ [(a, q)]) b = (x <- apply_prefixes l b; s <- prefix_map a; Ret (Function s [plain_param [x] q])).
  Proof.
    induction l as [|[a' q'] l IH]; intros a q b; cbn [app apply_prefixes]; [reflexivity|].
    destruct (prefix_map a'); cbn [obind]; [apply IH|reflexivity|reflexivity].
  Qed.
  Lemma prefixed_sim : forall cs qs b b', map fst qs = map (fun c => [c]) cs -> sim b b' ->
    orel sim (apply_prefixes (rev qs) b) (prefixed cs b').
  Proof.
    induction cs as [|c cs IH]; intros [|[a q] qs] b b' E H; try discriminate; [exact H|].
    cbn in E. injection E as -> E. cbn [rev prefixed]. rewrite apply_prefixes_snoc.
    eapply orel_bind; [apply IH; [exact E|exact H]|]. intros x y Hxy.
    eapply orel_bind; [apply (orel_refl _ eq); reflexivity|]. intros s t <-. cbn [orel]. apply sim_call. constructor; [exact Hxy|constructor].
  Qed.
  Lemma ok_prefixes : forall cs p w st, forallb prefix_char cs = true -> head_is prefix_char w = false -> exists ts,
    ev (ERep (ECall R_Prefix)) CompoundAtomic false (mkPs p (cs ++ w) st) (POk (mkPs (p + length cs) w st) ts) /\
    forall f i, exists qs, map fst qs = map (fun c => [c]) cs /\
      forall rec l b pre, parse_term_loop f i rec (ts ++ l) b pre = parse_term_loop f i rec l b (rev qs ++ pre).
  Proof.
    induction cs as [|c cs IH]; intros p w st H Hw.
    - exists []. split; [eapply ok_pos; [apply no_rep, er_Prefix; exact Hw|cbn; lia]|]. intros f i. exists []. split; [reflexivity|]. reflexivity.
    - cbn [forallb] in H. apply andb_prop in H as [Hc H]. destruct (IH (p + 1) w st H Hw) as (ts & E & M).
      exists (Node R_Prefix p (p + 1) [c] [] :: ts). split.
      + apply (ok_rep U (ECall R_Prefix) CompoundAtomic false _ (mkPs (p + 1) (cs ++ w) st) [_]).
        * apply ok_Prefix. exact Hc.
        * eapply ok_pos; [exact E|lens].
      + intros f i. destruct (M f i) as (qs & E1 & E2). eexists ((_, _) :: qs). split; [cbn; rewrite E1; reflexivity|].
        intros rec l b pre. cbn [app parse_term_loop t_rule t_text]. rewrite E2. cbn [rev]. rewrite <- app_assoc. reflexivity.
  Qed.

  (** ** Suffixes *)
  (** a factorial, a double factorial, a suffix without meaning, a slice after white space *)
  Inductive post := Fact | Fact2 | Mark (x : str) | Slice (g x : str) (o : outcome (list ast)).
  Definition slice_means (x : str) (o : outcome (list ast)) : Prop :=
    head_is (N.eqb 91) x = true /\
    forall p w st, exists T,
      ev (ECall R_slice) CompoundAtomic false (mkPs p (x ++ w) st) (POk (mkPs (p + length x) w st) [T]) /\
      t_rule T = R_slice /\ forall f i, orel (Forall2 sim) (parse_slice f i (parse_expr f i) T) o.
  Definition post_text (p : post) : str := match p with Fact => lit "!" | Fact2 => lit "!!" | Mark x => x | Slice g x _ => g ++ x end.
  Fixpoint posts_text (l : list post) : str := match l with [] => [] | p :: l' => post_text p ++ posts_text l' end.
  Fixpoint posts_ok (l : list post) : Prop :=
    match l with
    | [] => True
    | Fact :: l' => head_is (N.eqb 33) (posts_text l') = false /\ posts_ok l'
    | Fact2 :: l' => posts_ok l'
    | Mark x :: l' => (x = lit "?" \/ (exists n, x = repeat 39%N (S n)) /\ head_is (N.eqb 39) (posts_text l') = false) /\ posts_ok l'
    | Slice g x o :: l' => inline g = true /\ slice_means x o /\ posts_ok l'
    end.
  Fixpoint posted (l : list post) (b : ast) : outcome ast :=
    match l with
    | [] => Ret b
    | Slice _ _ o :: l' => new <- o; posted l' (Function (symbol_from (lit "std::core::Index")) [plain_param (b :: new) default_position])
    | Mark _ :: l' => Panic PUnreachable
    | p :: l' => s <- suffix_map (post_text p); posted l' (Function s [plain_param [b] default_position])
    end.

  Definition post_item : pexp rule := EElse (ECall R_Suffix) (ERestore (ESeq (EThen inline_rep (ECall R_slice)))).
  Lemma er_Suffix : forall k q p w st, head_is (fun c => (c =? 39) || (c =? 33) || (c =? 63))%N w = false -> fails (ECall R_Suffix) k q (mkPs p w st).
  Proof.
    intros k q p w st H. apply er_call, er_rule, er_atomic. repeat apply er_else; apply er_call, er_rule, er_atomic.
    1: apply er_seq0, er_then. all: apply er_str; (destruct w as [|c w]; [reflexivity|]; apply strip_head; intros <-; discriminate H).
  Qed.
  Lemma ok_Fact2 : forall p w st, ev (ECall R_Suffix) CompoundAtomic false (mkPs p (lit "!!" ++ w) st)
    (POk (mkPs (p + 2) w st) [Node R_Suffix p (p + 2) (lit "!!") []]).
  Proof.
    intros p w st. apply ev_call. cbn [grammar]. apply (ok_rule U R_Suffix _ CompoundAtomic p (lit "!!") w st st). apply ev_atomic.
    do 2 apply ev_else_ok. apply ev_else_err.
    - apply er_call, er_rule, er_atomic, er_seq0, er_then, er_str. reflexivity.
    - apply ev_call. apply (ok_rule U R_DoubleBang _ Atomic p (lit "!!") w st st). apply ev_atomic. apply ev_str.
  Qed.
  Lemma ok_Fact : forall p w st, head_is (N.eqb 33) w = false -> ev (ECall R_Suffix) CompoundAtomic false (mkPs p (lit "!" ++ w) st)
    (POk (mkPs (p + 1) w st) [Node R_Suffix p (p + 1) (lit "!") []]).
  Proof.
    intros p w st H. apply ev_call. cbn [grammar]. apply (ok_rule U R_Suffix _ CompoundAtomic p (lit "!") w st st). apply ev_atomic.
    apply ev_else_ok. apply ev_else_err; [apply er_else|].
    - apply er_call, er_rule, er_atomic, er_seq0, er_then, er_str. reflexivity.
    - apply er_call, er_rule, er_atomic, er_str. destruct w as [|c w]; [reflexivity|]. change (strip_prefix [33%N] (c :: w) = None).
      apply strip_head. intros <-. discriminate H.
    - apply ev_call. apply (ok_rule U R_Bang _ Atomic p (lit "!") w st st). apply ev_atomic. apply ev_str.
  Qed.
  Lemma er_slice : forall k q p w st, head_is (N.eqb 91) w = false -> fails (ECall R_slice) k q (mkPs p w st).
  Proof.
    intros k q p w st H. apply er_call, er_atomic, er_rule, er_seq0. repeat apply er_then. apply er_str.
    destruct w as [|c w]; [reflexivity|]. apply strip_head. intros <-. discriminate H.
  Qed.
  Lemma er_post : forall p w st, pstop w = true -> fails post_item CompoundAtomic false (mkPs p w st).
  Proof.
    intros p w st H. apply er_else.
    - apply er_Suffix. apply pstop_signs in H. destruct w as [|c w]; [reflexivity|]. cbn [head_is] in *.
      apply orb_false_iff in H as [H H3]. apply orb_false_iff in H as [H1 H2]. rewrite H1, H2, H3. reflexivity.
    - apply er_restore. apply andb_prop in H as [_ H]. apply negb_true_iff in H.
      destruct (inline_rep_any U CompoundAtomic false p w st) as [p' Hp]. eapply er_seq2; [exact Hp| |reflexivity]. apply er_slice. exact H.
  Qed.
  Lemma inline_bracket : forall c w, inline_space c = false -> drop_inline (c :: w) = c :: w.
  Proof. intros c w H. cbn. rewrite H. reflexivity. Qed.
  Lemma ok_Mark : forall x p w st, x = lit "?" \/ (exists n, x = repeat 39%N (S n)) /\ head_is (N.eqb 39) w = false ->
    ev (ECall R_Suffix) CompoundAtomic false (mkPs p (x ++ w) st) (POk (mkPs (p + length x) w st) [Node R_Suffix p (p + length x) x []]).
  Proof.
    intros x p w st H. apply ev_call. cbn [grammar]. apply (ok_rule U R_Suffix _ CompoundAtomic p x w st st). apply ev_atomic.
    destruct H as [->|[[n ->] H]].
    - apply ev_else_err; [repeat apply er_else|].
      + apply er_call, er_rule, er_atomic, er_seq0, er_then, er_str. reflexivity.
      + apply er_call, er_rule, er_atomic, er_str. reflexivity.
      + apply er_call, er_rule, er_atomic, er_str. reflexivity.
      + apply ev_call. apply (ok_rule U R_Question _ Atomic p (lit "?") w st st). apply ev_atomic. apply ev_str.
    - do 3 apply ev_else_ok. rewrite repeat_length. apply (ok_Derivative U Atomic n p w st H).
  Qed.
  Lemma drop_inline_app : forall g w, inline g = true -> drop_inline (g ++ w) = drop_inline w.
  Proof. induction g as [|c g IH]; intros w H; [reflexivity|]. cbn [forallb inline] in H. apply andb_prop in H as [Hc H]. cbn [app drop_inline]. rewrite Hc. apply IH. exact H. Qed.
  Lemma primes_head : forall n (w : str), exists v, repeat 39%N (S n) ++ w = 39%N :: v.
  Proof. intros n w. eexists. reflexivity. Qed.
  (** no argument list follows *)
  Lemma posts_no_call : forall l w, posts_ok l -> l <> [] -> called (posts_text l ++ w) = false.
  Proof.
    unfold called. intros [|[| |x|g x o] l] w H N; cbn [posts_text post_text app]; [congruence| | | |].
    - reflexivity.
    - reflexivity.
    - destruct H as [[->|[[n ->] _]] _]; reflexivity.
    - destruct H as (Hg & [Hx _] & _). rewrite <- !app_assoc, drop_inline_app by exact Hg. destruct x as [|c x]; [discriminate|]. cbn [head_is] in Hx. apply N.eqb_eq in Hx. subst c. reflexivity.
  Qed.
  (** the next of them *)
  Definition no_signs (w : str) : bool := negb (head_is (fun c => (c =? 33) || (c =? 63) || (c =? 39))%N w).
  Lemma ok_post : forall a l p w st, posts_ok (a :: l) -> no_signs w = true -> exists T,
    ev post_item CompoundAtomic false (mkPs p (post_text a ++ posts_text l ++ w) st) (POk (mkPs (p + length (post_text a)) (posts_text l ++ w) st) [T]) /\
    match a with
    | Slice _ x o => t_rule T = R_slice /\ forall f i, orel (Forall2 sim) (parse_slice f i (parse_expr f i) T) o
    | Mark x => t_rule T = R_Suffix /\ suffix_map (t_text T) = Panic PUnreachable
    | _ => t_rule T = R_Suffix /\ t_text T = post_text a
    end.
  Proof.
    intros a l p w st H Sw. apply negb_true_iff in Sw.
    assert (NX : forall c, (c = 33 \/ c = 39)%N -> head_is (N.eqb c) (posts_text l) = false -> head_is (N.eqb c) (posts_text l ++ w) = false).
    { intros c Hc N. destruct (posts_text l) as [|d v]; [|exact N]. cbn [app]. destruct w as [|d w]; [reflexivity|]. cbn [head_is] in *.
      apply orb_false_iff in Sw as [Sw S3]. apply orb_false_iff in Sw as [S1 S2]. rewrite N.eqb_sym. destruct Hc as [-> | ->]; assumption. }
    destruct a as [| |x|g x o]; cbn [post_text] in *.
    - eexists. split; [apply ev_else_ok, ok_Fact|split; reflexivity]. apply NX; [auto|apply H].
    - eexists. split; [apply ev_else_ok, ok_Fact2|split; reflexivity].
    - destruct H as [H _]. eexists. split; [apply ev_else_ok, ok_Mark|split; [reflexivity|]].
      + destruct H as [H|[H1 H2]]; [left; exact H|right]. split; [exact H1|]. apply NX; auto.
      + cbn [t_text]. destruct H as [->|[[n ->] _]]; reflexivity.
    - destruct H as (Hg & [Hh H] & _). destruct (H (p + length g) (posts_text l ++ w) st) as (T & E1 & E2 & E3). exists T. split; [|split; assumption].
      destruct x as [|c x]; [discriminate|]. cbn [head_is] in Hh. apply N.eqb_eq in Hh. subst c. rewrite <- app_assoc.
      apply ev_else_err.
      + apply er_Suffix. destruct g as [|d g]; [reflexivity|]. cbn [app head_is]. cbn [forallb inline] in Hg. apply andb_prop in Hg as [Hg _].
        apply andb_prop in Hg as [Hg _]. apply andb_prop in Hg as [Hg _].
        assert (N : forall e, white_space e = false -> (d =? e)%N = false) by (intros e He; apply N.eqb_neq; intros ->; congruence).
        rewrite !N by reflexivity. reflexivity.
      + apply ok_restore, ok_seq. eapply ok_then0; [apply inline_rep_ok; [exact Hg|reflexivity]|]. eapply ok_pos; [exact E1|lens].
  Qed.
  Lemma ok_posts : forall l p w st, posts_ok l -> pstop w = true -> exists ts,
    ev (ERep post_item) CompoundAtomic false (mkPs p (posts_text l ++ w) st) (POk (mkPs (p + length (posts_text l)) w st) ts) /\
    forall f i b b' pre g, sim b b' ->
      (forall x y, sim x y -> orel sim (apply_prefixes pre x) (g y)) ->
      orel sim (parse_term_loop f i (parse_expr f i) ts b pre) (x <- posted l b'; g x).
  Proof.
    induction l as [|a l IH]; intros p w st H Hw.
    - exists []. split; [eapply ok_pos; [apply no_rep, er_post; exact Hw|cbn; lia]|]. intros f i b b' pre g Hb Hg. apply Hg. exact Hb.
    - assert (Hl : posts_ok l) by (destruct a; cbn in H; tauto).
      destruct (IH (p + length (post_text a)) w st Hl Hw) as (ts & E & M). cbn [posts_text]. rewrite <- app_assoc.
      destruct (ok_post a l p w st H ltac:(unfold no_signs; rewrite (pstop_signs w Hw); reflexivity)) as (T & ET & MT). exists (T :: ts). split.
      + apply (ok_rep U post_item CompoundAtomic false _ (mkPs (p + length (post_text a)) (posts_text l ++ w) st) [T]); [exact ET|].
        eapply ok_pos; [exact E|lens].
      + intros f i b b' pre g Hb Hg. destruct a as [| |x|g0 x o]; destruct MT as [R1 R2]; cbn [parse_term_loop posted]; rewrite R1; try rewrite R2; cbn [post_text].
        * cbn [suffix_map]. eapply (M f i); [apply sim_call; constructor; [exact Hb|constructor]|exact Hg].
        * eapply (M f i); [apply sim_call; constructor; [exact Hb|constructor]|exact Hg].
        * reflexivity.
        * specialize (R2 f i). destruct (parse_slice f i (parse_expr f i) T) as [n|k|], o as [n'|k'|]; cbn [orel] in R2; try contradiction; cbn [obind].
          -- eapply (M f i); [apply sim_call; constructor; [exact Hb|exact R2]|exact Hg].
          -- exact R2.
          -- exact Logic.I.
  Qed.

  Hypothesis HU : sane U.
  Lemma strip_other : forall d l c w, (c =? d)%N = false -> strip_prefix (d :: l) (c :: w) = None.
  Proof. intros d l c w H. apply strip_head. intros ->. rewrite N.eqb_refl in H. discriminate. Qed.
  Lemma no_primes : forall c w, (c =? 39)%N = false -> primed (c :: w) = false.
  Proof. intros c w H. unfold primed. cbn [head_is]. rewrite N.eqb_sym, H. reflexivity. Qed.
  Definition last_char (x : str) : char := last x 0%N.
  Lemma last_primes : forall n, last_char (repeat 39%N (S n)) = 39%N.
  Proof. unfold last_char. induction n as [|n IH]; [reflexivity|]. exact IH. Qed.
  Lemma posts_next : forall l w, posts_ok l -> l <> [] -> no_signs w = true -> called w = false \/ last_char (posts_text l) <> 39%N ->
    nstop (posts_text l ++ w) = true.
  Proof.
    intros [|[| |x|g x o] l] w H N Hw Hc; [congruence| | | |]; cbn [posts_text post_text].
    - reflexivity.
    - reflexivity.
    - destruct H as [[->|[[n ->] H1]] H2]; [reflexivity|]. rewrite <- app_assoc.
      assert (P : primed (repeat 39%N (S n) ++ posts_text l ++ w) = false).
      { unfold primed. rewrite drop_primes_app. apply andb_false_iff. right.
        assert (Y : head_is (N.eqb 39) (posts_text l ++ w) = false).
        { destruct (posts_text l) as [|e u]; [|exact H1]. cbn [app]. apply negb_true_iff in Hw. destruct w as [|e w]; [reflexivity|]. cbn [head_is] in *.
          apply orb_false_iff in Hw as [_ Hw]. rewrite N.eqb_sym. exact Hw. }
        rewrite drop_primes_stop by exact Y. destruct l as [|a l]; [|apply (posts_no_call (a :: l)); [exact H2|discriminate]].
        destruct Hc as [Hc|Hc]; [exact Hc|]. exfalso. apply Hc. cbn [posts_text post_text]. rewrite app_nil_r. apply last_primes. }
      unfold ProofNode.nstop. unfold str, char in *. rewrite P. reflexivity.
    - destruct H as (Hg & [Hx _] & _). destruct x as [|c x]; [discriminate|]. cbn [head_is] in Hx. apply N.eqb_eq in Hx. subst c.
      destruct g as [|d g]; [reflexivity|]. rewrite <- !app_assoc. pose proof Hg as Hg'. cbn [forallb inline] in Hg. apply andb_prop in Hg as [Hd _].
      apply andb_prop in Hd as [Hd _]. apply andb_prop in Hd as [Hd _]. destruct (white_quiet U HU d Hd) as (X1 & X2 & X3 & X4 & X5 & X6 & X7 & X8 & X9).
      apply orb_false_iff in X8 as [_ X8].
      unfold ProofNode.nstop. rewrite drop_inline_app by exact Hg'. cbn [app]. rewrite no_primes by exact X8.
      unfold sym_stop, path_more. cbn [head_is dot_digit]. change (lit "::") with [58; 58]%N. rewrite !strip_other by assumption.
      rewrite X1, X5, X6. reflexivity.
  Qed.
  Lemma posts_some : forall l w, posts_ok l -> l <> [] -> pstop w = true -> called w = false \/ last_char (posts_text l) <> 39%N ->
    nstop (posts_text l ++ w) = true.
  Proof. intros l w H N Hw. apply posts_next; try assumption. unfold no_signs. rewrite (pstop_signs w Hw). reflexivity. Qed.
  (** an opening bracket of a slice *)
  Lemma posts_open : forall l g v, posts_ok l -> inline g = true -> nstop (posts_text l ++ g ++ 91%N :: v) = true.
  Proof.
    intros l g v H Hg.
    assert (Sg : forall d g', g = d :: g' -> white_space d = true).
    { intros d g' ->. unfold inline in Hg. cbn [forallb] in Hg. apply andb_prop in Hg as [Hd _]. apply andb_prop in Hd as [Hd _]. apply andb_prop in Hd as [Hd _]. exact Hd. }
    destruct l as [|a l].
    - cbn [posts_text app]. destruct g as [|d g]; [reflexivity|]. destruct (white_quiet U HU d (Sg d g eq_refl)) as (X1 & X2 & X3 & X4 & X5 & X6 & X7 & X8 & X9).
      apply orb_false_iff in X8 as [_ X8].
      unfold ProofNode.nstop. rewrite drop_inline_app by exact Hg. cbn [app]. rewrite no_primes by exact X8.
      unfold sym_stop, path_more. cbn [head_is dot_digit]. change (lit "::") with [58; 58]%N. rewrite !strip_other by assumption.
      rewrite X1, X5, X6. reflexivity.
    - apply posts_next; [exact H|discriminate| |left; unfold called; rewrite drop_inline_app by exact Hg; reflexivity].
      destruct g as [|d g]; [reflexivity|]. unfold no_signs. cbn [app head_is].
      assert (N : forall e, white_space e = false -> (d =? e)%N = false) by (intros e He; apply N.eqb_neq; intros ->; rewrite (Sg e g eq_refl) in He; discriminate).
      rewrite !N by reflexivity. reflexivity.
  Qed.
  Lemma posts_nstop : forall l w, posts_ok l -> tstop w = true -> nstop (posts_text l ++ w) = true.
  Proof.
    intros [|a l] w H Hw; [apply tstop_nstop; exact Hw|]. apply posts_some; [exact H|discriminate|apply tstop_pstop; exact Hw|].
    left. apply (nstop_called U), tstop_nstop. exact Hw.
  Qed.

  Lemma term_whole_in : forall N S cs x o l, forallb prefix_char cs = true -> node_in U N x o -> (forall w, head_is prefix_char (x ++ w) = false) ->
    posts_ok l -> (forall w, S w = true -> N (posts_text l ++ w) = true /\ pstop w = true) ->
    term_in S (cs ++ x ++ posts_text l) (b <- o; c <- posted l b; prefixed cs c).
  Proof.
    intros N S cs x o l Hc Hx Hh Hl HS k p w st Hw. destruct (HS w Hw) as [Hn Hp].
    destruct (ok_prefixes cs p (x ++ posts_text l ++ w) st Hc (Hh _)) as (ts1 & E1 & M1).
    destruct (Hx (p + length cs) (posts_text l ++ w) st Hn) as (T & E2 & R2 & M2).
    destruct (ok_posts l (p + length cs + length x) w st Hl Hp) as (ts3 & E3 & M3).
    eexists. split; [|split; [|split]].
    - apply ev_call. cbn [grammar]. apply ev_atomic. apply (ok_rule U R_term _ CompoundAtomic p (cs ++ x ++ posts_text l) w st st).
      apply ok_seq. rewrite <- !app_assoc. eapply ok_then; [eapply ok_then; [exact E1|exact E2]|]. eapply ok_pos; [exact E3|lens].
    - reflexivity.
    - reflexivity.
    - intros f i. unfold parse_term. cbn [t_inner]. destruct (M1 f i) as (qs & Q1 & Q2). rewrite <- app_assoc, Q2, app_nil_r.
      cbn [app parse_term_loop]. rewrite R2. eapply orel_bind; [apply M2|]. intros b b' Hb. cbv beta.
      eapply (M3 f i b b' (rev qs)); [exact Hb|]. intros y y' Hy. apply prefixed_sim; assumption.
  Qed.
  Lemma term_whole : forall cs x o l, forallb prefix_char cs = true -> node_means U x o -> (forall w, head_is prefix_char (x ++ w) = false) ->
    posts_ok l -> term_means (cs ++ x ++ posts_text l) (b <- o; c <- posted l b; prefixed cs c).
  Proof.
    intros cs x o l Hc Hx Hh Hl. apply (term_whole_in (ProofNode.nstop U)); try assumption.
    intros w Hw. split; [apply posts_nstop; assumption|apply tstop_pstop; exact Hw].
  Qed.
  Lemma term_node : forall x o, node_means U x o -> (forall w, head_is prefix_char (x ++ w) = false) -> term_means x o.
  Proof.
    intros x o Hx Hh. pose proof (term_whole [] x o [] eq_refl Hx Hh Logic.I) as H. cbn [app posts_text] in H. rewrite app_nil_r in H.
    intros k p w st Hw. destruct (H k p w st Hw) as (T & E & R & X & M). exists T. split; [exact E|]. split; [exact R|]. split; [exact X|]. intros f i.
    specialize (M f i). cbn in M. destruct o; exact M.
  Qed.
End Term.
