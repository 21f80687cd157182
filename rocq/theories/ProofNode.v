(** Reading operands: what ends them, and the ones that are a single token. *)
From Verif Require Import Base Ast SmError Peg Grammar Climber Build SpecAst SpecPeg SpecSyntax.
From Verif Require Import ProofAst ProofPeg ProofPegShift ProofSym ProofGrammar ProofBuild ProofPos ProofSpace ProofLex ProofToken.
Local Open Scope nat_scope.

Section Node.
  Variable U : unicode.
  Notation ev := (ev U grammar skip_body).
  Notation fails := (fails U).

  (** ** What cannot follow an operand without being read as part of it *)
  Definition joins (c : char) : bool := (c =? 40)%N || digit c || word_head U c.
  Definition clings (c : char) : bool := existsb (N.eqb c) [34; 35; 182; 8267]%N.
  (** the primes of a derivative, with its argument list *)
  Fixpoint drop_primes (w : str) : str := match w with c :: w' => if (39 =? c)%N then drop_primes w' else w | [] => [] end.
  Definition primed (w : str) : bool := head_is (N.eqb 39) w && head_is (N.eqb 40) (drop_inline (drop_primes w)).
  (** after a node: no word character, no path, no digits after a dot, no quotes, slots or references, no
      derivative; and no argument list or factor, even after white space *)
  Definition nstop (w : str) : bool :=
    sym_stop U w && negb (dot_digit w) && negb (head_is clings w) && negb (head_is joins (drop_inline w)) && negb (primed w).

  Lemma nstop_all : forall w, nstop w = true -> sym_stop U w = true /\ dot_digit w = false /\ head_is clings w = false /\
    head_is joins (drop_inline w) = false /\ primed w = false.
  Proof.
    intros w H. unfold nstop in H. do 4 (apply andb_prop in H as [H ?]). rewrite negb_true_iff in *. auto.
  Qed.
  Lemma nstop_sym : forall w, nstop w = true -> sym_stop U w = true.
  Proof. intros w H. apply nstop_all in H. tauto. Qed.
  Lemma nstop_dot : forall w, nstop w = true -> dot_digit w = false.
  Proof. intros w H. apply nstop_all in H. tauto. Qed.
  Lemma nstop_cling : forall w, nstop w = true -> head_is clings w = false.
  Proof. intros w H. apply nstop_all in H. tauto. Qed.
  Lemma nstop_join : forall w, nstop w = true -> head_is joins (drop_inline w) = false.
  Proof. intros w H. apply nstop_all in H. tauto. Qed.
  Lemma nstop_primed : forall w, nstop w = true -> primed w = false.
  Proof. intros w H. apply nstop_all in H. tauto. Qed.
  Lemma nstop_xid : forall w, nstop w = true -> head_is (xid_continue U) w = false.
  Proof. intros w H. apply nstop_sym in H. apply andb_prop in H as [H _]. apply negb_true_iff. exact H. Qed.

  Lemma digit_ascii : forall c, digit c = true -> (c < 128)%N.
  Proof. intros c H. apply andb_prop in H as [_ H]. apply N.leb_le in H. lia. Qed.
  Lemma digit_xid : forall c, digit c = true -> xid_continue U c = true.
  Proof.
    intros c H. unfold xid_continue. pose proof (digit_ascii c H) as L. apply N.ltb_lt in L. rewrite L.
    unfold ascii_digit. unfold digit in H. rewrite H, orb_true_r. reflexivity.
  Qed.
  Lemma letter_xid : forall c, ascii_letter c = true -> xid_continue U c = true.
  Proof.
    intros c H. unfold xid_continue. assert (L : (c < 128)%N).
    { unfold ascii_letter in H. apply orb_prop in H as [H|H]; apply andb_prop in H as [_ H]; apply N.leb_le in H; lia. }
    apply N.ltb_lt in L. rewrite L, H. reflexivity.
  Qed.
  Lemma nstop_digit : forall w, nstop w = true -> head_is digit w = false.
  Proof.
    intros w H. apply nstop_xid in H. destruct w as [|c w]; [reflexivity|]. cbn [head_is] in *.
    destruct (digit c) eqn:E; [|reflexivity]. apply digit_xid in E. congruence.
  Qed.
  Lemma nstop_base : forall w, nstop w = true -> head_is base_letter w = false.
  Proof.
    intros w H. apply nstop_xid in H. destruct w as [|c w]; [reflexivity|]. cbn [head_is] in *.
    destruct (base_letter c) eqn:E; [|reflexivity]. rewrite letter_xid in H; [discriminate|].
    unfold base_letter in E. repeat (apply orb_prop in E as [E|E]); apply N.eqb_eq in E; subst c; reflexivity.
  Qed.
  Lemma nstop_num : forall w, nstop w = true -> num_stop w = true.
  Proof. intros w H. unfold num_stop. rewrite nstop_base, nstop_dot by exact H. reflexivity. Qed.
  Lemma nstop_int : forall x w, nstop w = true -> int_stop x w = true.
  Proof. intros x w H. unfold int_stop. rewrite nstop_digit by exact H. apply orb_true_r. Qed.

  (** ** Failures by the first character *)
  Ltac by_head H := apply er_str; match goal with |- strip_prefix _ ?w = None => destruct w as [|? ?]; [reflexivity|] end;
    apply strip_head; intros <-; discriminate H.

  Lemma er_apply : forall k q p w st, head_is (N.eqb 40) w = false -> fails (ECall R_apply) k q (mkPs p w st).
  Proof. intros k q p w st H. apply er_call, er_atomic, er_rule, er_seq0. repeat apply er_then. by_head H. Qed.
  Lemma er_apply_call_head : forall k q p w st, head_is (word_head U) w = false -> fails (ECall R_apply_call) k q (mkPs p w st).
  Proof. intros k q p w st H. apply er_call, er_atomic, er_rule, er_seq0. repeat apply er_then. apply er_Symbol. exact H. Qed.
  Lemma er_derivative_head : forall k q p w st, head_is (word_head U) w = false -> fails (ECall R_derivative) k q (mkPs p w st).
  Proof. intros k q p w st H. apply er_call, er_atomic, er_rule, er_seq0. repeat apply er_then. apply er_Symbol. exact H. Qed.

  Definition factor : pexp rule := EElse (EElse (ERestore (ECall R_apply_call)) (ECall R_Number)) (ECall R_Symbol).
  Lemma er_factor : forall k q p w st, head_is digit w = false -> head_is (word_head U) w = false -> fails factor k q (mkPs p w st).
  Proof.
    intros k q p w st H1 H2. apply er_else; [apply er_else|].
    - apply er_restore, er_apply_call_head. exact H2.
    - apply er_Number. exact H1.
    - apply er_Symbol. exact H2.
  Qed.
  Lemma er_space_call_head : forall k q p w st, head_is digit w = false -> head_is (word_head U) w = false ->
    fails (ECall R_space_call) k q (mkPs p w st).
  Proof. intros k q p w st H1 H2. apply er_call, er_atomic, er_rule, er_seq0. do 2 apply er_then. apply er_factor; assumption. Qed.

  (** the second factor *)
  Definition more_factor : pexp rule := ESeq (EThen inline_rep factor).
  Lemma joins_off : forall w, head_is joins w = false ->
    head_is (N.eqb 40) w = false /\ head_is digit w = false /\ head_is (word_head U) w = false.
  Proof.
    intros [|c w] H; [auto|]. cbn [head_is] in *. unfold joins in H. apply orb_false_iff in H as [H H3].
    apply orb_false_iff in H as [H1 H2]. rewrite N.eqb_sym. auto.
  Qed.
  Lemma er_more_factor : forall k q p w st, head_is joins (drop_inline w) = false -> fails more_factor k q (mkPs p w st).
  Proof.
    intros k q p w st H. destruct (joins_off _ H) as (_ & H1 & H2).
    destruct (inline_rep_any U k q p w st) as [p' Hp]. eapply er_seq2; [exact Hp| |reflexivity].
    apply er_factor; assumption.
  Qed.
  Lemma er_more_factor_head : forall k q p w st, head_is digit (drop_inline w) = false -> head_is (word_head U) (drop_inline w) = false ->
    fails more_factor k q (mkPs p w st).
  Proof.
    intros k q p w st H1 H2. destruct (inline_rep_any U k q p w st) as [p' Hp]. eapply er_seq2; [exact Hp| |reflexivity].
    apply er_factor; assumption.
  Qed.
  Definition called (w : str) : bool := head_is (N.eqb 40) (drop_inline w).
  Lemma er_more_apply_head : forall k q p w st, called w = false -> fails (ESeq (EThen inline_rep (ECall R_apply))) k q (mkPs p w st).
  Proof.
    intros k q p w st H. destruct (inline_rep_any U k q p w st) as [p' Hp]. eapply er_seq2; [exact Hp| |reflexivity].
    apply er_apply. exact H.
  Qed.
  Lemma er_more_apply : forall k q p w st, head_is joins (drop_inline w) = false ->
    fails (ESeq (EThen inline_rep (ECall R_apply))) k q (mkPs p w st).
  Proof.
    intros k q p w st H. destruct (joins_off _ H) as (H0 & _ & _).
    destruct (inline_rep_any U k q p w st) as [p' Hp]. eapply er_seq2; [exact Hp| |reflexivity].
    apply er_apply. exact H0.
  Qed.

  (** a single symbol is no call, no derivative and no product *)
  Lemma er_apply_call_bare : forall k x p w st, is_path U x -> sym_stop U w = true -> head_is joins (drop_inline w) = false ->
    fails (ECall R_apply_call) k false (mkPs p (x ++ w) st).
  Proof.
    intros k x p w st Hx Hs Hj. apply er_call, er_atomic, er_rule.
    destruct (ok_Symbol U CompoundAtomic x p w st Hx Hs) as [t Ht].
    pose proof (ev_then U grammar skip_body _ _ _ _ _ _ _ _ Ht (er_more_apply CompoundAtomic false (p + length x) w st Hj)) as X.
    eapply er_seq; [apply ev_then_err; exact X|reflexivity].
  Qed.
  Lemma er_apply_call_sym : forall k x p w st, is_path U x -> nstop w = true -> fails (ECall R_apply_call) k false (mkPs p (x ++ w) st).
  Proof. intros k x p w st Hx Hw. apply er_apply_call_bare; [exact Hx|apply nstop_sym; exact Hw|apply nstop_join; exact Hw]. Qed.
  Lemma er_Derivative : forall k q p w st, head_is (N.eqb 39) w = false -> fails (ECall R_Derivative) k q (mkPs p w st).
  Proof. intros k q p w st H. apply er_call, er_rule, er_atomic, er_seq0, er_then. by_head H. Qed.
  Lemma drop_primes_split : forall w, exists n, w = repeat 39%N n ++ drop_primes w /\ head_is (N.eqb 39) (drop_primes w) = false.
  Proof.
    induction w as [|c w (n & E & H)]; [exists 0; auto|]. cbn [drop_primes]. destruct (N.eqb_spec 39 c) as [<-|N].
    - exists (S n). cbn [repeat app]. rewrite <- E. auto.
    - exists 0. split; [reflexivity|]. cbn [head_is]. apply N.eqb_neq. exact N.
  Qed.
  Lemma drop_primes_app : forall n w, drop_primes (repeat 39%N n ++ w) = drop_primes w.
  Proof. induction n as [|n IH]; intro w; [reflexivity|]. cbn. apply IH. Qed.
  Lemma drop_primes_stop : forall w, head_is (N.eqb 39) w = false -> drop_primes w = w.
  Proof. intros [|c w] H; [reflexivity|]. cbn [drop_primes head_is] in *. rewrite H. reflexivity. Qed.
  Lemma ok_primes : forall n k p w st, head_is (N.eqb 39) w = false ->
    ev (ERep (EStr (lit "'"))) k false (mkPs p (repeat 39%N n ++ w) st) (POk (mkPs (p + n) w st) []).
  Proof.
    induction n as [|n IH]; intros k p w st H.
    - rewrite Nat.add_0_r. apply no_rep. by_head H.
    - cbn [repeat app]. apply (ok_rep U (EStr (lit "'")) k false _ (mkPs (p + 1) (repeat 39%N n ++ w) st) [] _ []).
      + apply (ev_str U grammar skip_body (lit "'")).
      + eapply ok_pos; [apply IH; exact H|lia].
  Qed.
  Lemma ok_Derivative : forall k n p w st, head_is (N.eqb 39) w = false ->
    ev (ECall R_Derivative) k false (mkPs p (repeat 39%N (S n) ++ w) st) (POk (mkPs (p + S n) w st) (node_of R_Derivative k p (repeat 39%N (S n)) [])).
  Proof.
    intros k n p w st H. eapply ok_pos; [|instantiate (1 := p + length (repeat 39%N (S n))); rewrite repeat_length; lia].
    apply ev_call. cbn [grammar]. apply ok_rule, ev_atomic, ok_seq. cbn [repeat app].
    eapply ok_then0; [apply (ev_str U grammar skip_body (lit "'"))|]. eapply ok_pos; [apply ok_primes; exact H|cbn; rewrite repeat_length; lia].
  Qed.
  Lemma er_derivative_bare : forall k x p w st, is_path U x -> sym_stop U w = true -> primed w = false ->
    fails (ECall R_derivative) k false (mkPs p (x ++ w) st).
  Proof.
    intros k x p w st Hx Hs Hw. apply er_call, er_atomic, er_rule.
    destruct (ok_Symbol U CompoundAtomic x p w st Hx Hs) as [t Ht].
    destruct (head_is (N.eqb 39) w) eqn:E.
    - unfold primed in Hw. rewrite E in Hw. cbn [andb] in Hw. destruct (drop_primes_split w) as ([|n] & Ew & Hn).
      { cbn [repeat app] in Ew. rewrite <- Ew in Hn. congruence. }
      pose proof (ok_Derivative CompoundAtomic n (p + length x) (drop_primes w) st Hn) as D. rewrite <- Ew in D.
      destruct (inline_rep_any U CompoundAtomic false (p + length x + S n) (drop_primes w) st) as [p' Hp].
      eapply er_seq2; [|apply er_apply; exact Hw|].
      + eapply ok_then1; [|exact Hp]. eapply ok_then; [exact Ht|exact D].
      + reflexivity.
    - pose proof (ev_then U grammar skip_body _ _ _ _ _ _ _ _ Ht (er_Derivative CompoundAtomic false (p + length x) w st E)) as X.
      eapply er_seq; [do 2 apply ev_then_err; exact X|reflexivity].
  Qed.
  Lemma er_derivative_sym : forall k x p w st, is_path U x -> nstop w = true -> fails (ECall R_derivative) k false (mkPs p (x ++ w) st).
  Proof. intros k x p w st Hx Hw. apply er_derivative_bare; [exact Hx|apply nstop_sym; exact Hw|apply nstop_primed; exact Hw]. Qed.

  Lemma path_head : forall x w, is_path U x -> head_is (word_head U) (x ++ w) = true.
  Proof. intros x w (y & l & -> & Hy & _). rewrite <- app_assoc. apply word_word_head. exact Hy. Qed.
  Lemma word_head_not_digit : forall c, word_head U c = true -> digit c = false.
  Proof.
    intros c H. destruct (digit c) eqn:E; [|reflexivity]. exfalso. pose proof (digit_ascii _ E) as L. unfold word_head, xid_start in H.
    apply N.ltb_lt in L. rewrite L in H. unfold digit in E. apply andb_prop in E as [E1 E2]. apply N.leb_le in E1. apply N.leb_le in E2.
    apply orb_prop in H as [H|H].
    - unfold ascii_letter in H. apply orb_prop in H as [H|H]; apply andb_prop in H as [H _]; apply N.leb_le in H; lia.
    - apply N.eqb_eq in H. lia.
  Qed.
  Lemma head_word_digit : forall w, head_is (word_head U) w = true -> head_is digit w = false.
  Proof. intros [|c w] H; [reflexivity|]. apply word_head_not_digit. exact H. Qed.
  Lemma head_digit_word : forall w, head_is digit w = true -> head_is (word_head U) w = false.
  Proof.
    intros [|c w] H; [reflexivity|]. cbn [head_is] in *. destruct (word_head U c) eqn:E; [|reflexivity].
    apply word_head_not_digit in E. congruence.
  Qed.

  Lemma er_space_call_bare : forall k x p w st, is_path U x -> sym_stop U w = true -> head_is joins (drop_inline w) = false ->
    fails (ECall R_space_call) k false (mkPs p (x ++ w) st).
  Proof.
    intros k x p w st Hx Hs Hj. apply er_call, er_atomic, er_rule.
    destruct (ok_Symbol U CompoundAtomic x p w st Hx Hs) as [t Ht].
    assert (F : ev factor CompoundAtomic false (mkPs p (x ++ w) st) (POk (mkPs (p + length x) w st) [Node R_Symbol p (p + length x) x t])).
    { apply ev_else_err; [apply er_else|exact Ht].
      - apply er_restore, er_apply_call_bare; assumption.
      - apply er_Number, head_word_digit, path_head. exact Hx. }
    pose proof (ev_then U grammar skip_body _ _ _ _ _ _ _ _ F (er_more_factor CompoundAtomic false (p + length x) w st Hj)) as X.
    eapply er_seq; [apply ev_then_err; exact X|reflexivity].
  Qed.
  Lemma er_space_call_sym : forall k x p w st, is_path U x -> nstop w = true -> fails (ECall R_space_call) k false (mkPs p (x ++ w) st).
  Proof. intros k x p w st Hx Hw. apply er_space_call_bare; [exact Hx|apply nstop_sym; exact Hw|apply nstop_join; exact Hw]. Qed.

  (** a single number is no product *)
  Lemma er_space_call_num : forall k x p w st t, head_is digit (x ++ w) = true ->
    ev (ECall R_Number) CompoundAtomic false (mkPs p (x ++ w) st) (POk (mkPs (p + length x) w st) t) ->
    head_is digit (drop_inline w) = false -> head_is (word_head U) (drop_inline w) = false ->
    fails (ECall R_space_call) k false (mkPs p (x ++ w) st).
  Proof.
    intros k x p w st t Hd Hn Hw1 Hw2. apply er_call, er_atomic, er_rule.
    assert (F : ev factor CompoundAtomic false (mkPs p (x ++ w) st) (POk (mkPs (p + length x) w st) t)).
    { apply ev_else_ok. apply ev_else_err; [|exact Hn]. apply er_restore, er_apply_call_head, head_digit_word. exact Hd. }
    pose proof (ev_then U grammar skip_body _ _ _ _ _ _ _ _ F (er_more_factor_head CompoundAtomic false (p + length x) w st Hw1 Hw2)) as X.
    eapply er_seq; [apply ev_then_err; exact X|reflexivity].
  Qed.

  (** the alternatives of [node] before [data] *)
  Lemma er_paren : forall k q p w st e, head_is (N.eqb 40) w = false ->
    fails (ERestore (ESeq (EThen (EThen (EThen (EThen (EStr (lit "(")) ESkip) e) ESkip) (EStr (lit ")"))))) k q (mkPs p w st).
  Proof. intros k q p w st e H. apply er_restore, er_seq0. repeat apply er_then. by_head H. Qed.

  (** what operands mean before a following text with a property *)
  Definition node_in (S : str -> bool) (x : str) (o : outcome ast) : Prop :=
    forall p w st, S w = true -> exists T,
      ev (ECall R_node) CompoundAtomic false (mkPs p (x ++ w) st) (POk (mkPs (p + length x) w st) [T]) /\
      t_rule T = R_node /\ forall f i, orel sim (parse_node f i (parse_expr f i) T) o.
  Definition data_in (S : str -> bool) (x : str) (o : outcome ast) : Prop :=
    forall p w st, S w = true -> exists T,
      ev (ECall R_data) CompoundAtomic false (mkPs p (x ++ w) st) (POk (mkPs (p + length x) w st) [T]) /\
      t_rule T = R_data /\ forall f i, orel sim (parse_data f i (parse_expr f i) T) o.
  Definition node_means : str -> outcome ast -> Prop := node_in nstop.
  Definition data_means : str -> outcome ast -> Prop := data_in nstop.
  Lemma node_weaken : forall (S S' : str -> bool) x o, (forall w, S' w = true -> S w = true) -> node_in S x o -> node_in S' x o.
  Proof. intros S S' x o H N p w st Hw. apply N, H, Hw. Qed.

  (** texts that [node] tries in vain before it comes to [data] *)
  Definition plain_in (S : str -> bool) (x : str) : Prop :=
    forall p w st, S w = true ->
      head_is (N.eqb 40) (x ++ w) = false /\ fails (ECall R_apply_call) CompoundAtomic false (mkPs p (x ++ w) st) /\
      fails (ECall R_derivative) CompoundAtomic false (mkPs p (x ++ w) st) /\
      fails (ECall R_space_call) CompoundAtomic false (mkPs p (x ++ w) st).
  Definition plain_node : str -> Prop := plain_in nstop.

  Lemma node_data : forall S x o, plain_in S x -> data_in S x o -> node_in S x o.
  Proof.
    intros S x o Hp Hd p w st Hw. destruct (Hp p w st Hw) as (H1 & H2 & H3 & H4). destruct (Hd p w st Hw) as (T & HT & HR & HM).
    eexists. split.
    - apply ev_call. cbn [grammar]. apply (ok_rule U R_node _ CompoundAtomic p x w st st).
      apply ev_else_err; [|apply ok_restore; exact HT].
      apply er_else; [apply er_else; [apply er_else|]|].
      + apply er_paren. exact H1.
      + apply er_restore. exact H2.
      + apply er_restore. exact H3.
      + apply er_restore. exact H4.
    - split; [reflexivity|]. intros f i. unfold parse_node. cbn [node_of emits t_inner]. rewrite HR. apply HM.
  Qed.

  Lemma plain_symbol : forall x, is_path U x -> plain_node x.
  Proof.
    intros x Hx p w st Hw. split; [|split; [|split]].
    - pose proof (path_head x w Hx) as H. destruct (x ++ w) as [|c v]; [reflexivity|]. cbn [head_is] in *.
      apply N.eqb_neq. intros <-. discriminate.
    - apply er_apply_call_sym; assumption.
    - apply er_derivative_sym; assumption.
    - apply er_space_call_sym; assumption.
  Qed.
  Lemma plain_number : forall (S : str -> bool) x, (forall w, head_is digit (x ++ w) = true) ->
    (forall w, S w = true -> head_is digit (drop_inline w) = false /\ head_is (word_head U) (drop_inline w) = false) ->
    (forall p w st, S w = true -> exists t, ev (ECall R_Number) CompoundAtomic false (mkPs p (x ++ w) st) (POk (mkPs (p + length x) w st) t)) ->
    plain_in S x.
  Proof.
    intros S x Hd HS Hn p w st Hw. pose proof (Hd w) as H. split; [|split; [|split]].
    - destruct (x ++ w) as [|c v]; [reflexivity|]. cbn [head_is] in *. apply N.eqb_neq. intros <-. discriminate.
    - apply er_apply_call_head, head_digit_word. exact H.
    - apply er_derivative_head, head_digit_word. exact H.
    - destruct (Hn p w st Hw) as [t Ht]. destruct (HS w Hw) as [H1 H2]. eapply er_space_call_num; [exact H|exact Ht|exact H1|exact H2].
  Qed.
  (** other texts, by their first character *)
  Lemma plain_other : forall S x, (forall w, head_is joins (x ++ w) = false) -> plain_in S x.
  Proof.
    intros S x H p w st Hw. destruct (joins_off _ (H w)) as (H1 & H2 & H3).
    split; [exact H1|]. split; [apply er_apply_call_head; exact H3|]. split; [apply er_derivative_head; exact H3|].
    apply er_space_call_head; assumption.
  Qed.

  (** ** The alternatives of [data] *)
  Lemma er_dict : forall k q p w st, head_is (N.eqb 123) w = false -> fails (ERestore (ECall R_dict)) k q (mkPs p w st).
  Proof. intros k q p w st H. apply er_restore, er_call, er_atomic, er_rule, er_seq0. repeat apply er_then. by_head H. Qed.
  Lemma er_list : forall k q p w st, head_is (N.eqb 91) w = false -> fails (ERestore (ECall R_list)) k q (mkPs p w st).
  Proof. intros k q p w st H. apply er_restore, er_call, er_atomic, er_rule, er_seq0. repeat apply er_then. by_head H. Qed.
  Definition no_special (w : str) : bool :=
    match strip_prefix (lit "null") w, strip_prefix (lit "true") w, strip_prefix (lit "false") w with
    | None, None, None => true | _, _, _ => false
    end.
  Lemma er_Special : forall k q p w st, no_special w = true -> fails (ECall R_Special) k q (mkPs p w st).
  Proof.
    intros k q p w st H. unfold no_special in H. destruct (strip_prefix (lit "null") w) eqn:E1; [discriminate|].
    destruct (strip_prefix (lit "true") w) eqn:E2; [discriminate|]. destruct (strip_prefix (lit "false") w) eqn:E3; [discriminate|].
    apply er_call, er_rule, er_atomic, er_else; [apply er_else|]; apply er_str; assumption.
  Qed.
  Lemma er_REPL : forall k q p w st, head_is (fun c => (c =? 182) || (c =? 8267))%N w = false -> fails (ECall R_REPL) k q (mkPs p w st).
  Proof.
    intros k q p w st H. apply er_call, er_rule, er_atomic, er_else; [apply er_else|]; apply er_seq0, er_then; by_head H.
  Qed.
  Lemma er_Slot : forall k q p w st, head_is (N.eqb 35) w = false -> fails (ECall R_Slot) k q (mkPs p w st).
  Proof. intros k q p w st H. apply er_call, er_atomic, er_rule, er_else; apply er_seq0, er_then; by_head H. Qed.

  Lemma er_StringNormal : forall k q p w st, head_is (N.eqb 34) w = false -> fails (ECall R_StringNormal) k q (mkPs p w st).
  Proof. intros k q p w st H. apply er_call, er_rule, er_atomic, er_seq0, er_then, er_then, er_call, er_rule, er_atomic. by_head H. Qed.
  Lemma er_StringBlock : forall k q p w st, head_is (N.eqb 34) w = false -> fails (ECall R_StringBlock) k q (mkPs p w st).
  Proof.
    intros k q p w st H. apply er_call, er_atomic, er_rule, er_seq0. repeat apply er_then. apply er_seq0. repeat apply er_then.
    apply er_call, er_rule, er_atomic. by_head H.
  Qed.
  Lemma er_string_body : forall k q p w st, head_is (N.eqb 34) w = false ->
    fails (EElse (ERestore (ECall R_StringBlock)) (ECall R_StringNormal)) k q (mkPs p w st).
  Proof. intros. apply er_else; [apply er_restore, er_StringBlock|apply er_StringNormal]; assumption. Qed.
  Lemma er_String_head : forall k q p w st, head_is (N.eqb 34) w = false -> head_is (word_head U) w = false ->
    fails (ERestore (ECall R_String)) k q (mkPs p w st).
  Proof.
    intros k q p w st H1 H2. apply er_restore, er_call, er_atomic, er_rule, er_seq0.
    eapply ok_then0; [apply no_opt, er_SYMBOL; exact H2|]. apply er_string_body. exact H1.
  Qed.
  Lemma er_String_sym : forall k x p w st, is_path U x -> nstop w = true -> fails (ERestore (ECall R_String)) k false (mkPs p (x ++ w) st).
  Proof.
    intros k x p w st (y & l & -> & Hy & Hl) Hw. apply er_restore, er_call, er_atomic, er_rule.
    rewrite <- app_assoc. eapply er_seq2.
    - apply ok_opt, ok_SYMBOL; [exact Hy|]. apply tail_stop; [exact Hl|]. apply nstop_sym. exact Hw.
    - apply er_string_body. destruct l as [|[[] z] l]; [|reflexivity|reflexivity]. cbn [steps_tail app].
      pose proof (nstop_cling _ Hw) as H. destruct w as [|c w]; [reflexivity|]. cbn [head_is] in *. apply orb_false_iff in H as [H _].
      rewrite N.eqb_sym. exact H.
    - reflexivity.
  Qed.

  (** the heads of words *)
  Hypothesis HU : sane U.
  Lemma word_head_not : forall c, word_head U c = true -> c <> 123%N /\ c <> 91%N /\ c <> 35%N /\ c <> 34%N /\
    ((c =? 182) || (c =? 8267))%N = false.
  Proof.
    intros c H. repeat (split; [intros ->; discriminate|]).
    destruct ((c =? 182) || (c =? 8267))%N eqn:E; [|reflexivity]. exfalso.
    assert (S : existsb (N.eqb c) signs || white_space c = true).
    { apply orb_prop in E as [E|E]; apply N.eqb_eq in E; subst c; reflexivity. }
    destruct (HU c S) as [S1 _]. unfold word_head in H. rewrite S1 in H. cbn in H. apply N.eqb_eq in H. subst c. discriminate.
  Qed.

  Lemma data_symbol : forall x, is_path U x -> (forall w, nstop w = true -> no_special (x ++ w) = true) ->
    data_means x (Ret (ast_symbol x)).
  Proof.
    intros x Hx Hs p w st Hw. destruct (ok_Symbol U CompoundAtomic x p w st Hx (nstop_sym _ Hw)) as [t Ht].
    eexists. split.
    - apply ev_call. cbn [grammar]. apply ev_atomic. apply (ok_rule U R_data _ CompoundAtomic p x w st st).
      pose proof (path_head x w Hx) as H.
      assert (K : head_is (N.eqb 123) (x ++ w) = false /\ head_is (N.eqb 91) (x ++ w) = false /\
        head_is (N.eqb 35) (x ++ w) = false /\ head_is (fun c => (c =? 182) || (c =? 8267))%N (x ++ w) = false).
      { destruct (x ++ w) as [|c v]; [discriminate|]. cbn [head_is] in *. destruct (word_head_not c H) as (A & B & C & D & E).
        repeat split; try (apply N.eqb_neq; congruence). exact E. }
      destruct K as (K1 & K2 & K3 & K4).
      apply ev_else_err; [|exact Ht].
      apply er_else; [apply er_else; [apply er_else; [apply er_else; [apply er_else; [apply er_else|]|]|]|]|].
      + apply er_dict. exact K1.
      + apply er_list. exact K2.
      + apply er_Special. apply Hs. exact Hw.
      + apply er_REPL. exact K4.
      + apply er_Slot. exact K3.
      + apply er_Number, head_word_digit. exact H.
      + apply er_String_sym; assumption.
    - split; [reflexivity|]. intros f i. cbn. reflexivity.
  Qed.

  Lemma data_number : forall (S : str -> bool) x o, (forall w, head_is digit (x ++ w) = true) ->
    (forall p w st, S w = true -> exists T, ev (ECall R_Number) CompoundAtomic false (mkPs p (x ++ w) st) (POk (mkPs (p + length x) w st) [T]) /\
       forall a b l f i, orel sim (parse_data f i (parse_expr f i) (Node R_data a b l [T])) o) ->
    data_in S x o.
  Proof.
    intros S x o Hd Hn p w st Hw. destruct (Hn p w st Hw) as (T & HT & HM). eexists. split.
    - apply ev_call. cbn [grammar]. apply ev_atomic. apply (ok_rule U R_data _ CompoundAtomic p x w st st).
      pose proof (Hd w) as H. destruct (x ++ w) as [|c v] eqn:E; [discriminate|]. cbn [head_is] in H.
      assert (R : (48 <= c <= 57)%N).
      { apply andb_prop in H as [H1 H2]. apply N.leb_le in H1. apply N.leb_le in H2. lia. }
      do 2 apply ev_else_ok. apply ev_else_err; [|exact HT].
      apply er_else; [apply er_else; [apply er_else; [apply er_else|]|]|].
      + apply er_dict. cbn [head_is]. apply N.eqb_neq. lia.
      + apply er_list. cbn [head_is]. apply N.eqb_neq. lia.
      + apply er_Special. unfold no_special.
        assert (A : forall a l, (57 < a)%N -> strip_prefix (a :: l) (c :: v) = None) by (intros a l L; apply strip_head; lia).
        change (lit "null") with (110 :: [117; 108; 108])%N. change (lit "true") with (116 :: [114; 117; 101])%N.
        change (lit "false") with (102 :: [97; 108; 115; 101])%N. rewrite !A by lia. reflexivity.
      + apply er_REPL. cbn [head_is]. apply orb_false_iff. split; apply N.eqb_neq; lia.
      + apply er_Slot. cbn [head_is]. apply N.eqb_neq. lia.
    - split; [reflexivity|]. intros f i. apply HM.
  Qed.
  Lemma white_quiet : forall c, white_space c = true ->
    xid_continue U c = false /\ word_head U c = false /\ (c =? 58)%N = false /\ (c =? 8759)%N = false /\ (c =? 46)%N = false /\
    clings c = false /\ joins c = false /\ ((c =? 33) || (c =? 63) || (c =? 39))%N = false /\ (c =? 91)%N = false.
  Proof.
    intros c H. destruct (HU c) as [X1 X2]; [rewrite H; apply orb_true_r|].
    assert (N : forall d, white_space d = false -> (c =? d)%N = false) by (intros d Hd; apply N.eqb_neq; intros ->; congruence).
    assert (W : word_head U c = false) by (unfold word_head; rewrite X1, N; reflexivity).
    assert (D : digit c = false).
    { destruct (digit c) eqn:E; [|reflexivity]. rewrite digit_xid in X2 by exact E. discriminate. }
    split; [exact X2|]. split; [exact W|]. do 3 (split; [apply N; reflexivity|]). unfold clings, joins. cbn [existsb].
    rewrite !N by reflexivity. rewrite D, W. auto.
  Qed.

  (** ** What may follow an operand that takes no argument list *)
  Lemma nstop_called : forall w, nstop w = true -> called w = false.
  Proof. intros w H. apply nstop_join, joins_off in H. apply H. Qed.
  Definition lstop (w : str) : bool := nstop w || called w.
  Lemma lstop_cases : forall w, lstop w = true -> nstop w = true \/ exists c v, w = c :: v /\ (c = 40%N \/ white_space c = true) /\ called w = true.
  Proof.
    intros w H. apply orb_prop in H as [H|H]; [left; exact H|right]. destruct w as [|c v]; [discriminate|]. exists c, v. split; [reflexivity|].
    split; [|exact H]. unfold called in H. cbn [drop_inline] in H. destruct (inline_space c) eqn:E.
    - right. unfold inline_space in E. do 2 apply andb_prop in E as [E _]. exact E.
    - left. cbn [head_is] in H. apply N.eqb_eq in H. congruence.
  Qed.
  Lemma called_head : forall (P : char -> bool) w, P 40%N = false -> called w = true -> head_is P (drop_inline w) = false.
  Proof. intros P w HP H. unfold called in H. destruct (drop_inline w) as [|c v]; [reflexivity|]. cbn [head_is] in *. apply N.eqb_eq in H. congruence. Qed.
  Lemma lstop_sym : forall w, lstop w = true -> sym_stop U w = true.
  Proof.
    intros w H. destruct (lstop_cases w H) as [N|(c & v & -> & [->|W] & _)]; [apply nstop_sym; exact N|reflexivity|].
    destruct (white_quiet c W) as (X1 & _ & X3 & X4 & _). unfold sym_stop, path_more. cbn [head_is]. change (lit "::") with [58; 58]%N.
    rewrite !strip_head by (intros <-; rewrite N.eqb_refl in *; discriminate). rewrite X1. reflexivity.
  Qed.
  Lemma lstop_xid : forall w, lstop w = true -> head_is (xid_continue U) w = false.
  Proof. intros w H. apply lstop_sym in H. apply andb_prop in H as [H _]. apply negb_true_iff. exact H. Qed.
  Lemma lstop_dot : forall w, lstop w = true -> dot_digit w = false.
  Proof.
    intros w H. destruct (lstop_cases w H) as [N|(c & v & -> & [->|W] & _)]; [apply nstop_dot; exact N|reflexivity|].
    destruct (white_quiet c W) as (_ & _ & _ & _ & X5 & _). cbn [dot_digit]. rewrite X5. reflexivity.
  Qed.
  Lemma lstop_cling : forall w, lstop w = true -> head_is clings w = false.
  Proof.
    intros w H. destruct (lstop_cases w H) as [N|(c & v & -> & [->|W] & _)]; [apply nstop_cling; exact N|reflexivity|].
    apply (white_quiet c W).
  Qed.
  Lemma lstop_more : forall w, lstop w = true -> head_is digit (drop_inline w) = false /\ head_is (word_head U) (drop_inline w) = false.
  Proof.
    intros w H. destruct (lstop_cases w H) as [N|(c & v & _ & _ & C)].
    - apply nstop_join, joins_off in N. tauto.
    - split; apply called_head; try exact C; reflexivity.
  Qed.
  Lemma lstop_digit : forall w, lstop w = true -> head_is digit w = false.
  Proof.
    intros w H. apply lstop_xid in H. destruct w as [|c w]; [reflexivity|]. cbn [head_is] in *.
    destruct (digit c) eqn:E; [|reflexivity]. apply digit_xid in E. congruence.
  Qed.
  Lemma lstop_base : forall w, lstop w = true -> head_is base_letter w = false.
  Proof.
    intros w H. apply lstop_xid in H. destruct w as [|c w]; [reflexivity|]. cbn [head_is] in *.
    destruct (base_letter c) eqn:E; [|reflexivity]. rewrite letter_xid in H; [discriminate|].
    unfold base_letter in E. repeat (apply orb_prop in E as [E|E]); apply N.eqb_eq in E; subst c; reflexivity.
  Qed.
  Lemma lstop_num : forall w, lstop w = true -> num_stop w = true.
  Proof. intros w H. unfold num_stop. rewrite lstop_base, lstop_dot by exact H. reflexivity. Qed.
  Lemma lstop_int : forall x w, lstop w = true -> int_stop x w = true.
  Proof. intros x w H. unfold int_stop. rewrite lstop_digit by exact H. apply orb_true_r. Qed.
  Lemma lstop_word : forall w, lstop w = true -> head_is (word_head U) w = false.
  Proof.
    intros w H. pose proof (lstop_more w H) as [_ J]. destruct w as [|c w]; [reflexivity|]. cbn [drop_inline head_is] in *.
    destruct (inline_space c) eqn:E; [|exact J].
    unfold inline_space in E. do 2 apply andb_prop in E as [E _]. apply (white_quiet c E).
  Qed.
  Lemma nstop_lstop : forall w, nstop w = true -> lstop w = true.
  Proof. intros w H. unfold lstop. rewrite H. reflexivity. Qed.
  Lemma node_lstop : forall x o, node_in lstop x o -> node_means x o.
  Proof. intros x o H. eapply node_weaken; [apply nstop_lstop|exact H]. Qed.
End Node.
