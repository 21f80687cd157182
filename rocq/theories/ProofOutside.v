(** Outside strings and comments, the brackets of every accepted text match. *)
From Verif Require Import Base Ast SmError Peg Grammar Build SpecSyntax SpecPest Source SpecFault SpecBracket SpecOutside.
From Verif Require ProofSym ProofStranger ProofComment ProofKeyword.
From Verif Require Import ProofAst ProofPeg ProofGrammar ProofBuild ProofPest ProofFollow ProofFault ProofBracket.
Local Open Scope nat_scope.

(** ** Reading strings and comments *)
Lemma strip_prefix_self : forall w k, strip_prefix w (w ++ k) = Some k.
Proof. intros w k. apply strip_prefix_app. reflexivity. Qed.
Section Reading.
  Variable U : unicode.
  Notation reads := (SpecPest.reads U source).
  Notation again := (SpecPest.again U source).
  Notation skips := (SpecPest.skips U source).
  Definition ok (m : atomicity) (e : gexp) (s : pstate) (k : str) (st : list str) : Prop := exists s1 t, reads m e s (Some (s1, t)) /\ rest s1 = k /\ stk s1 = st.
  Definition loop (m : atomicity) (e : gexp) (s : pstate) (k : str) (st : list str) : Prop := exists s1 t, again m e s s1 t /\ rest s1 = k /\ stk s1 = st.
  Lemma ok_reads : forall m e s k st s1 t, ok m e s k st -> reads m e s (Some (s1, t)) -> rest s1 = k.
  Proof. intros m e s k st s1 t (s2 & t2 & H & E & _) R. pose proof (reads_once U _ _ _ _ _ H R) as X. injection X as -> _. exact E. Qed.
  Lemma ok_no : forall m e s k st, ok m e s k st -> ~ reads m e s None.
  Proof. intros m e s k st (s2 & t2 & H & _) R. pose proof (reads_once U _ _ _ _ _ H R) as X. discriminate X. Qed.

  Lemma ok_text : forall m w s k, rest s = w ++ k -> ok m (Text w) s k (stk s).
  Proof. intros m w s k H. exists (mkPs (pos s + length w) k (stk s)), []. split; [|split; reflexivity]. constructor. split; [exact H|split; reflexivity]. Qed.
  Lemma no_text : forall m w s, strip_prefix w (rest s) = None -> reads m (Text w) s None.
  Proof. intros m w s H. constructor. intros (k & E). rewrite E, strip_prefix_self in H. discriminate. Qed.
  Lemma ok_rule : forall m r kk e s k st, source r = Rule kk e -> ok (body_mode r kk m) e s k st -> ok m (Name r) s k st.
  Proof. intros m r kk e s k st H (s1 & t & R & E1 & E2). destruct (reads_suffix U _ _ _ _ _ R) as [w W]. eexists. eexists. split; [eapply r_rule; eassumption|split; assumption]. Qed.
  Lemma no_rule : forall m r kk e s, source r = Rule kk e -> reads (body_mode r kk m) e s None -> reads m (Name r) s None.
  Proof. intros. eapply r_rule_no; eassumption. Qed.
  Lemma ok_then : forall m a b s k st k' st', m <> NonAtomic -> ok m a s k st -> (forall s1, rest s1 = k -> stk s1 = st -> ok m b s1 k' st') -> ok m (Then a b) s k' st'.
  Proof.
    intros m a b s k st k' st' M (s1 & t & R & E1 & E2) H. destruct (H s1 E1 E2) as (s2 & t2 & R2 & E3 & E4). eexists. eexists. split; [|split; [exact E3|exact E4]].
    eapply r_then; [exact R|apply skips_nothing; exact M|exact R2].
  Qed.
  Lemma no_then : forall m a b s k st, m <> NonAtomic -> ok m a s k st -> (forall s1, rest s1 = k -> stk s1 = st -> reads m b s1 None) -> reads m (Then a b) s None.
  Proof. intros m a b s k st M (s1 & t & R & E1 & E2) H. eapply r_then_no2; [exact R|apply skips_nothing; exact M|apply H; assumption]. Qed.
  Lemma ok_or1 : forall m a b s k st, ok m a s k st -> ok m (Or a b) s k st.
  Proof. intros m a b s k st (s1 & t & R & E). exists s1, t. split; [apply r_or1; exact R|exact E]. Qed.
  Lemma ok_or2 : forall m a b s k st, reads m a s None -> ok m b s k st -> ok m (Or a b) s k st.
  Proof. intros m a b s k st N (s1 & t & R & E). exists s1, t. split; [apply r_or2; assumption|exact E]. Qed.
  Lemma no_or : forall m a b s, reads m a s None -> reads m b s None -> reads m (Or a b) s None.
  Proof. intros. apply r_or2; assumption. Qed.
  Lemma ok_not : forall m a s, reads m a s None -> ok m (Not a) s (rest s) (stk s).
  Proof. intros m a s H. exists s, []. split; [apply r_not; exact H|split; reflexivity]. Qed.
  Lemma no_not : forall m a s k st, ok m a s k st -> reads m (Not a) s None.
  Proof. intros m a s k st (s1 & t & R & _). eapply r_not_no. exact R. Qed.
  Lemma loop_stop : forall m e s, m <> NonAtomic -> reads m e s None -> loop m e s (rest s) (stk s).
  Proof. intros m e s M H. exists s, []. split; [eapply again_stop; [apply skips_nothing; exact M|exact H]|split; reflexivity]. Qed.
  Lemma loop_more : forall m e s k st k' st', m <> NonAtomic -> ok m e s k st -> (forall s1, rest s1 = k -> stk s1 = st -> loop m e s1 k' st') -> loop m e s k' st'.
  Proof.
    intros m e s k st k' st' M (s1 & t & R & E1 & E2) H. destruct (H s1 E1 E2) as (s2 & t2 & R2 & E3 & E4). eexists. eexists. split; [|split; [exact E3|exact E4]].
    eapply again_more; [apply skips_nothing; exact M|exact R|exact R2].
  Qed.
  Lemma ok_many : forall m e s k st, m <> NonAtomic -> loop m e s k st -> ok m (Many e) s k st.
  Proof.
    intros m e s k st M (s1 & t & A & E). inversion A as [? ? ? s2 t2 K R|? ? ? s2 t2 s3 t3 s4 t4 K R A2]; subst.
    - exists s1, []. split; [apply r_many_no; inversion K; subst; [exact R|contradiction]|exact E].
    - inversion K; subst; [|contradiction]. exists s1, (t3 ++ t4). split; [eapply r_many; eassumption|exact E].
  Qed.
  Lemma ok_any : forall m s c k, rest s = c :: k -> ok m (Name R_ANY) s k (stk s).
  Proof. intros m s c k H. exists (mkPs (pos s + 1) k (stk s)), []. split; [|split; reflexivity]. eapply (r_char _ _ _ _ AnyChar _ c); [reflexivity|reflexivity|exact I|]. split; [exact H|split; reflexivity]. Qed.
  Lemma no_any : forall m s, rest s = [] -> reads m (Name R_ANY) s None.
  Proof. intros m s H. eapply (r_char_no _ _ _ _ AnyChar); [reflexivity|reflexivity|]. intros (c & k & E & _). rewrite E in H. discriminate. Qed.

  (** *** Block comments *)
  Definition in_block : gexp := Or (Name R_MultiLineComment) (Then (Not (Text (lit "%%%"))) (Name R_ANY)).
  Lemma strip_skip : forall w s k, strip_prefix w s = Some k -> s = w ++ k /\ skipn (length w) s = k.
  Proof. intros w s k H. apply strip_prefix_app in H. subst s. split; [reflexivity|]. rewrite skipn_app, skipn_all, Nat.sub_diag. reflexivity. Qed.
  (** inside a comment, a %%% starts another comment if that one has an end too, and ends this one if not *)
  Fixpoint block_end (fuel : nat) (s : str) : option str :=
    match fuel with
    | O => None
    | S f =>
        if starts_with (lit "%%%") s
        then match block_end f (skipn 3 s) with Some s' => block_end f s' | None => Some (skipn 3 s) end
        else match s with [] => None | _ :: s' => block_end f s' end
    end.
  Lemma block_fuel : forall f s, (forall r, block_end f s = Some r -> length r < length s) /\ forall f', length s < f -> length s < f' -> block_end f s = block_end f' s.
  Proof.
    induction f as [|f IH]; intros s; [split; [discriminate|lia]|]. cbn [block_end]. unfold starts_with. destruct (strip_prefix (lit "%%%") s) as [k|] eqn:E.
    - apply strip_skip in E as [-> E]. change (length (lit "%%%")) with 3 in E. rewrite E. rewrite app_length. change (length (lit "%%%")) with 3.
      destruct (IH k) as [S1 F1]. split.
      + intros r. destruct (block_end f k) as [s'|] eqn:B.
        * intros H. specialize (S1 _ eq_refl). apply (proj1 (IH s')) in H. lia.
        * intros H. injection H as <-. lia.
      + intros [|f'] L L'; [lia|]. cbn [block_end]. unfold starts_with. rewrite strip_prefix_self, E. rewrite <- (F1 f') by lia.
        destruct (block_end f k) as [s'|] eqn:B; [|reflexivity]. specialize (S1 _ eq_refl). apply (proj2 (IH s')); lia.
    - destruct s as [|c s]; [split; [discriminate|intros [|f'] L L'; [lia|reflexivity]]|]. destruct (IH s) as [S1 F1]. cbn [length]. split.
      + intros r H. apply S1 in H. lia.
      + intros [|f'] L L'; [lia|]. cbn [block_end]. unfold starts_with. rewrite E. apply F1; lia.
  Qed.
  Definition block (s : str) : option str := block_end (S (length s)) s.
  Lemma block_any : forall f s, length s < f -> block_end f s = block s.
  Proof. intros f s L. apply (proj2 (block_fuel f s)); lia. Qed.
  Lemma block_shorter : forall s r, block s = Some r -> length r < length s.
  Proof. intros s. apply (proj1 (block_fuel _ s)). Qed.
  Lemma block_open : forall k, block (lit "%%%" ++ k) = match block k with Some s' => block s' | None => Some k end.
  Proof.
    intros k. unfold block at 1. cbn [block_end]. unfold starts_with. rewrite strip_prefix_self. change (skipn 3 (lit "%%%" ++ k)) with k.
    rewrite app_length. change (length (lit "%%%")) with 3. rewrite (block_any _ k) by lia. destruct (block k) as [s'|] eqn:B; [|reflexivity].
    apply block_shorter in B. apply block_any. lia.
  Qed.
  Lemma block_skip : forall c s, strip_prefix (lit "%%%") (c :: s) = None -> block (c :: s) = block s.
  Proof. intros c s H. unfold block at 1. cbn [block_end]. unfold starts_with. rewrite H. apply block_any. cbn [length]. lia. Qed.
  Lemma markers_open : forall k, markers (lit "%%%" ++ k) = S (markers k). Proof. reflexivity. Qed.
  Lemma markers_skip : forall c s, strip_prefix (lit "%%%") (c :: s) = None -> markers (c :: s) = markers s.
  Proof.
    intros c s H. cbn [markers]. destruct s as [|d [|e s]]; try reflexivity. change (lit "%%%") with [37; 37; 37]%N in H. cbn [strip_prefix] in H.
    rewrite (N.eqb_sym c), (N.eqb_sym d), (N.eqb_sym e). destruct (37 =? c)%N; [|reflexivity]. destruct (37 =? d)%N; [|reflexivity]. destruct (37 =? e)%N; [discriminate H|reflexivity].
  Qed.
  Lemma after_marker_split : forall s r, after_marker s = Some r -> markers s = S (markers r) /\ length r < length s.
  Proof.
    induction s as [|c s IH]; intros r H; cbn [after_marker] in H; unfold starts_with in H.
    - discriminate H.
    - destruct (strip_prefix (lit "%%%") (c :: s)) as [k|] eqn:E.
      + apply strip_skip in E as [E1 E2]. change (length (lit "%%%")) with 3 in E2. rewrite E2 in H. injection H as <-. rewrite E1, app_length. change (length (lit "%%%")) with 3. split; [reflexivity|lia].
      + rewrite (markers_skip c s E). apply IH in H as [H1 H2]. split; [exact H1|cbn [length]; lia].
  Qed.
  Lemma after_marker_none : forall s, after_marker s = None -> markers s = 0.
  Proof.
    induction s as [|c s IH]; intros H; [reflexivity|]. cbn [after_marker] in H. unfold starts_with in H. destruct (strip_prefix (lit "%%%") (c :: s)) as [k|] eqn:E; [discriminate|].
    rewrite (markers_skip c s E). apply IH. exact H.
  Qed.
  Lemma block_first : forall s, block s = match after_marker s with Some k => match block k with Some s' => block s' | None => Some k end | None => None end.
  Proof.
    induction s as [|c s IH]; [reflexivity|]. cbn [after_marker]. unfold starts_with. destruct (strip_prefix (lit "%%%") (c :: s)) as [k|] eqn:E.
    - apply strip_skip in E as [E1 E2]. change (length (lit "%%%")) with 3 in E2. rewrite E2, E1. apply block_open.
    - rewrite (block_skip c s E). exact IH.
  Qed.
  Lemma block_odd : forall n s, length s < n -> block s = if Nat.odd (markers s) then after_marker s else None.
  Proof.
    induction n as [|n IH]; intros s L; [lia|]. rewrite block_first. destruct (after_marker s) as [k|] eqn:A; [|destruct (Nat.odd _); reflexivity].
    destruct (after_marker_split s k A) as [M L1]. rewrite M, Nat.odd_succ, <- Nat.negb_odd. rewrite (IH k) by lia. destruct (Nat.odd (markers k)) eqn:O; cbn [negb]; [|reflexivity].
    destruct (after_marker k) as [k'|] eqn:A'; [|apply after_marker_none in A'; rewrite A' in O; discriminate O].
    destruct (after_marker_split k k' A') as [M' L2]. rewrite (IH k') by lia. rewrite M', Nat.odd_succ, <- Nat.negb_odd in O. apply negb_true_iff in O. rewrite O. reflexivity.
  Qed.
  Lemma block_is : forall s, block s = if Nat.odd (markers s) then after_marker s else None.
  Proof. intros s. eapply block_odd. apply Nat.lt_succ_diag_r. Qed.

  Lemma block_loop : forall n s, length (rest s) < n -> loop CompoundAtomic in_block s (match block (rest s) with Some r => lit "%%%" ++ r | None => [] end) (stk s).
  Proof.
    induction n as [|n IH]; intros s L; [lia|]. assert (M : CompoundAtomic <> NonAtomic) by discriminate.
    destruct (strip_prefix (lit "%%%") (rest s)) as [k|] eqn:E.
    - apply strip_skip in E as [E _]. rewrite E, block_open. rewrite E, app_length in L. change (length (lit "%%%")) with 3 in L.
      assert (Lo : forall s1, rest s1 = k -> stk s1 = stk s -> loop CompoundAtomic in_block s1 (match block k with Some r => lit "%%%" ++ r | None => [] end) (stk s)).
      { intros s1 <- <-. apply IH. lia. }
      destruct (block k) as [s'|] eqn:B.
      + pose proof (block_shorter _ _ B) as Ls. apply (loop_more _ _ _ s' (stk s)); [exact M| |intros s1 <- <-; apply IH; lia].
        apply ok_or1. eapply ok_rule; [reflexivity|]. cbn [body_mode implicit].
        eapply ok_then; [exact M|eapply ok_then; [exact M|apply ok_text; exact E|intros s1 H1 H2; apply ok_many; [exact M|apply Lo; [exact H1|exact H2]]]|].
        intros s1 H1 H2. rewrite <- H2. apply ok_text. exact H1.
      + rewrite <- E. apply loop_stop; [exact M|]. apply no_or.
        * eapply no_rule; [reflexivity|]. cbn [body_mode implicit].
          eapply no_then; [exact M|eapply ok_then; [exact M|apply ok_text; exact E|intros s1 H1 H2; apply ok_many; [exact M|apply Lo; [exact H1|exact H2]]]|].
          intros s1 H1 H2. apply no_text. rewrite H1. reflexivity.
        * apply r_then_no1. eapply no_not. apply ok_text. exact E.
    - assert (NM : forall m, reads m (Name R_MultiLineComment) s None) by (intros m; eapply no_rule; [reflexivity|]; apply r_then_no1, r_then_no1, no_text, E).
      destruct (rest s) as [|c k] eqn:R.
      + change (block []) with (@None str). cbv iota. rewrite <- R. apply loop_stop; [exact M|]. apply no_or; [apply NM|].
        eapply no_then; [exact M|apply ok_not, no_text; rewrite R; exact E|]. intros s1 H1 _. apply no_any. congruence.
      + rewrite (block_skip _ _ E). apply (loop_more _ _ _ k (stk s)); [exact M| |intros s1 <- <-; apply IH; cbn [length] in L; lia].
        apply ok_or2; [apply NM|]. eapply ok_then; [exact M|apply ok_not, no_text; rewrite R; exact E|]. intros s1 H1 H2. rewrite <- H2. eapply ok_any. rewrite H1. exact R.
  Qed.
  Lemma block_comment : forall m s, match (if starts_with (lit "%%%") (rest s) then block (skipn 3 (rest s)) else None) with
    | Some r => ok m (Name R_MultiLineComment) s r (stk s)
    | None => reads m (Name R_MultiLineComment) s None
    end.
  Proof.
    intros m s. assert (M : CompoundAtomic <> NonAtomic) by discriminate. unfold starts_with. destruct (strip_prefix (lit "%%%") (rest s)) as [k|] eqn:E.
    - apply strip_skip in E as [E F]. change (length (lit "%%%")) with 3 in F. rewrite F.
      assert (Lo : ok CompoundAtomic (Then (Text (lit "%%%")) (Many in_block)) s (match block k with Some r => lit "%%%" ++ r | None => [] end) (stk s)).
      { eapply ok_then; [exact M|apply ok_text; exact E|]. intros s1 <- <-. apply ok_many; [exact M|]. eapply block_loop. apply Nat.lt_succ_diag_r. }
      destruct (block k) as [r|].
      + eapply ok_rule; [reflexivity|]. cbn [body_mode implicit]. eapply ok_then; [exact M|exact Lo|]. intros s1 H1 H2. rewrite <- H2. apply ok_text. exact H1.
      + eapply no_rule; [reflexivity|]. cbn [body_mode implicit]. eapply no_then; [exact M|exact Lo|]. intros s1 H1 H2. apply no_text. rewrite H1. reflexivity.
    - eapply no_rule; [reflexivity|]. apply r_then_no1, r_then_no1, no_text, E.
  Qed.

  (** *** Line comments *)
  Definition in_line : gexp := Then (Not (Name R_NEWLINE)) (Name R_ANY).
  Lemma newline_no : forall m s, match rest s with c :: _ => line_end c = false | [] => True end -> reads m (Name R_NEWLINE) s None.
  Proof.
    intros m s H. eapply no_rule; [reflexivity|]. apply no_or; [apply no_or|]; apply no_text; destruct (rest s) as [|c k]; try reflexivity; cbn [strip_prefix]; unfold line_end in H; apply orb_false_iff in H as [H1 H2].
    - rewrite N.eqb_sym, H1. reflexivity.
    - rewrite N.eqb_sym, H2. reflexivity.
    - rewrite N.eqb_sym, H2. reflexivity.
  Qed.
  Lemma newline_ok : forall m s c k, rest s = c :: k -> line_end c = true -> exists k' st, ok m (Name R_NEWLINE) s k' st.
  Proof.
    intros m s c k H L. unfold line_end in L. apply orb_prop in L as [L|L]; apply N.eqb_eq in L; subst c.
    - exists k, (stk s). eapply ok_rule; [reflexivity|]. apply ok_or1, ok_or1, ok_text. exact H.
    - destruct (strip_prefix [13; 10]%N (rest s)) as [k'|] eqn:E.
      + exists k', (stk s). eapply ok_rule; [reflexivity|]. apply ok_or1, ok_or2; [apply no_text; rewrite H; reflexivity|]. apply ok_text. apply strip_prefix_app. exact E.
      + exists k, (stk s). eapply ok_rule; [reflexivity|]. apply ok_or2; [apply no_or; apply no_text; [rewrite H; reflexivity|exact E]|]. apply ok_text. exact H.
  Qed.
  Lemma line_loop : forall m s, m <> NonAtomic -> loop m in_line s (next_line (rest s)) (stk s).
  Proof.
    intros m s M. remember (rest s) as w eqn:E. symmetry in E. revert s E. induction w as [|c w IH]; intros s E; cbn [next_line].
    - rewrite <- E. apply loop_stop; [exact M|]. eapply no_then; [exact M|apply ok_not, newline_no; rewrite E; exact I|]. intros s1 H1 _. apply no_any. congruence.
    - destruct (line_end c) eqn:L.
      + rewrite <- E. apply loop_stop; [exact M|]. apply r_then_no1. destruct (newline_ok m s c w E L) as (k' & st & H). eapply no_not. exact H.
      + apply (loop_more m in_line s w (stk s)); [exact M| |intros s1 H1 <-; apply IH; exact H1].
        eapply ok_then; [exact M|apply ok_not, newline_no; rewrite E; exact L|]. intros s1 H1 H2. rewrite <- H2. eapply ok_any. rewrite H1. exact E.
  Qed.
  Lemma line_part : forall w s k, rest s = w ++ k -> next_line (w ++ k) = next_line k -> ok Atomic (Then (Text w) (Many in_line)) s (next_line (rest s)) (stk s).
  Proof.
    intros w s k H N. eapply ok_then; [discriminate|apply ok_text; exact H|]. intros s1 H1 <-. rewrite H, N, <- H1. apply ok_many; [discriminate|]. apply line_loop. discriminate.
  Qed.
  Lemma comment_reads : forall m s, match after_comment (rest s) with
    | Some r => ok m (Name R_COMMENT) s r (stk s)
    | None => reads m (Name R_COMMENT) s None
    end.
  Proof.
    intros m s. pose proof (block_comment Atomic s) as B. unfold after_comment. destruct (starts_with (lit "%%%") (rest s)) eqn:E.
    - rewrite <- block_is.
      destruct (block (skipn 3 (rest s))) as [r|]; [eapply ok_rule; [reflexivity|]; do 4 apply ok_or1; exact B|].
      unfold starts_with in E. destruct (strip_prefix (lit "%%%") (rest s)) as [k|] eqn:E'; [|discriminate]. apply strip_prefix_app in E'.
      eapply no_rule; [reflexivity|]. repeat apply no_or; [exact B|..]; apply r_then_no1, no_text; rewrite E'; reflexivity.
    - unfold comment_start. cbn [existsb]. rewrite E, !orb_false_r.
      assert (T : forall w, In w [lit "///"; lit "//?"; lit "//!"; lit "//*"] -> starts_with w (rest s) = true -> ok Atomic (Then (Text w) (Many in_line)) s (next_line (rest s)) (stk s)).
      { intros w I S. unfold starts_with in S. destruct (strip_prefix w (rest s)) as [k|] eqn:W; [|discriminate]. apply strip_prefix_app in W. apply (line_part w s k W).
        repeat (destruct I as [<-|I]; [reflexivity|]). destruct I. }
      assert (F : forall w, starts_with w (rest s) = false -> reads Atomic (Then (Text w) (Many in_line)) s None).
      { intros w S. apply r_then_no1, no_text. unfold starts_with in S. destruct (strip_prefix w (rest s)); [discriminate|reflexivity]. }
      destruct (starts_with (lit "///") (rest s)) eqn:E1; [|destruct (starts_with (lit "//?") (rest s)) eqn:E2; [|destruct (starts_with (lit "//!") (rest s)) eqn:E3; [|destruct (starts_with (lit "//*") (rest s)) eqn:E4]]];
        cbn [orb]; [eapply ok_rule; [reflexivity|]..|eapply no_rule; [reflexivity|]]; cbn [body_mode implicit].
      + do 3 apply ok_or1. apply ok_or2; [exact B|]. apply T; [cbn; auto|exact E1].
      + do 2 apply ok_or1. apply ok_or2; [apply no_or; [exact B|apply F; exact E1]|]. apply T; [cbn; auto|exact E2].
      + apply ok_or1. apply ok_or2; [apply no_or; [apply no_or; [exact B|apply F; exact E1]|apply F; exact E2]|]. apply T; [cbn; auto|exact E3].
      + apply ok_or2; [apply no_or; [apply no_or; [apply no_or; [exact B|apply F; exact E1]|apply F; exact E2]|apply F; exact E3]|]. apply T; [cbn; auto|exact E4].
      + apply no_or; [apply no_or; [apply no_or; [apply no_or; [exact B|apply F; exact E1]|apply F; exact E2]|apply F; exact E3]|apply F; exact E4].
  Qed.

  (** *** Strings *)
  Lemma ok_quote : forall m s k, rest s = 34%N :: k -> ok m (Name R_Quotation) s k (stk s).
  Proof. intros m s k H. eapply ok_rule; [reflexivity|]. apply ok_text. exact H. Qed.
  Lemma no_quote : forall m s, match rest s with c :: _ => (c =? 34)%N = false | [] => True end -> reads m (Name R_Quotation) s None.
  Proof. intros m s H. eapply no_rule; [reflexivity|]. apply no_text. destruct (rest s) as [|c k]; [reflexivity|]. cbn [strip_prefix]. rewrite N.eqb_sym, H. reflexivity. Qed.
  Lemma ok_escape : forall m s k, rest s = 92%N :: k -> ok m (Name R_Escape) s k (stk s).
  Proof. intros m s k H. eapply ok_rule; [reflexivity|]. apply ok_text. exact H. Qed.
  Lemma no_escape : forall m s, match rest s with c :: _ => (c =? 92)%N = false | [] => True end -> reads m (Name R_Escape) s None.
  Proof. intros m s H. eapply no_rule; [reflexivity|]. apply no_text. destruct (rest s) as [|c k]; [reflexivity|]. change (lit "\") with [92%N]. cbn [strip_prefix]. rewrite N.eqb_sym, H. reflexivity. Qed.
  Definition in_string : gexp := Or (Then (Name R_Escape) (Or (Name R_Quotation) (Name R_Escape))) (Then (Not (Name R_Quotation)) (Name R_ANY)).
  Lemma string_loop : forall n s, length (rest s) < n -> loop Atomic in_string s (match after_quote (rest s) with Some r => 34%N :: r | None => [] end) (stk s).
  Proof.
    induction n as [|n IH]; intros s L; [lia|]. assert (M : Atomic <> NonAtomic) by discriminate. destruct (rest s) as [|c k] eqn:E; cbn [after_quote length] in *.
    - rewrite <- E. apply loop_stop; [exact M|]. apply no_or; [apply r_then_no1, no_escape; rewrite E; exact I|].
      eapply no_then; [exact M|apply ok_not, no_quote; rewrite E; exact I|]. intros s1 H1 _. apply no_any. congruence.
    - destruct (N.eqb_spec c 34) as [->|C].
      + enough (X : loop Atomic in_string s (rest s) (stk s)) by (rewrite E in X; exact X). apply loop_stop; [exact M|]. apply no_or; [apply r_then_no1, no_escape; rewrite E; reflexivity|]. apply r_then_no1. eapply no_not. apply ok_quote. exact E.
      + assert (One : reads Atomic (Then (Name R_Escape) (Or (Name R_Quotation) (Name R_Escape))) s None -> ok Atomic in_string s k (stk s)).
        { intros N. apply ok_or2; [exact N|]. eapply ok_then; [exact M|apply ok_not, no_quote; rewrite E; apply N.eqb_neq; exact C|]. intros s1 H1 H2. rewrite <- H2. eapply ok_any. rewrite H1. exact E. }
        destruct (N.eqb_spec c 92) as [->|D].
        * destruct k as [|d k].
          { apply (loop_more _ _ _ [] (stk s)); [exact M| |intros s1 H1 <-; specialize (IH s1); rewrite H1 in IH; apply IH; cbn; lia].
            apply One. eapply no_then; [exact M|apply ok_escape; exact E|]. intros s1 H1 _. apply no_or; [apply no_quote|apply no_escape]; rewrite H1; exact I. }
          destruct ((d =? 34) || (d =? 92))%N eqn:Q.
          { cbn [length] in L. apply (loop_more _ _ _ k (stk s)); [exact M| |intros s1 <- <-; apply IH; lia]. apply ok_or1. eapply ok_then; [exact M|apply ok_escape; exact E|].
            intros s1 H1 H2. rewrite <- H2. destruct (N.eqb_spec d 34) as [->|D].
            - apply ok_or1, ok_quote. exact H1.
            - cbn [orb] in Q. apply N.eqb_eq in Q. subst d. apply ok_or2; [apply no_quote; rewrite H1; reflexivity|]. apply ok_escape. exact H1. }
          { apply orb_false_iff in Q as [Q1 Q2]. apply (loop_more _ _ _ (d :: k) (stk s)); [exact M| |intros s1 H1 <-; specialize (IH s1); rewrite H1 in IH; apply IH; lia].
            apply One. eapply no_then; [exact M|apply ok_escape; exact E|]. intros s1 H1 _. apply no_or; [apply no_quote|apply no_escape]; rewrite H1; assumption. }
        * apply (loop_more _ _ _ k (stk s)); [exact M| |intros s1 <- <-; apply IH; lia]. apply One. apply r_then_no1, no_escape. rewrite E. apply N.eqb_neq. exact D.
  Qed.
  Definition after_normal (s : str) : option str := match s with c :: k => if (c =? 34)%N then after_quote k else None | [] => None end.
  Lemma normal_decides : forall m s, match after_normal (rest s) with
    | Some r => ok m (Name R_StringNormal) s r (stk s)
    | None => reads m (Name R_StringNormal) s None
    end.
  Proof.
    intros m s. assert (M : Atomic <> NonAtomic) by discriminate.
    assert (N : match rest s with c :: _ => (c =? 34)%N = false | [] => True end -> reads m (Name R_StringNormal) s None).
    { intros H. eapply no_rule; [reflexivity|]; apply r_then_no1, r_then_no1, no_quote; exact H. }
    unfold after_normal. destruct (rest s) as [|c k] eqn:E; [apply N; exact I|]. destruct (N.eqb_spec c 34) as [->|C]; [|apply N; reflexivity].
    assert (Lo : ok Atomic (Then (Name R_Quotation) (Many in_string)) s (match after_quote k with Some r => 34%N :: r | None => [] end) (stk s)).
    { eapply ok_then; [exact M|apply ok_quote; exact E|]. intros s2 <- <-. apply ok_many; [exact M|]. eapply string_loop. apply Nat.lt_succ_diag_r. }
    destruct (after_quote k) as [r|].
    - eapply ok_rule; [reflexivity|]. cbn [body_mode implicit]. eapply ok_then; [exact M|exact Lo|]. intros s2 H1 <-. apply ok_quote. exact H1.
    - eapply no_rule; [reflexivity|]. cbn [body_mode implicit]. eapply no_then; [exact M|exact Lo|]. intros s2 H1 _. apply no_quote. rewrite H1. exact I.
  Qed.
  Lemma normal_reads : forall m s s1 t, reads m (Name R_StringNormal) s (Some (s1, t)) -> exists k, rest s = 34%N :: k /\ after_quote k = Some (rest s1).
  Proof.
    intros m s s1 t R. pose proof (normal_decides m s) as D. unfold after_normal in D. destruct (rest s) as [|c k]; [pose proof (reads_once U _ _ _ _ _ R D); discriminate|].
    destruct (N.eqb_spec c 34) as [->|C]; [|pose proof (reads_once U _ _ _ _ _ R D); discriminate]. exists k. split; [reflexivity|].
    destruct (after_quote k) as [r|]; [|pose proof (reads_once U _ _ _ _ _ R D); discriminate]. f_equal. symmetry. eapply ok_reads; [exact D|exact R].
  Qed.

  (** *** Strings in three or more quotes *)
  Notation three := (Times 3 (Name R_Quotation)).
  Lemma ok_three : forall m s k, m <> NonAtomic -> rest s = 34%N :: 34%N :: 34%N :: k -> ok m three s k (stk s).
  Proof.
    intros m s k M E. destruct (ok_then m (Name R_Quotation) (Then (Name R_Quotation) (Name R_Quotation)) s _ _ k (stk s) M (ok_quote m s _ E)) as (s1 & t & R & H).
    - intros s1 H1 <-. eapply ok_then; [exact M|apply ok_quote; exact H1|]. intros s2 H2 <-. apply ok_quote. exact H2.
    - exists s1, t. split; [apply r_times; exact R|exact H].
  Qed.
  Lemma no_three : forall m s, m <> NonAtomic -> strip_prefix [34; 34; 34]%N (rest s) = None -> reads m three s None.
  Proof.
    intros m s M H. apply r_times. cbn [times]. destruct (rest s) as [|a k] eqn:E; [apply r_then_no1, no_quote; rewrite E; exact I|].
    destruct (N.eqb_spec a 34) as [->|N]; [|apply r_then_no1, no_quote; rewrite E; apply N.eqb_neq; exact N].
    eapply no_then; [exact M|apply ok_quote; exact E|]. intros s1 H1 _. destruct k as [|b k]; [apply r_then_no1, no_quote; rewrite H1; exact I|].
    destruct (N.eqb_spec b 34) as [->|N]; [|apply r_then_no1, no_quote; rewrite H1; apply N.eqb_neq; exact N].
    eapply no_then; [exact M|apply ok_quote; exact H1|]. intros s2 H2 _. apply no_quote. rewrite H2. destruct k as [|c k]; [exact I|]. cbn [strip_prefix] in H. change (34 =? 34)%N with true in H. cbv iota in H.
    rewrite N.eqb_sym. destruct (34 =? c)%N; [discriminate|reflexivity].
  Qed.
  Lemma three_more : forall j s, strip_prefix (repeat 34%N (3 + j)) s = match strip_prefix [34; 34; 34]%N s with Some k => strip_prefix (repeat 34%N j) k | None => None end.
  Proof.
    intros j s. cbn [Nat.add repeat strip_prefix]. destruct s as [|a s]; [reflexivity|]. destruct (34 =? a)%N; [|reflexivity]. destruct s as [|b s]; [reflexivity|]. destruct (34 =? b)%N; [|reflexivity].
    destruct s as [|c s]; [reflexivity|]. destruct (34 =? c)%N; reflexivity.
  Qed.
  Lemma fence_peek : forall m j s st, m <> NonAtomic -> stk s = repeat 34%N j :: st ->
    match strip_prefix (repeat 34%N (3 + j)) (rest s) with
    | Some k => ok m (Then three (Name R_PEEK)) s k (stk s)
    | None => reads m (Then three (Name R_PEEK)) s None
    end.
  Proof.
    intros m j s st M S. rewrite three_more. destruct (strip_prefix [34; 34; 34]%N (rest s)) as [k|] eqn:E; [|apply r_then_no1, no_three; assumption].
    apply strip_prefix_app in E. destruct (strip_prefix (repeat 34%N j) k) as [r|] eqn:F.
    - apply strip_prefix_app in F. eapply ok_then; [exact M|apply ok_three; [exact M|exact E]|]. intros s1 H1 H2. rewrite S in H2. destruct (ok_text m (repeat 34%N j) s1 r ltac:(congruence)) as (s2 & t & R & H3 & H4).
      exists s2, t. split; [eapply r_peek; [reflexivity|exact H2|exact R]|]. split; [exact H3|congruence].
    - eapply no_then; [exact M|apply ok_three; [exact M|exact E]|]. intros s1 H1 H2. rewrite S in H2. eapply r_peek; [reflexivity|exact H2|]. apply no_text. rewrite H1. exact F.
  Qed.
  Definition in_fence : gexp := Then (Not (Then three (Name R_PEEK))) (Name R_ANY).
  Lemma fence_loop : forall j st w s, rest s = w -> stk s = repeat 34%N j :: st ->
    loop Atomic in_fence s (match after_quotes (3 + j) w with Some r => repeat 34%N (3 + j) ++ r | None => [] end) (stk s).
  Proof.
    intros j st. assert (M : Atomic <> NonAtomic) by discriminate. induction w as [|c w IH]; intros s E S.
    - cbn [after_quotes]. unfold starts_with. assert (F : strip_prefix (repeat 34%N (3 + j)) (@nil char) = None) by reflexivity. rewrite F. rewrite <- E. apply loop_stop; [exact M|].
      pose proof (fence_peek Atomic j s st M S) as P. rewrite E, F in P. eapply no_then; [exact M|apply ok_not; exact P|]. intros s1 H1 _. apply no_any. congruence.
    - cbn [after_quotes]. unfold starts_with. pose proof (fence_peek Atomic j s st M S) as P. rewrite E in P. destruct (strip_prefix (repeat 34%N (3 + j)) (c :: w)) as [k|] eqn:F.
      + apply strip_skip in F as [F1 F2]. rewrite repeat_length in F2. unfold str, char in *. rewrite F2, <- F1, <- E. apply loop_stop; [exact M|]. apply r_then_no1. eapply no_not. exact P.
      + apply (loop_more _ _ _ w (stk s)); [exact M| |intros s1 H1 H2; rewrite <- H2; apply IH; [exact H1|congruence]].
        eapply ok_then; [exact M|apply ok_not; exact P|]. intros s1 H1 H2. rewrite <- H2. eapply ok_any. rewrite H1. exact E.
  Qed.
  Lemma quotes_split : forall s, s = repeat 34%N (quotes s) ++ skipn (quotes s) s /\ match skipn (quotes s) s with c :: _ => (c =? 34)%N = false | [] => True end.
  Proof.
    induction s as [|c s [IH1 IH2]]; [split; [reflexivity|exact I]|]. cbn [quotes]. destruct (N.eqb_spec c 34) as [->|N]; cbn [repeat skipn app].
    - split; [f_equal; exact IH1|exact IH2].
    - split; [reflexivity|apply N.eqb_neq; exact N].
  Qed.
  Lemma quote_loop : forall m j s t, m <> NonAtomic -> rest s = repeat 34%N j ++ t -> match t with c :: _ => (c =? 34)%N = false | [] => True end -> loop m (Name R_Quotation) s t (stk s).
  Proof.
    intros m j. induction j as [|j IH]; intros s t M E T; cbn [repeat app] in E.
    - rewrite <- E. apply loop_stop; [exact M|]. apply no_quote. rewrite E. exact T.
    - apply (loop_more _ _ _ (repeat 34%N j ++ t) (stk s)); [exact M|apply ok_quote; exact E|]. intros s1 H1 <-. apply IH; assumption.
  Qed.
  Lemma fence_reads : forall m s, let n := quotes (rest s) in
    match (if 3 <=? n then after_quotes n (skipn n (rest s)) else None) with
    | Some r => ok m (Name R_StringBlock) s r (stk s)
    | None => reads m (Name R_StringBlock) s None
    end.
  Proof.
    intros m s n. assert (M : CompoundAtomic <> NonAtomic) by discriminate. destruct (quotes_split (rest s)) as [E T]. fold n in E, T. destruct (Nat.leb_spec 3 n) as [L|L].
    - assert (N : n = 3 + (n - 3)) by lia. set (j := n - 3) in *. clearbody j n. subst n. set (t := skipn (3 + j) (rest s)) in *. clearbody t.
      assert (Head : ok CompoundAtomic (Then three (Push (Many (Name R_Quotation)))) s t (repeat 34%N j :: stk s)).
      { eapply ok_then; [exact M|apply ok_three; [exact M|exact E]|]. intros s1 H1 <-. pose proof H1 as H1'. change (rest s1 = repeat 34%N j ++ t) in H1.
        destruct (ok_many CompoundAtomic _ s1 t (stk s1) M (quote_loop CompoundAtomic j s1 t M H1 T)) as (s2 & tr & R & H2 & H3).
        exists (with_stack s2 (repeat 34%N j :: stk s2)), tr. split; [|split; [exact H2|cbn [with_stack stk]; rewrite H3; reflexivity]]. apply r_push; [exact R|]. rewrite H1, H2. reflexivity. }
      assert (First : forall s1, rest s1 = t -> stk s1 = repeat 34%N j :: stk s -> t <> [] -> after_quotes (3 + j) t = after_quotes (3 + j) (tl t) /\ ok Atomic in_fence s1 (tl t) (stk s1)).
      { intros s1 H1 H2 X. destruct t as [|c t]; [congruence|]. assert (F : strip_prefix (repeat 34%N (3 + j)) (c :: t) = None) by (cbn [Nat.add repeat strip_prefix]; rewrite N.eqb_sym, T; reflexivity).
        split; [cbn [after_quotes tl]; unfold starts_with; rewrite F; reflexivity|]. pose proof (fence_peek Atomic j s1 (stk s) ltac:(discriminate) H2) as P. rewrite H1, F in P.
        eapply ok_then; [discriminate|apply ok_not; exact P|]. intros s2 H3 H4. rewrite <- H4. eapply ok_any. rewrite H3. exact H1. }
      assert (Text1 : t <> [] -> forall s1, rest s1 = t -> stk s1 = repeat 34%N j :: stk s ->
        ok CompoundAtomic (Name R_StringText) s1 (match after_quotes (3 + j) t with Some r => repeat 34%N (3 + j) ++ r | None => [] end) (stk s1)).
      { intros X s1 H1 H2. destruct (First s1 H1 H2 X) as [-> F]. eapply ok_rule; [reflexivity|]. cbn [body_mode implicit].
        destruct (ok_then Atomic in_fence (Many in_fence) s1 _ _ (match after_quotes (3 + j) (tl t) with Some r => repeat 34%N (3 + j) ++ r | None => [] end) (stk s1) ltac:(discriminate) F) as (s2 & tr & R & H3).
        - intros s2 H3 H4. apply ok_many; [discriminate|]. rewrite <- H4. eapply fence_loop; [exact H3|rewrite H4; exact H2].
        - exists s2, tr. split; [apply r_several; exact R|exact H3]. }
      destruct t as [|c t].
      + assert (A : after_quotes (3 + j) (@nil char) = None) by reflexivity. rewrite A. eapply no_rule; [reflexivity|]. cbn [body_mode implicit]. apply r_then_no1, r_then_no1.
        eapply no_then; [exact M|exact Head|]. intros s1 H1 H2. eapply no_rule; [reflexivity|]. cbn [body_mode implicit]. apply r_several, r_then_no1.
        pose proof (fence_peek Atomic j s1 (stk s) ltac:(discriminate) H2) as P. rewrite H1 in P. change (strip_prefix (repeat 34%N (3 + j)) (@nil char)) with (@None str) in P.
        eapply no_then; [discriminate|apply ok_not; exact P|]. intros s2 H3 _. apply no_any. congruence.
      + specialize (Text1 ltac:(discriminate)). destruct (after_quotes (3 + j) (c :: t)) as [r|].
        * eapply ok_rule; [reflexivity|]. cbn [body_mode implicit].
          eapply ok_then; [exact M|eapply ok_then; [exact M|eapply ok_then; [exact M|exact Head|intros s1 H1 H2; pose proof (Text1 s1 H1 H2) as Y; rewrite H2 in Y; exact Y]|]|].
          -- intros s1 H1 H2. destruct (ok_text CompoundAtomic (repeat 34%N j) (with_stack s1 (stk s)) (34%N :: 34%N :: 34%N :: r)) as (s2 & tr & R & H3).
             { cbn [with_stack rest]. rewrite H1. change (34%N :: 34%N :: 34%N :: r) with (repeat 34%N 3 ++ r). rewrite app_assoc, <- repeat_app, (Nat.add_comm j 3). reflexivity. }
             exists s2, tr. split; [eapply r_pop; [reflexivity|exact H2|exact R]|exact H3].
          -- intros s1 H1 H2. cbn [with_stack stk] in H2. rewrite <- H2. apply ok_three; [exact M|exact H1].
        * eapply no_rule; [reflexivity|]. cbn [body_mode implicit].
          assert (B : ok CompoundAtomic (Then (Then three (Push (Many (Name R_Quotation)))) (Name R_StringText)) s [] (repeat 34%N j :: stk s)).
          { eapply ok_then; [exact M|exact Head|]. intros s1 H1 H2. rewrite <- H2. apply Text1; assumption. }
          destruct j as [|j].
          -- eapply no_then; [exact M|eapply ok_then; [exact M|exact B|]|].
             ++ intros s1 H1 H2. destruct (ok_text CompoundAtomic [] (with_stack s1 (stk s)) [] H1) as (s2 & tr & R & H3). exists s2, tr. split; [eapply r_pop; [reflexivity|exact H2|exact R]|exact H3].
             ++ intros s1 H1 _. apply no_three; [exact M|]. rewrite H1. reflexivity.
          -- apply r_then_no1. eapply no_then; [exact M|exact B|]. intros s1 H1 H2. eapply r_pop; [reflexivity|exact H2|]. apply no_text. cbn [with_stack rest]. rewrite H1. reflexivity.
    - eapply no_rule; [reflexivity|]. cbn [body_mode implicit]. do 4 apply r_then_no1. apply no_three; [exact M|]. rewrite E.
      destruct n as [|[|[|n]]]; [| | |lia]; cbn [repeat app]; destruct (skipn _ (rest s)) as [|c t]; try reflexivity; cbn [strip_prefix]; change (34 =? 34)%N with true; cbv iota; rewrite N.eqb_sym, T; reflexivity.
  Qed.
  Lemma literal_reads : forall m s s1 t, reads m (Or (Name R_StringBlock) (Name R_StringNormal)) s (Some (s1, t)) ->
    (exists k, rest s = 34%N :: k) /\ after_string (rest s) = Some (rest s1).
  Proof.
    intros m s s1 t R. pose proof (fence_reads m s) as F. cbv zeta in F. unfold after_string. inversion R as [| | | | | | |? ? ? ? ? R1|? ? ? ? ? R1 R2| | | | | | | | | | | | | | | | | | | |]; subst.
    - destruct (3 <=? quotes (rest s)) eqn:Q; [|pose proof (reads_once U _ _ _ _ _ F R1); discriminate].
      split; [destruct (rest s) as [|c k]; [discriminate Q|]; cbn [quotes] in Q; destruct (N.eqb_spec c 34) as [->|N]; [eauto|discriminate Q]|].
      destruct (after_quotes (quotes (rest s)) (skipn (quotes (rest s)) (rest s))) as [r|]; [|pose proof (reads_once U _ _ _ _ _ F R1); discriminate].
      f_equal. symmetry. eapply ok_reads; [exact F|exact R1].
    - destruct (normal_reads m s s1 t R2) as (k & E & A). split; [eauto|].
      match goal with |- match ?x with _ => _ end = _ => destruct x as [r|] end; [destruct (ok_no _ _ _ _ _ F R1)|]. rewrite E. exact A.
  Qed.

  (** *** The generated functions *)
  Definition taken (r : rule) (m : atomicity) (s : pstate) (k : str) : Prop := exists n s1 ts, run U grammar skip_body n (ECall r) m false s = POk s1 ts /\ rest s1 = k.
  Lemma decides_taken : forall r (F : str -> option str), ~ In r [R_PEEK; R_POP; R_StringText] ->
    (forall m s, match F (rest s) with Some k => ok m (Name r) s k (stk s) | None => reads m (Name r) s None end) ->
    forall m s k, taken r m s k <-> F (rest s) = Some k.
  Proof.
    intros r F N D m s k. specialize (D m s). unfold taken. split.
    - intros (n & s1 & ts & E & <-). assert (R : reads m (Name r) s (Some (s1, ts))) by (apply rule_accepts; eauto). destruct (F (rest s)) as [k|].
      + f_equal. symmetry. eapply ok_reads; eauto.
      + pose proof (reads_once U _ _ _ _ _ R D). discriminate.
    - intros E. rewrite E in D. destruct D as (s1 & ts & R & <- & _). apply rule_accepts in R; [|exact N]. destruct R as [n R]. exists n, s1, ts. split; [exact R|reflexivity].
  Qed.
  Ltac other_rule := cbn; intros X; decompose [or] X; try discriminate; contradiction.
  Lemma comment_taken : forall m s k, taken R_COMMENT m s k <-> after_comment (rest s) = Some k.
  Proof. apply decides_taken; [other_rule|exact comment_reads]. Qed.
  Lemma normal_taken : forall m s k, taken R_StringNormal m s k <-> exists v, rest s = 34%N :: v /\ after_quote v = Some k.
  Proof.
    intros m s k. rewrite (decides_taken R_StringNormal after_normal ltac:(other_rule) normal_decides). unfold after_normal. split.
    - destruct (rest s) as [|c v]; [discriminate|]. destruct (N.eqb_spec c 34) as [->|]; [eauto|discriminate].
    - intros (v & -> & A). exact A.
  Qed.
  Lemma fence_taken : forall m s k, taken R_StringBlock m s k <-> 3 <= quotes (rest s) /\ after_quotes (quotes (rest s)) (skipn (quotes (rest s)) (rest s)) = Some k.
  Proof.
    intros m s k. rewrite (decides_taken R_StringBlock (fun w => if 3 <=? quotes w then after_quotes (quotes w) (skipn (quotes w) w) else None) ltac:(other_rule) fence_reads).
    destruct (Nat.leb_spec 3 (quotes (rest s))); intuition (lia || discriminate).
  Qed.
  Lemma even_refused : forall g v, spacing g = true -> Nat.even (markers v) = true -> forall f, parse U f (g ++ lit "%%%" ++ v) = Ret (Err SMParseError).
  Proof.
    intros g v G E. apply ProofKeyword.refused_after; [exact G|]. pose proof (block_comment Atomic (mkPs 0 (lit "%%%" ++ v) [])) as B. cbn [rest] in B.
    unfold starts_with in B. rewrite strip_prefix_self in B. change (skipn 3 (lit "%%%" ++ v)) with v in B. rewrite block_is, <- Nat.negb_even, E in B. cbn [negb] in B.
    apply rule_rejects in B; [|other_rule]. destruct B as (n & s1 & ts & B). eapply (ProofComment.uncommented_refused U v s1 ts). eapply ProofSym.ev_base; [exact B|discriminate].
  Qed.
End Reading.

(** ** Scanning *)
(** from s, with the closing brackets of st due, to s', with those of st' due *)
Inductive scan (U : unicode) : str -> str -> str -> str -> Prop :=
| scan_here : forall s st, scan U s st s st
| scan_char : forall c s st st1 s' st', (c =? 34)%N = false -> stranger U c = false -> after_comment (c :: s) = None -> walk [c] st = Some st1 -> scan U s st1 s' st' -> scan U (c :: s) st s' st'
| scan_string : forall k r st s' st', after_string (34%N :: k) = Some r -> scan U r st s' st' -> scan U (34%N :: k) st s' st'
| scan_comment : forall s r st s' st', after_comment s = Some r -> scan U r st s' st' -> scan U s st s' st'.
Lemma scan_trans : forall U s st s1 st1 s2 st2, scan U s st s1 st1 -> scan U s1 st1 s2 st2 -> scan U s st s2 st2.
Proof. induction 1; intros; [assumption|eapply scan_char; eauto|eapply scan_string; eauto|eapply scan_comment; eauto]. Qed.

Lemma next_line_length : forall s, length (next_line s) <= length s.
Proof. induction s as [|c s IH]; [reflexivity|]. cbn [next_line]. destruct (line_end c); cbn [length]; lia. Qed.
Lemma after_comment_shorter : forall s r, after_comment s = Some r -> length r < length s.
Proof.
  intros s r H. unfold after_comment in H. destruct (starts_with (lit "%%%") s) eqn:E.
  - rewrite <- block_is in H. apply block_shorter in H. rewrite skipn_length in H. lia.
  - destruct (comment_start s) eqn:C; [|discriminate]. injection H as <-. destruct s as [|c s]; [discriminate C|].
    assert (L : line_end c = false).
    { unfold comment_start in C. cbn [existsb] in C. unfold starts_with in C, E. cbn [lit] in *. destruct (line_end c) eqn:X; [|reflexivity]. exfalso.
      unfold line_end in X. apply orb_prop in X as [X|X]; apply N.eqb_eq in X; subst c; discriminate C. }
    cbn [next_line length]. rewrite L. pose proof (next_line_length s). lia.
Qed.
Lemma after_quote_shorter : forall n s r, length s < n -> after_quote s = Some r -> length r < length s.
Proof.
  induction n as [|n IH]; intros s r L H; [lia|]. destruct s as [|c s]; [discriminate|]. cbn [after_quote length] in *. destruct (c =? 34)%N; [injection H as <-; lia|].
  destruct (c =? 92)%N; [|apply IH in H; lia]. destruct s as [|d s]; [discriminate|]. cbn [length] in *. destruct ((d =? 34) || (d =? 92))%N; apply IH in H; cbn [length] in *; lia.
Qed.
Lemma after_quotes_length : forall n s r, after_quotes n s = Some r -> length r <= length s.
Proof.
  induction s as [|c s IH]; intros r H; cbn [after_quotes] in H.
  - destruct (starts_with _ _); [injection H as <-; rewrite skipn_nil; reflexivity|discriminate].
  - destruct (starts_with _ _); [injection H as <-; rewrite skipn_length; lia|]. apply IH in H. cbn [length]. lia.
Qed.
Lemma after_string_shorter : forall k r, after_string (34%N :: k) = Some r -> length r < S (length k).
Proof.
  intros k r H. unfold after_string in H. cbv zeta in H. cbn [tl] in H. set (n := quotes (34%N :: k)) in *.
  match type of H with match ?x with _ => _ end = _ => destruct x as [s'|] eqn:E end.
  - injection H as <-. destruct (Nat.leb_spec 3 n); [|discriminate]. apply after_quotes_length in E. rewrite skipn_length in E. clearbody n. cbn [length] in E. unfold str, char in *. lia.
  - apply (after_quote_shorter (S (length k)) k r) in H; unfold str, char in *; lia.
Qed.
Lemma outside_fuel : forall f f' s, length s < f -> length s < f' -> outside_from f s = outside_from f' s.
Proof.
  induction f as [|f IH]; intros f' s L L'; [lia|]. destruct f' as [|f']; [lia|]. destruct s as [|c s]; [reflexivity|]. cbn [outside_from length] in *. destruct (N.eqb_spec c 34) as [->|N].
  - match goal with |- match ?x with _ => _ end = _ => destruct x as [r|] eqn:E end; [|reflexivity]. apply after_string_shorter in E. apply IH; unfold str, char in *; lia.
  - match goal with |- match ?x with _ => _ end = _ => destruct x as [r|] eqn:E end; [apply after_comment_shorter in E; cbn [length] in E; apply IH; unfold str, char in *; lia|]. rewrite (IH f' s) by lia. reflexivity.
Qed.
Lemma outside_any : forall f s, length s < f -> outside_from f s = outside s.
Proof. intros f s L. apply outside_fuel; [exact L|lia]. Qed.
Lemma comment_head : forall c s r, after_comment (c :: s) = Some r -> (c =? 34)%N = false.
Proof. intros c s r H. destruct (N.eqb_spec c 34) as [->|N]; [|reflexivity]. discriminate H. Qed.
Lemma outside_string : forall k r, after_string (34%N :: k) = Some r -> outside (34%N :: k) = outside r.
Proof.
  intros k r A. unfold outside at 1. remember (length (34%N :: k)) as f eqn:F. cbn [outside_from]. change (34 =? 34)%N with true. cbv iota. rewrite A. apply outside_any.
  apply after_string_shorter in A. cbn [length] in F. unfold str, char in *. cbn [length]. lia.
Qed.
Lemma outside_comment : forall s r, after_comment s = Some r -> outside s = outside r.
Proof.
  intros s r A. destruct s as [|c s]; [discriminate A|]. unfold outside at 1. remember (length (c :: s)) as f eqn:F. cbn [outside_from]. rewrite (comment_head c s r A), A.
  apply outside_any. apply after_comment_shorter in A. rewrite <- F in A. exact A.
Qed.
Lemma outside_char : forall c s, (c =? 34)%N = false -> after_comment (c :: s) = None -> outside (c :: s) = match outside s with Some k => Some (c :: k) | None => None end.
Proof.
  intros c s Q A. unfold outside at 1. remember (length (c :: s)) as f eqn:F. cbn [outside_from]. rewrite Q, A, outside_any; [reflexivity|]. unfold str, char in *. cbn [length] in *. lia.
Qed.
Lemma scan_outside : forall U s st s' st', scan U s st s' st' -> s' = [] -> exists k, outside s = Some k /\ walk k st = Some st' /\ forallb (fun c => negb (stranger U c)) k = true.
Proof.
  intros U. induction 1 as [s st|c s st st1 s' st' Q St A W _ IH|k r st s' st' A _ IH|s r st s' st' A _ IH]; intros ->.
  - exists []. repeat split; reflexivity.
  - destruct (IH eq_refl) as (k & O & Wk & F). exists (c :: k). rewrite outside_char, O by assumption. split; [reflexivity|]. split.
    + change (c :: k) with ([c] ++ k). rewrite walk_app, W. exact Wk.
    + cbn [forallb]. rewrite St. exact F.
  - rewrite (outside_string k r A). exact (IH eq_refl).
  - rewrite (outside_comment s r A). exact (IH eq_refl).
Qed.

(** ** Static analysis *)
(** a character that starts neither a string nor a comment *)
Definition sign (c : char) : bool := known_char c || ProofStranger.alnum c.
Definition ordinary (c : char) : bool := negb ((c =? 34) || (c =? 47) || (c =? 37))%N.
Inductive result := Reached (st : str) (fresh : bool) | Unknown.
Inductive need := Free | Fresh | Never.
Section Analysis.
  Variable table : rule -> need.
  Definition skipped (m : atomicity) (fr : bool) : bool := match m with NonAtomic => true | _ => fr end.
  Definition keeps (st : str) (r : result) : bool := match r with Reached st' _ => str_eqb st st' | Unknown => false end.
  Definition known_choice (a b : gexp) : bool := match a, b with Name R_StringBlock, Name R_StringNormal | Name R_WHITESPACE, Name R_COMMENT => true | _, _ => false end.
  Fixpoint effect (m : atomicity) (e : gexp) (st : str) (fr : bool) : result :=
    match e with
    | Text w =>
        if forallb sign w && (forallb ordinary w || fr && (str_eqb w (lit "/") || str_eqb w (lit "//") || str_eqb w (lit "%")))
        then match walk w st with Some st' => Reached st' false | None => Unknown end else Unknown
    | AnyCase w => if forallb ProofStranger.alnum w then Reached st false else Unknown
    | Name r => match table r with Free => Reached st false | Fresh => if fr then Reached st false else Unknown | Never => Unknown end
    | Then a b => match effect m a st fr with Reached st1 f1 => effect m b st1 (skipped m f1) | Unknown => Unknown end
    | Or a b =>
        if known_choice a b then Reached st false else
        match effect m a st fr, effect m b st fr with Reached s1 f1, Reached s2 f2 => if str_eqb s1 s2 then Reached s1 (f1 && f2) else Unknown | _, _ => Unknown end
    | Maybe a => match effect m a st fr with Reached st1 f1 => if str_eqb st st1 then Reached st (fr && f1) else Unknown | Unknown => Unknown end
    | Many a => if keeps st (effect m a st fr) && keeps st (effect m a st (skipped m false)) then Reached st false else Unknown
    | Several a =>
        match effect m a st fr with
        | Reached st1 f1 => if keeps st1 (effect m a st1 (skipped m f1)) && keeps st1 (effect m a st1 (skipped m false)) then Reached st1 false else Unknown
        | Unknown => Unknown
        end
    | Not _ => Reached st fr
    | Times _ _ | Push _ => Unknown
    end.
End Analysis.
Definition needs (r : rule) : need :=
  match r with
  | R_StringNormal | R_StringBlock | R_StringText | R_ANY | R_PEEK | R_POP | R_Quotation | R_MultiLineComment | R_COMMENT | R_MapAll | R_Map | R_Escape | R_Load | R_Save | R_LeftShift | R_RightShift
  | R_LessEqual | R_Less | R_NotEqual | R_Remainder | R_Surd | R_Quote | R_Acute | R_LogicOr | R_LogicAnd | R_Ellipsis | R_LogicXor | R_Concat | R_Destruct => Never
  | R_Infix | R_Divide | R_Slash | R_Quotient | R_Modulo => Fresh
  | _ => Free
  end.
Definition right (r : rule) : bool :=
  match source r with
  | Rule k e => forallb (fun m => keeps [] (effect needs (body_mode r k m) e [] (match needs r with Fresh => true | _ => false end))) [NonAtomic; CompoundAtomic; Atomic]
  | Built b => match b with AnyChar | Peek | Pop => false | _ => true end
  end.
Lemma needs_right : forall r, needs r <> Never -> right r = true.
Proof. intros r H. destruct r; try (exfalso; apply H; reflexivity); vm_compute; reflexivity. Qed.

(** ** What is read is scanned *)
Lemma ordinary_none : forall c s, ordinary c = true -> (c =? 34)%N = false /\ after_comment (c :: s) = None.
Proof.
  intros c s H. unfold ordinary in H. apply negb_true_iff in H. apply orb_false_iff in H as [H H3]. apply orb_false_iff in H as [H1 H2]. split; [exact H1|].
  unfold after_comment, comment_start, starts_with. cbn [existsb]. apply N.eqb_neq in H2, H3.
  change (lit "%%%") with [37; 37; 37]%N. change (lit "///") with [47; 47; 47]%N. change (lit "//?") with [47; 47; 63]%N. change (lit "//!") with [47; 47; 33]%N. change (lit "//*") with [47; 47; 42]%N.
  cbn [strip_prefix]. destruct (N.eqb_spec 37 c); [congruence|]. destruct (N.eqb_spec 47 c); [congruence|]. reflexivity.
Qed.
Lemma sign_known : forall U c, sign c = true -> stranger U c = false.
Proof.
  intros U c H. destruct (stranger U c) eqn:E; [|reflexivity]. destruct (stranger_odd U c E) as (K & A & _). unfold sign in H. rewrite K, A in H. discriminate.
Qed.
Lemma text_scan : forall U w k st st', forallb (fun c => negb (stranger U c)) w = true -> forallb ordinary w = true -> walk w st = Some st' -> scan U (w ++ k) st k st'.
Proof.
  intros U. induction w as [|c w IH]; intros k st st' K O W; [injection W as <-; constructor|]. cbn [forallb] in O, K. apply andb_prop in O as [O1 O2]. apply andb_prop in K as [K1 K2]. apply negb_true_iff in K1.
  change (c :: w) with ([c] ++ w) in W. rewrite walk_app in W. destruct (walk [c] st) as [st1|] eqn:E; [|discriminate]. destruct (ordinary_none c (w ++ k) O1) as [Q A].
  cbn [app]. eapply scan_char; eauto.
Qed.
Definition plain_char (c : char) : bool := ordinary c && negb (bracket c).
Lemma plain_scan : forall U w k st, forallb (fun c => negb (stranger U c)) w = true -> forallb plain_char w = true -> scan U (w ++ k) st k st.
Proof.
  intros U w k st K H. apply text_scan; [exact K| |].
  - rewrite forallb_forall in *. intros x I. apply H in I. apply andb_prop in I. apply I.
  - apply walk_plain. rewrite forallb_forall in *. intros x I. apply H in I. apply andb_prop in I. apply I.
Qed.
Lemma alnum_char : forall c, ProofStranger.alnum c = true -> plain_char c = true.
Proof.
  intros c H. unfold plain_char. rewrite (alnum_plain c H). rewrite andb_true_r. unfold ordinary. apply negb_true_iff.
  destruct (N.eqb_spec c 34); [subst; discriminate|]. destruct (N.eqb_spec c 47); [subst; discriminate|]. destruct (N.eqb_spec c 37); [subst; discriminate|]. reflexivity.
Qed.
Lemma lower_alnum : forall a b, ascii_lower a = ascii_lower b -> ProofStranger.alnum b = true -> ProofStranger.alnum a = true.
Proof.
  intros a b E H. unfold ProofStranger.alnum, ascii_letter, ascii_digit, ascii_lower in *.
  destruct ((65 <=? a) && (a <=? 90))%N eqn:A; destruct ((65 <=? b) && (b <=? 90))%N eqn:B; repeat rewrite ?andb_true_iff, ?andb_false_iff, ?orb_true_iff, ?N.leb_le, ?N.leb_gt in *; lia.
Qed.
Lemma case_plain : forall v w, same_but_case v w -> forallb ProofStranger.alnum w = true -> forallb plain_char v = true /\ forall U, forallb (fun c => negb (stranger U c)) v = true.
Proof.
  intros v w H. induction H as [|a b v w E _ IH]; intros A; [split; reflexivity|]. apply letter_lower in E. cbn [forallb] in *. apply andb_prop in A as [A1 A2]. destruct (IH A2) as [I1 I2]. rewrite I1.
  rewrite (alnum_char a (lower_alnum a b E A1)). split; [reflexivity|]. intros U. rewrite I2. rewrite sign_known; [reflexivity|]. unfold sign. rewrite (lower_alnum a b E A1). apply orb_true_r.
Qed.
Lemma fresh_slash : forall U k st, after_comment (47%N :: k) = None -> scan U (47%N :: k) st k st.
Proof. intros U k st A. eapply scan_char; [reflexivity|apply sign_known; reflexivity|exact A|reflexivity|constructor]. Qed.
Lemma fresh_percent : forall U k st, after_comment (37%N :: k) = None -> scan U (37%N :: k) st k st.
Proof. intros U k st A. eapply scan_char; [reflexivity|apply sign_known; reflexivity|exact A|reflexivity|constructor]. Qed.
Lemma fresh_slashes : forall U k st, after_comment (47%N :: 47%N :: k) = None -> scan U (47%N :: 47%N :: k) st k st.
Proof.
  intros U k st A. eapply scan_char; [reflexivity|apply sign_known; reflexivity|exact A|reflexivity|]. apply fresh_slash. destruct k as [|c k]; [reflexivity|].
  destruct (N.eqb_spec 47 c) as [<-|N]; [discriminate A|]. unfold after_comment, comment_start, starts_with. cbn [existsb].
  change (lit "%%%") with [37; 37; 37]%N. change (lit "///") with [47; 47; 47]%N. change (lit "//?") with [47; 47; 63]%N. change (lit "//!") with [47; 47; 33]%N. change (lit "//*") with [47; 47; 42]%N.
  cbn [strip_prefix]. destruct (N.eqb_spec 47 c); [contradiction|]. reflexivity.
Qed.

Section Scanning.
  Variable U : unicode.
  Notation reads := (SpecPest.reads U source).
  Notation again := (SpecPest.again U source).
  Notation skips := (SpecPest.skips U source).
  Notation scan := (scan U).
  Lemma again_end : forall m e s s1 t, again m e s s1 t -> m <> NonAtomic -> reads m e s1 None.
  Proof. intros m e s s1 t H. induction H as [m a s s1 t1 K N|m a s s1 t1 s2 t2 s3 t3 K R A IH]; intros Q; [|exact (IH Q)]. inversion K; subst; [exact N|congruence]. Qed.
  Lemma many_end : forall m e s s1 t, reads m (Many e) s (Some (s1, t)) -> m <> NonAtomic -> reads m e s1 None.
  Proof. intros m e s s1 t H Q. inversion H; subst; [eapply again_end; eassumption|assumption]. Qed.
  Lemma char_plain : forall b P c, is_char U b = Some P -> b <> AnyChar -> P c -> plain_char c = true.
  Proof.
    assert (Z : forall c, existsb (N.eqb c) [34; 47; 37; 40; 41; 91; 93; 123; 125]%N = false -> plain_char c = true).
    { intros c H. cbn [existsb] in H. repeat (apply orb_false_iff in H as [? H]). unfold plain_char, ordinary, bracket, opens, closes.
      repeat match goal with E : (c =? _)%N = false |- _ => rewrite E; clear E end. reflexivity. }
    intros b P c H N K. apply Z. cbn [existsb]. 
    repeat match goal with |- context [(c =? ?n)%N] => destruct (N.eqb_spec c n) as [->|?]; [exfalso|] end; try reflexivity;
    destruct b; try discriminate H; try congruence; injection H as <-; cbn in K; unfold between in K; try lia; try discriminate K.
  Qed.
  Lemma char_known : forall b P c, is_char U b = Some P -> b <> AnyChar -> P c -> stranger U c = false.
  Proof.
    intros b P c H N K. apply not_true_iff_false. intro S. destruct (stranger_odd U c S) as (_ & A & I). unfold ProofStranger.alnum, ascii_letter, ascii_digit in A.
    destruct b; try discriminate H; try congruence; injection H as <-; unfold between in K;
    try (repeat rewrite ?orb_false_iff, ?andb_false_iff, ?N.leb_gt in A; lia).
    - specialize (I WhiteSpace). cbn in I. congruence.
    - specialize (I XidStart). cbn in I. congruence.
    - specialize (I XidContinue). cbn in I. congruence.
  Qed.
  Definition fresh (s : pstate) : Prop := after_comment (rest s) = None.
  Definition scanned (s : pstate) (st : str) (s1 : pstate) (st1 : str) : Prop := forall base, scan (rest s) (st ++ base) (rest s1) (st1 ++ base).
  Lemma comment_fresh : forall m s, reads m (Name R_COMMENT) s None -> fresh s.
  Proof.
    intros m s H. unfold fresh. pose proof (comment_reads U m s) as C. destruct (after_comment (rest s)) as [r|]; [|reflexivity].
    exfalso. eapply ok_no; eauto.
  Qed.
  Lemma comment_scan : forall m s s1 t st, reads m (Name R_COMMENT) s (Some (s1, t)) -> scan (rest s) st (rest s1) st.
  Proof.
    intros m s s1 t st H. pose proof (comment_reads U m s) as C. destruct (after_comment (rest s)) as [r|] eqn:E.
    - apply (ok_reads _ _ _ _ _ _ _ _ C) in H. subst r. eapply scan_comment; [exact E|constructor].
    - exfalso. pose proof (reads_once U _ _ _ _ _ H C) as X. discriminate X.
  Qed.
  Lemma literal_scan : forall m s s1 t st, reads m (Or (Name R_StringBlock) (Name R_StringNormal)) s (Some (s1, t)) -> scan (rest s) st (rest s1) st.
  Proof.
    intros m s s1 t st H. destruct (literal_reads U _ _ _ _ H) as [(k & E) A]. rewrite E in *. eapply scan_string; [exact A|constructor].
  Qed.
  Lemma keeps_reached : forall st r, keeps st r = true -> exists f, r = Reached st f.
  Proof. intros st [st' f|] H; [|discriminate]. apply str_eqb_eq in H. subst. exists f. reflexivity. Qed.
  Lemma text_scanned : forall w s s1 st fr st' f', past w s s1 -> effect needs NonAtomic (Text w) st fr = Reached st' f' -> (fr = true -> fresh s) -> f' = false /\ scanned s st s1 st'.
  Proof.
    intros w s s1 st fr st' f' (E & _) H F. cbn [effect] in H. unfold scanned. rewrite E. destruct (forallb sign w) eqn:Sg; [|discriminate]. cbn [andb] in H.
    assert (Kn : forallb (fun c => negb (stranger U c)) w = true) by (rewrite forallb_forall in *; intros x X; rewrite (sign_known U x (Sg x X)); reflexivity).
    destruct (forallb ordinary w) eqn:O; cbn [orb] in H.
    - destruct (walk w st) as [st2|] eqn:W; [|discriminate]. injection H as <- <-. split; [reflexivity|]. intros base. apply text_scan; [exact Kn|exact O|]. apply walk_more. exact W.
    - destruct fr; [|discriminate]. cbn [andb] in H. specialize (F eq_refl). unfold fresh in F. rewrite E in F.
      destruct (str_eqb w (lit "/")) eqn:W1; [apply str_eqb_eq in W1; subst w; injection H as <- <-; split; [reflexivity|]; intros base; apply fresh_slash; exact F|].
      destruct (str_eqb w (lit "//")) eqn:W2; [apply str_eqb_eq in W2; subst w; injection H as <- <-; split; [reflexivity|]; intros base; apply fresh_slashes; exact F|].
      destruct (str_eqb w (lit "%")) eqn:W3; [apply str_eqb_eq in W3; subst w; injection H as <- <-; split; [reflexivity|]; intros base; apply fresh_percent; exact F|].
      discriminate H.
  Qed.
  Definition needed (r : rule) : bool := match needs r with Fresh => true | _ => false end.
  Lemma rule_effect : forall r k e m, source r = Rule k e -> needs r <> Never -> exists f, effect needs (body_mode r k m) e [] (needed r) = Reached [] f.
  Proof.
    intros r k e m S N. apply needs_right in N. unfold right in N. rewrite S in N. rewrite forallb_forall in N. apply keeps_reached. apply N. destruct m; cbn; auto.
  Qed.
  Lemma name_effect : forall m r st fr st' f', effect needs m (Name r) st fr = Reached st' f' -> st' = st /\ f' = false /\ needs r <> Never /\ (needed r = true -> fr = true).
  Proof.
    intros m r st fr st' f' H. cbn [effect] in H. unfold needed. destruct (needs r); [injection H as <- <-|destruct fr; [injection H as <- <-|discriminate]|discriminate];
    repeat split; auto; try discriminate.
  Qed.
  Lemma built_char : forall r b, source r = Built b -> needs r <> Never -> b <> AnyChar /\ b <> Peek /\ b <> Pop.
  Proof. intros r b S N. apply needs_right in N. unfold right in N. rewrite S in N. destruct b; try discriminate N; repeat split; discriminate. Qed.
  Lemma scanned_here : forall s st, scanned s st s st.
  Proof. intros s st base. constructor. Qed.
  Lemma scanned_trans : forall s st s1 st1 s2 st2, scanned s st s1 st1 -> scanned s1 st1 s2 st2 -> scanned s st s2 st2.
  Proof. intros s st s1 st1 s2 st2 A B base. eapply scan_trans; eauto. Qed.

  Lemma reads_scanned :
    (forall m e s o, reads m e s o -> forall s1 t, o = Some (s1, t) -> forall st fr st' f', effect needs m e st fr = Reached st' f' -> (fr = true -> fresh s) ->
       scanned s st s1 st' /\ (f' = true -> fresh s1)) /\
    (forall m e s s1 t, again m e s s1 t -> forall st, keeps st (effect needs m e st (skipped m false)) = true -> scanned s st s1 st) /\
    (forall m s s1 t, skips m s s1 t -> (forall st, scanned s st s1 st) /\ (m = NonAtomic -> fresh s1) /\ (m <> NonAtomic -> s1 = s)).
  Proof.
    apply (reads_all U source
      (fun m e s o _ => forall s1 t, o = Some (s1, t) -> forall st fr st' f', effect needs m e st fr = Reached st' f' -> (fr = true -> fresh s) ->
         scanned s st s1 st' /\ (f' = true -> fresh s1))
      (fun m e s s1 t _ => forall st, keeps st (effect needs m e st (skipped m false)) = true -> scanned s st s1 st)
      (fun m s s1 t _ => (forall st, scanned s st s1 st) /\ (m = NonAtomic -> fresh s1) /\ (m <> NonAtomic -> s1 = s))).
    all: try (intros; discriminate).
    - (* text *) intros m w s s' P s1 t E st fr st' f' H F. injection E as <- <-. destruct (text_scanned w s s' st fr st' f' P H F) as [-> S]. split; [exact S|discriminate].
    - (* any case *) intros m v w s s' C (P & _) s1 t E st fr st' f' H F. injection E as <- <-. cbn [effect] in H. destruct (forallb ProofStranger.alnum w) eqn:A; [|discriminate].
      injection H as <- <-. split; [|discriminate]. intros base. rewrite P. destruct (case_plain v w C A) as [C1 C2]. apply plain_scan; [apply C2|exact C1].
    - (* then *) intros m a b s s1 t1 s2 t2 s3 t3 _ IHa _ (K1 & K2 & K3) _ IHb s4 t E st fr st' f' H F. injection E as <- <-. cbn [effect] in H.
      destruct (effect needs m a st fr) as [sa fa|] eqn:Ea; [|discriminate]. destruct (IHa _ _ eq_refl _ _ _ _ Ea F) as [A1 A2].
      assert (F2 : skipped m fa = true -> fresh s2).
      { intros X. destruct m; [apply K2; reflexivity|rewrite K3 by discriminate; apply A2; exact X|rewrite K3 by discriminate; apply A2; exact X]. }
      destruct (IHb _ _ eq_refl _ _ _ _ H F2) as [B1 B2]. split; [|exact B2]. eapply scanned_trans; [exact A1|]. eapply scanned_trans; [apply K1|exact B1].
    - (* or, first *) intros m a b s o R IH s1 t E st fr st' f' H F. injection E as ->. cbn [effect] in H. destruct (known_choice a b) eqn:Kc.
      + injection H as <- <-. split; [|discriminate]. destruct a as [| |[]| | | | | | | |]; try discriminate Kc; destruct b as [| |[]| | | | | | | |]; try discriminate Kc.
        * intros base. eapply literal_scan. apply r_or1. exact R.
        * apply (IH _ _ eq_refl st false st false); [reflexivity|discriminate].
      + destruct (effect needs m a st fr) as [sa fa|] eqn:Ea; [|discriminate]. destruct (effect needs m b st fr) as [sb fb|] eqn:Eb; [|discriminate].
        destruct (str_eqb sa sb); [|discriminate]. injection H as <- <-. destruct (IH _ _ eq_refl _ _ _ _ Ea F) as [A1 A2]. split; [exact A1|]. intros X. apply andb_prop in X. apply A2. apply X.
    - (* or, second *) intros m a b s o N _ R IH s1 t E st fr st' f' H F. subst o. cbn [effect] in H. destruct (known_choice a b) eqn:Kc.
      + injection H as <- <-. split; [|discriminate]. destruct a as [| |[]| | | | | | | |]; try discriminate Kc; destruct b as [| |[]| | | | | | | |]; try discriminate Kc.
        * intros base. eapply literal_scan. apply r_or2; [exact N|exact R].
        * intros base. eapply comment_scan. exact R.
      + destruct (effect needs m a st fr) as [sa fa|] eqn:Ea; [|discriminate]. destruct (effect needs m b st fr) as [sb fb|] eqn:Eb; [|discriminate].
        destruct (str_eqb sa sb) eqn:Es; [|discriminate]. apply str_eqb_eq in Es. subst sb. injection H as <- <-. destruct (IH _ _ eq_refl _ _ _ _ Eb F) as [A1 A2].
        split; [exact A1|]. intros X. apply andb_prop in X. apply A2. apply X.
    - (* maybe *) intros m a s o _ IH s1 t E st fr st' f' H F. injection E as ->. cbn [effect] in H. destruct (effect needs m a st fr) as [sa fa|] eqn:Ea; [|discriminate].
      destruct (str_eqb st sa) eqn:Es; [|discriminate]. apply str_eqb_eq in Es. subst sa. injection H as <- <-. destruct (IH _ _ eq_refl _ _ _ _ Ea F) as [A1 A2].
      split; [exact A1|]. intros X. apply andb_prop in X. apply A2. apply X.
    - intros m a s _ _ s1 t E st fr st' f' H F. injection E as <- <-. cbn [effect] in H. destruct (effect needs m a st fr) as [sa fa|] eqn:Ea; [|discriminate].
      destruct (str_eqb st sa) eqn:Es; [|discriminate]. injection H as <- <-. split; [apply scanned_here|]. intros X. apply andb_prop in X. apply F. apply X.
    - (* many *) intros m a s s1 t1 s2 t2 _ IH _ IHa s3 t E st fr st' f' H F. injection E as <- <-. cbn [effect] in H.
      destruct (keeps st (effect needs m a st fr)) eqn:K1; [|discriminate]. cbn [andb] in H. destruct (keeps st (effect needs m a st (skipped m false))) eqn:K2; [|discriminate].
      injection H as <- <-. split; [|discriminate]. apply keeps_reached in K1 as (f1 & K1). eapply scanned_trans; [eapply IH; eauto|]. apply IHa. exact K2.
    - intros m a s _ _ s1 t E st fr st' f' H F. injection E as <- <-. cbn [effect] in H. destruct (_ && _); [|discriminate]. injection H as <- <-. split; [apply scanned_here|discriminate].
    - (* several *) intros m a s o R IH s1 t E st fr st' f' H F. eapply IH; [exact E| |exact F]. exact H.
    - (* not *) intros m a s _ _ s1 t E st fr st' f' H F. injection E as <- <-. cbn [effect] in H. injection H as <- <-. split; [apply scanned_here|exact F].
    - (* rule *) intros m r k e s s1 t1 w S _ IH W s2 t E st fr st' f' H F. injection E as <- <-. apply name_effect in H as (-> & -> & N & Q). split; [|discriminate].
      destruct (rule_effect r k e m S N) as (f & X). destruct (IH _ _ eq_refl _ _ _ _ X (fun h => F (Q h))) as [A _]. intros base. exact (A (st ++ base)).
    - (* char *) intros m r b P c s s' S C Pc (E0 & _) s1 t E st fr st' f' H F. injection E as <- <-. apply name_effect in H as (-> & -> & N & Q). split; [|discriminate].
      destruct (built_char r b S N) as (B & _). intros base. rewrite E0. apply plain_scan; cbn [forallb]; [rewrite (char_known b P c C B Pc)|rewrite (char_plain b P c C B Pc)]; reflexivity.
    - intros m r s S P s1 t E st fr st' f' H F. injection E as <- <-. apply name_effect in H as (-> & -> & N & Q). split; [apply scanned_here|discriminate].
    - intros m r s S P s1 t E st fr st' f' H F. injection E as <- <-. apply name_effect in H as (-> & -> & N & Q). split; [apply scanned_here|discriminate].
    - intros m r t0 l s o S K _ _ s1 t E st fr st' f' H F. apply name_effect in H as (_ & _ & N & _). destruct (built_char _ _ S N) as (_ & B & _). congruence.
    - intros m r t0 l s o S K _ _ s1 t E st fr st' f' H F. apply name_effect in H as (_ & _ & N & _). destruct (built_char _ _ S N) as (_ & _ & B). congruence.
    - (* again *) intros m a s s1 t1 _ _ _ _ st K. apply scanned_here.
    - intros m a s s1 t1 s2 t2 s3 t3 _ (K1 & K2 & K3) _ IH _ IHa st K. eapply scanned_trans; [apply K1|]. eapply scanned_trans; [|apply IHa; exact K].
      apply keeps_reached in K as (f & K). eapply IH; [reflexivity|exact K|]. intros X. destruct m; [apply K2; reflexivity|discriminate X|discriminate X].
    - (* skips *) intros m s N. repeat split; [intros; apply scanned_here|congruence].
    - intros s s1 t R IH. split; [|split; [|congruence]].
      + intros st. apply (IH _ _ eq_refl st false st false); [|discriminate]. cbn [effect known_choice keeps]. rewrite str_eqb_refl. reflexivity.
      + intros _. apply many_end in R; [|discriminate]. inversion R; subst. eapply comment_fresh. eassumption.
  Qed.
  Lemma accepted_outside : forall text s ts, run_program U text = POk s ts -> exists k, outside text = Some k /\ balanced k /\ forallb (fun c => negb (stranger U c)) k = true.
  Proof.
    intros text s ts H. destruct (accepted_text U text s ts H) as (R & _). apply program_accepts in H.
    destruct (proj1 reads_scanned _ _ _ _ H _ _ eq_refl [] false [] false eq_refl ltac:(discriminate)) as [S _]. specialize (S []). rewrite R in S. cbn [rest app] in S.
    destruct (scan_outside _ _ _ _ _ S eq_refl) as (k & O & W & K). exists k. split; [exact O|]. split; [apply walk_balanced; exact W|exact K].
  Qed.
  Lemma outside_refused : forall text, ~ (exists k, outside text = Some k /\ balanced k) -> forall f, parse U f text = Ret (Err SMParseError).
  Proof.
    intros text N f. apply parse_refused. pose proof (program_no_panic U text) as NP. pose proof (program_terminates U text) as NF.
    destruct (run_program U text) as [s t|s t| |] eqn:E; try congruence; [|eauto]. exfalso. apply N. destruct (accepted_outside _ _ _ E) as (k & O & B & _). eauto.
  Qed.
  Lemma stranger_outside : forall text k c, outside text = Some k -> In c k -> stranger U c = true -> forall f, parse U f text = Ret (Err SMParseError).
  Proof.
    intros text k c O I C f. apply parse_refused. pose proof (program_no_panic U text) as NP. pose proof (program_terminates U text) as NF.
    destruct (run_program U text) as [s t|s t| |] eqn:E; try congruence; [|eauto]. exfalso. destruct (accepted_outside _ _ _ E) as (k' & O' & _ & K).
    rewrite O in O'. injection O' as <-. rewrite forallb_forall in K. specialize (K c I). cbv beta in K. rewrite C in K. discriminate.
  Qed.
End Scanning.
Lemma bare_outside : forall text, bare text = true -> outside text = Some text.
Proof.
  assert (Z : forall n text, length text < n -> (forall l, opening l = true -> forall a v, text = a ++ v -> strip_prefix l (v ++ []) = None) -> outside text = Some text).
  { induction n as [|n IH]; intros text L H; [lia|]. destruct text as [|c s]; [reflexivity|]. cbn [length] in L.
    assert (Hd : forall l, opening l = true -> strip_prefix l (c :: s) = None) by (intros l O; specialize (H l O [] (c :: s) eq_refl); rewrite app_nil_r in H; exact H).
    rewrite outside_char, IH; [reflexivity|lia| | |].
    - intros l O a v ->. apply (H l O (c :: a)). reflexivity.
    - specialize (Hd [34%N] eq_refl). destruct (N.eqb_spec c 34) as [->|]; [discriminate Hd|reflexivity].
    - assert (Q : forall l, opening l = true -> starts_with l (c :: s) = false) by (intros l O; unfold starts_with; specialize (Hd l O); unfold str, char in *; rewrite Hd; reflexivity).
      unfold after_comment, comment_start. cbn [existsb]. unfold str, char in *.
      rewrite (Q (lit "%%%") eq_refl), (Q (lit "///") eq_refl), (Q (lit "//?") eq_refl), (Q (lit "//!") eq_refl), (Q (lit "//*") eq_refl). reflexivity. }
  intros text B. apply (Z (S (length text))); [lia|]. apply bare_quiet; [exact B|left; reflexivity].
Qed.
