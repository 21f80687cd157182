(** White space: what [skip] consumes; leading white space. *)
From Verif Require Import Base Ast SmError Peg Grammar Build SpecAst SpecPeg SpecSyntax.
From Verif Require Import ProofPeg ProofPegShift ProofSym ProofGrammar ProofBuild ProofPos.
Local Open Scope nat_scope.

Fixpoint drop_white (s : str) : str :=
  match s with c :: s' => if white_space c then drop_white s' else s | [] => [] end.

Lemma drop_white_len : forall s, length (drop_white s) <= length s.
Proof. induction s as [|c s IH]; cbn; [lia|]. destruct (white_space c); cbn; lia. Qed.

Lemma drop_white_app : forall w s, Forall (fun c => white_space c = true) w -> drop_white (w ++ s) = drop_white s.
Proof. induction 1 as [|c w Hc _ IH]; cbn; [reflexivity|]. rewrite Hc. exact IH. Qed.

Lemma drop_white_stop : forall s, match s with c :: _ => white_space c = false | [] => True end -> drop_white s = s.
Proof. intros [|c s] H; cbn; [reflexivity|]. rewrite H. reflexivity. Qed.

Section Space.
  Variable U : unicode.
  Notation ev := (ev U grammar skip_body).
  Notation run := (run U grammar skip_body).

  Lemma ev_str_err : forall l k q p w st, strip_prefix l w = None ->
    ev (EStr l) k q (mkPs p w st) (PErr (mkPs p w st) []).
  Proof. intros l k q p w st H. split; [discriminate|]. exists 1. cbn [Peg.run rest]. rewrite H. reflexivity. Qed.

  Lemma ev_else_err : forall a b k q s r, ev a k q s (PErr s []) -> ev b k q s r -> ev (EElse a b) k q s r.
  Proof.
    intros a b k q s r Ha Hb. pose proof (ev_else U grammar skip_body _ _ _ _ _ _ _ _ Ha Hb) as H.
    destruct r; exact H.
  Qed.

  Lemma white_one : forall k q p c s st, white_space c = true ->
    exists w s', c :: s = w ++ s' /\ w <> [] /\ drop_white s' = drop_white s /\
      ev (ECall R_WHITESPACE) k q (mkPs p (c :: s) st) (POk (mkPs (p + length w) s' st) []).
  Proof.
    intros k q p c s st Hc.
    destruct (N.eqb_spec c 10) as [->|N10].
    { exists [10%N], s. split; [reflexivity|]. split; [discriminate|]. split; [reflexivity|].
      apply ev_call, ev_atomic, ev_else_ok, ev_call, ev_else_ok, ev_else_ok. exact (ev_str U grammar skip_body [10%N] Atomic q p s st). }
    assert (S10 : strip_prefix [10%N] (c :: s) = None).
    { cbn [strip_prefix]. replace (N.eqb 10 c) with false by (symmetry; apply N.eqb_neq; congruence). reflexivity. }
    destruct (N.eqb_spec c 13) as [->|N13].
    { destruct (strip_prefix [13%N; 10%N] (13%N :: s)) as [s'|] eqn:E.
      - apply strip_prefix_app in E. injection E as ->.
        exists [13%N; 10%N], s'. split; [reflexivity|]. split; [discriminate|]. split; [reflexivity|].
        apply ev_call, ev_atomic, ev_else_ok, ev_call, ev_else_ok. apply ev_else_err; [apply ev_str_err; exact S10|].
        exact (ev_str U grammar skip_body [13%N; 10%N] Atomic q p s' st).
      - exists [13%N], s. split; [reflexivity|]. split; [discriminate|]. split; [reflexivity|].
        apply ev_call, ev_atomic, ev_else_ok, ev_call.
        apply ev_else_err; [apply ev_else_err; apply ev_str_err; assumption|].
        exact (ev_str U grammar skip_body [13%N] Atomic q p s st). }
    exists [c], s. split; [reflexivity|]. split; [discriminate|]. split; [reflexivity|].
    assert (S13 : forall l, strip_prefix (13%N :: l) (c :: s) = None).
    { intros l. cbn [strip_prefix]. replace (N.eqb 13 c) with false by (symmetry; apply N.eqb_neq; congruence). reflexivity. }
    apply ev_call, ev_atomic. apply ev_else_err.
    - apply ev_call. apply ev_else_err; [apply ev_else_err|]; apply ev_str_err; auto.
    - apply ev_call. exact (ev_class U grammar skip_body WhiteSpace Atomic q p c s st Hc).
  Qed.

  Lemma white_none : forall k q p s st, match s with c :: _ => white_space c = false | [] => True end ->
    ev (ECall R_WHITESPACE) k q (mkPs p s st) (PErr (mkPs p s st) []).
  Proof.
    intros k q p s st Hc. apply ev_call, ev_atomic. apply ev_else_err.
    - assert (S10 : forall l, strip_prefix (10%N :: l) s = None).
      { intros l. destruct s as [|c s]; [reflexivity|]. cbn [strip_prefix].
        replace (N.eqb 10 c) with false by (symmetry; apply N.eqb_neq; intros <-; discriminate). reflexivity. }
      assert (S13 : forall l, strip_prefix (13%N :: l) s = None).
      { intros l. destruct s as [|c s]; [reflexivity|]. cbn [strip_prefix].
        replace (N.eqb 13 c) with false by (symmetry; apply N.eqb_neq; intros <-; discriminate). reflexivity. }
      apply ev_call. apply ev_else_err; [apply ev_else_err|]; apply ev_str_err; auto.
    - apply ev_call. apply ev_char_err with (P := in_class U WhiteSpace); [reflexivity|]. intros c w' ->. exact Hc.
  Qed.

  Lemma white_rep : forall k q n s p st, length s <= n ->
    ev (ERep (ECall R_WHITESPACE)) k q (mkPs p s st)
      (POk (mkPs (p + (length s - length (drop_white s))) (drop_white s) st) []).
  Proof.
    induction n as [|n IH]; intros s p st Hn.
    { destruct s; [|cbn in Hn; lia]. cbn. rewrite Nat.add_0_r. apply ev_rep_stop. apply white_none. exact I. }
    destruct s as [|c s].
    { cbn. rewrite Nat.add_0_r. apply ev_rep_stop. apply white_none. exact I. }
    destruct (white_space c) eqn:Hc.
    - destruct (white_one k q p c s st Hc) as (w & s' & E & Hw & D & H).
      assert (HL : S (length s) = length w + length s').
      { change (S (length s)) with (length (c :: s)). rewrite E, app_length. reflexivity. }
      assert (0 < length w) by (destruct w; [congruence|cbn; lia]).
      pose proof (IH s' (p + length w) st ltac:(cbn in Hn; lia)) as H'.
      pose proof (ev_rep_step U grammar skip_body _ _ _ _ _ _ _ H H') as H2. cbn [prepend app] in H2.
      cbn [drop_white]. rewrite Hc. rewrite D in H2. pose proof (drop_white_len s') as L. rewrite D in L.
      replace (p + (length (c :: s) - length (drop_white s))) with (p + length w + (length s' - length (drop_white s)))
        by (cbn [length]; lia). exact H2.
    - rewrite (drop_white_stop (c :: s)) by exact Hc. rewrite Nat.sub_diag, Nat.add_0_r. apply ev_rep_stop. apply white_none. exact Hc.
  Qed.

  Definition comments : pexp rule := ERep (ESeq (EThen (ECall R_COMMENT) (ERep (ECall R_WHITESPACE)))).

  (** [skip] is: drop white space, then comments *)
  Lemma skip_ev : forall q p s st r,
    ev comments NonAtomic q (mkPs (p + (length s - length (drop_white s))) (drop_white s) st) r ->
    ev ESkip NonAtomic q (mkPs p s st) (seq_res (mkPs p s st) r).
  Proof.
    intros q p s st r H. apply ev_skip. unfold skip_body. apply ev_seq.
    pose proof (ev_then U grammar skip_body _ comments _ _ _ _ _ _ (white_rep NonAtomic q (length s) s p st (Nat.le_refl _)) H) as H1.
    destruct r; exact H1.
  Qed.

  Lemma ev_shift : forall e k q s r d, no_soi reads_start e = true -> ev e k q s r ->
    ev e k q (shift_state d s) (shift_res d r).
  Proof.
    intros e k q s r d Hs [Hr [f H]]. split; [destruct r; cbn; congruence|]. exists f.
    rewrite grammar_shift by exact Hs. rewrite H. reflexivity.
  Qed.

  (** after [start_of_input]: the first [skip], the statements, [skip], the end *)
  Definition program_body : pexp rule :=
    ESeq (EOpt (EThen (ERestore (ECall R_statement)) (ERep (ESeq (EThen ESkip (ERestore (ECall R_statement))))))).

  Definition same_result (d : nat) (r r' : pres rule) : Prop :=
    match r with
    | POk s ts => r' = POk (shift_state d s) (map (shift_tree d) ts)
    | PErr _ _ => exists s' ts', r' = PErr s' ts'
    | r => r' = r
    end.

  Lemma comments_terminates : forall q s, exists r, ev comments NonAtomic q s r.
  Proof.
    intros q s. exists (run (length (rest s) * 70 + 70) comments NonAtomic q s). split; [|eexists; reflexivity].
    apply (run_terminates U grammar skip_body 15 70 20 wf_rule wf_skip) with (d := 20).
    - vm_compute. reflexivity.
    - apply Nat.leb_le. vm_compute. reflexivity.
    - assert (dep grammar skip_body 15 70 20 comments <= 70) by (apply Nat.leb_le; vm_compute; reflexivity). lia.
  Qed.

  Definition program_rest : pexp rule := EThen (EThen program_body ESkip) (ECall R_EOI).

  Lemma body_terminates : forall q s, exists r, ev program_rest NonAtomic q s r.
  Proof.
    intros q s. exists (run (length (rest s) * 70 + 70) program_rest NonAtomic q s). split; [|eexists; reflexivity].
    apply (run_terminates U grammar skip_body 15 70 20 wf_rule wf_skip) with (d := 20).
    - vm_compute. reflexivity.
    - apply Nat.leb_le. vm_compute. reflexivity.
    - assert (dep grammar skip_body 15 70 20 program_rest <= 70) by (apply Nat.leb_le; vm_compute; reflexivity). lia.
  Qed.

  Lemma ev_then_inv : forall a b k q s r, ev (EThen a b) k q s r ->
    (exists s1 t1 rb, ev a k q s (POk s1 t1) /\ ev b k q s1 rb /\ r = prepend t1 rb) \/
    (ev a k q s r /\ forall s1 t1, r <> POk s1 t1).
  Proof.
    intros a b k q s r [Hr [f H]]. destruct f as [|f]; [cbn in H; congruence|]. cbn [Peg.run] in H.
    destruct (run f a k q s) as [s1 t1|s1 t1| |] eqn:E.
    - left. exists s1, t1, (run f b k q s1). split; [split; [discriminate|eauto]|].
      split; [|congruence]. split; [|eauto]. rewrite <- (prepend_fuel t1). rewrite H. exact Hr.
    - right. subst r. split; [split; [exact Hr|eauto]|discriminate].
    - right. subst r. split; [split; [exact Hr|eauto]|discriminate].
    - congruence.
  Qed.

  Lemma ev_then_bad : forall a b k q s r, ev a k q s r -> (forall s1 t1, r <> POk s1 t1) -> ev (EThen a b) k q s r.
  Proof.
    intros a b k q s r [Hr [f H]] N. split; [exact Hr|]. exists (S f). cbn [Peg.run]. rewrite H.
    destruct r; congruence.
  Qed.

  Lemma prepend_bad : forall t (r : pres rule), (forall s1 t1, r <> POk s1 t1) -> forall s1 t1, prepend t r <> POk s1 t1.
  Proof. intros t [| | |] H s1 t1; cbn; try discriminate. exfalso. eapply H. reflexivity. Qed.

  Lemma prepend_prepend : forall t1 t2 (r : pres rule), prepend t1 (prepend t2 r) = prepend (t1 ++ t2) r.
  Proof. intros t1 t2 [| | |]; cbn; rewrite ?app_assoc; reflexivity. Qed.

  Lemma ev_then_assoc : forall a b c k q s s1 t1 r, ev a k q s (POk s1 t1) -> ev (EThen b c) k q s1 r ->
    ev (EThen (EThen a b) c) k q s (prepend t1 r).
  Proof.
    intros a b c k q s s1 t1 r Ha Hbc. destruct (ev_then_inv _ _ _ _ _ _ Hbc) as [(s2 & t2 & rc & Hb & Hc & ->)|[Hb N]].
    - rewrite prepend_prepend. apply ev_then with (s1 := s2); [|exact Hc]. exact (ev_then U grammar skip_body _ _ _ _ _ _ _ _ Ha Hb).
    - apply ev_then_bad; [|apply prepend_bad; exact N]. exact (ev_then U grammar skip_body _ _ _ _ _ _ _ _ Ha Hb).
  Qed.

  (** the sequence of the program, associated to the right *)
  Lemma program_unfold : forall text s1 t1 r,
    ev ESkip NonAtomic false (mkPs 0 text []) (POk s1 t1) ->
    ev program_rest NonAtomic false s1 r ->
    run_program U text = seq_res (mkPs 0 text []) (prepend t1 r).
  Proof.
    intros text s1 t1 r H1 Hr. apply program_ev. apply ev_call. cbn [grammar]. apply ev_seq.
    assert (HA : ev (EThen (ECall R_SOI) ESkip) NonAtomic false (mkPs 0 text []) (POk s1 t1)).
    { change (POk s1 t1) with (prepend [] (POk s1 t1)). eapply ev_then; [|exact H1]. apply ev_call. apply ev_soi. }
    change (ESeq (EOpt (EThen (ERestore (ECall R_statement)) (ERep (ESeq (EThen ESkip (ERestore (ECall R_statement)))))))) with program_body.
    unfold program_rest in Hr.
    destruct (ev_then_inv _ _ _ _ _ _ Hr) as [(s2 & t2 & rc & Hb & Hc & ->)|[Hb N]].
    - rewrite prepend_prepend. apply ev_then with (s1 := s2); [|exact Hc].
      change (POk s2 (t1 ++ t2)) with (prepend t1 (POk s2 t2)). eapply ev_then_assoc; [exact HA|exact Hb].
    - apply ev_then_bad; [|apply prepend_bad; exact N]. eapply ev_then_assoc; [exact HA|exact Hb].
  Qed.

  (** [skip] never fails *)
  Lemma comments_ok : forall q s r, ev comments NonAtomic q s r -> exists s1 t1, r = POk s1 t1.
  Proof.
    intros q s r [Hr [f H]]. assert (P : run f comments NonAtomic q s <> PPanic).
    { apply (run_no_panic U grammar skip_body needs_stack 5 sd_rule sd_skip). vm_compute. discriminate. }
    rewrite H in P. revert r Hr s H P. induction f as [|f IH]; intros r Hr s H P; [cbn in H; congruence|].
    unfold comments in H. cbn [Peg.run] in H.
    match type of H with match ?x with _ => _ end = _ => destruct x as [s1 t1|s1 t1| |] end; try congruence.
    - change (ERep (ESeq (EThen (ECall R_COMMENT) (ERep (ECall R_WHITESPACE))))) with comments in H.
      destruct (run f comments NonAtomic q s1) as [s2 t2|s2 t2| |] eqn:E; cbn [prepend] in H; try congruence.
      + subst r. eauto.
      + destruct (IH (PErr s2 t2) ltac:(discriminate) s1 E ltac:(discriminate)) as (? & ? & ?). discriminate.
    - subst r. eauto.
  Qed.

  Lemma skip_ok : forall q s, exists s1 t1, ev ESkip NonAtomic q s (POk s1 t1).
  Proof.
    intros q [p s st]. destruct (comments_terminates q (mkPs (p + (length s - length (drop_white s))) (drop_white s) st)) as [r Hr].
    destruct (comments_ok _ _ _ Hr) as (s1 & t1 & ->). exists s1, t1. exact (skip_ev _ _ _ _ _ Hr).
  Qed.

  (** a text that [skip] passes over, before a text *)
  Definition skipped (w : str) : Prop := forall q p t st s1 t1,
    ev ESkip NonAtomic q (mkPs (p + length w) t st) (POk s1 t1) -> ev ESkip NonAtomic q (mkPs p (w ++ t) st) (POk s1 t1).

  Lemma white_skipped : forall w, Forall (fun c => white_space c = true) w -> skipped w.
  Proof.
    intros w Hw q p t st s1 t1 H.
    destruct (comments_terminates q (mkPs (p + length w + (length t - length (drop_white t))) (drop_white t) st)) as [rc Hc].
    destruct (comments_ok _ _ _ Hc) as (s2 & t2 & ->). pose proof (skip_ev _ _ _ _ _ Hc) as Hs. cbn [seq_res] in Hs.
    pose proof (ev_det U grammar skip_body _ _ _ _ _ _ H Hs) as E. injection E as -> ->.
    apply (skip_ev q p (w ++ t) st (POk s2 t2)). rewrite drop_white_app by exact Hw. pose proof (drop_white_len t).
    replace (p + (length (w ++ t) - length (drop_white t))) with (p + length w + (length t - length (drop_white t))) by (rewrite app_length; lia). exact Hc.
  Qed.

  Theorem leading_run : forall w t, skipped w -> same_result (length w) (run_program U t) (run_program U (w ++ t)).
  Proof.
    intros w t Hw. destruct (skip_ok false (mkPs 0 t [])) as (s1 & t1 & Hs).
    pose proof (ev_shift ESkip NonAtomic false _ _ (length w) ltac:(vm_compute; reflexivity) Hs) as Hs'. cbn [shift_res] in Hs'.
    change (shift_state (length w) (mkPs 0 t [])) with (mkPs (0 + length w) t []) in Hs'. apply Hw in Hs'.
    destruct (body_terminates false s1) as [r Hr].
    rewrite (program_unfold _ _ _ _ Hs Hr).
    pose proof (ev_shift program_rest NonAtomic false _ _ (length w) ltac:(vm_compute; reflexivity) Hr) as Hr'.
    rewrite (program_unfold _ _ _ _ Hs' Hr').
    destruct r as [s2 t2|s2 t2| |]; cbn; try reflexivity.
    - rewrite map_app. reflexivity.
    - eauto.
  Qed.

  Lemma shift_same : forall d t, same t (shift_tree d t).
  Proof.
    intros d t. apply strip_same. induction t as [r a b x l IH] using tree_ind'. cbn. f_equal. rewrite map_map.
    apply map_ext_in. intros t Ht. rewrite Forall_forall in IH. auto.
  Qed.

  Theorem leading : forall fname w t, skipped w ->
    omap forget_result (parse U fname (w ++ t)) = omap forget_result (parse U fname t).
  Proof.
    intros fname w t Hw. unfold parse. pose proof (leading_run w t Hw) as H. unfold same_result in H.
    destruct (run_program U t) as [s ts|s ts| |].
    - rewrite H. pose proof (parse_pairs_sim fname t fname (w ++ t) ts (map (shift_tree (length w)) ts)) as HP.
      assert (HF : Forall2 same ts (map (shift_tree (length w)) ts)).
      { clear. induction ts; constructor; auto using shift_same. }
      specialize (HP HF). unfold orel in HP.
      destruct (parse_pairs fname t ts) as [a|k|], (parse_pairs fname (w ++ t) (map (shift_tree (length w)) ts)) as [b|k'|];
        cbn; try contradiction; unfold sim in HP; congruence.
    - destruct H as (s' & ts' & ->). reflexivity.
    - rewrite H. reflexivity.
    - rewrite H. reflexivity.
  Qed.
  Theorem leading_space : forall fname w t, Forall (fun c => white_space c = true) w ->
    omap forget_result (parse U fname (w ++ t)) = omap forget_result (parse U fname t).
  Proof. intros fname w t Hw. apply leading, white_skipped, Hw. Qed.
End Space.

Lemma white_blanks : forall c, white_space c = true <-> In c blanks.
Proof.
  intro c. unfold white_space, blanks. cbn [In]. split; intro H.
  - repeat apply orb_prop in H as [H|H]; try (apply andb_prop in H as [H1 H2]; apply N.leb_le in H1, H2); try apply N.eqb_eq in H; lia.
  - repeat (destruct H as [<-|H]; [reflexivity|]). contradiction.
Qed.
Lemma leading_blanks : forall U fname w t, Forall (fun c => In c blanks) w ->
  omap forget_result (parse U fname (w ++ t)) = omap forget_result (parse U fname t).
Proof. intros U fname w t H. apply leading_space. eapply Forall_impl; [|exact H]. intros c. apply white_blanks. Qed.
