(** Where the error of a refused text points: texts of expressions. *)
From Verif Require Import Base Ast Display SmError Internal Peg Grammar Climber Build Track SpecAst SpecPeg SpecClimb SpecParse SpecSyntax SpecText SpecPlace SpecManual SpecFault.
From Verif Require SpecSource.
From Verif Require Import ProofAst ProofDisplay ProofPeg ProofPegShift ProofSym ProofGrammar ProofClimber ProofBuild ProofPos ProofPlace ProofSpace ProofLex ProofToken ProofNode ProofAtom ProofTerm ProofExpr ProofGroup ProofCall ProofArgs ProofSlice ProofProduct ProofText ProofStatement ProofSource ProofSyntax ProofManual ProofTrack ProofExpect ProofStranger.
Local Open Scope nat_scope.
Local Open Scope outcome_scope.

(** ** What the error says *)
Lemma parse_refused : forall U f text, parse U f text = Ret (Err SMParseError) <-> exists s t, run_program U text = PErr s t.
Proof.
  intros U f text. unfold parse. destruct (run_program U text) as [s t|s t| |] eqn:E; split; intro H; try discriminate; try (destruct H as (? & ? & H); discriminate); eauto.
  exfalso. destruct (parse_pairs f text t); discriminate.
Qed.
Lemma attempts_inside : forall U text, a_pos (program_attempts U text) <= length text.
Proof.
  intros U text. unfold program_attempts. apply (trace_down U grammar skip_body text (length text) (le_n _)); [split; [cbn; lia|reflexivity]|cbn; lia].
Qed.
Lemma refused_error : forall U f text, parse U f text = Ret (Err SMParseError) ->
  parse_error U text = Some (a_pos (program_attempts U text), a_yes (program_attempts U text), a_no (program_attempts U text)).
Proof. intros U f text H. apply parse_refused in H as (s & t & H). unfold parse_error. rewrite H. reflexivity. Qed.
Lemma refused_blamed : forall U f text, parse U f text = Ret (Err SMParseError) -> blamed U text (a_pos (program_attempts U text)).
Proof.
  intros U f text H. split; [apply attempts_inside|]. unfold error_place. rewrite (refused_error U f text H). rewrite line_col_place. reflexivity.
Qed.
Lemma error_in_text : forall U f text, parse U f text = Ret (Err SMParseError) -> exists i, blamed U text i.
Proof. intros U f text H. eexists. eapply refused_blamed. exact H. Qed.
Lemma no_error : forall U f text, parse U f text <> Ret (Err SMParseError) -> error_place U text = None.
Proof.
  intros U f text H. unfold error_place, parse_error. destruct (run_program U text) as [s t|s t| |] eqn:E; try reflexivity.
  exfalso. apply H. apply parse_refused. eauto.
Qed.

(** ** Strangers *)
Definition good_rule (r : rule) : bool :=
  match r with
  | R_StringText | R_Escape | R_Load | R_Save | R_LeftShift | R_RightShift | R_LessEqual | R_Less | R_NotEqual | R_Remainder | R_Surd | R_Quote | R_Acute
  | R_LogicOr | R_LogicAnd | R_Ellipsis | R_LogicXor | R_Concat | R_Destruct | R_ANY | R_PEEK | R_POP => false
  | _ => true
  end.
Definition dead_start (l : str) : bool := existsb (fun d => str_eqb d l) openings.
Definition known_char (a : char) : bool := alnum a || (a =? 10)%N || (a =? 13)%N || existsb (N.eqb a) language_signs.
Lemma good_rules : forall r, good_rule r = true -> fine grammar dead_start known_char good_rule 20 (grammar r) = true.
Proof. intros r H. destruct r; first [discriminate H|vm_compute; reflexivity]. Qed.
Lemma good_skip : fine grammar dead_start known_char good_rule 20 skip_body = true.
Proof. vm_compute. reflexivity. Qed.

Section Texts.
  Variable U : unicode.

  Lemma stranger_odd : forall c, stranger U c = true -> known_char c = false /\ alnum c = false /\ forall k, in_class U k c = false.
  Proof.
    intros c H. unfold stranger in H. apply negb_true_iff in H. apply orb_false_iff in H as [H H5]. apply orb_false_iff in H as [H H4].
    apply orb_false_iff in H as [H H3]. apply orb_false_iff in H as [H1 H2].
    assert (A : alnum c = false).
    { unfold xid_continue in H4. unfold alnum. destruct (N.ltb_spec c 128).
      - apply orb_false_iff in H4 as [H4 _]. exact H4.
      - unfold ascii_letter, ascii_digit. apply orb_false_iff; split; [apply orb_false_iff; split|]; apply andb_false_iff; right; apply N.leb_gt; lia. }
    split; [|split; [exact A|]].
    - unfold known_char. rewrite A, H5. assert (X : forall d, white_space d = true -> (c =? d)%N = false) by (intros d Hd; apply N.eqb_neq; intros ->; congruence).
      rewrite !X by reflexivity. reflexivity.
    - intros [| |]; [exact H1| |exact H4]. unfold word_head in H3. apply orb_false_iff in H3 as [H3 _]. exact H3.
  Qed.
  Lemma contains_tail : forall k a v, contains k (a ++ v) = false -> contains k v = false.
  Proof.
    induction a as [|x a IH]; intros v H; [exact H|]. apply IH. cbn [app] in H. cbn [contains] in H. destruct (strip_prefix k (x :: a ++ v)); [discriminate|exact H].
  Qed.
  Lemma contains_head : forall k v, contains k v = false -> strip_prefix k v = None.
  Proof. intros k [|x v] H; cbn [contains] in H; destruct (strip_prefix k _); congruence. Qed.
  Lemma strip_stranger : forall l v c w, ~ In c l -> strip_prefix l v = None -> strip_prefix l (v ++ c :: w) = None.
  Proof.
    induction l as [|x l IH]; intros v c w N H; [discriminate|]. destruct v as [|y v]; cbn [app strip_prefix] in *.
    - destruct (N.eqb_spec x c); [exfalso; apply N; left; assumption|reflexivity].
    - destruct (N.eqb x y); [|reflexivity]. apply IH; [intro; apply N; right; assumption|exact H].
  Qed.
  Lemma bare_dead : forall u c w, bare u = true -> stranger U c = true -> forall l, dead_start l = true -> forall a v, u = a ++ v -> strip_prefix l (v ++ c :: w) = None.
  Proof.
    intros u c w B C l D a v ->. unfold bare in B. apply negb_true_iff in B. unfold dead_start in D. apply existsb_exists in D as (d & Id & D).
    apply str_eqb_eq in D. subst d. destruct (stranger_odd c C) as (K & _ & _).
    apply strip_stranger.
    - intro I. unfold known_char in K. apply orb_false_iff in K as [_ K]. assert (X : existsb (N.eqb c) language_signs = true); [|congruence].
      apply existsb_exists. exists c. split; [|apply N.eqb_refl]. cbn [openings In] in Id.
      decompose [or] Id; subst; try contradiction; cbn in I; decompose [or] I; subst; try contradiction; cbn; auto 40.
    - apply contains_head. apply (contains_tail l a). apply not_true_iff_false. intro X. rewrite <- not_true_iff_false in B. apply B.
      apply existsb_exists. eauto.
  Qed.
  Lemma stranger_bound : forall u c w, bare u = true -> stranger U c = true ->
    (exists s t, run_program U (u ++ c :: w) = PErr s t) /\ a_pos (program_attempts U (u ++ c :: w)) <= length u.
  Proof.
    intros u c w B C. destruct (stranger_odd c C) as (K & O & I). pose proof (bare_dead u c w B C) as D.
    assert (S : on u c w (mkPs 0 (u ++ c :: w) [])) by (exists [], u; repeat split). split.
    - pose proof (fine_run U grammar skip_body dead_start known_char good_rule 20 good_rules good_skip u c w K O I D (peg_fuel (u ++ c :: w)) (ECall R_program) NonAtomic false _ eq_refl S) as F.
      pose proof (program_no_panic U (u ++ c :: w)) as NP. pose proof (program_terminates U (u ++ c :: w)) as NF.
      unfold run_program in *. destruct (run U grammar skip_body (peg_fuel (u ++ c :: w)) (ECall R_program) NonAtomic false (mkPs 0 (u ++ c :: w) [])) as [s t|s t| |] eqn:E; try congruence; [|eauto].
      exfalso. destruct (accepted_text U (u ++ c :: w) s t E) as (R & _). destruct F as (a & v & _ & F & _). rewrite R in F. destruct v; discriminate.
    - apply (fine_trace U grammar skip_body dead_start known_char good_rule 20 good_rules good_skip u c w K O I D); [vm_compute; reflexivity|exact S|cbn; lia].
  Qed.
  Lemma stranger_refused : forall u c w, bare u = true -> stranger U c = true ->
    (forall f, parse U f (u ++ c :: w) = Ret (Err SMParseError)) /\ exists i, i <= length u /\ blamed U (u ++ c :: w) i.
  Proof.
    intros u c w B C. destruct (stranger_bound u c w B C) as [R L]. assert (P : forall f, parse U f (u ++ c :: w) = Ret (Err SMParseError)) by (intro f; apply parse_refused; exact R).
    split; [exact P|]. exists (a_pos (program_attempts U (u ++ c :: w))). split; [exact L|]. exact (refused_blamed U [] _ (P [])).
  Qed.
End Texts.

Section Floor.
  Variable U : unicode.
  Hypothesis HU : sane U.
  Notation ev := (ev U grammar skip_body).
  Notation fails := (fails U).
  Notation expr_means := (expr_means U).
  Notation expr_stop := (expr_stop U).
  Notation reaches := (reaches U grammar skip_body).
  Notation run := (run U grammar skip_body).

  (** ** Inversion *)
  Lemma seq_inv : forall a k q s s2 t, ev (ESeq a) k q s (POk s2 t) -> ev a k q s (POk s2 t).
  Proof.
    intros a k q s s2 t [_ [f H]]. destruct f as [|f]; [discriminate|]. cbn [Peg.run] in H. destruct (run f a k q s) as [s1 t1|s1 t1| |] eqn:E; try discriminate.
    injection H as -> ->. eapply ev_base; [exact E|discriminate].
  Qed.
  Lemma restore_inv : forall a k q s s2 t, ev (ERestore a) k q s (POk s2 t) -> ev a k q s (POk s2 t).
  Proof.
    intros a k q s s2 t [_ [f H]]. destruct f as [|f]; [discriminate|]. cbn [Peg.run] in H. destruct (run f a k q s) as [s1 t1|s1 t1| |] eqn:E; try discriminate.
    injection H as -> ->. eapply ev_base; [exact E|discriminate].
  Qed.
  Lemma rep_inv : forall a k q s s1 t1 s2 t2, ev (ERep a) k q s (POk s2 t2) -> ev a k q s (POk s1 t1) -> exists t, ev (ERep a) k q s1 (POk s2 t).
  Proof.
    intros a k q s s1 t1 s2 t2 [_ [f H]] E. destruct f as [|f]; [discriminate|]. cbn [Peg.run] in H.
    destruct (run f a k q s) as [s3 t3|s3 t3| |] eqn:X; try discriminate.
    - pose proof (ev_det U grammar skip_body _ _ _ _ _ _ E (ev_base U grammar skip_body _ _ _ _ _ _ X ltac:(discriminate))) as D. injection D as <- <-.
      destruct (run f (ERep a) k q s1) as [s4 t4|s4 t4| |] eqn:Y; try discriminate. cbn [prepend] in H. injection H as -> <-.
      exists t4. eapply ev_base; [exact Y|discriminate].
    - pose proof (ev_det U grammar skip_body _ _ _ _ _ _ E (ev_base U grammar skip_body _ _ _ _ _ _ X ltac:(discriminate))) as D. discriminate.
  Qed.
  Lemma moves_on : forall text e k q s s2 t, at_input text s -> ev e k q s (POk s2 t) -> at_input text s2 /\ pos s <= pos s2.
  Proof. intros text e k q s s2 t A [_ [f H]]. pose proof (run_good U grammar skip_body text f e k q s A) as G. rewrite H in G. destruct G as (G1 & G2 & _). auto. Qed.

  (** ** Statements one after the other *)
  Inductive passes : nat -> str -> nat -> str -> Prop :=
  | p_none : forall p v, passes p v p v
  | p_more : forall p v p1 v1 ts q v2, ev (ECall R_statement) NonAtomic false (mkPs p v []) (POk (mkPs p1 v1 []) ts) -> solid v1 = true ->
      passes p1 v1 q v2 -> passes p v q v2.
  Notation one_more := (EThen ESkip (ERestore (ECall R_statement))).
  Lemma one_more_ok : forall p v s ts, solid v = true -> ev (ECall R_statement) NonAtomic false (mkPs p v []) (POk s ts) ->
    ev (ESeq one_more) NonAtomic false (mkPs p v []) (POk s ts).
  Proof. intros p v s ts S E. apply ok_seq. eapply ok_then0; [apply skip_nothing; exact S|]. apply ok_restore. exact E. Qed.
  Lemma passes_rep : forall p v q v2, passes p v q v2 -> forall text s2 t, solid v = true -> at_input text (mkPs p v []) ->
    ev (ERep (ESeq one_more)) NonAtomic false (mkPs p v []) (POk s2 t) -> q <= pos s2.
  Proof.
    induction 1 as [p v|p v p1 v1 ts q v2 E S1 H IH]; intros text s2 t S A R.
    - apply (moves_on text _ _ _ _ _ _ A) in R. apply R.
    - destruct (rep_inv _ _ _ _ _ _ _ _ R (one_more_ok _ _ _ _ S E)) as [t' R']. eapply (IH text); [exact S1| |exact R'].
      apply (moves_on text _ _ _ _ _ _ A) in E. apply E.
  Qed.
  Lemma passes_body : forall p v q v2, passes p v q v2 -> forall text s2 t, at_input text (mkPs p v []) ->
    ev program_body NonAtomic false (mkPs p v []) (POk s2 t) -> q <= pos s2.
  Proof.
    intros p v q v2 H text s2 t A R. destruct H as [p v|p v p1 v1 ts q v2 E S1 H].
    - apply (moves_on text _ _ _ _ _ _ A) in R. apply R.
    - unfold program_body in R. apply seq_inv in R. destruct R as [_ [f R]]. destruct f as [|f]; [discriminate|]. cbn [Peg.run] in R.
      match type of R with match ?x with _ => _ end = _ => destruct x as [sa ta|sa ta| |] eqn:X end; try discriminate.
      + injection R as -> ->. pose proof (ev_base U grammar skip_body _ _ _ _ _ _ X ltac:(discriminate)) as Y.
        destruct (ev_then_inv U _ _ _ _ _ _ Y) as [(sb & tb & rb & K1 & K2 & Z)|[_ N]]; [|exfalso; eapply N; reflexivity].
        pose proof (ev_det U grammar skip_body _ _ _ _ _ _ K1 (ok_restore U _ _ _ _ _ _ E)) as D. injection D as -> ->.
        destruct rb as [sc tc|sc tc| |]; cbn [prepend] in Z; try discriminate. injection Z as -> _.
        eapply (passes_rep _ _ _ _ H text); [exact S1| |exact K2]. apply (moves_on text _ _ _ _ _ _ A) in E. apply E.
      + exfalso. pose proof (ev_base U grammar skip_body _ _ _ _ _ _ X ltac:(discriminate)) as Y.
        destruct (ev_then_inv U _ _ _ _ _ _ Y) as [(sb & tb & rb & K1 & K2 & Z)|[K _]].
        * destruct rb as [sc tc|sc tc| |]; cbn [prepend] in Z; try discriminate. destruct K2 as [_ [n K2]]. clear - K2.
          revert sb sc tc K2. induction n as [|n IH]; intros sb sc tc K2; [discriminate|]. cbn [Peg.run] in K2.
          match type of K2 with match ?x with _ => _ end = _ => destruct x as [s1 t1|s1 t1| |] end; try discriminate.
          match type of K2 with prepend _ ?x = _ => destruct x as [? ?|? ?| |] eqn:G end; cbn [prepend] in K2; try discriminate. eapply IH. exact G.
        * pose proof (ev_det U grammar skip_body _ _ _ _ _ _ K (ok_restore U _ _ _ _ _ _ E)) as D. discriminate.
  Qed.
  Lemma passes_reach : forall p v q v2 n, passes p v q v2 -> solid v = true -> reaches (ECall R_statement) NonAtomic LNone (mkPs q v2 []) n ->
    reaches (ERep (ESeq one_more)) NonAtomic LNone (mkPs p v []) n.
  Proof.
    intros p v q v2 n H S R. induction H as [p v|p v p1 v1 ts q v2 E S1 H IH].
    - apply reaches_rep, reaches_seq. eapply reaches_then2; [apply skip_nothing; exact S|]. apply reaches_restore. exact R.
    - eapply reaches_rep2; [apply one_more_ok; [exact S|exact E]|]. apply IH; assumption.
  Qed.
  Lemma passes_body_reach : forall p v q v2 n, passes p v q v2 -> reaches (ECall R_statement) NonAtomic LNone (mkPs q v2 []) n ->
    reaches program_body NonAtomic LNone (mkPs p v []) n.
  Proof.
    intros p v q v2 n H R. apply reaches_seq, reaches_opt. destruct H as [p v|p v p1 v1 ts q v2 E S1 H].
    - apply reaches_then1, reaches_restore. exact R.
    - eapply reaches_then2; [apply ok_restore; exact E|]. eapply passes_reach; eassumption.
  Qed.
  Lemma passes_more : forall p v q v2, passes p v q v2 -> forall q' v', passes q v2 q' v' -> passes p v q' v'.
  Proof. induction 1; intros q' v' H'; [exact H'|]. econstructor; [eassumption..|]. apply IHpasses. exact H'. Qed.

  (** ** Whole texts *)
  Lemma program_front : forall text s1 t1, ev ESkip NonAtomic false (mkPs 0 text []) (POk s1 t1) ->
    ev (EThen (ECall R_SOI) ESkip) NonAtomic false (mkPs 0 text []) (POk s1 t1).
  Proof. intros text s1 t1 E. change (POk s1 t1) with (prepend [] (POk s1 t1)). eapply ev_then; [|exact E]. apply ev_call. apply ev_soi. Qed.
  Lemma program_reach : forall text n, reaches (ECall R_program) NonAtomic LNone (mkPs 0 text []) n -> n <= a_pos (program_attempts U text).
  Proof. intros text n H. exact (H (peg_fuel text) (mkAt 0 [] []) (program_terminates U text)). Qed.
  Lemma body_reach : forall text s1 t1 n, ev ESkip NonAtomic false (mkPs 0 text []) (POk s1 t1) -> reaches program_body NonAtomic LNone s1 n ->
    n <= a_pos (program_attempts U text).
  Proof.
    intros text s1 t1 n E H. apply program_reach, reaches_call. cbn [grammar]. apply reaches_seq, reaches_then1, reaches_then1.
    eapply reaches_then2; [apply program_front; exact E|]. exact H.
  Qed.
  (** the end of the text is expected after the statements *)
  Lemma end_reach : forall text s1 t1 s2 t2 s3 t3 c w, ev ESkip NonAtomic false (mkPs 0 text []) (POk s1 t1) -> ev program_body NonAtomic false s1 (POk s2 t2) ->
    ev ESkip NonAtomic false s2 (POk s3 t3) -> rest s3 = c :: w -> pos s3 <= a_pos (program_attempts U text).
  Proof.
    intros text s1 t1 s2 t2 s3 t3 c w E1 E2 E3 R. apply program_reach, reaches_call. cbn [grammar]. apply reaches_seq.
    eapply reaches_then2.
    - eapply ok_then; [eapply ok_then; [apply program_front; exact E1|exact E2]|exact E3].
    - apply reaches_call. cbn [grammar]. destruct s3 as [p v st]. cbn [rest pos] in *. subst v.
      eapply (reaches_failure U grammar skip_body R_EOI EEoi NonAtomic LNone (mkPs p (c :: w) st)); [reflexivity|reflexivity|apply ev_eoi_err].
  Qed.
  Lemma end_recorded : forall text s1 t1 s2 t2 s3 t3 c w, ev ESkip NonAtomic false (mkPs 0 text []) (POk s1 t1) -> ev program_body NonAtomic false s1 (POk s2 t2) ->
    ev ESkip NonAtomic false s2 (POk s3 t3) -> rest s3 = c :: w -> a_pos (program_attempts U text) = pos s3 -> In R_EOI (a_yes (program_attempts U text)).
  Proof.
    intros text s1 t1 s2 t2 s3 t3 c w E1 E2 E3 R. unfold program_attempts. pose proof (program_terminates U text) as NF. unfold run_program in NF.
    assert (E : ev (EThen (EThen (EThen (ECall R_SOI) ESkip) program_body) ESkip) NonAtomic false (mkPs 0 text []) (POk s3 ((t1 ++ t2) ++ t3))).
    { eapply ok_then; [eapply ok_then; [apply program_front; exact E1|exact E2]|exact E3]. }
    destruct (peg_fuel text) as [|f]; [exfalso; apply NF; reflexivity|]. cbn [Peg.run Track.trace] in *. cbn [grammar] in *.
    destruct f as [|f]; [exfalso; apply NF; reflexivity|]. cbn [Peg.run Track.trace] in *.
    destruct f as [|f]; [exfalso; apply NF; reflexivity|]. cbn [Peg.run Track.trace quiet_of] in *. fold program_body in *.
    destruct (run f (EThen (EThen (EThen (ECall R_SOI) ESkip) program_body) ESkip) NonAtomic false (mkPs 0 text [])) as [sx tx|sx tx| |] eqn:X; try congruence.
    all: pose proof (ev_det U grammar skip_body _ _ _ _ _ _ E (ev_base U grammar skip_body _ _ _ _ _ _ X ltac:(discriminate))) as D; try discriminate D.
    injection D as <- _. clear X E. set (A := trace U grammar skip_body f (EThen (EThen (EThen (ECall R_SOI) ESkip) program_body) ESkip) NonAtomic LNone (mkPs 0 text []) (mkAt 0 [] [])).
    clearbody A. destruct s3 as [p v st]. cbn [rest pos] in *. subst v.
    assert (NE : run f (ECall R_EOI) NonAtomic false (mkPs p (c :: w) st) <> PFuel) by (intro Y; rewrite Y in NF; apply NF; reflexivity). clear NF.
    destruct f as [|f]; [exfalso; apply NE; reflexivity|]. cbn [Peg.run Track.trace grammar] in *.
    destruct f as [|f]; [exfalso; apply NE; reflexivity|]. cbn [Peg.run Track.trace quiet_of] in *.
    destruct f as [|f]; [exfalso; apply NE; reflexivity|]. cbn [Peg.run Track.trace rest pos]. unfold tracked. cbn [negative Bool.eqb]. unfold track. cbn [atomic].
    rewrite Nat.ltb_irrefl. cbn [andb]. destruct (Nat.eqb_spec p (a_pos A)) as [Q|Q].
    - cbn [a_pos]. destruct (Nat.ltb_spec (a_pos A) p); [lia|]. cbn [a_pos]. rewrite <- Q, Nat.eqb_refl. cbn [a_yes]. intros _. apply in_or_app. right. left. reflexivity.
    - destruct (Nat.ltb_spec (a_pos A) p); cbn [a_pos].
      + rewrite Nat.eqb_refl. cbn. auto.
      + destruct (Nat.eqb_spec p (a_pos A)); [congruence|]. intro. exfalso. lia.
  Qed.
  Lemma end_named : forall text s1 t1 s2 t2 s3 t3 c w, ev ESkip NonAtomic false (mkPs 0 text []) (POk s1 t1) -> ev program_body NonAtomic false s1 (POk s2 t2) ->
    ev ESkip NonAtomic false s2 (POk s3 t3) -> rest s3 = c :: w -> a_yes (program_attempts U text) ++ a_no (program_attempts U text) <> [].
  Proof.
    intros text s1 t1 s2 t2 s3 t3 c w E1 E2 E3 R. unfold program_attempts. pose proof (program_terminates U text) as NF. unfold run_program in NF.
    assert (E : ev (EThen (EThen (EThen (ECall R_SOI) ESkip) program_body) ESkip) NonAtomic false (mkPs 0 text []) (POk s3 ((t1 ++ t2) ++ t3))).
    { eapply ok_then; [eapply ok_then; [apply program_front; exact E1|exact E2]|exact E3]. }
    destruct (peg_fuel text) as [|f]; [exfalso; apply NF; reflexivity|]. cbn [Peg.run Track.trace] in *. cbn [grammar] in *.
    destruct f as [|f]; [exfalso; apply NF; reflexivity|]. cbn [Peg.run Track.trace] in *.
    destruct f as [|f]; [exfalso; apply NF; reflexivity|]. cbn [Peg.run Track.trace quiet_of] in *. fold program_body in *.
    destruct (run f (EThen (EThen (EThen (ECall R_SOI) ESkip) program_body) ESkip) NonAtomic false (mkPs 0 text [])) as [sx tx|sx tx| |] eqn:X; try congruence.
    all: pose proof (ev_det U grammar skip_body _ _ _ _ _ _ E (ev_base U grammar skip_body _ _ _ _ _ _ X ltac:(discriminate))) as D; try discriminate D.
    injection D as <- _. clear X E. set (A := trace U grammar skip_body f (EThen (EThen (EThen (ECall R_SOI) ESkip) program_body) ESkip) NonAtomic LNone (mkPs 0 text []) (mkAt 0 [] [])).
    assert (NA : named A) by (apply trace_named; left; reflexivity).
    clearbody A. destruct s3 as [p v st]. cbn [rest pos] in *. subst v.
    assert (NE : run f (ECall R_EOI) NonAtomic false (mkPs p (c :: w) st) <> PFuel) by (intro Y; rewrite Y in NF; apply NF; reflexivity). clear NF.
    destruct f as [|f]; [exfalso; apply NE; reflexivity|]. cbn [Peg.run Track.trace grammar] in *.
    destruct f as [|f]; [exfalso; apply NE; reflexivity|]. cbn [Peg.run Track.trace quiet_of] in *.
    destruct f as [|f]; [exfalso; apply NE; reflexivity|]. cbn [Peg.run Track.trace rest pos]. apply failed_named; [reflexivity|exact NA].
  Qed.
  Lemma refused_floor : forall text q v v2, (exists s t, run_program U text = PErr s t) -> forall p, ev ESkip NonAtomic false (mkPs 0 text []) (POk (mkPs p v []) []) ->
    passes p v q v2 -> exists e, q <= e <= a_pos (program_attempts U text) /\ (a_pos (program_attempts U text) = e -> In R_EOI (a_yes (program_attempts U text))) /\ e < length text.
  Proof.
    intros text q v v2 (s & t & R) p E H. assert (A0 : at_input text (mkPs 0 text [])) by (split; [cbn; lia|reflexivity]).
    destruct (moves_on _ _ _ _ _ _ _ A0 E) as [A1 _].
    destruct (body_terminates U false (mkPs p v [])) as [r Hr]. pose proof (program_unfold U text _ _ _ E Hr) as P. rewrite R in P.
    destruct r as [sa ta|sa ta| |]; cbn [prepend seq_res] in P; try discriminate. clear P.
    unfold program_rest in Hr. destruct (ev_then_inv U _ _ _ _ _ _ Hr) as [(s3 & t3 & r3 & H1 & H2 & Z3)|[H1 _]].
    - destruct (ev_then_inv U _ _ _ _ _ _ H1) as [(s2 & t2 & r2 & H3 & H4 & Z)|[_ N]]; [|exfalso; eapply N; reflexivity].
      destruct r2 as [sb tb|sb tb| |]; cbn [prepend] in Z; try discriminate. injection Z as -> _.
      destruct (rest sb) as [|c w] eqn:Er.
      + exfalso. destruct sb as [pb vb stb]. cbn [rest] in Er. subst vb.
        pose proof (ev_call U grammar skip_body R_EOI NonAtomic false _ _ (ev_rule U grammar skip_body R_EOI EEoi NonAtomic false _ _ (ev_eoi U grammar skip_body NonAtomic false pb stb))) as X.
        pose proof (ev_det U grammar skip_body _ _ _ _ _ _ X H2) as D. subst r3. discriminate.
      + destruct (moves_on _ _ _ _ _ _ _ A1 H3) as [A2 _]. destruct (moves_on _ _ _ _ _ _ _ A2 H4) as [[A3 A4] A5].
        exists (pos sb). split; [split; [|eapply end_reach; eassumption]|split; [eapply end_recorded; eassumption|]].
        * etransitivity; [exact (passes_body _ _ _ _ H text _ _ A1 H3)|exact A5].
        * rewrite Er in A4. assert (X : length (skipn (pos sb) text) <> 0) by (rewrite <- A4; discriminate). rewrite skipn_length in X. lia.
    - exfalso. destruct (ev_then_inv U _ _ _ _ _ _ H1) as [(s2 & t2 & r2 & H3 & H4 & Z)|[H3 _]].
      + destruct (skip_ok U false s2) as (sx & tx & X). pose proof (ev_det U grammar skip_body _ _ _ _ _ _ X H4) as D. subst r2. discriminate.
      + destruct H3 as [_ [f F]]. destruct f as [|f]; [discriminate|]. unfold program_body in F. cbn [Peg.run] in F. destruct f as [|f]; [discriminate|]. cbn [Peg.run] in F.
        match type of F with match match ?x with _ => _ end with _ => _ end = _ => destruct x as [? ?|? ?| |] end; discriminate.
  Qed.
  Lemma refused_named : forall text, (exists s t, run_program U text = PErr s t) -> a_yes (program_attempts U text) ++ a_no (program_attempts U text) <> [].
  Proof.
    intros text (s & t & R). destruct (skip_ok U false (mkPs 0 text [])) as (s1 & t1 & E).
    destruct (body_terminates U false s1) as [r Hr]. pose proof (program_unfold U text _ _ _ E Hr) as P. rewrite R in P.
    destruct r as [sa ta|sa ta| |]; cbn [prepend seq_res] in P; try discriminate. clear P.
    unfold program_rest in Hr. destruct (ev_then_inv U _ _ _ _ _ _ Hr) as [(s3 & t3 & r3 & H1 & H2 & Z3)|[H1 _]].
    - destruct (ev_then_inv U _ _ _ _ _ _ H1) as [(s2 & t2 & r2 & H3 & H4 & Z)|[_ N]]; [|exfalso; eapply N; reflexivity].
      destruct r2 as [sb tb|sb tb| |]; cbn [prepend] in Z; try discriminate. injection Z as -> _.
      destruct (rest sb) as [|c w] eqn:Er.
      + exfalso. destruct sb as [pb vb stb]. cbn [rest] in Er. subst vb.
        pose proof (ev_call U grammar skip_body R_EOI NonAtomic false _ _ (ev_rule U grammar skip_body R_EOI EEoi NonAtomic false _ _ (ev_eoi U grammar skip_body NonAtomic false pb stb))) as X.
        pose proof (ev_det U grammar skip_body _ _ _ _ _ _ X H2) as D. subst r3. discriminate.
      + eapply end_named; eassumption.
    - exfalso. destruct (ev_then_inv U _ _ _ _ _ _ H1) as [(s2 & t2 & r2 & H3 & H4 & Z)|[H3 _]].
      + destruct (skip_ok U false s2) as (sx & tx & X). pose proof (ev_det U grammar skip_body _ _ _ _ _ _ X H4) as D. subst r2. discriminate.
      + destruct H3 as [_ [f F]]. destruct f as [|f]; [discriminate|]. unfold program_body in F. cbn [Peg.run] in F. destruct f as [|f]; [discriminate|]. cbn [Peg.run] in F.
        match type of F with match match ?x with _ => _ end with _ => _ end = _ => destruct x as [? ?|? ?| |] end; discriminate.
  Qed.
  Lemma error_names : forall text i yes no, parse_error U text = Some (i, yes, no) -> yes <> [] /\ (forall r, In r yes -> misses U text i r) /\ no = [].
  Proof.
    intros text i yes no H. pose proof (never_unexpected U text i yes no H) as N0. split; [|split; [exact (proj1 (expected_right U text i yes no H))|exact N0]].
    unfold parse_error in H. pose proof (refused_named text) as N. destruct (run_program U text) as [|s t| |]; try discriminate. injection H as <- <- Hn.
    specialize (N (ex_intro _ s (ex_intro _ t eq_refl))). rewrite Hn, N0, app_nil_r in N. exact N.
  Qed.

  (** ** Lines *)
  Definition fresh (v : str) : Prop := exists d w, v = d :: w /\ white_space d = false /\ operator_start d = false /\ semi d = false.
  Lemma fresh_front : forall x w, front x = true -> plain_start x = true -> head_is operator_start x = false -> fresh (x ++ w).
  Proof.
    intros [|d x] w F P O; [discriminate|]. exists d, (x ++ w). split; [reflexivity|]. cbn [head_is] in O. split; [|split; [exact O|]].
    - pose proof (front_solid _ w F) as S. unfold solid in S. apply andb_prop in S as [S _]. apply negb_true_iff in S. exact S.
    - unfold plain_start in P. apply andb_prop in P as [P _]. apply negb_true_iff in P. cbn [head_is] in P. apply orb_false_iff in P as [P _]. exact P.
  Qed.
  Lemma fresh_stop : forall ws v, broken ws = true -> fresh v -> expr_stop ws v /\ head_is semi v = false.
  Proof. intros ws v B (d & w & -> & W & O & S). split; [apply break_stop; assumption|exact S]. Qed.
  Lemma lines_passes : forall t, lines U t -> forall p w, fresh w -> fresh (t ++ w) /\ passes p (t ++ w) (p + length t) w.
  Proof.
    induction 1 as [|x o ws t Hx Hp Ho Hb Ht IH]; intros p w Hw.
    - split; [exact Hw|]. cbn [length app]. rewrite Nat.add_0_r. constructor.
    - destruct (source_expr U HU x o Hx) as [M F]. assert (N : x <> []) by (intros ->; discriminate).
      rewrite <- !app_assoc. split; [apply fresh_front; assumption|].
      destruct (IH (p + length x + length ws) w Hw) as [Fr Pa]. destruct (fresh_stop ws (t ++ w) Hb Fr) as [St Se].
      destruct (statement_expr U x o p ws (t ++ w) [] (plain_start_app _ _ N Hp (stop_lower U _ _ St)) M St Se) as (T & E & _).
      econstructor; [exact E|apply St|]. replace (p + length (x ++ ws ++ t)) with (p + length x + length ws + length t) by (unfold str, char in *; rewrite !app_length; lia). exact Pa.
  Qed.
  Lemma fresh_solid : forall v, fresh v -> solid v = true.
  Proof. intros v H. destruct (fresh_stop [10%N] v eq_refl H) as [St _]. apply St. Qed.
  Lemma spacing_first : forall g v, spacing g = true -> solid v = true -> ev ESkip NonAtomic false (mkPs 0 (g ++ v) []) (POk (mkPs (length g) v []) []).
  Proof. intros g v Hg Hv. exact (skip_spacing U g 0 v [] Hg Hv). Qed.
  Lemma after_lines : forall g t c w f, spacing g = true -> lines U t -> white_space c = false -> operator_start c = false -> semi c = false ->
    parse U f (g ++ t ++ c :: w) = Ret (Err SMParseError) -> exists i, length (g ++ t) <= i /\ blamed U (g ++ t ++ c :: w) i.
  Proof.
    intros g t c w f Hg Ht W O S R. assert (Fr : fresh (c :: w)) by (exists c, w; auto).
    destruct (lines_passes t Ht (length g) (c :: w) Fr) as [F1 P].
    pose proof R as R'. apply parse_refused in R'. pose proof (spacing_first g (t ++ c :: w) Hg (fresh_solid _ F1)) as E.
    destruct (refused_floor _ _ _ _ R' _ E P) as (e & [L1 L2] & _). exists (a_pos (program_attempts U (g ++ t ++ c :: w))). split; [|eapply refused_blamed; exact R].
    unfold str, char in *. rewrite app_length. lia.
  Qed.

  (** ** A stranger after an expression *)
  Lemma stranger_stop : forall ws c w, spacing ws = true -> stranger U c = true -> expr_stop ws (c :: w) /\ head_is semi (c :: w) = false.
  Proof.
    intros ws c w H C. pose proof C as C'. unfold stranger in C'. apply negb_true_iff in C'. apply orb_false_iff in C' as [C' H5]. apply orb_false_iff in C' as [C' H4].
    apply orb_false_iff in C' as [C' H3]. apply orb_false_iff in C' as [H1 H2].
    assert (X : forall d, existsb (N.eqb d) language_signs = true -> (c =? d)%N = false) by (intros d Hd; apply N.eqb_neq; intros ->; congruence).
    assert (So : solid (c :: w) = true).
    { unfold solid. cbn [head_is]. rewrite H1. change (lit "//") with [47; 47]%N. change (lit "%%%") with [37; 37; 37]%N. rewrite !strip_other by (apply X; reflexivity). reflexivity. }
    assert (IW : inline_space c = false) by (unfold inline_space; rewrite H1; reflexivity).
    assert (T : tstop U (c :: w) = true).
    { assert (D : drop_inline (c :: w) = c :: w) by (cbn [drop_inline]; rewrite IW; reflexivity).
      assert (PM : path_more U (c :: w) = false).
      { unfold path_more. change (lit "::") with [58; 58]%N. rewrite !strip_other by (apply X; reflexivity). reflexivity. }
      unfold tstop, ProofNode.nstop, sym_stop, primed, dot_digit. rewrite D, PM. cbn [head_is]. unfold clings, joins. cbn [existsb].
      rewrite !(N.eqb_sym _ c). rewrite H2, H3, H4, !X by reflexivity. reflexivity. }
    split; [|cbn [head_is]; unfold semi; rewrite !X by reflexivity; reflexivity].
    split; [apply spacing_gone; assumption|]. split; [apply tstop_white; assumption|]. split; [exact So|].
    apply blocked_head. cbn [head_is]. unfold infix_head. cbn [existsb]. rewrite !X by reflexivity. reflexivity.
  Qed.
  Lemma lines_expr_passes : forall t x o ws v p, lines U t -> SpecSource.expr U x o -> plain_start x = true -> t = [] \/ head_is operator_start x = false ->
    expr_stop ws v -> head_is semi v = false -> solid (t ++ x ++ ws ++ v) = true /\ passes p (t ++ x ++ ws ++ v) (p + length (t ++ x ++ ws)) v.
  Proof.
    intros t x o ws v p Ht Hx Hp Hh St Se. destruct (source_expr U HU x o Hx) as [M F]. assert (N : x <> []) by (intros ->; discriminate).
    assert (L : solid (t ++ x ++ ws ++ v) = true /\ passes p (t ++ x ++ ws ++ v) (p + length t) (x ++ ws ++ v)).
    { destruct Hh as [->|O].
      - cbn [app length]. rewrite Nat.add_0_r. split; [apply front_solid; exact F|constructor].
      - destruct (lines_passes t Ht p (x ++ ws ++ v) (fresh_front _ _ F Hp O)) as [Fr P]. split; [apply fresh_solid; exact Fr|exact P]. }
    split; [apply L|]. eapply passes_more; [apply L|].
    destruct (statement_expr U x o (p + length t) ws v [] (plain_start_app _ _ N Hp (stop_lower U _ _ St)) M St Se) as (T & E & _).
    econstructor; [exact E|apply St|].
    replace (p + length (t ++ x ++ ws)) with (p + length t + length x + length ws) by (unfold str, char in *; rewrite !app_length; lia). constructor.
  Qed.
  Lemma stranger_exact : forall g t x o ws c w, spacing g = true -> lines U t -> SpecSource.expr U x o -> plain_start x = true ->
    t = [] \/ head_is operator_start x = false -> spacing ws = true -> stranger U c = true -> bare (g ++ t ++ x ++ ws) = true ->
    (forall f, parse U f ((g ++ t ++ x ++ ws) ++ c :: w) = Ret (Err SMParseError)) /\
    blamed U ((g ++ t ++ x ++ ws) ++ c :: w) (length (g ++ t ++ x ++ ws)) /\ end_expected U ((g ++ t ++ x ++ ws) ++ c :: w).
  Proof.
    intros g t x o ws c w Hg Ht Hx Hp Hh Hs Hc B. set (u := g ++ t ++ x ++ ws) in *.
    destruct (stranger_bound U u c w B Hc) as [R L]. destruct (stranger_refused U u c w B Hc) as [P _]. split; [exact P|].
    destruct (stranger_stop ws c w Hs Hc) as [St Se].
    destruct (lines_expr_passes t x o ws (c :: w) (length g) Ht Hx Hp Hh St Se) as [So Pa].
    pose proof (spacing_first g _ Hg So) as E. replace (g ++ t ++ x ++ ws ++ c :: w) with (u ++ c :: w) in E by (subst u; rewrite <- !app_assoc; reflexivity).
    destruct (refused_floor _ _ _ _ R _ E Pa) as (e & [L1 L2] & L3).
    assert (LE : length g + length (t ++ x ++ ws) = length u) by (subst u; unfold str, char in *; rewrite !app_length; lia).
    rewrite LE in L1. assert (A : a_pos (program_attempts U (u ++ c :: w)) = length u) by lia.
    split.
    - rewrite <- A. exact (refused_blamed U [] _ (P [])).
    - unfold end_expected. rewrite (refused_error U [] _ (P [])). do 3 eexists. split; [reflexivity|]. apply (proj1 L3). lia.
  Qed.

  (** ** An operator without its right operand *)
  Lemma term_reach : forall p w st, idle U w -> reaches (ECall R_term) NonAtomic LNone (mkPs p w st) p.
  Proof.
    intros p w st H. apply reaches_call. cbn [grammar]. apply reaches_atomic.
    match goal with |- ProofTrack.reaches _ _ _ (ERule ?r ?x) ?k ?l ?s _ => assert (F : fails x k false s) end.
    { destruct w as [|c w].
      - match goal with |- fails ?x _ _ _ => apply (fails_sound U grammar skip_body 60 x CompoundAtomic false [mkLook [] false] p [] st) end.
        + vm_compute. reflexivity.
        + exists (mkLook [] false). split; [left; reflexivity|]. exists []. split; [reflexivity|reflexivity].
      - unfold idle in H. cbn [head_is] in H. apply dead_spec in H.
        apply er_seq0, er_then. eapply ok_then0; [apply no_rep, er_Prefix|apply er_node_dead; exact H].
        unfold dead in H. apply andb_prop in H as [H _]. apply andb_prop in H as [H _]. apply negb_true_iff in H. exact H. }
    eapply (reaches_failure U grammar skip_body R_term _ CompoundAtomic LNone (mkPs p w st)); [reflexivity|reflexivity|exact F].
  Qed.
  Lemma opterm_reach : forall s g w p st, In s (map fst SpecSource.operators ++ SpecSource.ignored) -> spacing g = true -> idle U w -> solid w = true ->
    reaches opterm NonAtomic LNone (mkPs p (s ++ g ++ w) st) (p + 1 + length g).
  Proof.
    intros s g w p st Hs Hg Hi Ho. destruct (sign_op s Hs) as [r R]. apply reaches_restore, reaches_seq.
    eapply reaches_then2; [|apply term_reach; exact Hi]. eapply ok_then1; [apply ok_Infix; exact R|]. apply skip_spacing; assumption.
  Qed.
  Lemma expr_items : forall x o, SpecSource.expr U x o -> exists x0 o0 l, x = x0 ++ items_text l /\ term_means U x0 o0 /\ front x0 = true /\ Forall (good_item U) l.
  Proof.
    intros x o H. destruct H as [x o y l z m b Hx Hy _ Hz _ _ _].
    destruct (source_means U HU) as (_ & _ & _ & _ & _ & _ & _ & _ & _ & _ & _ & MT & _ & MR & _).
    destruct (MT _ _ Hx) as (Tx & Fx & _). destruct (MR _ _ Hy) as (is & Ey & Gi & _). destruct (MR _ _ Hz) as (js & Ez & Gj & _).
    exists x, o, (is ++ js). split; [|split; [exact Tx|split; [exact Fx|apply Forall_app; auto]]].
    subst y z. unfold items_text. rewrite map_app, concat_app. reflexivity.
  Qed.
  Lemma expr_reach : forall x o ws w d, SpecSource.expr U x o -> expr_stop ws w -> (forall p st, reaches opterm NonAtomic LNone (mkPs p w st) (p + d)) ->
    forall p st, reaches (ECall R_expr) NonAtomic LNone (mkPs p (x ++ ws ++ w) st) (p + length (x ++ ws) + d).
  Proof.
    intros x o ws w d Hx Hw Hd p st. destruct (expr_items x o Hx) as (x0 & o0 & l & -> & H0 & F0 & Hl).
    destruct (H0 NonAtomic p (items_text l ++ ws ++ w) st (items_start U HU l ws w Hl Hw)) as (T0 & E0 & _).
    apply reaches_call. cbn [grammar]. apply reaches_atomic, reaches_rule, reaches_seq. rewrite <- app_assoc.
    destruct l as [|i l].
    - cbn [items_text map concat app] in *. rewrite app_nil_r. eapply reaches_then2; [eapply ok_then1; [exact E0|apply Hw]|].
      apply reaches_seq, reaches_opt, reaches_then1.
      replace (p + length (x0 ++ ws) + d) with (p + length x0 + length ws + d) by (unfold str, char in *; rewrite app_length; lia). apply Hd.
    - pose proof (Forall_inv Hl) as Hi. pose proof (Forall_inv_tail Hl) as Hm. change (items_text (i :: l)) with (item_text i ++ items_text l) in *.
      destruct (ok_opterm U i (p + length x0 + length (before i)) (items_text l ++ ws ++ w) st Hi (items_start U HU l ws w Hm Hw)) as (T & ET & _).
      destruct (ok_items U HU l (p + length x0 + length (before i) + length (sign i ++ after i ++ ProofExpr.arg i)) ws w st Hm Hw) as (L & EL & _).
      unfold item_text in *. rewrite <- !app_assoc in *.
      eapply reaches_then2; [eapply ok_then1; [exact E0|]; apply skip_spacing; [exact (proj1 Hi)|apply op_solid with (r := op i); apply Hi]|].
      apply reaches_seq, reaches_opt. eapply reaches_then2; [exact ET|].
      eapply reaches_last; [exact EL|]. cbn [pos rest]. intro st'. apply reaches_seq. eapply reaches_then2; [apply Hw|].
      match goal with |- ProofTrack.reaches _ _ _ _ _ _ (mkPs ?a _ _) ?b => replace b with (a + d) end; [apply Hd|].
      unfold str, char in *. rewrite !app_length. lia.
  Qed.
  Lemma statement_reach : forall p v n, plain_start v = true -> reaches (ECall R_expr) NonAtomic LNone (mkPs p v []) n ->
    reaches (ECall R_statement) NonAtomic LNone (mkPs p v []) n.
  Proof.
    intros p v n P H. apply reaches_call. eapply (reaches_else2 U grammar skip_body before_expression); [apply er_before; exact P|].
    apply reaches_restore, reaches_call. cbn [grammar]. apply reaches_rule, reaches_seq. do 2 apply reaches_then1. exact H.
  Qed.

  (** ** Texts whose statements end before the text does *)
  Lemma passes_to : forall p v q v2, passes p v q v2 -> solid v = true -> fails (ECall R_statement) NonAtomic false (mkPs q v2 []) ->
    exists t, ev (ERep (ESeq one_more)) NonAtomic false (mkPs p v []) (POk (mkPs q v2 []) t).
  Proof.
    intros p v q v2 H S F. induction H as [p v|p v p1 v1 ts q v2 E S1 H IH].
    - exists []. apply ev_rep_stop. eapply er_seq2; [apply (skip_nothing U p v [] S)|apply er_restore, F|reflexivity].
    - destruct (IH S1 F) as [t R]. exists (ts ++ t). eapply ok_rep; [apply one_more_ok; [exact S|exact E]|exact R].
  Qed.
  Lemma passes_refused : forall g p v q v2, spacing g = true -> solid v = true -> p = length g -> passes p v q v2 -> solid v2 = true -> v2 <> [] ->
    fails (ECall R_statement) NonAtomic false (mkPs q v2 []) -> forall f, parse U f (g ++ v) = Ret (Err SMParseError).
  Proof.
    intros g p v q v2 Hg Sv -> H S N F f. pose proof (spacing_first g v Hg Sv) as E0.
    assert (B : exists t, ev program_body NonAtomic false (mkPs (length g) v []) (POk (mkPs q v2 []) t)).
    { unfold program_body. destruct H as [p v|p v p1 v1 ts q v2 E S1 H].
      - exists []. apply ok_seq, no_opt, er_then, er_restore, F.
      - destruct (passes_to _ _ _ _ H S1 F) as [t R]. exists (ts ++ t). apply ok_seq, ok_opt. eapply ok_then; [apply ok_restore; exact E|exact R]. }
    destruct B as [t B]. pose proof (ok_then1 U _ _ _ _ _ _ _ _ B (skip_nothing U q v2 [] S)) as E3.
    assert (EO : exists s t, ev (ECall R_EOI) NonAtomic false (mkPs q v2 []) (PErr s t)).
    { destruct v2 as [|c w]; [congruence|]. eexists. eexists. apply ev_call. exact (ev_rule U grammar skip_body R_EOI EEoi NonAtomic false _ _ (ev_eoi_err U grammar skip_body _ _ _ _ _ _)). }
    destruct EO as (s5 & t5 & EO). pose proof (ev_then U grammar skip_body _ _ _ _ _ _ _ _ E3 EO) as R1. cbn [prepend] in R1. fold program_rest in R1.
    unfold parse. rewrite (program_unfold U _ _ _ _ E0 R1). reflexivity.
  Qed.
  Lemma missing_place : forall g t x o g1 s g2 w, spacing g = true -> lines U t -> SpecSource.expr U x o -> plain_start x = true ->
    t = [] \/ head_is operator_start x = false -> spacing g1 = true -> In s (map fst SpecSource.operators ++ SpecSource.ignored) -> spacing g2 = true ->
    head_is (operand_start U) w = false -> head_is white_space w = false -> comment_start (s ++ g2 ++ w) = false -> comment_start w = false ->
    (forall f, parse U f ((g ++ t ++ x ++ g1 ++ s ++ g2) ++ w) = Ret (Err SMParseError)) /\
    exists i, length (g ++ t ++ x ++ g1 ++ s ++ g2) <= i /\ i = a_pos (program_attempts U ((g ++ t ++ x ++ g1 ++ s ++ g2) ++ w)) /\ blamed U ((g ++ t ++ x ++ g1 ++ s ++ g2) ++ w) i.
  Proof.
    intros g t x o g1 s g2 w Hg Ht Hx Hp Hh H1 Hs H2 Hi Hw C1 C2. destruct (sign_op s Hs) as [r R].
    destruct (infix_op_len r s R) as (c & -> & Wc). assert (Sw : solid w = true) by (apply solid_spec; assumption).
    assert (ST : expr_stop g1 ([c] ++ g2 ++ w)).
    { split; [apply spacing_gone; [exact H1|apply solid_spec; [exact Wc|exact C1]]|]. split; [|split].
      - apply tstop_white; [exact HU|exact H1|]. eapply tstop_op; [exact HU|exact R|]. intros _.
        pose proof (white_idle U HU g2 w H2 Hi) as I. unfold idle in I. destruct (g2 ++ w) as [|d v]; [reflexivity|]. cbn [head_is] in *.
        unfold operand_start in I. apply orb_false_iff in I as [I _]. apply orb_false_iff in I as [I _]. apply orb_false_iff in I as [_ I]. exact I.
      - apply solid_spec; [exact Wc|exact C1].
      - apply idle_blocked; assumption. }
    assert (PS : plain_start ([c] ++ g2 ++ w) = true) by (apply sign_plain; exact Hs).
    assert (Se : head_is semi ([c] ++ g2 ++ w) = false).
    { unfold plain_start in PS. apply andb_prop in PS as [PS _]. apply negb_true_iff in PS. cbn [app head_is] in *. apply orb_false_iff in PS. apply PS. }
    destruct (lines_expr_passes t x o g1 ([c] ++ g2 ++ w) (length g) Ht Hx Hp Hh ST Se) as [So Pa].
    assert (FS : forall p, fails (ECall R_statement) NonAtomic false (mkPs p ([c] ++ g2 ++ w) [])).
    { intro p. apply er_call. apply (er_else U before_expression); [apply er_before; exact PS|]. apply er_restore, er_call, er_rule, er_seq0. do 2 apply er_then. apply idle_sign; assumption. }
    assert (Etext : (g ++ t ++ x ++ g1 ++ [c] ++ g2) ++ w = g ++ t ++ x ++ g1 ++ [c] ++ g2 ++ w) by (rewrite <- !app_assoc; reflexivity).
    unfold str, char in *. rewrite Etext.
    assert (Ref : forall f, parse U f (g ++ t ++ x ++ g1 ++ [c] ++ g2 ++ w) = Ret (Err SMParseError)).
    { eapply passes_refused; [exact Hg|exact So|reflexivity|exact Pa|apply ST|discriminate|apply FS]. }
    split; [exact Ref|]. exists (a_pos (program_attempts U (g ++ t ++ x ++ g1 ++ [c] ++ g2 ++ w))). split; [|split; [reflexivity|exact (refused_blamed U [] _ (Ref []))]].
    eapply body_reach; [exact (spacing_first g _ Hg So)|].
    destruct (source_expr U HU x o Hx) as [M F]. assert (N : x <> []) by (intros ->; discriminate).
    eapply passes_body_reach with (q := length g + length t) (v2 := x ++ g1 ++ [c] ++ g2 ++ w).
    - destruct Hh as [->|O].
      + cbn [app length]. rewrite Nat.add_0_r. constructor.
      + apply (lines_passes t Ht (length g) _ (fresh_front _ _ F Hp O)).
    - apply statement_reach; [apply plain_start_app; [exact N|exact Hp|apply (stop_lower U); exact ST]|].
      replace (length (g ++ t ++ x ++ g1 ++ [c] ++ g2)) with (length g + length t + length (x ++ g1) + (1 + length g2)) by (rewrite !app_length; cbn [length]; lia).
      eapply expr_reach; [exact Hx|exact ST|]. intros p st. rewrite Nat.add_assoc. apply opterm_reach; assumption.
  Qed.
  Lemma missing_operand_after : forall g t x o g1 s g2 w, spacing g = true -> lines U t -> SpecSource.expr U x o -> plain_start x = true ->
    t = [] \/ head_is operator_start x = false -> spacing g1 = true -> In s (map fst SpecSource.operators ++ SpecSource.ignored) -> spacing g2 = true ->
    head_is (operand_start U) w = false -> head_is white_space w = false -> comment_start (s ++ g2 ++ w) = false -> comment_start w = false ->
    (forall f, parse U f ((g ++ t ++ x ++ g1 ++ s ++ g2) ++ w) = Ret (Err SMParseError)) /\
    exists i, length (g ++ t ++ x ++ g1 ++ s ++ g2) <= i /\ blamed U ((g ++ t ++ x ++ g1 ++ s ++ g2) ++ w) i.
  Proof.
    intros g t x o g1 s g2 w Hg Ht Hx Hp Hh H1 Hs H2 Hi Hw C1 C2.
    destruct (missing_place g t x o g1 s g2 w Hg Ht Hx Hp Hh H1 Hs H2 Hi Hw C1 C2) as [R (i & L & _ & B)]. eauto.
  Qed.
  Lemma missing_operand_end : forall g t x o g1 s g2, spacing g = true -> lines U t -> SpecSource.expr U x o -> plain_start x = true ->
    t = [] \/ head_is operator_start x = false -> spacing g1 = true -> In s (map fst SpecSource.operators ++ SpecSource.ignored) -> spacing g2 = true ->
    comment_start (s ++ g2) = false ->
    (forall f, parse U f (g ++ t ++ x ++ g1 ++ s ++ g2) = Ret (Err SMParseError)) /\
    blamed U (g ++ t ++ x ++ g1 ++ s ++ g2) (length (g ++ t ++ x ++ g1 ++ s ++ g2)).
  Proof.
    intros g t x o g1 s g2 Hg Ht Hx Hp Hh H1 Hs H2 C1.
    destruct (missing_place g t x o g1 s g2 [] Hg Ht Hx Hp Hh H1 Hs H2 eq_refl eq_refl ltac:(rewrite app_nil_r; exact C1) eq_refl) as [R (i & L & _ & B)].
    unfold str, char in *. rewrite app_nil_r in *. split; [exact R|]. assert (i = length (g ++ t ++ x ++ g1 ++ s ++ g2)) as <- by (destruct B as [B _]; unfold str, char in *; lia). exact B.
  Qed.
  (** a stranger in place of the operand *)
  Lemma missing_operand_stranger : forall g t x o g1 s g2 c w, spacing g = true -> lines U t -> SpecSource.expr U x o -> plain_start x = true ->
    t = [] \/ head_is operator_start x = false -> spacing g1 = true -> In s (map fst SpecSource.operators ++ SpecSource.ignored) -> spacing g2 = true -> stranger U c = true ->
    comment_start (s ++ g2 ++ c :: w) = false -> bare (g ++ t ++ x ++ g1 ++ s ++ g2) = true ->
    blamed U ((g ++ t ++ x ++ g1 ++ s ++ g2) ++ c :: w) (length (g ++ t ++ x ++ g1 ++ s ++ g2)).
  Proof.
    intros g t x o g1 s g2 c w Hg Ht Hx Hp Hh H1 Hs H2 Hc C1 B. pose proof Hc as C'. unfold stranger in C'. apply negb_true_iff in C'. apply orb_false_iff in C' as [C' H5]. apply orb_false_iff in C' as [C' H4].
    apply orb_false_iff in C' as [C' H3]. apply orb_false_iff in C' as [H6 H7].
    assert (X : forall d, existsb (N.eqb d) language_signs = true -> (c =? d)%N = false) by (intros d Hd; apply N.eqb_neq; intros ->; congruence).
    assert (I : head_is (operand_start U) (c :: w) = false).
    { cbn [head_is]. unfold operand_start, prefix_char. cbn [existsb]. rewrite H7, H3, !X by reflexivity. reflexivity. }
    assert (C2 : comment_start (c :: w) = false).
    { unfold comment_start, starts_with. change (lit "///") with [47; 47; 47]%N. change (lit "//?") with [47; 47; 63]%N. change (lit "//!") with [47; 47; 33]%N.
      change (lit "//*") with [47; 47; 42]%N. change (lit "%%%") with [37; 37; 37]%N. cbn [existsb]. rewrite !strip_other by (apply X; reflexivity). reflexivity. }
    destruct (missing_place g t x o g1 s g2 (c :: w) Hg Ht Hx Hp Hh H1 Hs H2 I H6 C1 C2) as [R (i & L & E & Bl)].
    destruct (stranger_bound U _ c w B Hc) as [_ L2]. assert (i = length (g ++ t ++ x ++ g1 ++ s ++ g2)) as <- by lia. exact Bl.
  Qed.
  (** ** Signs that can follow no expression *)
  Lemma sign_place : forall g t x o ws c w, spacing g = true -> lines U t -> SpecSource.expr U x o -> plain_start x = true ->
    t = [] \/ head_is operator_start x = false -> spacing ws = true -> In c foreign ->
    (forall f, parse U f ((g ++ t ++ x ++ ws) ++ c :: w) = Ret (Err SMParseError)) /\
    exists i, length (g ++ t ++ x ++ ws) <= i /\ i = a_pos (program_attempts U ((g ++ t ++ x ++ ws) ++ c :: w)) /\ blamed U ((g ++ t ++ x ++ ws) ++ c :: w) i.
  Proof.
    intros g t x o ws c w Hg Ht Hx Hp Hh Hs Hc.
    pose proof (foreign_stop U HU ws c w Hs (or_intror Hc)) as St.
    assert (PS : plain_start (c :: w) = true) by (cbn [foreign In] in Hc; repeat (destruct Hc as [<-|Hc]; [reflexivity|]); contradiction).
    assert (Se : head_is semi (c :: w) = false).
    { unfold plain_start in PS. apply andb_prop in PS as [PS _]. apply negb_true_iff in PS. cbn [head_is] in *. apply orb_false_iff in PS. apply PS. }
    destruct (lines_expr_passes t x o ws (c :: w) (length g) Ht Hx Hp Hh St Se) as [So Pa].
    assert (FS : forall p, fails (ECall R_statement) NonAtomic false (mkPs p (c :: w) [])).
    { intro p. apply er_call. apply (er_else U before_expression); [apply er_before; exact PS|]. apply er_restore, er_call, er_rule, er_seq0. do 2 apply er_then.
      apply er_expr_dead. cbn [foreign In] in Hc. repeat (destruct Hc as [<-|Hc]; [reflexivity|]). contradiction. }
    assert (Etext : (g ++ t ++ x ++ ws) ++ c :: w = g ++ t ++ x ++ ws ++ c :: w) by (rewrite <- !app_assoc; reflexivity).
    unfold str, char in *. rewrite Etext.
    assert (Ref : forall f, parse U f (g ++ t ++ x ++ ws ++ c :: w) = Ret (Err SMParseError)).
    { eapply passes_refused; [exact Hg|exact So|reflexivity|exact Pa|apply St|discriminate|apply FS]. }
    split; [exact Ref|]. exists (a_pos (program_attempts U (g ++ t ++ x ++ ws ++ c :: w))). split; [|split; [reflexivity|exact (refused_blamed U [] _ (Ref []))]].
    pose proof (Ref []) as R. apply parse_refused in R.
    destruct (refused_floor _ _ _ _ R _ (spacing_first g _ Hg So) Pa) as (e & [L1 L2] & _). unfold str, char in *. rewrite !app_length in *. lia.
  Qed.
  Lemma sign_after : forall g t x o ws c w, spacing g = true -> lines U t -> SpecSource.expr U x o -> plain_start x = true ->
    t = [] \/ head_is operator_start x = false -> spacing ws = true -> In c foreign ->
    (forall f, parse U f ((g ++ t ++ x ++ ws) ++ c :: w) = Ret (Err SMParseError)) /\
    exists i, length (g ++ t ++ x ++ ws) <= i /\ blamed U ((g ++ t ++ x ++ ws) ++ c :: w) i.
  Proof.
    intros g t x o ws c w Hg Ht Hx Hp Hh Hs Hc. destruct (sign_place g t x o ws c w Hg Ht Hx Hp Hh Hs Hc) as [R (i & L & _ & B)]. eauto.
  Qed.
End Floor.
