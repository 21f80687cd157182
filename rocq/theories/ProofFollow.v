(** The generated functions follow the grammar. *)
From Verif Require Import Base Peg Grammar SpecPeg ProofPeg ProofPegShift ProofSym ProofGrammar ProofAst SpecPest Source ProofPest Build.
Local Open Scope nat_scope.

(** ** Functions that leave the stack as it was when they fail *)
Fixpoint calm (e : gexp) : bool :=
  match e with
  | Name r => negb (stacky r)
  | Then a b => calm a && level a && calm b
  | Push a => calm a
  | _ => true
  end.
Definition guarded (e : gexp) : bool := touches e || calm e.
Fixpoint good (e : gexp) : bool :=
  match e with
  | Text _ | AnyCase _ | Name _ => true
  | Then a b => good a && good b
  | Or a b => guarded a && guarded b && good a && good b
  | Maybe a | Many a => guarded a && good a
  | Not a | Push a => good a
  | Several _ | Times _ _ => false
  end.
Lemma bodies_good : forall r k e, source r = Rule k e -> good (normal e) = true.
Proof. intros r k e H. destruct r; cbn [source] in H; try discriminate; injection H as <- <-; vm_compute; reflexivity. Qed.
Lemma bodies_calm : forall r k e, source r = Rule k e -> stacky r = false -> calm (normal e) = true.
Proof. intros r k e H K. destruct r; try discriminate K; cbn [source] in H; try discriminate; injection H as <- <-; vm_compute; reflexivity. Qed.

Section Meaning.
  Variable U : unicode.
  Notation reads := (reads U source).
  Notation again := (again U source).
  Notation skips := (skips U source).
  Notation run := (run U grammar skip_body).
  Notation trees := (list (tree rule)).
  Notation rel := (pstate -> option (pstate * trees) -> Prop).

  (** what a run may answer when the grammar says A; tidy: after a failure the
      place is the old one and nothing was queued; c: so is the stack *)
  Definition post (A : rel) (tidy c q : bool) (s : pstate) (r : pres rule) : Prop :=
    match r with
    | POk s1 ts => exists ts', A s (Some (s1, ts')) /\ (q = false -> ts' = ts)
    | PErr s1 ts => A s None /\ (tidy = true -> pos s1 = pos s /\ rest s1 = rest s /\ (q = false -> ts = [])) /\ (c = true -> stk s1 = stk s)
    | PPanic | PFuel => True
    end.
  Definition okn (n : nat) (p : pexp rule) (m : atomicity) (A : rel) (tidy c : bool) : Prop :=
    forall f q s, f <= n -> post A tidy c q s (run f p m q s).

  Definition chain (A B : rel) : rel := fun s o =>
    (A s None /\ o = None) \/
    exists s1 t1, A s (Some (s1, t1)) /\ ((B s1 None /\ o = None) \/ exists s2 t2, B s1 (Some (s2, t2)) /\ o = Some (s2, t1 ++ t2)).
  Definition choice (A B : rel) : rel := fun s o => (exists x, A s (Some x) /\ o = Some x) \/ (A s None /\ B s o).
  Definition between_ (m : atomicity) : rel := fun s o => match o with Some (s1, t) => skips m s s1 t | None => False end.

  Lemma post_weak : forall (A B : rel) td td' c c' q s r, (forall o, A s o -> B s o) -> (td' = true -> td = true) -> (c' = true -> c = true) ->
    post A td c q s r -> post B td' c' q s r.
  Proof.
    intros A B td td' c c' q s r H T C P. destruct r as [s1 ts|s1 ts| |]; cbn [post] in *; auto.
    - destruct P as (ts' & X & Y). eauto.
    - destruct P as (X & Y & Z). auto.
  Qed.
  Lemma okn_weak : forall n p m (A B : rel) td td' c c', (forall s o, A s o -> B s o) -> (td' = true -> td = true) -> (c' = true -> c = true) ->
    okn n p m A td c -> okn n p m B td' c'.
  Proof. intros n p m A B td td' c c' H T C P f q s L. eapply post_weak; [apply H|exact T|exact C|apply P; exact L]. Qed.

  Lemma same_state : forall s s1, pos s1 = pos s -> rest s1 = rest s -> stk s1 = stk s -> s1 = s.
  Proof. intros [p r k] [p1 r1 k1]. cbn. congruence. Qed.

  Lemma ok_then : forall n p p' m (A B : rel) td td' c c' cc,
    (cc = true -> c = true /\ c' = true /\ forall s s1 t, A s (Some (s1, t)) -> stk s1 = stk s) ->
    okn n p m A td c -> okn n p' m B td' c' -> okn n (EThen p p') m (chain A B) false cc.
  Proof.
    intros n p p' m A B td td' c c' cc C P P' f q s L. destruct f as [|f]; [exact I|]. cbn [Peg.run].
    specialize (P f q s ltac:(lia)). destruct (run f p m q s) as [s1 ts|s1 ts| |]; cbn [post] in P; try exact I.
    - destruct P as (t1 & P1 & P2). specialize (P' f q s1 ltac:(lia)). destruct (run f p' m q s1) as [s2 us|s2 us| |]; cbn [post prepend] in *; try exact I.
      + destruct P' as (t2 & P3 & P4). exists (t1 ++ t2). split; [right; exists s1, t1; split; [exact P1|]; right; eauto|].
        intro Q. rewrite (P2 Q), (P4 Q). reflexivity.
      + destruct P' as (P3 & _ & P4). split; [right; exists s1, t1; split; [exact P1|]; left; auto|]. split; [discriminate|].
        intro K. destruct (C K) as (_ & C2 & C3). rewrite (P4 C2). eapply C3. exact P1.
    - cbn [post]. destruct P as (P1 & _ & P2). split; [left; auto|]. split; [discriminate|]. intro K. apply P2. apply C. exact K.
  Qed.
  Lemma ok_else : forall n p p' m (A B : rel) c', okn n p m A true true -> okn n p' m B true c' -> okn n (EElse p p') m (choice A B) true c'.
  Proof.
    intros n p p' m A B c' P P' f q s L. destruct f as [|f]; [exact I|]. cbn [Peg.run].
    specialize (P f q s ltac:(lia)). destruct (run f p m q s) as [s1 ts|s1 ts| |]; cbn [post] in P; try exact I.
    - cbn [post]. destruct P as (t1 & P1 & P2). exists t1. split; [left; eauto|exact P2].
    - destruct P as (P1 & P2 & P3). specialize (P2 eq_refl). specialize (P3 eq_refl). destruct P2 as (P2 & P4 & P5).
      rewrite (same_state _ _ P2 P4 P3). specialize (P' f q s ltac:(lia)).
      destruct (run f p' m q s) as [s2 us|s2 us| |]; cbn [post prepend] in *; try exact I.
      + destruct P' as (t2 & P6 & P7). exists t2. split; [right; auto|]. intro Q. rewrite (P5 Q), (P7 Q). reflexivity.
      + destruct P' as (P6 & P7 & P8). split; [right; auto|]. split; [|exact P8]. intros _. destruct (P7 eq_refl) as (X & Y & Z). repeat split; auto.
        intro Q. rewrite (P5 Q), (Z Q). reflexivity.
  Qed.
  Lemma ok_seq : forall n p m (A : rel) td c, okn n p m A td c -> okn n (ESeq p) m A true c.
  Proof.
    intros n p m A td c P f q s L. destruct f as [|f]; [exact I|]. cbn [Peg.run].
    specialize (P f q s ltac:(lia)). destruct (run f p m q s) as [s1 ts|s1 ts| |]; cbn [post] in *; try exact I; [exact P|].
    destruct P as (P1 & _ & P2). repeat split; auto.
  Qed.
  Lemma ok_restore : forall n p m (A : rel) td c, okn n p m A td c -> okn n (ERestore p) m A td true.
  Proof.
    intros n p m A td c P f q s L. destruct f as [|f]; [exact I|]. cbn [Peg.run].
    specialize (P f q s ltac:(lia)). destruct (run f p m q s) as [s1 ts|s1 ts| |]; cbn [post] in *; try exact I; [exact P|].
    destruct P as (P1 & P2 & _). auto.
  Qed.
  Lemma ok_wrap : forall n e p m (A : rel) td c, okn n p m A td c -> okn n (wrap e p) m A td (touches e || c).
  Proof. intros n e p m A td c P. unfold wrap. destruct (touches e); [eapply ok_restore; exact P|exact P]. Qed.
  Lemma ok_opt : forall n p m (A : rel), okn n p m A true true ->
    okn n (EOpt p) m (fun s o => (exists x, A s (Some x) /\ o = Some x) \/ (A s None /\ o = Some (s, []))) true true.
  Proof.
    intros n p m A P f q s L. destruct f as [|f]; [exact I|]. cbn [Peg.run].
    specialize (P f q s ltac:(lia)). destruct (run f p m q s) as [s1 ts|s1 ts| |]; cbn [post] in *; try exact I.
    - destruct P as (t1 & P1 & P2). eauto 8.
    - destruct P as (P1 & P2 & P3). destruct (P2 eq_refl) as (X & Y & Z). rewrite (same_state _ _ X Y (P3 eq_refl)). exists []. split; [right; auto|]. intro Q. symmetry. auto.
  Qed.
  Lemma ok_not : forall n p m (A : rel) td c, okn n p m A td c ->
    okn n (ENot p) m (fun s o => (exists x, A s (Some x) /\ o = None) \/ (A s None /\ o = Some (s, []))) true true.
  Proof.
    intros n p m A td c P f q s L. destruct f as [|f]; [exact I|]. cbn [Peg.run].
    specialize (P f true s ltac:(lia)). destruct (run f p m true s) as [s1 ts|s1 ts| |]; cbn [post] in *; try exact I.
    - destruct P as (t1 & P1 & P2). split; [left; eauto|]. auto.
    - destruct P as (P1 & _). exists []. auto.
  Qed.
  (** repetition: R relates the start to the end, for an A that goes on *)
  Lemma ok_rep : forall n p m (A R : rel),
    (forall s, A s None -> R s (Some (s, []))) ->
    (forall s s1 t1 s2 t2, A s (Some (s1, t1)) -> R s1 (Some (s2, t2)) -> R s (Some (s2, t1 ++ t2))) ->
    okn n p m A true true -> okn n (ERep p) m R true true.
  Proof.
    intros n p m A R N M P f. induction f as [|f IH]; intros q s L; [exact I|]. cbn [Peg.run].
    specialize (P f q s ltac:(lia)). destruct (run f p m q s) as [s1 ts|s1 ts| |]; cbn [post] in P; try exact I.
    - destruct P as (t1 & P1 & P2). specialize (IH q s1 ltac:(lia)). destruct (run f (ERep p) m q s1) as [s2 us|s2 us| |] eqn:E; cbn [post prepend] in *; try exact I.
      + destruct IH as (t2 & P3 & P4). exists (t1 ++ t2). split; [eauto|]. intro Q. rewrite (P2 Q), (P4 Q). reflexivity.
      + exfalso. clear - E. revert s1 s2 us E. induction f as [|f IHf]; intros s1 s2 us E; [discriminate|]. cbn [Peg.run] in E.
        destruct (run f p m q s1) as [s3 ws|s3 ws| |]; try discriminate. destruct (run f (ERep p) m q s3) eqn:F; try discriminate. eapply IHf. exact F.
    - cbn [post]. destruct P as (P1 & P2 & P3). destruct (P2 eq_refl) as (X & Y & Z). rewrite (same_state _ _ X Y (P3 eq_refl)). exists []. split; [auto|]. intro Q. symmetry. auto.
  Qed.
  (** texts and characters *)
  Lemma strip_prefix_past : forall w r k, strip_prefix w r = Some k <-> r = w ++ k.
  Proof.
    induction w as [|a w IH]; intros r k; cbn [strip_prefix app]; [split; congruence|].
    destruct r as [|b r]; [split; discriminate|]. destruct (N.eqb_spec a b) as [->|N]; [rewrite IH; split; congruence|]. split; [discriminate|congruence].
  Qed.
  Lemma strip_prefix_case : forall w r k, strip_prefix_insensitive w r = Some k <-> exists v, same_but_case v w /\ r = v ++ k.
  Proof.
    unfold same_but_case. induction w as [|a w IH]; intros r k; cbn [strip_prefix_insensitive].
    - split; [intros [= ->]; exists []; auto|]. intros (v & V & ->). inversion V. reflexivity.
    - destruct r as [|b r].
      + split; [discriminate|]. intros (v & V & E). inversion V; subst. discriminate.
      + destruct (N.eqb_spec (ascii_lower a) (ascii_lower b)) as [E|N].
        * rewrite IH. split; intros (v & V & F).
          -- subst r. exists (b :: v). split; [constructor; [apply letter_lower; auto|auto]|reflexivity].
          -- inversion V; subst. injection F as <- ->. eauto.
        * split; [discriminate|]. intros (v & V & F). inversion V; subst. injection F as <- _. exfalso. apply N. symmetry. apply letter_lower. assumption.
  Qed.
  Lemma advance_past : forall s w k, rest s = w ++ k -> past w s (advance s k).
  Proof.
    intros s w k E. unfold past, advance. cbn [rest pos stk]. split; [exact E|]. split; [|reflexivity]. rewrite E, app_length. lia.
  Qed.
  Lemma ok_text : forall n m w, okn n (EStr w) m (reads m (Text w)) true true.
  Proof.
    intros n m w f q s L. destruct f as [|f]; [exact I|]. cbn [Peg.run]. unfold take. destruct (strip_prefix w (rest s)) as [k|] eqn:E; cbn [post].
    - apply strip_prefix_past in E. exists []. split; [|auto]. apply r_text. apply advance_past. exact E.
    - split; [|auto]. apply r_text_no. intros [k K]. apply strip_prefix_past in K. congruence.
  Qed.
  Lemma ok_any_case : forall n m w, okn n (EInsens w) m (reads m (AnyCase w)) true true.
  Proof.
    intros n m w f q s L. destruct f as [|f]; [exact I|]. cbn [Peg.run]. unfold take. destruct (strip_prefix_insensitive w (rest s)) as [k|] eqn:E; cbn [post].
    - apply strip_prefix_case in E. destruct E as (v & V & E). exists []. split; [|auto]. eapply r_any_case; [exact V|]. apply advance_past. exact E.
    - split; [|auto]. apply r_any_case_no. intros (v & k & V & K). assert (X : exists v, same_but_case v w /\ rest s = v ++ k) by eauto.
      apply strip_prefix_case in X. congruence.
  Qed.
  Lemma post_char : forall m q r b P t s, source r = Built b -> is_char U b = Some P -> (forall c, P c <-> t c = true) ->
    post (reads m (Name r)) true true q s (take_char t s).
  Proof.
    intros m q r b P t s S C T. unfold take_char. destruct (rest s) as [|c k] eqn:E.
    - cbn [post]. split; [|auto]. eapply r_char_no; [exact S|exact C|]. intros (c & k & K & _). congruence.
    - destruct (t c) eqn:F; cbn [post].
      + exists []. split; [|auto]. apply (r_char U source m r b P c s); [exact S|exact C|apply T; exact F|]. apply advance_past. exact E.
      + split; [|auto]. eapply r_char_no; [exact S|exact C|]. intros (c' & k' & K & Pc). rewrite E in K. injection K as -> ->. apply T in Pc. congruence.
  Qed.

  (** ** What lies between two parts *)
  Lemma implicit_silent : forall r, implicit r = true -> exists e, source r = Rule Silent e.
  Proof. intros r H. destruct r; try discriminate H; eexists; reflexivity. Qed.
  Lemma implicit_any : forall r m m' s o, implicit r = true -> reads m (Name r) s o -> reads m' (Name r) s o.
  Proof.
    intros r m m' s o I H. destruct (implicit_silent r I) as [e0 E0].
    assert (B : forall k n, body_mode r k n = Atomic) by (intros; unfold body_mode; rewrite I; reflexivity).
    inversion H; subst; match goal with S : source r = _ |- _ => tryif constr_eq S E0 then fail else (rewrite E0 in S; first [discriminate S|injection S; clear S; intros; subst]) end.
    - rewrite B in *. cbn [makes_pair]. eapply (r_rule U source m' r Silent); [exact E0|rewrite B; eassumption|eassumption].
    - rewrite B in *. eapply r_rule_no; [exact E0|rewrite B; eassumption].
  Qed.
  Notation blank := (Or (Name R_WHITESPACE) (Name R_COMMENT)).
  Lemma blanks_more : forall s s1 t1 s2 t2, reads Atomic blank s (Some (s1, t1)) -> reads Atomic (Many blank) s1 (Some (s2, t2)) ->
    reads Atomic (Many blank) s (Some (s2, t1 ++ t2)).
  Proof.
    intros s s1 t1 s2 t2 H K. eapply r_many; [exact H|]. inversion K; subst.
    - match goal with X : again _ _ _ _ ?t |- again _ _ _ _ (?t0 ++ ?t) => change (t0 ++ t) with ([] ++ t0 ++ t) end.
      eapply again_more; [apply skips_nothing; discriminate|eassumption|eassumption].
    - eapply again_stop; [apply skips_nothing; discriminate|assumption].
  Qed.
  Lemma ok_skip_body : forall n, (forall r m, okn n (ECall r) m (reads m (Name r)) true (negb (stacky r))) ->
    okn n skip_body NonAtomic (between_ NonAtomic) true true.
  Proof.
    intros n H.
    pose (W := fun s o => match o with Some (s1, t) => reads Atomic (Name R_WHITESPACE) s1 None /\ stk s1 = stk s /\
                 (forall s2 t2, reads Atomic (Many blank) s1 (Some (s2, t2)) -> reads Atomic (Many blank) s (Some (s2, t ++ t2))) | None => False end : Prop).
    assert (OW : okn n (ERep (ECall R_WHITESPACE)) NonAtomic W true true).
    { eapply ok_rep; [| |exact (H R_WHITESPACE NonAtomic)]; unfold W.
      - intros s X. split; [eapply implicit_any; [reflexivity|exact X]|]. auto.
      - intros s s1 t1 s2 t2 X (Y1 & Y3 & Y2). split; [exact Y1|]. split; [rewrite Y3; eapply (level_stack U); [|exact X]; reflexivity|]. intros s3 t3 Z. rewrite <- app_assoc. eapply blanks_more; [|apply Y2; exact Z].
        apply r_or1. eapply implicit_any; [reflexivity|exact X]. }
    pose (C := fun s o => reads Atomic (Name R_WHITESPACE) s None -> match o with Some (s1, t) => reads Atomic (Name R_WHITESPACE) s1 None /\ stk s1 = stk s /\
                 (forall s2 t2, reads Atomic (Many blank) s1 (Some (s2, t2)) -> reads Atomic (Many blank) s (Some (s2, t ++ t2)))
                 | None => reads Atomic (Name R_COMMENT) s None end : Prop).
    assert (OC : okn n (ESeq (EThen (ECall R_COMMENT) (ERep (ECall R_WHITESPACE)))) NonAtomic C true true).
    { eapply okn_weak with (A := chain (reads NonAtomic (Name R_COMMENT)) W) (c := true) (td := true); [| auto|auto|].
      - intros s o [[X ->]|(s1 & t1 & X & [[[] _]|(s2 & t2 & Y & ->)])] N.
        + eapply implicit_any; [reflexivity|exact X].
        + cbn in Y. destruct Y as (Y1 & Y3 & Y2). split; [exact Y1|]. split; [rewrite Y3; eapply (level_stack U); [|exact X]; reflexivity|]. intros s3 t3 Z. rewrite <- app_assoc. eapply blanks_more; [|apply Y2; exact Z].
          apply r_or2; [exact N|]. eapply implicit_any; [reflexivity|exact X].
      - eapply ok_seq. eapply ok_then; [|exact (H R_COMMENT NonAtomic)|exact OW].
        intros _. repeat split. intros s s1 t X. eapply (level_stack U); [|exact X]. reflexivity. }
    pose (D := fun s o => reads Atomic (Name R_WHITESPACE) s None -> match o with Some (s1, t) => reads Atomic (Many blank) s (Some (s1, t)) | None => False end : Prop).
    assert (OD : okn n (ERep (ESeq (EThen (ECall R_COMMENT) (ERep (ECall R_WHITESPACE))))) NonAtomic D true true).
    { eapply ok_rep; [| |exact OC]; unfold D, C.
      - intros s X N. apply r_many_no. apply r_or2; auto.
      - intros s s1 t1 s2 t2 X Y N. specialize (X N). destruct X as (X1 & _ & X2). auto. }
    eapply okn_weak with (A := chain W D) (c := true) (td := true); [|auto|auto|].
    - intros s o [[[] _]|(s1 & t1 & X & Y)]. destruct X as (X1 & _ & X2). destruct Y as [[Y ->]|(s2 & t2 & Y & ->)]; cbn [between_].
      + exact (Y X1).
      + apply skips_implicit. apply X2. exact (Y X1).
    - eapply ok_seq. eapply ok_then; [|exact OW|exact OD]. intros _. repeat split. intros s s1 t (_ & X & _). exact X.
  Qed.

  (** ** The code of an expression *)
  Lemma okn_less : forall n n' p m A td c, n' <= n -> okn n p m A td c -> okn n' p m A td c.
  Proof. intros n n' p m A td c L H f q s K. apply H. lia. Qed.
  Lemma ok_then_sure : forall n p p' m (A B : rel) td td' c c', (forall s, ~ B s None) ->
    okn n p m A td c -> okn n p' m B td' c' -> okn n (EThen p p') m (chain A B) td c.
  Proof.
    intros n p p' m A B td td' c c' N P P' f q s L. destruct f as [|f]; [exact I|]. cbn [Peg.run].
    specialize (P f q s ltac:(lia)). destruct (run f p m q s) as [s1 ts|s1 ts| |]; cbn [post] in P; try exact I.
    - destruct P as (t1 & P1 & P2). specialize (P' f q s1 ltac:(lia)). destruct (run f p' m q s1) as [s2 us|s2 us| |]; cbn [post prepend] in *; try exact I.
      + destruct P' as (t2 & P3 & P4). exists (t1 ++ t2). split; [right; exists s1, t1; split; [exact P1|]; right; eauto|].
        intro Q. rewrite (P2 Q), (P4 Q). reflexivity.
      + destruct P' as (P3 & _). destruct (N _ P3).
    - cbn [post]. destruct P as (P1 & P2 & P3). split; [left; auto|]. auto.
  Qed.
  Lemma ok_push : forall n p m a c, okn n p m (reads m a) true c -> okn n (EPush p) m (reads m (Push a)) true c.
  Proof.
    intros n p m a c P f q s L. destruct f as [|f]; [exact I|]. cbn [Peg.run].
    specialize (P f q s ltac:(lia)). destruct (run f p m q s) as [s1 ts|s1 ts| |]; cbn [post] in *; try exact I.
    - destruct P as (t1 & P1 & P2). exists t1. split; [|exact P2]. apply (r_push U source m a s s1 t1); [exact P1|]. eapply reads_consumed. exact P1.
    - destruct P as (P1 & P2 & P3). split; [apply r_push_no; exact P1|auto].
  Qed.
  Definition capture (r : rule) (pair : bool) (A : rel) : rel := fun s o =>
    (A s None /\ o = None) \/ exists s1 t1, A s (Some (s1, t1)) /\ o = Some (s1, if pair then [Node r (pos s) (pos s1) (consumed (rest s) (rest s1)) t1] else t1).
  Lemma ok_rule : forall n p r m A c, okn n p m A true c -> okn n (ERule r p) m (capture r (match m with Atomic => false | _ => true end) A) true c.
  Proof.
    intros n p r m A c P f q s L. destruct f as [|f]; [exact I|]. cbn [Peg.run].
    specialize (P f q s ltac:(lia)). destruct (run f p m q s) as [s1 ts|s1 ts| |]; cbn [post] in *; try exact I.
    - destruct P as (t1 & P1 & P2). eexists. split; [right; exists s1, t1; split; [exact P1|reflexivity]|].
      intros ->. rewrite (P2 eq_refl). destruct m; reflexivity.
    - destruct P as (P1 & P2 & P3). split; [left; auto|]. split; [|exact P3]. intros _. destruct (P2 eq_refl) as (X & Y & Z). repeat split; auto.
      intros Q. rewrite (Z Q). destruct (emits m q); reflexivity.
  Qed.
  Lemma ok_atomic : forall n p m m' A td c, okn n p m' A td c -> okn n (EAtomic m' p) m A td c.
  Proof. intros n p m m' A td c P f q s L. destruct f as [|f]; [exact I|]. cbn [Peg.run]. apply P. lia. Qed.

  Section Level.
    Variable n : nat.
    Hypothesis calls : forall r m, okn n (ECall r) m (reads m (Name r)) true (negb (stacky r)).

    Lemma ok_skip : forall m, okn n ESkip m (between_ m) true true.
    Proof.
      intros m f q s L. destruct f as [|f]; [exact I|]. cbn [Peg.run]. destruct m.
      - apply (ok_skip_body n calls). lia.
      - exists []. split; [apply skips_nothing; discriminate|auto].
      - exists []. split; [apply skips_nothing; discriminate|auto].
    Qed.
    Lemma ok_link : forall at_ p c m (A : rel) e td c1 c2 cc, (at_ = true -> m <> NonAtomic) ->
      (cc = true -> c1 = true /\ c2 = true /\ forall s s1 t, A s (Some (s1, t)) -> stk s1 = stk s) ->
      okn n p m A td c1 -> okn n c m (reads m e) true c2 -> okn n (link at_ p c) m (chain A (chain (between_ m) (reads m e))) false cc.
    Proof.
      intros at_ p c m A e td c1 c2 cc M C P Q. unfold link. destruct at_.
      - eapply okn_weak with (A := chain A (reads m e)) (td := false) (c := cc); [|auto|auto|].
        + intros s o [X|(s1 & t1 & X & Y)]; [left; exact X|]. right. exists s1, t1. split; [exact X|].
          assert (B : between_ m s1 (Some (s1, []))) by (apply skips_nothing; auto).
          destruct Y as [[Y ->]|(s2 & t2 & Y & ->)].
          * left. split; [|reflexivity]. right. exists s1, []. auto.
          * right. exists s2, t2. split; [|reflexivity]. right. exists s1, []. split; [exact B|]. right. exists s2, t2. auto.
        + eapply ok_then; [exact C|exact P|exact Q].
      - eapply okn_weak with (A := chain (chain A (between_ m)) (reads m e)) (td := false) (c := cc); [|auto|auto|].
        + intros s o [[X ->]|(s1 & t1 & X & Y)].
          * destruct X as [[X _]|(s1 & t1 & X & [[[] _]|(s2 & t2 & _ & E)])]; [|discriminate]. left. auto.
          * destruct X as [[_ E]|(s0 & t0 & X & [[[] _]|(s2 & t2 & Z & E)])]; [discriminate|]. injection E as -> ->.
            right. exists s0, t0. split; [exact X|]. destruct Y as [[Y ->]|(s3 & t3 & Y & ->)].
            -- left. split; [|reflexivity]. right. exists s2, t2. auto.
            -- right. exists s3, (t2 ++ t3). rewrite app_assoc. split; [|reflexivity]. right. exists s2, t2. split; [exact Z|]. right. exists s3, t3. auto.
        + eapply ok_then with (td := td) (c := c1); [|eapply ok_then_sure; [|exact P|apply ok_skip]|exact Q].
          * intro K. destruct (C K) as (C1 & C2 & C3). repeat split; auto. intros s s1 t [[_ E]|(s0 & t0 & X & [[[] _]|(s2 & t2 & Z & E)])]; [discriminate|].
            injection E as -> ->. rewrite (skips_stack _ _ _ _ _ Z). eapply C3. exact X.
          * intros s [].
    Qed.
    Definition follows (at_ : bool) (m : atomicity) (e : gexp) : Prop :=
      okn n (here (compile at_ e)) m (reads m e) true (calm e) /\
      (forall p (A : rel) td c cc, (cc = true -> c = true /\ calm e = true /\ forall s s1 t, A s (Some (s1, t)) -> stk s1 = stk s) ->
         okn n p m A td c -> okn n (after (compile at_ e) p) m (chain A (chain (between_ m) (reads m e))) false cc) /\
      (guarded e = true -> forall p (A : rel), okn n p m A true true -> okn n (instead (compile at_ e) p) m (choice A (reads m e)) true true).

    Lemma follows_leaf : forall at_ m e c, (at_ = true -> m <> NonAtomic) -> compile at_ e = leaf at_ e c ->
      okn n c m (reads m e) true (calm e) -> follows at_ m e.
    Proof.
      intros at_ m e c M E P. unfold follows. rewrite E. cbn [leaf here after instead]. split; [exact P|]. split.
      - intros p A td c1 cc C Q. eapply ok_link; [exact M|exact C|exact Q|exact P].
      - intros G p A Q. apply ok_else; [exact Q|]. eapply okn_weak; [|auto| |eapply ok_wrap; exact P]; auto.
    Qed.
    Lemma wrapped : forall at_ m a, guarded a = true -> okn n (here (compile at_ a)) m (reads m a) true (calm a) ->
      okn n (wrap a (here (compile at_ a))) m (reads m a) true true.
    Proof. intros at_ m a G P. eapply okn_weak; [|auto| |eapply ok_wrap; exact P]; auto. Qed.
    Lemma choice_or : forall m a b s o, choice (reads m a) (reads m b) s o -> reads m (Or a b) s o.
    Proof. intros m a b s o [(x & X & ->)|[X Y]]; [apply r_or1; exact X|apply r_or2; assumption]. Qed.
    Lemma chain_seq : forall m a b s o, chain (reads m a) (chain (between_ m) (reads m b)) s o -> reads m (Then a b) s o.
    Proof.
      intros m a b s o [[X ->]|(s1 & t1 & X & Y)]; [apply r_then_no1; exact X|]. destruct Y as [[Y ->]|(s2 & t2 & Y & ->)].
      - destruct Y as [[[] _]|(s2 & t2 & Y & [[Z _]|(s3 & t3 & _ & E)])]; [|discriminate]. eapply r_then_no2; eassumption.
      - destruct Y as [[[] _]|(s3 & t3 & Y & [[_ E]|(s4 & t4 & Z & E)])]; [discriminate|]. injection E as -> ->. eapply r_then; eassumption.
    Qed.
    Lemma many_more : forall m a s s1 t1 s2 t2, m <> NonAtomic -> reads m a s (Some (s1, t1)) -> reads m (Many a) s1 (Some (s2, t2)) ->
      reads m (Many a) s (Some (s2, t1 ++ t2)).
    Proof.
      intros m a s s1 t1 s2 t2 M H K. eapply r_many; [exact H|]. inversion K; subst.
      - match goal with X : again _ _ _ _ ?t |- again _ _ _ _ (?t0 ++ ?t) => change (t0 ++ t) with ([] ++ t0 ++ t) end.
        eapply again_more; [apply skips_nothing; exact M|eassumption|eassumption].
      - eapply again_stop; [apply skips_nothing; exact M|assumption].
    Qed.

    Lemma compile_follows : forall e at_ m, good e = true -> (at_ = true -> m <> NonAtomic) -> follows at_ m e.
    Proof.
      induction e as [w|w|r|a IHa b IHb|a IHa b IHb|a IHa|a IHa|a IHa|k a IHa|a IHa|a IHa]; intros at_ m G M; cbn [good] in G; try discriminate;
        repeat match goal with X : _ && _ = true |- _ => apply andb_true_iff in X; destruct X end.
      - eapply follows_leaf; [exact M|reflexivity|]. apply ok_text.
      - eapply follows_leaf; [exact M|reflexivity|]. apply ok_any_case.
      - eapply follows_leaf; [exact M|reflexivity|]. apply calls.
      - destruct (IHa at_ m ltac:(assumption) M) as (A1 & A2 & A3). destruct (IHb at_ m ltac:(assumption) M) as (B1 & B2 & B3).
        assert (P : okn n (ESeq (after (compile at_ b) (here (compile at_ a)))) m (reads m (Then a b)) true (calm (Then a b))).
        { eapply okn_weak; [apply chain_seq|auto|intro X; exact X|]. eapply ok_seq. eapply B2; [|exact A1].
          intro X. cbn [calm] in X. apply andb_true_iff in X. destruct X as [X X3]. apply andb_true_iff in X. destruct X as [X1 X2]. repeat split; auto.
          intros s s1 t. apply level_stack. exact X2. }
        split; [exact P|]. split; cbn [compile after instead].
        + intros p A td c cc C Q. eapply okn_weak with (A := chain (chain A (chain (between_ m) (reads m a))) (chain (between_ m) (reads m b))) (td := false) (c := cc); [|auto|auto|].
          * intros s o X. destruct X as [[X ->]|(s1 & t1 & X & Y)].
            -- destruct X as [[X _]|(s1 & t1 & X & [[Y _]|(s2 & t2 & _ & E)])]; [left; auto| |discriminate].
               right. exists s1, t1. split; [exact X|]. left. split; [|reflexivity].
               destruct Y as [[[] _]|(s2 & t2 & Y & [[Z _]|(s3 & t3 & _ & E)])]; [|discriminate]. right. exists s2, t2. split; [exact Y|]. left. split; [apply r_then_no1; exact Z|reflexivity].
            -- destruct X as [[_ E]|(s0 & t0 & X & [[_ E]|(s2 & t2 & Z & E)])]; try discriminate. injection E as -> ->.
               right. exists s0, t0. split; [exact X|].
               destruct Z as [[[] _]|(s3 & t3 & Z & [[_ E]|(s4 & t4 & W & E)])]; [discriminate|]. injection E as -> ->.
               destruct Y as [[Y ->]|(s5 & t5 & Y & ->)].
               ++ left. split; [|reflexivity]. right. exists s3, t3. split; [exact Z|]. left. split; [|reflexivity]. apply chain_seq. right. exists s4, t4. auto.
               ++ right. exists s5, (t3 ++ t4 ++ t5). split; [|rewrite !app_assoc; reflexivity]. right. exists s3, t3. split; [exact Z|]. right. exists s5, (t4 ++ t5).
                  split; [|reflexivity]. apply chain_seq. right. exists s4, t4. split; [exact W|]. right. exists s5, t5. auto.
          * eapply B2 with (c := cc); [|eapply ok_link; [exact M| |exact Q|exact A1]].
            -- intro K. destruct (C K) as (C1 & C2 & C3). cbn [calm] in C2. apply andb_true_iff in C2. destruct C2 as [C2 C4]. apply andb_true_iff in C2. destruct C2 as [C2 C5].
               repeat split; auto. intros s s1 t [[_ E]|(s0 & t0 & X & [[_ E]|(s2 & t2 & Z & E)])]; try discriminate. injection E as -> ->.
               destruct Z as [[[] _]|(s3 & t3 & Z & [[_ E]|(s4 & t4 & W & E)])]; [discriminate|]. injection E as -> ->.
               rewrite (level_stack _ _ _ _ _ _ C5 W). rewrite (skips_stack _ _ _ _ _ Z). eapply C3. exact X.
            -- intro K. destruct (C K) as (C1 & C2 & C3). cbn [calm] in C2. apply andb_true_iff in C2. destruct C2 as [C2 C4]. apply andb_true_iff in C2. destruct C2 as [C2 C5]. auto.
        + intros Gd p A Q. apply ok_else; [exact Q|]. eapply okn_weak; [|auto| |eapply ok_wrap; exact P]; auto.
      - destruct (IHa at_ m ltac:(assumption) M) as (A1 & A2 & A3). destruct (IHb at_ m ltac:(assumption) M) as (B1 & B2 & B3).
        assert (P : okn n (here (compile at_ (Or a b))) m (reads m (Or a b)) true true).
        { cbn [compile here]. eapply okn_weak; [apply choice_or|auto|auto|]. apply B3; [assumption|]. apply wrapped; assumption. }
        split; [exact P|]. split; cbn [compile after instead].
        + intros p A td c cc C Q. eapply ok_link; [exact M|exact C|exact Q|exact P].
        + intros _ p A Q. eapply okn_weak with (A := choice (choice A (reads m a)) (reads m b)) (td := true) (c := true); [|auto|auto|].
          * intros s o [(x & [(y & X & E)|[X Y]] & ->)|[[(y & X & E)|[X Y]] Z]]; try discriminate.
            -- left. exists y. auto.
            -- right. split; [exact X|]. apply r_or1. exact Y.
            -- right. split; [exact X|]. apply r_or2; assumption.
          * apply B3; [assumption|]. apply ok_else; [exact Q|]. apply wrapped; assumption.
      - destruct (IHa at_ m ltac:(assumption) M) as (A1 & A2 & A3). eapply follows_leaf; [exact M|reflexivity|].
        eapply okn_weak; [|auto|auto|apply ok_opt; apply wrapped; eassumption]. intros s o [(x & X & ->)|[X ->]]; [apply r_maybe|apply r_maybe_no]; exact X.
      - destruct (IHa at_ m ltac:(assumption) M) as (A1 & A2 & A3). eapply follows_leaf; [exact M|reflexivity|]. cbn [calm].
        assert (W : okn n (wrap a (here (compile at_ a))) m (reads m a) true true) by (apply wrapped; assumption).
        destruct at_.
        + eapply ok_rep; [| |exact W].
          * intros s X. apply r_many_no. exact X.
          * intros s s1 t1 s2 t2 X Y. eapply many_more; eauto.
        + pose (R := fun s o => match o with Some (s1, t) => again m a s s1 t | None => False end : Prop).
          assert (OR : okn n (ERep (ESeq (EThen ESkip (wrap a (here (compile false a)))))) m R true true).
          { eapply ok_rep with (A := chain (between_ m) (reads m a)); unfold R.
            - intros s [[[] _]|(s1 & t1 & X & [[Y _]|(s2 & t2 & _ & E)])]; [|discriminate]. eapply again_stop; eassumption.
            - intros s s1 t1 s2 t2 [[[] _]|(s3 & t3 & X & [[_ E]|(s4 & t4 & Y & E)])] Z; [discriminate|]. injection E as -> ->.
              rewrite <- app_assoc. eapply again_more; eassumption.
            - eapply ok_seq. eapply ok_then; [|apply ok_skip|exact W]. intros _. repeat split. intros s s1 t X. exact (skips_stack _ _ _ _ _ X). }
          eapply ok_seq. eapply okn_weak; [|intro X; exact X|intro X; exact X|apply ok_opt; eapply ok_then_sure; [|exact W|exact OR]].
          * intros s o [(x & X & ->)|[X ->]].
            -- destruct X as [[_ E]|(s1 & t1 & X & [[[] _]|(s2 & t2 & Y & E)])]; [discriminate|]. injection E as ->. eapply r_many; eassumption.
            -- destruct X as [[X _]|(s1 & t1 & X & [[[] _]|(s2 & t2 & Y & E)])]; [|discriminate]. apply r_many_no. exact X.
          * intros s [].
      - destruct (IHa at_ m ltac:(assumption) M) as (A1 & A2 & A3). eapply follows_leaf; [exact M|reflexivity|].
        eapply okn_weak; [|auto|auto|eapply ok_not; exact A1]. intros s o [(x & X & ->)|[X ->]]; [eapply r_not_no|apply r_not]; exact X.
      - destruct (IHa at_ m ltac:(assumption) M) as (A1 & A2 & A3). eapply follows_leaf; [exact M|reflexivity|].
        apply ok_push. exact A1.
    Qed.

    Lemma captured : forall m r k e, source r = Rule k e -> forall s o, capture r (makes_pair k m) (reads (body_mode r k m) e) s o -> reads m (Name r) s o.
    Proof.
      intros m r k e S s o [[X ->]|(s1 & t1 & X & ->)]; [eapply r_rule_no; eassumption|].
      eapply r_rule; [exact S|exact X|]. eapply reads_consumed. exact X.
    Qed.
    Lemma uncaptured : forall m r k e, source r = Rule k e -> makes_pair k m = false -> forall s o, reads (body_mode r k m) e s o -> reads m (Name r) s o.
    Proof.
      intros m r k e S N s o X. apply (captured m r k e S). rewrite N. destruct o as [[s1 t1]|]; [right; exists s1, t1|left]; auto.
    Qed.
    Lemma rule_follows : forall r k e m, source r = Rule k e -> okn n (grammar r) m (reads m (Name r)) true (negb (stacky r)).
    Proof.
      intros r k e m S. rewrite (compiled r k e S).
      assert (H : forall at_ m, (at_ = true -> m <> NonAtomic) -> okn n (here (compile at_ (normal e))) m (reads m e) true (negb (stacky r))).
      { intros at_ m' M. destruct (compile_follows (normal e) at_ m' (bodies_good _ _ _ S) M) as (P & _).
        eapply okn_weak; [|auto| |exact P]; [intros s o X; apply (normal_means U e); exact X|]. intro X. apply (bodies_calm _ _ _ S). apply negb_true_iff. exact X. }
      unfold compile_rule. destruct (implicit r) eqn:E.
      - destruct (implicit_silent r E) as [e0 E0]. assert (k = Silent) as -> by congruence.
        eapply okn_weak; [|auto|intro X; exact X|apply ok_atomic; apply H; discriminate].
        intros s o X. eapply uncaptured; [exact S|reflexivity|]. unfold body_mode. rewrite E. exact X.
      - assert (B : body_mode r k m = match k with Plain | Silent => m | AtomicRule => Atomic | CompoundRule => CompoundAtomic | NonAtomicRule => NonAtomic end)
          by (unfold body_mode; rewrite E; reflexivity).
        destruct k.
        + eapply okn_weak; [|auto|intro X; exact X|apply ok_rule; apply H; discriminate]. intros s o X. apply (captured m _ _ _ S). rewrite B. exact X.
        + eapply okn_weak; [|auto|intro X; exact X|apply H; discriminate]. intros s o X. eapply uncaptured; [exact S|reflexivity|]. rewrite B. exact X.
        + eapply okn_weak; [|auto|intro X; exact X|apply ok_rule; apply ok_atomic; apply H; discriminate]. intros s o X. apply (captured m _ _ _ S). rewrite B. exact X.
        + eapply okn_weak; [|auto|intro X; exact X|apply ok_atomic; apply ok_rule; apply H; discriminate]. intros s o X. apply (captured m _ _ _ S). rewrite B. exact X.
        + eapply okn_weak; [|auto|intro X; exact X|apply ok_atomic; apply ok_rule; apply H; discriminate]. intros s o X. apply (captured m _ _ _ S). rewrite B. exact X.
    Qed.
  End Level.

  Lemma range_test : forall a b c, between a b c <-> ((a <=? c) && (c <=? b))%N = true.
  Proof. intros a b c. unfold between. rewrite andb_true_iff, !N.leb_le. tauto. Qed.
  Lemma built_follows : forall n r b m, source r = Built b -> okn n (grammar r) m (reads m (Name r)) true (negb (stacky r)).
  Proof.
    intros n r b m S f q s L. destruct f as [|f]; [exact I|].
    destruct r; try discriminate S; cbn [grammar Peg.run stacky negb].
    - eapply post_char; [reflexivity|reflexivity|]. tauto.
    - destruct f as [|f]; [exact I|]. cbn [Peg.run]. destruct (rest s) as [|c l] eqn:E; cbn [post].
      + eexists. split; [apply r_end; [reflexivity|exact E]|]. intros ->. rewrite E. destruct m; reflexivity.
      + split; [apply r_end_no; [reflexivity|congruence]|]. split; [|auto]. intros _. repeat split. intros _. destruct (emits m q); reflexivity.
    - destruct (pos s) eqn:E; cbn [post].
      + exists []. split; [|auto]. apply r_start; [reflexivity|exact E].
      + split; [apply r_start_no; [reflexivity|congruence]|auto].
    - destruct (stk s) as [|t st] eqn:E; [exact I|]. pose proof (ok_text 1 m t 1 q s (le_n _)) as P. cbn [Peg.run] in P.
      eapply post_weak; [|auto|auto|exact P]. intros o X. eapply r_peek; [reflexivity|exact E|exact X].
    - destruct (stk s) as [|t st] eqn:E; [exact I|]. pose proof (ok_text 1 m t 1 q (mkPs (pos s) (rest s) st) (le_n _)) as P. cbn [Peg.run] in P.
      destruct (take (mkPs (pos s) (rest s) st) (strip_prefix t (rest (mkPs (pos s) (rest s) st)))) as [s1 ts|s1 ts| |]; cbn [post] in *; try exact I.
      + destruct P as (t1 & P1 & P2). exists t1. split; [|exact P2]. eapply r_pop; [reflexivity|exact E|exact P1].
      + destruct P as (P1 & P2 & P3). split; [eapply r_pop; [reflexivity|exact E|exact P1]|]. split; [exact P2|discriminate].
    - eapply post_char; [reflexivity|reflexivity|]. intro; apply range_test.
    - eapply post_char; [reflexivity|reflexivity|]. intro; apply range_test.
    - eapply post_char; [reflexivity|reflexivity|]. intro; apply range_test.
    - eapply post_char; [reflexivity|reflexivity|]. intro; apply range_test.
    - destruct f as [|f]; [exact I|]. cbn [Peg.run]. destruct f as [|f]; [exact I|]. cbn [Peg.run].
      pose proof (post_char m q R_ASCII_HEX_DIGIT HexDigit _ (fun c => (48 <=? c) && (c <=? 57) || (97 <=? c) && (c <=? 102) || (65 <=? c) && (c <=? 70))%N s eq_refl eq_refl) as P.
      assert (T : forall c, between 48%N 57%N c \/ between 97%N 102%N c \/ between 65%N 70%N c <-> ((48 <=? c) && (c <=? 57) || (97 <=? c) && (c <=? 102) || (65 <=? c) && (c <=? 70))%N = true).
      { intro c. rewrite !range_test, !orb_true_iff. tauto. }
      specialize (P T). unfold take_char in *. destruct (rest s) as [|c l] eqn:E; [rewrite E; cbn [prepend app] in *; rewrite ?E; exact P|].
      destruct ((48 <=? c) && (c <=? 57))%N; [exact P|]. cbn [orb] in P. rewrite E. destruct ((97 <=? c) && (c <=? 102))%N; [exact P|]. cbn [orb prepend app] in *. rewrite E. destruct ((65 <=? c) && (c <=? 70))%N; exact P.
    - eapply post_char; [reflexivity|reflexivity|]. intro; reflexivity.
    - eapply post_char; [reflexivity|reflexivity|]. intro; reflexivity.
    - eapply post_char; [reflexivity|reflexivity|]. intro; reflexivity.
  Qed.
  Lemma calls_follow : forall n r m, okn n (ECall r) m (reads m (Name r)) true (negb (stacky r)).
  Proof.
    induction n as [|n IH]; intros r m f q s L.
    - assert (f = 0) as -> by lia. exact I.
    - destruct f as [|f]; [exact I|]. cbn [Peg.run]. destruct (source r) as [k e|b] eqn:S.
      + apply (rule_follows n IH r k e m S). lia.
      + apply (built_follows n r b m S). lia.
  Qed.

  (** ** Both ways *)
  Lemma run_sound : forall f r m s, match run f (ECall r) m false s with
    | POk s1 ts => reads m (Name r) s (Some (s1, ts))
    | PErr _ _ => reads m (Name r) s None
    | _ => True
    end.
  Proof.
    intros f r m s. pose proof (calls_follow f r m f false s (le_n _)) as P. destruct (run f (ECall r) m false s) as [s1 ts|s1 ts| |]; cbn [post] in P; try exact I.
    - destruct P as (ts' & P1 & P2). rewrite (P2 eq_refl) in P1. exact P1.
    - apply P.
  Qed.
  Lemma run_decides : forall r m s, needs_stack r = false -> exists r', run ((length (rest s) + 1) * 70) (ECall r) m false s = r' /\
    ((exists s1 ts, r' = POk s1 ts) \/ exists s1 ts, r' = PErr s1 ts).
  Proof.
    intros r m s N. eexists. split; [reflexivity|].
    pose proof (rule_terminates U r m false s _ (le_n _)) as T.
    assert (P : run ((length (rest s) + 1) * 70) (ECall r) m false s <> PPanic).
    { apply (run_no_panic U grammar skip_body needs_stack 5 sd_rule sd_skip). cbn [sd]. rewrite N. discriminate. }
    destruct (run ((length (rest s) + 1) * 70) (ECall r) m false s); eauto; congruence.
  Qed.
  Lemma run_ok_iff : forall r m s s1 ts, needs_stack r = false ->
    run ((length (rest s) + 1) * 70) (ECall r) m false s = POk s1 ts <-> reads m (Name r) s (Some (s1, ts)).
  Proof.
    intros r m s s1 ts N. destruct (run_decides r m s N) as (r' & E & D). pose proof (run_sound ((length (rest s) + 1) * 70) r m s) as P. rewrite E in *.
    destruct D as [(s2 & us & ->)|(s2 & us & ->)]; split; intro H.
    - injection H as -> ->. exact P.
    - pose proof (reads_once _ _ _ _ _ _ P H) as Q. congruence.
    - discriminate.
    - pose proof (reads_once _ _ _ _ _ _ P H) as Q. discriminate.
  Qed.
  Lemma run_err_iff : forall r m s, needs_stack r = false ->
    (exists s1 ts, run ((length (rest s) + 1) * 70) (ECall r) m false s = PErr s1 ts) <-> reads m (Name r) s None.
  Proof.
    intros r m s N. destruct (run_decides r m s N) as (r' & E & D). pose proof (run_sound ((length (rest s) + 1) * 70) r m s) as P. rewrite E in *.
    destruct D as [(s2 & us & ->)|(s2 & us & ->)]; split; intro H.
    - destruct H as (? & ? & H). discriminate.
    - pose proof (reads_once _ _ _ _ _ _ P H) as Q. discriminate.
    - exact P.
    - eauto.
  Qed.

  Lemma program_accepts : forall text s ts, run_program U text = POk s ts <-> reads NonAtomic (Name R_program) (mkPs 0 text []) (Some (s, ts)).
  Proof. intros text s ts. apply (run_ok_iff R_program NonAtomic (mkPs 0 text [])). reflexivity. Qed.
  Lemma program_rejects : forall text, (exists s ts, run_program U text = PErr s ts) <-> reads NonAtomic (Name R_program) (mkPs 0 text []) None.
  Proof. intros text. apply (run_err_iff R_program NonAtomic (mkPs 0 text [])). reflexivity. Qed.
  Lemma stack_free : forall r, ~ In r [R_PEEK; R_POP; R_StringText] -> needs_stack r = false.
  Proof. intros r H. destruct r; try reflexivity; exfalso; apply H; cbn; auto. Qed.
  Lemma rule_accepts : forall r m s s1 ts, ~ In r [R_PEEK; R_POP; R_StringText] ->
    (exists n, run n (ECall r) m false s = POk s1 ts) <-> reads m (Name r) s (Some (s1, ts)).
  Proof.
    intros r m s s1 ts H. apply stack_free in H. rewrite <- (run_ok_iff r m s s1 ts H). split; [|eauto].
    intros [n E]. apply ev_run; [eapply ev_base; [exact E|discriminate]|]. apply rule_terminates. lia.
  Qed.
  Lemma rule_rejects : forall r m s, ~ In r [R_PEEK; R_POP; R_StringText] ->
    (exists n s1 ts, run n (ECall r) m false s = PErr s1 ts) <-> reads m (Name r) s None.
  Proof.
    intros r m s H. apply stack_free in H. rewrite <- (run_err_iff r m s H). split; [|eauto].
    intros (n & s1 & ts & E). exists s1, ts. apply ev_run; [eapply ev_base; [exact E|discriminate]|]. apply rule_terminates. lia.
  Qed.
  Lemma program_total : forall text, exists o, reads NonAtomic (Name R_program) (mkPs 0 text []) o.
  Proof.
    intros text. destruct (run_decides R_program NonAtomic (mkPs 0 text []) eq_refl) as (r' & E & [(s1 & ts & ->)|(s1 & ts & ->)]).
    - eexists. apply (run_ok_iff R_program NonAtomic); [reflexivity|exact E].
    - exists None. apply (run_err_iff R_program NonAtomic); [reflexivity|eauto].
  Qed.
  Lemma parse_refuses : forall f text, reads NonAtomic (Name R_program) (mkPs 0 text []) None <-> exists e, parse U f text = Ret (Err e).
  Proof.
    intros f text. rewrite <- program_rejects. unfold parse. split.
    - intros (s & ts & ->). eauto.
    - intros [e H]. destruct (run_program U text) as [s ts|s ts| |]; try discriminate; eauto.
      destruct (parse_pairs f text ts); discriminate.
  Qed.
End Meaning.
