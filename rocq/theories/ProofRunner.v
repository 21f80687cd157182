(** Proofs about the runner and the playground. *)
From Verif Require Import Base Ast Display Internal Eval Tex Runner.
From Verif Require Import Wolfram ParseFile SpecAst SpecSession ProofAst ProofDisplay ProofEval.
Local Open Scope Z_scope.

Lemma insert_last : forall {V} (m : list (Z * V)) i v,
  Forall (fun e => fst e < i) m -> btree_insert Z.compare i v m = m ++ [(i, v)].
Proof.
  intros V m i v H. induction H as [|[k w] m Hk H IH]; [reflexivity|].
  cbn [btree_insert fst] in *. replace (i ?= k) with Gt by (symmetry; apply Z.compare_gt_iff; lia).
  rewrite IH. reflexivity.
Qed.
Lemma get_app : forall {V} (m n : list (Z * V)) i,
  Forall (fun e => fst e < i) m -> btree_get Z.compare i (m ++ n) = btree_get Z.compare i n.
Proof.
  intros V m n i H. induction H as [|[k w] m Hk H IH]; [reflexivity|].
  cbn [app btree_get fst] in *. replace (i ?= k) with Gt by (symmetry; apply Z.compare_gt_iff; lia).
  exact IH.
Qed.
Lemma get_last : forall {V} (m : list (Z * V)) i v,
  Forall (fun e => fst e < i) m -> btree_get Z.compare i (m ++ [(i, v)]) = Some v.
Proof. intros V m i v H. rewrite get_app by exact H. cbn. rewrite Z.compare_refl. reflexivity. Qed.
Lemma get_absent : forall {V} (m : list (Z * V)) i,
  Forall (fun e => fst e < i) m -> btree_get Z.compare i m = None.
Proof. intros V m i H. rewrite <- (app_nil_r m), get_app by exact H. reflexivity. Qed.

Section Runner.
  Context (W : Z) (parse : str -> outcome (sm_result ast)).
  Notation evaluate := (evaluate W parse).
  Notation run_session := (run_session W parse).
  Notation evaluates_to := (evaluates_to W parse).
  Notation fails_with := (fails_with W parse).

  (** all keys are at most the index *)
  Definition keys_ok (c : context) : Prop :=
    Forall (fun e => fst e <= index c) (inputs c) /\ Forall (fun e => fst e <= index c) (outputs c).

  Definition entered (s : str) (c : context) : context :=
    mkContext (index c + 1) (inputs c ++ [(index c + 1, s)]) (outputs c) (symbols c).
  Definition stored (o : ast) (c : context) : context :=
    mkContext (index c) (inputs c) (outputs c ++ [(index c, o)]) (symbols c).

  Lemma keys_lt : forall {V} (m : list (Z * V)) i,
    Forall (fun e => fst e <= i) m -> Forall (fun e => fst e < i + 1) m.
  Proof. intros V m i H. eapply Forall_impl; [|exact H]. cbn. intros; lia. Qed.

  Lemma evaluate_unfold : forall s c, keys_ok c ->
    evaluate s c =
    match parse s with
    | Panic k => (entered s c, Panic k)
    | OutOfFuel => (entered s c, OutOfFuel)
    | Ret (Err e) => (entered s c, Ret (Err e))
    | Ret (Ok a) =>
        match forward W a (entered s c) with
        | Panic k => (entered s c, Panic k)
        | OutOfFuel => (entered s c, OutOfFuel)
        | Ret (Err e, _) => (entered s c, Ret (Err e))
        | Ret (Ok o, _) => (stored o (entered s c), obind (display o) (fun t => Ret (Ok t)))
        end
    end.
  Proof.
    intros s c [H1 H2]. unfold Runner.evaluate, runner_parse.
    rewrite insert_last by (apply keys_lt; exact H1). fold (entered s c).
    unfold runner_forward.
    replace (btree_get Z.compare (index (entered s c)) (inputs (entered s c))) with (Some s)
      by (symmetry; apply get_last; apply keys_lt; exact H1).
    destruct (parse s) as [[a|e]|k|]; try reflexivity.
    destruct (forward W a (entered s c)) as [[[o|e] c']|k|] eqn:E; try reflexivity.
    - apply forward_keeps_context in E. subst c'.
      assert (HL : Forall (fun e => fst e < index (entered s c)) (outputs (entered s c)))
        by (apply keys_lt; exact H2).
      rewrite (insert_last _ _ _ HL). fold (stored o (entered s c)). cbn [index outputs stored].
      rewrite (get_last _ _ _ HL). reflexivity.
    - apply forward_keeps_context in E. subst c'. reflexivity.
  Qed.

  Lemma evaluate_keys_ok : forall s c, keys_ok c -> keys_ok (fst (evaluate s c)).
  Proof.
    intros s c H. rewrite evaluate_unfold by exact H.
    assert (HE : keys_ok (entered s c)).
    { destruct H as [H1 H2]. split; cbn.
      - apply Forall_app. split; [|constructor; [cbn; lia | constructor]].
        eapply Forall_impl; [|exact H1]. cbn; intros; lia.
      - eapply Forall_impl; [|exact H2]. cbn; intros; lia. }
    destruct (parse s) as [[a|e]|k|]; try exact HE.
    destruct (forward W a (entered s c)) as [[[o|e] c']|k|]; try exact HE.
    destruct HE as [HE1 HE2]. split; [exact HE1|]. cbn. apply Forall_app. split; [exact HE2|].
    constructor; [cbn; lia | constructor].
  Qed.

  (** contexts after the given calls *)
  Definition history (done : list str) (c : context) : Prop :=
    index c = Z.of_nat (length done) /\
    inputs c = combine (zseq 1 (length done)) done /\
    (forall i o, In (i, o) (outputs c) <->
       1 <= i /\ exists s, nth_error done (Z.to_nat (i - 1)) = Some s /\ evaluates_to s o) /\
    symbols c = [] /\ keys_ok c.

  Lemma zseq_app : forall n a, zseq a (n + 1) = zseq a n ++ [a + Z.of_nat n].
  Proof.
    induction n as [|n IH]; intro a; cbn [Nat.add zseq app].
    - rewrite Z.add_0_r. reflexivity.
    - rewrite IH. f_equal. f_equal. f_equal. lia.
  Qed.
  Lemma zseq_length : forall n a, length (zseq a n) = n.
  Proof. induction n; intro a; cbn; congruence. Qed.
  Lemma combine_app : forall {A B} (l1 l2 : list A) (m1 m2 : list B),
    length l1 = length m1 -> combine (l1 ++ l2) (m1 ++ m2) = combine l1 m1 ++ combine l2 m2.
  Proof.
    intros A B. induction l1 as [|x l1 IH]; intros l2 [|y m1] m2 H; cbn in *; try lia; [reflexivity|].
    rewrite IH by lia. reflexivity.
  Qed.

  Lemma nth_error_snoc : forall {A} (l : list A) x i y,
    nth_error (l ++ [x]) i = Some y <-> nth_error l i = Some y \/ (i = length l /\ y = x).
  Proof.
    intros A l x i y. destruct (Nat.lt_ge_cases i (length l)) as [H|H].
    - rewrite nth_error_app1 by exact H. split; [tauto|]. intros [E|[E _]]; [exact E | lia].
    - rewrite nth_error_app2 by exact H. split.
      + intro E. right. destruct (i - length l)%nat as [|j] eqn:Ed; cbn in E.
        * split; [lia | congruence].
        * destruct j; discriminate.
      + intros [E|[-> ->]].
        * exfalso. assert (nth_error l i <> None) by congruence. apply nth_error_Some in H0. lia.
        * rewrite Nat.sub_diag. reflexivity.
  Qed.

  Lemma evaluates_to_det : forall s o o', evaluates_to s o -> evaluates_to s o' -> o = o'.
  Proof.
    intros s o o' (a & P1 & F1) (b & P2 & F2). rewrite P1 in P2. injection P2 as <-.
    specialize (F1 empty_context). specialize (F2 empty_context). congruence.
  Qed.

  Lemma history_step : forall done s c, history done c -> history (done ++ [s]) (fst (evaluate s c)).
  Proof.
    intros done s c (Hi & Hin & Hout & Hsy & Hk).
    pose proof (evaluate_keys_ok s c Hk) as Hk'.
    assert (Hlen : Z.of_nat (length (done ++ [s])) = Z.of_nat (length done) + 1)
      by (rewrite app_length; cbn; lia).
    assert (Hin' : inputs (entered s c) = combine (zseq 1 (length (done ++ [s]))) (done ++ [s])).
    { cbn [entered inputs]. rewrite app_length. cbn [length]. rewrite zseq_app, combine_app by apply zseq_length.
      rewrite Hin, Hi. cbn [combine]. do 3 f_equal. lia. }
    assert (Hno : (forall o, ~ evaluates_to s o) ->
      forall i o, In (i, o) (outputs c) <->
       1 <= i /\ exists t, nth_error (done ++ [s]) (Z.to_nat (i - 1)) = Some t /\ evaluates_to t o).
    { intros Hn i o. rewrite Hout. split; intros (H1 & t & Ht & He); split; auto; exists t; split; auto.
      - apply nth_error_snoc. left. exact Ht.
      - apply nth_error_snoc in Ht. destruct Ht as [Ht|[_ ->]]; [exact Ht|]. exfalso. eapply Hn, He. }
    rewrite evaluate_unfold in * by exact Hk.
    destruct (parse s) as [[a|e]|k|] eqn:Ep; cbn [fst] in *.
    - destruct (forward_ctx W a (entered s c)) as (r & Hr & E). rewrite E in *.
      destruct r as [[o|e]|k|]; cbn [fst] in *.
      + assert (He : evaluates_to s o) by (exists a; split; [exact Ep | intro; apply Hr]).
        split; [cbn; lia|]. split; [exact Hin'|]. split; [|split; [exact Hsy | exact Hk']].
        intros i o'. cbn [stored outputs entered index]. rewrite in_app_iff, Hout.
        split.
        * intros [(H1 & t & Ht & Hte)|[[= <- <-]|[]]].
          -- split; [exact H1|]. exists t. split; [|exact Hte]. apply nth_error_snoc. left; exact Ht.
          -- split; [lia|]. exists s. split; [|exact He]. apply nth_error_snoc. right. split; [lia | reflexivity].
        * intros (H1 & t & Ht & Hte). apply nth_error_snoc in Ht. destruct Ht as [Ht|[Hl ->]].
          -- left. split; [exact H1|]. exists t. auto.
          -- right. left. rewrite (evaluates_to_det s o' o Hte He). f_equal. lia.
      + split; [cbn; lia|]. split; [exact Hin'|]. split; [|split; [exact Hsy | exact Hk']].
        apply Hno. intros o (b & Eb & Fb). rewrite Ep in Eb. injection Eb as <-.
        specialize (Fb (entered s c)). rewrite E in Fb. congruence.
      + split; [cbn; lia|]. split; [exact Hin'|]. split; [|split; [exact Hsy | exact Hk']].
        apply Hno. intros o (b & Eb & Fb). rewrite Ep in Eb. injection Eb as <-.
        specialize (Fb (entered s c)). rewrite E in Fb. congruence.
      + split; [cbn; lia|]. split; [exact Hin'|]. split; [|split; [exact Hsy | exact Hk']].
        apply Hno. intros o (b & Eb & Fb). rewrite Ep in Eb. injection Eb as <-.
        specialize (Fb (entered s c)). rewrite E in Fb. congruence.
    - split; [cbn; lia|]. split; [exact Hin'|]. split; [|split; [exact Hsy | exact Hk']].
      apply Hno. intros o (b & Eb & _). congruence.
    - split; [cbn; lia|]. split; [exact Hin'|]. split; [|split; [exact Hsy | exact Hk']].
      apply Hno. intros o (b & Eb & _). congruence.
    - split; [cbn; lia|]. split; [exact Hin'|]. split; [|split; [exact Hsy | exact Hk']].
      apply Hno. intros o (b & Eb & _). congruence.
  Qed.

  Lemma history_empty : history [] empty_context.
  Proof.
    split; [reflexivity|]. split; [reflexivity|]. split; [|split; [reflexivity | split; constructor]].
    intros i o. split; [intros []|]. intros (H1 & s & Hs & _). destruct (Z.to_nat (i - 1)); discriminate.
  Qed.

  (** the calls that were made: all up to and including a panicking one *)
  Lemma run_session_history : forall calls done c, history done c ->
    exists made, (exists rest, calls = made ++ rest) /\ history (done ++ made) (fst (run_session calls c)) /\
      length made = length (snd (run_session calls c)).
  Proof.
    induction calls as [|s calls IH]; intros done c H.
    - exists []. split; [exists []; reflexivity|]. split; [rewrite app_nil_r; exact H | reflexivity].
    - cbn [Runner.run_session]. pose proof (history_step done s c H) as Hs.
      destruct (evaluate s c) as [c1 r] eqn:E. cbn [fst] in Hs.
      destruct r as [x|k|].
      + destruct (IH _ _ Hs) as (made & (rest & ->) & Hm & Hl).
        exists (s :: made). split; [exists rest; reflexivity|].
        destruct (run_session (made ++ rest) c1) as [c2 rs] eqn:E2. cbn [fst snd] in *.
        split; [rewrite <- app_assoc in Hm; exact Hm | cbn; lia].
      + exists [s]. split; [exists calls; reflexivity|]. split; [exact Hs | reflexivity].
      + exists [s]. split; [exists calls; reflexivity|]. split; [exact Hs | reflexivity].
  Qed.

  Lemma session_history : forall calls,
    length (snd (run_session calls empty_context)) = length calls ->
    history calls (fst (run_session calls empty_context)).
  Proof.
    intros calls H. destruct (run_session_history calls [] empty_context history_empty)
      as (made & (rest & E) & Hm & Hl). cbn [app] in Hm.
    assert (rest = []).
    { assert (length calls = length made + length rest)%nat by (rewrite E; apply app_length).
      destruct rest; [reflexivity | cbn in *; lia]. }
    subst rest. rewrite app_nil_r in E. subst made. exact Hm.
  Qed.

  Lemma returned_all_calls : forall calls c,
    Forall (fun r => is_ret r = true) (snd (run_session calls c)) ->
    length (snd (run_session calls c)) = length calls.
  Proof.
    induction calls as [|s calls IH]; intros c H; [reflexivity|].
    cbn [Runner.run_session] in *. destruct (evaluate s c) as [c1 r].
    destruct r as [x|k|].
    - specialize (IH c1). destruct (run_session calls c1) as [c2 rs]. cbn [snd] in *.
      inversion H; subst. cbn. f_equal. apply IH. assumption.
    - cbn in H. inversion H; subst. discriminate.
    - cbn in H. inversion H; subst. discriminate.
  Qed.

  (** what the i-th call answered *)
  Lemma session_answers : forall calls c i s r, keys_ok c ->
    nth_error calls i = Some s -> nth_error (snd (run_session calls c)) i = Some r ->
    (forall t, r = Ret (Ok t) <-> exists o, evaluates_to s o /\ display o = Ret t) /\
    (forall e, r = Ret (Err e) <-> fails_with s e).
  Proof.
    induction calls as [|s0 calls IH]; intros c i s r Hk Hs Hr; [destruct i; discriminate|].
    cbn [Runner.run_session] in Hr. pose proof (evaluate_keys_ok s0 c Hk) as Hk1.
    pose proof (evaluate_unfold s0 c Hk) as E.
    destruct (evaluate s0 c) as [c1 r0]. cbn [fst] in Hk1.
    destruct i as [|i].
    - cbn in Hs. injection Hs as ->.
      assert (r = r0).
      { destruct r0; [destruct (run_session calls c1)|..]; cbn in Hr; congruence. }
      subst r0. clear Hr. destruct (parse s) as [[a|e]|k|] eqn:Ep.
      + destruct (forward_ctx W a (entered s c)) as (x & Hx & Ex). rewrite Ex in E.
        assert (Hdet : forall o, evaluates_to s o -> x = Ret (Ok o)).
        { intros o (b & Eb & Fb). rewrite Ep in Eb. injection Eb as <-. specialize (Fb (entered s c)).
          rewrite Ex in Fb. destruct x; try discriminate; injection Fb as Fb; rewrite Fb; reflexivity. }
        assert (Hfail : forall e, fails_with s e -> x = Ret (Err e)).
        { intros e [Eb|(b & Eb & Fb)]; rewrite Ep in Eb; [discriminate|]. injection Eb as <-.
          specialize (Fb (entered s c)). rewrite Ex in Fb. destruct x; try discriminate; injection Fb as Fb; rewrite Fb; reflexivity. }
        destruct x as [[o|e]|k|]; injection E as E1 E2; subst c1 r.
        * assert (He : evaluates_to s o) by (exists a; split; [exact Ep | exact Hx]).
          split.
          -- intro t. split.
             ++ intro H. exists o. split; [exact He|]. destruct (display o); cbn in H; congruence.
             ++ intros (o' & Ho' & Hd). apply Hdet in Ho'. injection Ho' as <-. rewrite Hd. reflexivity.
          -- intro e. split; [|intro H; apply Hfail in H; discriminate].
             destruct (display o); cbn; discriminate.
        * split.
          -- intro t. split; [discriminate|]. intros (o & Ho & _). apply Hdet in Ho. discriminate.
          -- intro e'. split; [|intro H; apply Hfail in H; congruence].
             intros [= <-]. right. exists a. split; [exact Ep | exact Hx].
        * split; [intro t; split; [discriminate|]; intros (o & Ho & _); apply Hdet in Ho; discriminate|].
          intro e'. split; [discriminate | intro H; apply Hfail in H; discriminate].
        * split; [intro t; split; [discriminate|]; intros (o & Ho & _); apply Hdet in Ho; discriminate|].
          intro e'. split; [discriminate | intro H; apply Hfail in H; discriminate].
      + injection E as E1 E2; subst c1 r. split.
        * intro t. split; [discriminate|]. intros (o & (b & Eb & _) & _). congruence.
        * intro e'. split; [intros [= <-]; left; exact Ep|]. intros [Eb|(b & Eb & _)]; congruence.
      + injection E as E1 E2; subst c1 r. split.
        * intro t. split; [discriminate|]. intros (o & (b & Eb & _) & _). congruence.
        * intro e'. split; [discriminate|]. intros [Eb|(b & Eb & _)]; congruence.
      + injection E as E1 E2; subst c1 r. split.
        * intro t. split; [discriminate|]. intros (o & (b & Eb & _) & _). congruence.
        * intro e'. split; [discriminate|]. intros [Eb|(b & Eb & _)]; congruence.
    - cbn in Hs. destruct r0 as [x|k|].
      + specialize (IH c1 i s r Hk1 Hs). destruct (run_session calls c1) as [c2 rs]. cbn in Hr.
        apply IH. exact Hr.
      + cbn in Hr. destruct i; discriminate.
      + cbn in Hr. destruct i; discriminate.
  Qed.

  (** ** last *)
  Lemma get_in : forall (m : list (Z * ast)) i o,
    btree_get Z.compare i m = Some o -> In (i, o) m.
  Proof.
    induction m as [|[k v] m IH]; intros i o H; [discriminate|]. cbn [btree_get] in H.
    destruct (i ?= k) eqn:E.
    - apply Z.compare_eq in E. subst. left. congruence.
    - right. apply IH; exact H.
    - right. apply IH; exact H.
  Qed.
  Lemma in_get : forall (m : list (Z * ast)) i o,
    In (i, o) m -> exists o', btree_get Z.compare i m = Some o'.
  Proof.
    induction m as [|[k v] m IH]; intros i o H; [destruct H|]. cbn [btree_get].
    destruct (i ?= k) eqn:E; [eauto| |].
    - destruct H as [[= -> ->]|H]; [rewrite Z.compare_refl in E; discriminate | eapply IH; exact H].
    - destruct H as [[= -> ->]|H]; [rewrite Z.compare_refl in E; discriminate | eapply IH; exact H].
  Qed.

  Lemma last_history : forall done s c, history (done ++ [s]) c ->
    (forall o, last_output c = Ret (Ok o) <-> evaluates_to s o) /\
    ((forall o, ~ evaluates_to s o) -> last_output c = Panic PUnwrap).
  Proof.
    intros done s c (Hi & _ & Hout & _ & _).
    assert (H : forall o, In (index c, o) (outputs c) <-> evaluates_to s o).
    { intro o. rewrite Hout, Hi, app_length. cbn [length]. split.
      - intros (_ & t & Ht & He). apply nth_error_snoc in Ht. destruct Ht as [Ht|[_ ->]]; [|exact He].
        exfalso. assert (Hne : nth_error done (Z.to_nat (Z.of_nat (length done + 1) - 1)) <> None) by congruence.
        apply nth_error_Some in Hne. lia.
      - intro He. split; [lia|]. exists s. split; [|exact He]. apply nth_error_snoc. right. split; [lia | reflexivity]. }
    unfold last_output. split.
    - intro o. destruct (btree_get Z.compare (index c) (outputs c)) as [o'|] eqn:E.
      + apply get_in in E. apply H in E. split.
        * intros [= <-]. exact E.
        * intro He. rewrite (evaluates_to_det s o o' He E). reflexivity.
      + split; [discriminate|]. intro He. apply H in He. apply in_get in He. destruct He; congruence.
    - intro Hn. destruct (btree_get Z.compare (index c) (outputs c)) as [o'|] eqn:E; [|reflexivity].
      apply get_in in E. apply H in E. exfalso. eapply Hn; exact E.
  Qed.

  (** every call, also a panicking one, leaves a history *)
  Lemma last_after_call : forall done s c, history done c ->
    let c' := fst (evaluate s c) in
    (forall o, last_output c' = Ret (Ok o) <-> evaluates_to s o) /\
    ((forall o, ~ evaluates_to s o) -> last_output c' = Panic PUnwrap).
  Proof. intros done s c H c'. apply (last_history done). apply history_step. exact H. Qed.

  (** ** playground *)
  Section Playground.
    Context (debug : str -> sm_error -> str).
    Notation pg_step := (pg_step W parse debug).
    Notation pg_run := (pg_run W parse debug).

    Lemma pg_poisoned : forall c g, poisoned g = true -> pg_step c g = (g, Panic PPoisoned).
    Proof. intros [s|] g H; cbn; [unfold pg_result | unfold pg_result_tex]; rewrite H; reflexivity. Qed.

    Lemma pg_panic_poisons : forall c g g' r, pg_step c g = (g', r) -> is_ret r = false -> poisoned g' = true.
    Proof.
      intros [s|] g g' r H Hr; cbn in H; [unfold pg_result in H | unfold pg_result_tex in H];
        destruct (poisoned g) eqn:Ep.
      - injection H as <- <-. exact Ep.
      - destruct (evaluate s (runner g)) as [c x]. injection H as <- <-. cbn.
        destruct x as [[|]|k|]; cbn in *; try discriminate; reflexivity.
      - injection H as <- <-. exact Ep.
      - injection H as <- <-. cbn. rewrite Hr. reflexivity.
    Qed.

    Lemma pg_run_poisoned : forall calls g, poisoned g = true ->
      Forall (fun r => r = Panic PPoisoned) (pg_run calls g).
    Proof.
      induction calls as [|c calls IH]; intros g H; cbn [Runner.pg_run]; [constructor|].
      rewrite pg_poisoned by exact H. constructor; [reflexivity | apply IH; exact H].
    Qed.

    Lemma pg_run_after_panic : forall calls g i j r r',
      nth_error (pg_run calls g) i = Some r -> is_ret r = false -> (i < j)%nat ->
      nth_error (pg_run calls g) j = Some r' -> r' = Panic PPoisoned.
    Proof.
      induction calls as [|c calls IH]; intros g i j r r' Hi Hr Hij Hj; [destruct i; discriminate|].
      cbn [Runner.pg_run] in *. destruct (pg_step c g) as [g' x] eqn:E.
      destruct j as [|j]; [lia|]. cbn in Hj. destruct i as [|i]; cbn in Hi.
      - injection Hi as ->. pose proof (pg_panic_poisons _ _ _ _ E Hr) as Hp.
        pose proof (pg_run_poisoned calls g' Hp) as Hf. rewrite Forall_forall in Hf.
        apply Hf. eapply nth_error_In; exact Hj.
      - apply (IH g' i j r r' Hi Hr); [lia | exact Hj].
    Qed.

    (** errors become texts *)
    Lemma pg_result_text : forall s g done, poisoned g = false -> history done (runner g) ->
      (forall o t, evaluates_to s o -> display o = Ret t ->
         snd (pg_result W parse debug s g) = Ret t /\ poisoned (fst (pg_result W parse debug s g)) = false) /\
      (forall e, fails_with s e ->
         snd (pg_result W parse debug s g) = Ret (debug s e) /\ poisoned (fst (pg_result W parse debug s g)) = false).
    Proof.
      intros s g done Hp (_ & _ & _ & _ & Hk).
      pose proof (evaluate_unfold s (runner g) Hk) as E.
      unfold pg_result. rewrite Hp.
      destruct (evaluate s (runner g)) as [c r]. cbn [fst snd]. split.
      - intros o t (a & Ea & Fa) Hd. rewrite Ea, Fa, Hd in E. injection E as E1 E2. subst. split; reflexivity.
      - intros e [Ea|(a & Ea & Fa)].
        + rewrite Ea in E. injection E as E1 E2. subst. split; reflexivity.
        + rewrite Ea, Fa in E. injection E as E1 E2. subst. split; reflexivity.
    Qed.

    (** an output that cannot be printed panics *)
    Lemma pg_result_unprintable : forall s g done o, poisoned g = false -> history done (runner g) ->
      evaluates_to s o -> unprintable o ->
      snd (pg_result W parse debug s g) = Panic PUnimplemented /\
      poisoned (fst (pg_result W parse debug s g)) = true.
    Proof.
      intros s g done o Hp (_ & _ & _ & _ & Hk) (a & Ea & Fa) Hu.
      pose proof (evaluate_unfold s (runner g) Hk) as E. rewrite Ea, Fa in E.
      destruct (display_dichotomy o) as [[_ Hd]|[Hn _]]; [|contradiction].
      rewrite Hd in E. unfold pg_result. rewrite Hp, E. split; reflexivity.
    Qed.

    Fixpoint pg_after (calls : list pg_call) (g : playground) : playground :=
      match calls with [] => g | c :: rest => pg_after rest (fst (pg_step c g)) end.

    Lemma pg_step_good : forall c g done, poisoned g = false -> history done (runner g) ->
      is_ret (snd (pg_step c g)) = true ->
      poisoned (fst (pg_step c g)) = false /\
      history (done ++ texts [c]) (runner (fst (pg_step c g))).
    Proof.
      intros [s|] g done Hp Hh Hr; cbn [pg_step] in *.
      - pose proof (history_step done s (runner g) Hh) as Hs. unfold pg_result in *. rewrite Hp in *.
        destruct (evaluate s (runner g)) as [c r]. cbn [fst snd runner poisoned] in *.
        split; [|exact Hs]. destruct r as [[|]|k|]; cbn in *; try discriminate; reflexivity.
      - unfold pg_result_tex in *. rewrite Hp in *. cbn [fst snd runner poisoned] in *.
        split; [rewrite Hr; reflexivity|]. cbn. rewrite app_nil_r. exact Hh.
    Qed.
    Lemma pg_after_good : forall calls g done, poisoned g = false -> history done (runner g) ->
      Forall (fun r => is_ret r = true) (pg_run calls g) ->
      poisoned (pg_after calls g) = false /\ history (done ++ texts calls) (runner (pg_after calls g)).
    Proof.
      induction calls as [|c calls IH]; intros g done Hp Hh H; cbn [pg_after].
      - cbn. rewrite app_nil_r. auto.
      - cbn [Runner.pg_run] in H. pose proof (pg_step_good c g done Hp Hh) as G.
        destruct (pg_step c g) as [g' r]. cbn [fst snd] in *.
        inversion H as [|x l H1 H2]; subst. destruct (G H1) as [G1 G2].
        destruct (IH g' _ G1 G2 H2) as [I1 I2]. split; [exact I1|].
        rewrite <- app_assoc in I2. unfold texts in *. cbn [flat_map] in *. rewrite app_nil_r in I2. exact I2.
    Qed.
    Lemma pg_run_app : forall calls more g, pg_run (calls ++ more) g = pg_run calls g ++ pg_run more (pg_after calls g).
    Proof.
      induction calls as [|c calls IH]; intros more g; [reflexivity|]. cbn [app Runner.pg_run pg_after].
      destruct (pg_step c g) as [g' r]. cbn [fst]. rewrite IH. reflexivity.
    Qed.

    (** the answer to one more text *)
    Lemma pg_next_result : forall calls s, Forall (fun r => is_ret r = true) (pg_run calls fresh_playground) ->
      exists r, pg_run (calls ++ [CallResult s]) fresh_playground = pg_run calls fresh_playground ++ [r] /\
      (forall o t, evaluates_to s o -> display o = Ret t -> r = Ret t) /\
      (forall e, fails_with s e -> r = Ret (debug s e)) /\
      (forall o, evaluates_to s o -> unprintable o -> r = Panic PUnimplemented) /\
      (forall k, parse s = Panic k -> r = Panic k).
    Proof.
      intros calls s H. destruct (pg_after_good calls fresh_playground [] eq_refl history_empty H) as [Hp Hh].
      exists (snd (pg_result W parse debug s (pg_after calls fresh_playground))). split.
      { rewrite pg_run_app. f_equal. cbn [Runner.pg_run pg_step]. destruct (pg_result _ _ _ _ _). reflexivity. }
      destruct (pg_result_text s _ _ Hp Hh) as [A B]. repeat split.
      - intros o t Ho Ht. exact (proj1 (A o t Ho Ht)).
      - intros e He. exact (proj1 (B e He)).
      - intros o Ho Hu. exact (proj1 (pg_result_unprintable s _ _ o Hp Hh Ho Hu)).
      - intros k Hk. destruct Hh as (_ & _ & _ & _ & Hq).
        unfold pg_result. rewrite Hp, (evaluate_unfold s _ Hq), Hk. reflexivity.
    Qed.
    (** the answer of [result_tex]: the tree of the most recent text *)
    Lemma pg_next_tex : forall calls, Forall (fun r => is_ret r = true) (pg_run calls fresh_playground) ->
      exists r, pg_run (calls ++ [CallTex]) fresh_playground = pg_run calls fresh_playground ++ [r] /\
      (texts calls = [] -> r = Panic PUnwrap) /\
      (forall before s, texts calls = before ++ [s] ->
         (forall o, evaluates_to s o -> r = to_tex o) /\
         ((forall o, ~ evaluates_to s o) -> r = Panic PUnwrap)).
    Proof.
      intros calls H. destruct (pg_after_good calls fresh_playground [] eq_refl history_empty H) as [Hp Hh].
      exists (snd (pg_result_tex debug (pg_after calls fresh_playground))). split.
      { rewrite pg_run_app. f_equal. cbn [Runner.pg_run pg_step]. destruct (pg_result_tex _ _). reflexivity. }
      unfold pg_result_tex. rewrite Hp. cbn [snd]. cbn [app] in Hh. split.
      - intro E. rewrite E in Hh. destruct Hh as (Hi & _ & Ho & _ & _). unfold last_output.
        destruct (btree_get Z.compare (index (runner (pg_after calls fresh_playground))) (outputs (runner (pg_after calls fresh_playground)))) as [o|] eqn:G; [|reflexivity].
        apply get_in in G. apply Ho in G. destruct G as (_ & s & Hs & _). destruct (Z.to_nat _) in Hs; discriminate.
      - intros before s E. rewrite E in Hh. destruct (last_history before s _ Hh) as [A B]. split.
        + intros o Ho. apply A in Ho. rewrite Ho. reflexivity.
        + intro N. rewrite (B N). reflexivity.
    Qed.
  End Playground.
End Runner.
