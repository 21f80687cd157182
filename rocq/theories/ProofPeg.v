(** Facts about the interpreter that hold for every grammar. *)
From Verif Require Import Base Peg SpecPeg.
Local Open Scope nat_scope.

Section Generic.
  Context {R : Type}.
  Variable U : unicode.
  Variable g : R -> pexp R.
  Variable sk : pexp R.
  Notation run := (run U g sk).
  Notation pres := (pres R).

  (** *** fuel *)
  Lemma run_more : forall f e k q s r, run f e k q s = r -> r <> PFuel -> run (S f) e k q s = r.
  Proof.
    induction f as [|f IH]; intros e k q s r H Hr; [cbn in H; congruence|].
    remember (S f) as f1. cbn [Peg.run]. rewrite Heqf1 in H. cbn [Peg.run] in H.
    destruct e; try exact H.
    - (* EThen *) destruct (run f e1 k q s) as [s1 t1|s1 t1| |] eqn:E1; rewrite ?(IH _ _ _ _ _ E1) by discriminate;
        try (subst r; try congruence).
      destruct (run f e2 k q s1) eqn:E2; rewrite ?(IH _ _ _ _ _ E2) by discriminate; cbn in *; congruence.
    - destruct (run f e1 k q s) as [s1 t1|s1 t1| |] eqn:E1; rewrite ?(IH _ _ _ _ _ E1) by discriminate;
        try (subst r; try congruence).
      destruct (run f e2 k q s1) eqn:E2; rewrite ?(IH _ _ _ _ _ E2) by discriminate; cbn in *; congruence.
    - destruct (run f e k q s) eqn:E1; rewrite ?(IH _ _ _ _ _ E1) by discriminate; congruence.
    - destruct (run f e k q s) eqn:E1; rewrite ?(IH _ _ _ _ _ E1) by discriminate; congruence.
    - destruct (run f e k q s) as [s1 t1|s1 t1| |] eqn:E1; rewrite ?(IH _ _ _ _ _ E1) by discriminate; try congruence.
      destruct (run f (ERep e) k q s1) eqn:E2; rewrite ?(IH _ _ _ _ _ E2) by discriminate; cbn in *; congruence.
    - destruct (run f e k q s) eqn:E1; rewrite ?(IH _ _ _ _ _ E1) by discriminate; congruence.
    - destruct (run f e k true s) eqn:E1; rewrite ?(IH _ _ _ _ _ E1) by discriminate; congruence.
    - destruct (run f e k q s) eqn:E1; rewrite ?(IH _ _ _ _ _ E1) by discriminate; congruence.
    - destruct (run f e k0 q s) eqn:E1; rewrite ?(IH _ _ _ _ _ E1) by discriminate; congruence.
    - destruct (run f e k q s) eqn:E1; rewrite ?(IH _ _ _ _ _ E1) by discriminate; congruence.
    - destruct (run f (g r0) k q s) eqn:E1; rewrite ?(IH _ _ _ _ _ E1) by discriminate; congruence.
    - destruct k; try exact H.
      destruct (run f sk NonAtomic q s) eqn:E1; rewrite ?(IH _ _ _ _ _ E1) by discriminate; congruence.
  Qed.

  Lemma run_mono : forall f f' e k q s r,
    run f e k q s = r -> r <> PFuel -> f <= f' -> run f' e k q s = r.
  Proof.
    intros f f' e k q s r H Hr Hle. induction Hle; [exact H|]. apply run_more; assumption.
  Qed.

  (** *** spans *)
  Definition at_input (input : str) (s : pstate) : Prop :=
    pos s <= length input /\ rest s = skipn (pos s) input.

  Definition good_res (input : str) (s : pstate) (r : pres) : Prop :=
    match r with
    | POk s' ts | PErr s' ts =>
        at_input input s' /\ pos s <= pos s' /\ in_order (pos s) (pos s') ts /\
        Forall (well_spanned input) ts
    | _ => True
    end.

  Lemma strip_prefix_app : forall p s k, strip_prefix p s = Some k <-> s = p ++ k.
  Proof.
    induction p as [|a p IH]; intros [|b s] k; cbn; split; intro H; try congruence.
    - destruct (N.eqb_spec a b); [|discriminate]. subst. f_equal. apply IH. exact H.
    - injection H as -> H. rewrite N.eqb_refl. apply IH. exact H.
  Qed.

  Lemma strip_insensitive_app : forall p s k, strip_prefix_insensitive p s = Some k ->
    exists p', s = p' ++ k /\ length p' = length p.
  Proof.
    induction p as [|a p IH]; intros [|b s] k; cbn; intro H; try discriminate.
    - injection H as <-. exists []. auto.
    - injection H as <-. exists []. auto.
    - destruct (N.eqb _ _); [|discriminate]. destruct (IH _ _ H) as (p' & -> & L).
      exists (b :: p'). cbn. auto.
  Qed.

  Lemma skipn_app_len : forall (a b : str), skipn (length a) (a ++ b) = b.
  Proof. induction a; cbn; auto. Qed.
  Lemma firstn_app_len : forall (a b : str), firstn (length a) (a ++ b) = a.
  Proof. induction a; cbn; intros; [reflexivity | f_equal; auto]. Qed.

  Lemma consumed_app : forall a b : str, consumed (a ++ b) b = a.
  Proof.
    intros. unfold consumed. rewrite app_length. replace (length a + length b - length b) with (length a) by lia.
    apply firstn_app_len.
  Qed.

  Lemma skipn_skipn' : forall (l : str) a b, skipn a (skipn b l) = skipn (b + a) l.
  Proof. induction l as [|x l IH]; intros a [|b]; cbn; rewrite ?skipn_nil; auto. Qed.

  Lemma at_input_app : forall input s p k, at_input input s -> rest s = p ++ k ->
    at_input input (advance s k) /\ pos (advance s k) = pos s + length p.
  Proof.
    intros input s p k [L E] H. unfold advance. cbn [pos rest stk].
    assert (HL : length (rest s) = length p + length k) by (rewrite H, app_length; reflexivity).
    assert (HI : length (rest s) = length input - pos s) by (rewrite E, skipn_length; reflexivity).
    split; [|lia]. split; cbn [pos rest]; [lia|].
    replace (pos s + (length (rest s) - length k)) with (pos s + length p) by lia.
    rewrite <- skipn_skipn', <- E, H, skipn_app_len. reflexivity.
  Qed.

  Lemma good_take : forall input s p r, at_input input s ->
    (forall k, r = Some k -> rest s = p k ++ k) -> good_res input s (take s r).
  Proof.
    intros input s p [k|] Hs H; unfold take, good_res.
    - specialize (H k eq_refl). destruct (at_input_app input s (p k) k Hs H) as [H1 H2].
      rewrite H2. repeat split; try apply H1; try constructor; cbn; lia.
    - repeat split; try apply Hs; cbn; auto.
  Qed.

  Lemma good_take_char : forall input s p, at_input input s -> good_res input s (take_char p s).
  Proof.
    intros input s p Hs. unfold take_char. destruct (rest s) as [|c k] eqn:E.
    - repeat split; try apply Hs; cbn; auto.
    - destruct (p c).
      + apply (good_take input s (fun _ => [c]) (Some k) Hs). intros k' H. injection H as <-. exact E.
      + repeat split; try apply Hs; cbn; auto.
  Qed.

  Lemma in_order_app : forall (l m : list (tree R)) a b c, in_order a b l -> in_order b c m -> in_order a c (l ++ m).
  Proof.
    induction l as [|t l IH]; intros m a b c Hl Hm; cbn in *.
    - destruct m as [|u m]; cbn in *; [lia|]. destruct Hm as [? ?]. split; [lia|assumption].
    - destruct Hl as [? ?]. split; [assumption|]. eapply IH; eassumption.
  Qed.

  Lemma good_prepend : forall input s s1 t1 r, good_res input s (POk s1 t1) -> good_res input s1 r ->
    good_res input s (prepend t1 r).
  Proof.
    intros input s s1 t1 r (A & L & O & W) H2.
    destruct r as [s2 t2|s2 t2| |]; cbn in *; try exact I;
    destruct H2 as (A2 & L2 & O2 & W2); repeat split; try apply A2; try lia;
      try (eapply in_order_app; eassumption); apply Forall_app; auto.
  Qed.

  Lemma good_here : forall input s, at_input input s -> good_res input s (POk s []).
  Proof. intros input s H. repeat split; try apply H; cbn; auto. Qed.

  Theorem run_good : forall input f e k q s, at_input input s -> good_res input s (run f e k q s).
  Proof.
    intros input. induction f as [|f IH]; intros e k q s Hs; [exact I|].
    cbn [Peg.run]. destruct e.
    - apply (good_take input s (fun _ => s0)); [exact Hs|]. intros k0 H. apply strip_prefix_app. exact H.
    - apply (good_take input s (fun k0 => firstn (length s0) (rest s))); [exact Hs|]. intros k0 H.
      destruct (strip_insensitive_app _ _ _ H) as (p' & -> & <-). rewrite firstn_app_len. reflexivity.
    - apply good_take_char; exact Hs.
    - apply good_take_char; exact Hs.
    - apply good_take_char; exact Hs.
    - destruct (rest s) eqn:E; apply (good_here input s Hs).
    - destruct (pos s) eqn:E; apply (good_here input s Hs).
    - pose proof (IH e1 k q s Hs) as H1. destruct (run f e1 k q s) as [s1 t1|s1 t1| |]; try exact H1.
      eapply good_prepend; [exact H1|]. apply IH. apply H1.
    - pose proof (IH e1 k q s Hs) as H1. destruct (run f e1 k q s) as [s1 t1|s1 t1| |]; try exact H1.
      apply (good_prepend input s s1); [exact H1|]. apply IH. apply H1.
    - pose proof (IH e k q s Hs) as H1. destruct (run f e k q s) as [s1 t1|s1 t1| |]; try exact H1.
      repeat split; try apply Hs; cbn; auto.
    - pose proof (IH e k q s Hs) as H1. destruct (run f e k q s) as [s1 t1|s1 t1| |]; exact H1.
    - pose proof (IH e k q s Hs) as H1. destruct (run f e k q s) as [s1 t1|s1 t1| |]; try exact H1.
      eapply good_prepend; [exact H1|]. apply IH. apply H1.
    - pose proof (IH e k q s Hs) as H1. destruct (run f e k q s) as [s1 t1|s1 t1| |]; exact H1.
    - pose proof (IH e k true s Hs) as H1. destruct (run f e k true s) as [s1 t1|s1 t1| |]; try exact H1;
        apply (good_here input s Hs).
    - pose proof (IH e k q s Hs) as H1. destruct (run f e k q s) as [s1 t1|s1 t1| |]; try exact H1.
      + destruct (emits k q); [|exact H1]. destruct H1 as (A & L & O & W).
        destruct A as [A1 A2]. destruct Hs as [B1 B2].
        assert (HC : consumed (rest s) (rest s1) = substring input (pos s) (pos s1)).
        { unfold consumed, substring. rewrite B2, A2, !skipn_length. f_equal. lia. }
        repeat split; auto; cbn; try lia.
        constructor; [|constructor]. rewrite HC. constructor; auto.
      + destruct H1 as (A & L & O & W). destruct (emits k q); repeat split; try apply A; auto; cbn; lia.
    - apply IH. exact Hs.
    - pose proof (IH e k q s Hs) as H1. destruct (run f e k q s) as [s1 t1|s1 t1| |]; try exact H1.
    - destruct (stk s) as [|t st] eqn:E; [exact I|].
      apply (good_take input s (fun _ => t)); [exact Hs|]. intros k0 H. apply strip_prefix_app. exact H.
    - destruct (stk s) as [|t st] eqn:E; [exact I|].
      apply (good_take input (mkPs (pos s) (rest s) st) (fun _ => t)); [exact Hs|].
      intros k0 H. apply strip_prefix_app. exact H.
    - apply IH. exact Hs.
    - destruct k; try (apply (good_here input s Hs)). apply IH. exact Hs.
  Qed.

  Lemma run_len : forall f e k q s,
    match run f e k q s with
    | POk s' _ | PErr s' _ => length (rest s') <= length (rest s)
    | _ => True
    end.
  Proof.
    intros f e k q s.
    assert (Hs : at_input (repeat 0%N (pos s) ++ rest s) s).
    { split.
      - rewrite app_length, repeat_length. lia.
      - pose proof (skipn_app_len (repeat 0%N (pos s)) (rest s)) as H. rewrite repeat_length in H. symmetry. exact H. }
    pose proof (run_good _ f e k q s Hs) as H. destruct Hs as [_ E].
    destruct (run f e k q s) as [s1 t1|s1 t1| |]; try exact I; destruct H as ((_ & E1) & L & _);
      rewrite E, E1, !skipn_length; lia.
  Qed.

  (** *** termination: an expression that may succeed without consuming *)
  Fixpoint nul (d : nat) : pexp R -> bool :=
    fix go (e : pexp R) : bool :=
      match e with
      | EStr l | EInsens l => match l with [] => true | _ => false end
      | ERange _ _ | EClass _ | EAny => false
      | EEoi | ESoi | EOpt _ | ERep _ | ENot _ | EPeek | EPop | ESkip => true
      | EThen a b => go a && go b
      | EElse a b => go a || go b
      | ESeq a | ERestore a | ERule _ a | EAtomic _ a | EPush a => go a
      | ECall r => match d with O => true | S d' => nul d' (g r) end
      end.

  Lemma take_consumes : forall s (p : str) r s' t, p <> [] -> take (R := R) s r = POk s' t ->
    (forall k, r = Some k -> exists p', rest s = p' ++ k /\ length p' = length p) ->
    length (rest s') < length (rest s).
  Proof.
    intros s p [k|] s' t Hp H Hk; cbn in H; [|discriminate]. injection H as <- <-.
    destruct (Hk k eq_refl) as (p' & E & L). cbn. rewrite E, app_length, L. destruct p; [congruence|cbn; lia].
  Qed.
  Lemma take_char_consumes : forall p s s' t, take_char (R := R) p s = POk s' t ->
    length (rest s') < length (rest s).
  Proof.
    intros p s s' t. unfold take_char. destruct (rest s) as [|c k]; [discriminate|].
    destruct (p c); [|discriminate]. intro H. injection H as <- <-. cbn. lia.
  Qed.

  Lemma nul_sound : forall f d e k q s s' t, nul d e = false -> run f e k q s = POk s' t ->
    length (rest s') < length (rest s).
  Proof.
    induction f as [|f IH]; intros d e k q s s' t Hn H; [discriminate|].
    cbn [Peg.run] in H.
    assert (Hd : forall e', nul d e' = (fix go (e : pexp R) : bool :=
      match e with
      | EStr l | EInsens l => match l with [] => true | _ => false end
      | ERange _ _ | EClass _ | EAny => false
      | EEoi | ESoi | EOpt _ | ERep _ | ENot _ | EPeek | EPop | ESkip => true
      | EThen a b => go a && go b
      | EElse a b => go a || go b
      | ESeq a | ERestore a | ERule _ a | EAtomic _ a | EPush a => go a
      | ECall r => match d with O => true | S d' => nul d' (g r) end
      end) e') by (intro; destruct d; reflexivity).
    destruct e; rewrite Hd in Hn; cbn in Hn; rewrite <- ?Hd in Hn; try discriminate.
    - destruct s0; [discriminate|]. eapply (take_consumes s (c :: s0)); [discriminate|exact H|].
      intros k0 E. exists (c :: s0). split; [apply strip_prefix_app; exact E|reflexivity].
    - destruct s0; [discriminate|]. eapply (take_consumes s (c :: s0)); [discriminate|exact H|].
      intros k0 E. apply (strip_insensitive_app (c :: s0)). exact E.
    - eapply take_char_consumes; exact H.
    - eapply take_char_consumes; exact H.
    - eapply take_char_consumes; exact H.
    - destruct (run f e1 k q s) as [s1 t1|s1 t1| |] eqn:E1; try discriminate.
      destruct (run f e2 k q s1) as [s2 t2|s2 t2| |] eqn:E2; try discriminate.
      cbn in H. injection H as <- <-.
      pose proof (run_len f e1 k q s) as L1. rewrite E1 in L1.
      pose proof (run_len f e2 k q s1) as L2. rewrite E2 in L2.
      apply andb_false_iff in Hn. destruct Hn as [Hn|Hn].
      + apply (IH _ _ _ _ _ _ _ Hn) in E1. lia.
      + apply (IH _ _ _ _ _ _ _ Hn) in E2. lia.
    - apply orb_false_iff in Hn. destruct Hn as [Hn1 Hn2].
      destruct (run f e1 k q s) as [s1 t1|s1 t1| |] eqn:E1; try discriminate.
      + injection H as <- <-. eapply IH; [|exact E1]. exact Hn1.
      + pose proof (run_len f e1 k q s) as L1. rewrite E1 in L1.
        destruct (run f e2 k q s1) as [s2 t2|s2 t2| |] eqn:E2; try discriminate.
        cbn in H. injection H as <- <-. apply (IH _ _ _ _ _ _ _ Hn2) in E2. lia.
    - destruct (run f e k q s) as [s1 t1|s1 t1| |] eqn:E1; try discriminate.
      injection H as <- <-. eapply IH; [|exact E1]. exact Hn.
    - destruct (run f e k q s) as [s1 t1|s1 t1| |] eqn:E1; try discriminate.
      injection H as <- <-. eapply IH; [|exact E1]. exact Hn.
    - destruct (run f e k q s) as [s1 t1|s1 t1| |] eqn:E1; try discriminate.
      injection H as <- <-. eapply IH; [|exact E1]. exact Hn.
    - eapply IH; [|exact H]. exact Hn.
    - destruct (run f e k q s) as [s1 t1|s1 t1| |] eqn:E1; try discriminate.
      injection H as <- <-. cbn. eapply IH; [|exact E1]. exact Hn.
    - destruct d as [|d']; [discriminate|]. eapply IH; [|exact H]. exact Hn.
  Qed.

  (** nesting of the interpreter before the first character is consumed, with the
      calls of other functions unfolded d deep *)
  Variables dn K : nat.
  Fixpoint dep (d : nat) : pexp R -> nat :=
    fix go (e : pexp R) : nat :=
      match e with
      | EThen a b => S (Nat.max (go a) (if nul dn a then go b else 0))
      | EElse a b => S (Nat.max (go a) (go b))
      | ESeq a | EOpt a | ERep a | ERestore a | ENot a | ERule _ a | EAtomic _ a | EPush a => S (go a)
      | ECall r => match d with O => S K | S d' => S (dep d' (g r)) end
      | ESkip => match d with O => S K | S d' => S (dep d' sk) end
      | _ => 1
      end.

  Lemma dep_eq : forall d e, dep d e =
      match e with
      | EThen a b => S (Nat.max (dep d a) (if nul dn a then dep d b else 0))
      | EElse a b => S (Nat.max (dep d a) (dep d b))
      | ESeq a | EOpt a | ERep a | ERestore a | ENot a | ERule _ a | EAtomic _ a | EPush a => S (dep d a)
      | ECall r => match d with O => S K | S d' => S (dep d' (g r)) end
      | ESkip => match d with O => S K | S d' => S (dep d' sk) end
      | _ => 1
      end.
  Proof. intros [|d] e; destruct e; reflexivity. Qed.

  Variable d0 : nat.
  (** every subexpression is shallow, and only consuming expressions are repeated *)
  Fixpoint wf (e : pexp R) : bool :=
    Nat.leb (dep d0 e) K &&
    match e with
    | EThen a b | EElse a b => wf a && wf b
    | ERep a => negb (nul dn a) && wf a
    | ESeq a | EOpt a | ERestore a | ENot a | ERule _ a | EAtomic _ a | EPush a => wf a
    | _ => true
    end.

  Lemma wf_dep : forall e, wf e = true -> dep d0 e <= K.
  Proof.
    intros e H. destruct e; cbn [wf] in H; apply andb_true_iff in H; destruct H as [H _];
      apply Nat.leb_le in H; exact H.
  Qed.

  Hypothesis wf_g : forall r, wf (g r) = true.
  Hypothesis wf_sk : wf sk = true.

  Lemma bound_step : forall n n1 a f, n1 < n -> a <= K -> n * K <= f -> n1 * K + a <= f.
  Proof. intros n n1 a f H1 H2 H3. nia. Qed.

  Theorem run_terminates : forall f e k q s d, wf e = true -> dep d e <= K ->
    length (rest s) * K + dep d e <= f -> run f e k q s <> PFuel.
  Proof.
    induction f as [|f IH]; intros e k q s d Hw HK Hf.
    { exfalso. rewrite dep_eq in Hf. destruct e; try (destruct d); lia. }
    assert (HT : forall (s : pstate) o, take (R := R) s o <> PFuel) by (intros s0 [?|]; discriminate).
    assert (HC : forall p (s : pstate), take_char (R := R) p s <> PFuel).
    { intros p s0. unfold take_char. destruct (rest s0); [discriminate|]. destruct (p c); discriminate. }
    rewrite dep_eq in Hf, HK. cbn [Peg.run].
    destruct e; cbn [wf] in Hw; try (apply andb_true_iff in Hw; destruct Hw as [Hdep Hw]);
      try apply Nat.leb_le in Hdep; auto.
    - destruct (rest s); discriminate.
    - destruct (pos s); discriminate.
    - apply andb_true_iff in Hw. destruct Hw as [Hw1 Hw2].
      pose proof (run_len f e1 k q s) as L1.
      assert (H1 : run f e1 k q s <> PFuel) by (apply (IH _ _ _ _ d); [assumption|lia|lia]).
      destruct (run f e1 k q s) as [s1 t1|s1 t1| |] eqn:E1; try discriminate; [|congruence].
      assert (H2 : run f e2 k q s1 <> PFuel).
      { destruct (nul dn e1) eqn:En.
        - apply (IH _ _ _ _ d); [assumption|lia|]. nia.
        - apply (IH _ _ _ _ d0); [assumption|apply wf_dep; assumption|].
          apply (bound_step (length (rest s))); [eapply nul_sound; eassumption | apply wf_dep; assumption | lia]. }
      destruct (run f e2 k q s1); try discriminate. congruence.
    - apply andb_true_iff in Hw. destruct Hw as [Hw1 Hw2].
      pose proof (run_len f e1 k q s) as L1.
      assert (H1 : run f e1 k q s <> PFuel) by (apply (IH _ _ _ _ d); [assumption|lia|lia]).
      destruct (run f e1 k q s) as [s1 t1|s1 t1| |] eqn:E1; try discriminate; [|congruence].
      assert (H2 : run f e2 k q s1 <> PFuel) by (apply (IH _ _ _ _ d); [assumption|lia|nia]).
      destruct (run f e2 k q s1); try discriminate. congruence.
    - assert (H1 : run f e k q s <> PFuel) by (apply (IH _ _ _ _ d); [assumption|lia|lia]).
      destruct (run f e k q s); try discriminate; congruence.
    - assert (H1 : run f e k q s <> PFuel) by (apply (IH _ _ _ _ d); [assumption|lia|lia]).
      destruct (run f e k q s); try discriminate; congruence.
    - apply andb_true_iff in Hw. destruct Hw as [Hn Hw]. apply negb_true_iff in Hn.
      assert (H1 : run f e k q s <> PFuel) by (apply (IH _ _ _ _ d); [assumption|lia|lia]).
      destruct (run f e k q s) as [s1 t1|s1 t1| |] eqn:E1; try discriminate; [|congruence].
      assert (H2 : run f (ERep e) k q s1 <> PFuel).
      { apply (IH _ _ _ _ d0); [cbn [wf]; rewrite Hn, Hw; apply Nat.leb_le in Hdep; rewrite Hdep; reflexivity | exact Hdep |].
        apply (bound_step (length (rest s))); [eapply nul_sound; eassumption | exact Hdep | lia]. }
      destruct (run f (ERep e) k q s1); try discriminate. congruence.
    - assert (H1 : run f e k q s <> PFuel) by (apply (IH _ _ _ _ d); [assumption|lia|lia]).
      destruct (run f e k q s); try discriminate; congruence.
    - assert (H1 : run f e k true s <> PFuel) by (apply (IH _ _ _ _ d); [assumption|lia|lia]).
      destruct (run f e k true s); try discriminate; congruence.
    - assert (H1 : run f e k q s <> PFuel) by (apply (IH _ _ _ _ d); [assumption|lia|lia]).
      destruct (run f e k q s); try discriminate; congruence.
    - apply (IH _ _ _ _ d); [assumption|lia|lia].
    - assert (H1 : run f e k q s <> PFuel) by (apply (IH _ _ _ _ d); [assumption|lia|lia]).
      destruct (run f e k q s); try discriminate; congruence.
    - destruct (stk s); [discriminate|apply HT].
    - destruct (stk s); [discriminate|apply HT].
    - destruct d as [|d]; [lia|]. apply (IH _ _ _ _ d); [apply wf_g|lia|lia].
    - destruct k; try discriminate. destruct d as [|d]; [lia|]. apply (IH _ _ _ _ d); [apply wf_sk|lia|lia].
  Qed.
End Generic.
