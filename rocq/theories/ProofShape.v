(** Static analyses of parsing expressions, sound for every grammar: which
    expressions cannot match the texts under consideration, which rules their pairs
    have, and which texts they match. *)
From Verif Require Import Base Peg ProofPeg.
Local Open Scope nat_scope.

Section Shape.
  Context {R : Type}.
  Variable U : unicode.
  Variable g : R -> pexp R.
  Variable sk : pexp R.
  Notation run := (run U g sk).

  Lemma take_inv : forall s r s' (t : list (tree R)), take s r = POk s' t -> t = [] /\ exists k, r = Some k /\ rest s' = k.
  Proof. intros s [k|] s' t H; cbn in H; [|discriminate]. injection H as <- <-. split; [reflexivity|]. exists k. split; reflexivity. Qed.
  Lemma take_char_inv : forall p s s' (t : list (tree R)), take_char p s = POk s' t ->
    t = [] /\ exists c, p c = true /\ rest s = c :: rest s'.
  Proof.
    intros p s s' t H. unfold take_char in H. destruct (rest s) as [|c k]; [discriminate|]. destruct (p c) eqn:E; [|discriminate].
    injection H as <- <-. split; [reflexivity|]. exists c. split; [exact E|reflexivity].
  Qed.
  Lemma take_err : forall s r s' (t : list (tree R)), take s r = PErr s' t -> t = [] /\ s' = s.
  Proof. intros s [k|] s' t H; cbn in H; [discriminate|]. injection H as <- <-. auto. Qed.
  Lemma take_char_err : forall p s s' (t : list (tree R)), take_char p s = PErr s' t -> t = [] /\ s' = s.
  Proof.
    intros p s s' t H. unfold take_char in H. destruct (rest s) as [|c k]; [|destruct (p c); [discriminate|]]; injection H as <- <-; auto.
  Qed.

  (** *** what remains is a suffix *)
  Definition ends (s : pstate) (r : pres R) : Prop :=
    match r with POk s' _ | PErr s' _ => exists p, rest s = p ++ rest s' | _ => True end.
  Lemma ends_refl : forall s : pstate, exists p : str, rest s = p ++ rest s.
  Proof. intro s. exists []. reflexivity. Qed.
  Lemma ends_trans : forall s s1 t r, (exists p, rest s = p ++ rest s1) -> ends s1 r -> ends s (prepend t r).
  Proof. intros s s1 t [s' u|s' u| |] [p E] H; cbn in *; try exact I; destruct H as [q F]; exists (p ++ q); rewrite E, F, app_assoc; reflexivity. Qed.
  Lemma run_ends : forall f e k q s, ends s (run f e k q s).
  Proof.
    induction f as [|f IH]; intros e k q s; [exact I|]. cbn [Peg.run].
    assert (TK : forall l o, (forall k, o = Some k -> exists p : str, l = p ++ k) -> l = rest s -> ends s (take (R := R) s o)).
    { intros l [k0|] H ->; cbn; [|apply ends_refl]. apply H. reflexivity. }
    assert (TC : forall p, ends s (take_char (R := R) p s)).
    { intro p. unfold take_char. destruct (rest s) as [|c k0] eqn:E; [apply ends_refl|]. destruct (p c); cbn; [|apply ends_refl].
      exists [c]. exact E. }
    destruct e; try apply TC.
    - apply (TK (rest s)); [|reflexivity]. intros k0 E. apply strip_prefix_app in E. eexists. exact E.
    - apply (TK (rest s)); [|reflexivity]. intros k0 E. apply strip_insensitive_app in E. destruct E as (p' & E & _). eexists. exact E.
    - destruct (rest s) as [|c l] eqn:E; cbn; rewrite E; exists []; reflexivity.
    - destruct (pos s); apply ends_refl.
    - pose proof (IH e1 k q s) as H1. destruct (run f e1 k q s) as [s1 t1|s1 t1| |]; try exact H1. eapply ends_trans; [exact H1|apply IH].
    - pose proof (IH e1 k q s) as H1. destruct (run f e1 k q s) as [s1 t1|s1 t1| |]; try exact H1. eapply ends_trans; [exact H1|apply IH].
    - pose proof (IH e k q s) as H1. destruct (run f e k q s) as [s1 t1|s1 t1| |]; try exact H1. cbn. exists []. reflexivity.
    - pose proof (IH e k q s) as H1. destruct (run f e k q s) as [s1 t1|s1 t1| |]; exact H1.
    - pose proof (IH e k q s) as H1. destruct (run f e k q s) as [s1 t1|s1 t1| |]; try exact H1. eapply ends_trans; [exact H1|apply IH].
    - pose proof (IH e k q s) as H1. destruct (run f e k q s) as [s1 t1|s1 t1| |]; exact H1.
    - destruct (run f e k true s) as [s1 t1|s1 t1| |]; try exact I; apply ends_refl.
    - pose proof (IH e k q s) as H1. destruct (run f e k q s) as [s1 t1|s1 t1| |]; exact H1.
    - apply IH.
    - pose proof (IH e k q s) as H1. destruct (run f e k q s) as [s1 t1|s1 t1| |]; exact H1.
    - destruct (stk s) as [|t st]; [exact I|]. apply (TK (rest s)); [|reflexivity]. intros k0 E. apply strip_prefix_app in E. eexists. exact E.
    - destruct (stk s) as [|t st]; [exact I|]. cbv zeta. cbn [rest]. destruct (strip_prefix t (rest s)) as [k0|] eqn:E; cbn; [|exists []; reflexivity].
      apply strip_prefix_app in E. eexists. exact E.
    - apply IH.
    - destruct k; try apply IH; apply ends_refl.
  Qed.
  Lemma ok_ends : forall f e k q s s' t, run f e k q s = POk s' t -> exists p, rest s = p ++ rest s'.
  Proof. intros f e k q s s' t H. pose proof (run_ends f e k q s) as E. rewrite H in E. exact E. Qed.
  Lemma err_ends : forall f e k q s s' t, run f e k q s = PErr s' t -> exists p, rest s = p ++ rest s'.
  Proof. intros f e k q s s' t H. pose proof (run_ends f e k q s) as E. rewrite H in E. exact E. Qed.

  (** *** expressions whose failure leaves neither pairs nor progress *)
  Fixpoint clean (d : nat) : pexp R -> bool :=
    fix go (e : pexp R) : bool :=
      match e with
      | EThen a b => match b with ERep _ => go a | _ => false end
      | EElse a b => if go a then go b else false
      | ERestore a | ERule _ a | EAtomic _ a | EPush a => go a
      | ECall r => match d with O => false | S d' => clean d' (g r) end
      | ESkip => match d with O => false | S d' => clean d' sk end
      | _ => true
      end.
  Lemma clean_eq : forall d e, clean d e =
    match e with
    | EThen a b => match b with ERep _ => clean d a | _ => false end
    | EElse a b => if clean d a then clean d b else false
    | ERestore a | ERule _ a | EAtomic _ a | EPush a => clean d a
    | ECall r => match d with O => false | S d' => clean d' (g r) end
    | ESkip => match d with O => false | S d' => clean d' sk end
    | _ => true
    end.
  Proof. intros [|d] []; reflexivity. Qed.
  Lemma rep_never_err : forall f e k q s s' t, run f (ERep e) k q s <> PErr s' t.
  Proof.
    induction f as [|f IH]; intros e k q s s' t H; [discriminate|]. cbn [Peg.run] in H.
    destruct (run f e k q s) as [s1 t1|s1 t1| |]; try discriminate.
    destruct (run f (ERep e) k q s1) as [s2 t2|s2 t2| |] eqn:E; try discriminate. exact (IH _ _ _ _ _ _ E).
  Qed.
  Lemma clean_sound : forall f d e k q s s' t, clean d e = true -> run f e k q s = PErr s' t ->
    t = [] /\ rest s' = rest s.
  Proof.
    induction f as [|f IH]; intros d e k q s s' t Hc H; [discriminate|]. rewrite clean_eq in Hc.
    destruct e; try (exfalso; exact (rep_never_err _ _ _ _ _ _ _ H)); cbn [Peg.run] in H; try discriminate Hc;
      try (apply take_err in H; destruct H as [-> ->]; split; reflexivity);
      try (apply take_char_err in H; destruct H as [-> ->]; split; reflexivity).
    - destruct (rest s) eqn:E; [discriminate|]. injection H as <- <-. auto.
    - destruct (pos s); [discriminate|]. injection H as <- <-. auto.
    - destruct e2; try discriminate Hc. destruct (run f e1 k q s) as [s1 t1|s1 t1| |] eqn:E1; try discriminate.
      + destruct (run f (ERep e2) k q s1) as [s2 t2|s2 t2| |] eqn:E2; try discriminate. exfalso. exact (rep_never_err _ _ _ _ _ _ _ E2).
      + injection H as <- <-. exact (IH _ _ _ _ _ _ _ Hc E1).
    - destruct (clean d e1) eqn:C1; [|discriminate]. destruct (run f e1 k q s) as [s1 t1|s1 t1| |] eqn:E1; try discriminate.
      destruct (run f e2 k q s1) as [s2 t2|s2 t2| |] eqn:E2; try discriminate. injection H as <- <-.
      apply (IH _ _ _ _ _ _ _ C1) in E1. apply (IH _ _ _ _ _ _ _ Hc) in E2. destruct E1 as [-> E1], E2 as [-> E2]. split; [reflexivity|congruence].
    - destruct (run f e k q s) as [s1 t1|s1 t1| |] eqn:E1; try discriminate. injection H as <- <-. auto.
    - destruct (run f e k q s) as [s1 t1|s1 t1| |] eqn:E1; discriminate.
    - destruct (run f e k q s) as [s1 t1|s1 t1| |] eqn:E1; try discriminate. injection H as <- <-.
      exact (IH _ _ _ _ _ _ _ Hc E1).
    - destruct (run f e k true s) as [s1 t1|s1 t1| |] eqn:E1; try discriminate. injection H as <- <-. auto.
    - destruct (run f e k q s) as [s1 t1|s1 t1| |] eqn:E1; try discriminate. injection H as <- <-.
      apply (IH _ _ _ _ _ _ _ Hc) in E1. destruct E1 as [-> E1]. split; [destruct (emits k q); reflexivity|exact E1].
    - exact (IH _ _ _ _ _ _ _ Hc H).
    - destruct (run f e k q s) as [s1 t1|s1 t1| |] eqn:E1; try discriminate. injection H as <- <-. exact (IH _ _ _ _ _ _ _ Hc E1).
    - destruct (stk s) as [|x st]; [discriminate|]. apply take_err in H. destruct H as [-> ->]. auto.
    - destruct (stk s) as [|x st]; [discriminate|]. apply take_err in H. destruct H as [-> ->]. auto.
    - destruct d as [|d']; [discriminate|]. exact (IH _ _ _ _ _ _ _ Hc H).
    - destruct d as [|d']; [discriminate|]. destruct k; try discriminate. exact (IH _ _ _ _ _ _ _ Hc H).
  Qed.

  (** *** a class of texts, closed under suffixes, and expressions that match none of them *)
  Variable Safe : str -> Prop.
  Hypothesis Safe_suffix : forall p w, Safe (p ++ w) -> Safe w.
  Variable no_str no_insens : str -> bool.
  Variable no_class : uclass -> bool.
  Hypothesis no_str_sound : forall l w, no_str l = true -> Safe (l ++ w) -> False.
  Hypothesis no_insens_sound : forall l w k, no_insens l = true -> Safe w -> strip_prefix_insensitive l w = Some k -> False.
  Hypothesis no_class_sound : forall k c w, no_class k = true -> Safe (c :: w) -> in_class U k c = true -> False.

  Fixpoint mute (d : nat) : pexp R -> bool :=
    fix go (e : pexp R) : bool :=
      match e with
      | EStr l => no_str l
      | EInsens l => no_insens l
      | EClass k => no_class k
      | EThen a b => if go a then true else go b
      | EElse a b => if go a then go b else false
      | ESeq a | ERestore a | ERule _ a | EAtomic _ a | EPush a => go a
      | ECall r => match d with O => false | S d' => mute d' (g r) end
      | _ => false
      end.
  Lemma mute_eq : forall d e, mute d e =
    match e with
    | EStr l => no_str l
    | EInsens l => no_insens l
    | EClass k => no_class k
    | EThen a b => if mute d a then true else mute d b
    | EElse a b => if mute d a then mute d b else false
    | ESeq a | ERestore a | ERule _ a | EAtomic _ a | EPush a => mute d a
    | ECall r => match d with O => false | S d' => mute d' (g r) end
    | _ => false
    end.
  Proof. intros [|d] []; reflexivity. Qed.
  Lemma safe_next : forall f e k q s s' t, Safe (rest s) -> run f e k q s = POk s' t -> Safe (rest s').
  Proof. intros f e k q s s' t H E. apply ok_ends in E. destruct E as [p E]. rewrite E in H. exact (Safe_suffix _ _ H). Qed.
  Lemma safe_next_err : forall f e k q s s' t, Safe (rest s) -> run f e k q s = PErr s' t -> Safe (rest s').
  Proof. intros f e k q s s' t H E. apply err_ends in E. destruct E as [p E]. rewrite E in H. exact (Safe_suffix _ _ H). Qed.

  Lemma mute_sound : forall f d e k q s s' t, mute d e = true -> Safe (rest s) -> run f e k q s = POk s' t -> False.
  Proof.
    induction f as [|f IH]; intros d e k q s s' t Hm Hs H; [discriminate|]. rewrite mute_eq in Hm.
    destruct e; try discriminate Hm; cbn [Peg.run] in H.
    - apply take_inv in H. destruct H as (_ & k0 & E & _). apply strip_prefix_app in E. rewrite E in Hs. exact (no_str_sound _ _ Hm Hs).
    - apply take_inv in H. destruct H as (_ & k0 & E & _). exact (no_insens_sound _ _ _ Hm Hs E).
    - apply take_char_inv in H. destruct H as (_ & c & E & F). rewrite F in Hs. exact (no_class_sound _ _ _ Hm Hs E).
    - destruct (run f e1 k q s) as [s1 t1|s1 t1| |] eqn:E1; try discriminate.
      destruct (mute d e1) eqn:M1; [exact (IH _ _ _ _ _ _ _ M1 Hs E1)|].
      destruct (run f e2 k q s1) as [s2 t2|s2 t2| |] eqn:E2; try discriminate.
      exact (IH _ _ _ _ _ _ _ Hm (safe_next _ _ _ _ _ _ _ Hs E1) E2).
    - destruct (mute d e1) eqn:M1; [|discriminate]. destruct (run f e1 k q s) as [s1 t1|s1 t1| |] eqn:E1; try discriminate.
      + exact (IH _ _ _ _ _ _ _ M1 Hs E1).
      + destruct (run f e2 k q s1) as [s2 t2|s2 t2| |] eqn:E2; try discriminate.
        exact (IH _ _ _ _ _ _ _ Hm (safe_next_err _ _ _ _ _ _ _ Hs E1) E2).
    - destruct (run f e k q s) as [s1 t1|s1 t1| |] eqn:E1; try discriminate. exact (IH _ _ _ _ _ _ _ Hm Hs E1).
    - destruct (run f e k q s) as [s1 t1|s1 t1| |] eqn:E1; try discriminate. exact (IH _ _ _ _ _ _ _ Hm Hs E1).
    - destruct (run f e k q s) as [s1 t1|s1 t1| |] eqn:E1; try discriminate. exact (IH _ _ _ _ _ _ _ Hm Hs E1).
    - exact (IH _ _ _ _ _ _ _ Hm Hs H).
    - destruct (run f e k q s) as [s1 t1|s1 t1| |] eqn:E1; try discriminate. exact (IH _ _ _ _ _ _ _ Hm Hs E1).
    - destruct d as [|d']; [discriminate|]. exact (IH _ _ _ _ _ _ _ Hm Hs H).
  Qed.

  (** *** the rules of the pairs, read by an automaton *)
  Variable dm : nat.
  Section Automaton.
    Variable step : nat -> R -> nat.
    Definition union (a b : list nat) : list nat := a ++ filter (fun x => negb (existsb (Nat.eqb x) a)) b.
    Definition subset (a b : list nat) : bool := forallb (fun x => existsb (Nat.eqb x) b) a.
    Fixpoint closure (n : nat) (f : list nat -> option (list nat)) (S0 : list nat) : option (list nat) :=
      match n with
      | O => None
      | S n' =>
          match f S0 with
          | None => None
          | Some S1 => if subset S1 S0 then Some S0 else closure n' f (union S0 S1)
          end
      end.
    Definition both (a b : option (list nat)) : option (list nat) :=
      match a, b with Some x, Some y => Some (union x y) | _, _ => None end.

    Fixpoint trans (d : nat) : pexp R -> atomicity -> list nat -> option (list nat) :=
      fix go (e : pexp R) (k : atomicity) (S0 : list nat) : option (list nat) :=
        if mute dm e then Some [] else
        match e with
        | EThen a b => match go a k S0 with Some S1 => go b k S1 | None => None end
        | EElse a b => if clean dm a then both (go a k S0) (go b k S0) else None
        | ESeq a | ERestore a | EPush a => go a k S0
        | EOpt a => if clean dm a then both (Some S0) (go a k S0) else None
        | ERep a => if clean dm a then closure 6 (go a k) S0 else None
        | ERule r a => match k with Atomic => go a k S0 | _ => Some (map (fun x => step x r) S0) end
        | EAtomic k' a => go a k' S0
        | ECall r => match d with O => None | S d' => trans d' (g r) k S0 end
        | ESkip => match k with NonAtomic => match d with O => None | S d' => trans d' sk k S0 end | _ => Some S0 end
        | _ => Some S0
        end.
    Lemma trans_eq : forall d e k S0, trans d e k S0 =
      if mute dm e then Some [] else
      match e with
      | EThen a b => match trans d a k S0 with Some S1 => trans d b k S1 | None => None end
      | EElse a b => if clean dm a then both (trans d a k S0) (trans d b k S0) else None
      | ESeq a | ERestore a | EPush a => trans d a k S0
      | EOpt a => if clean dm a then both (Some S0) (trans d a k S0) else None
      | ERep a => if clean dm a then closure 6 (trans d a k) S0 else None
      | ERule r a => match k with Atomic => trans d a k S0 | _ => Some (map (fun x => step x r) S0) end
      | EAtomic k' a => trans d a k' S0
      | ECall r => match d with O => None | S d' => trans d' (g r) k S0 end
      | ESkip => match k with NonAtomic => match d with O => None | S d' => trans d' sk k S0 end | _ => Some S0 end
      | _ => Some S0
      end.
    Proof. intros [|d] []; reflexivity. Qed.

    Definition rule_of (t : tree R) : R := match t with Node r _ _ _ _ => r end.
    Definition reads (x : nat) (ts : list (tree R)) : nat := fold_left (fun y t => step y (rule_of t)) ts x.

    Lemma reads_app : forall x a b, reads x (a ++ b) = reads (reads x a) b.
    Proof. intros. unfold reads. apply fold_left_app. Qed.
    Lemma in_union : forall x a b, In x a \/ In x b -> In x (union a b).
    Proof.
      intros x a b H. unfold union. apply in_app_iff. destruct H as [H|H]; [left; exact H|].
      destruct (existsb (Nat.eqb x) a) eqn:E.
      - left. apply existsb_exists in E. destruct E as (y & Hy & E). apply Nat.eqb_eq in E. subst. exact Hy.
      - right. apply filter_In. rewrite E. auto.
    Qed.
    Lemma subset_in : forall a b x, subset a b = true -> In x a -> In x b.
    Proof.
      intros a b x H Hx. unfold subset in H. rewrite forallb_forall in H. specialize (H x Hx). apply existsb_exists in H.
      destruct H as (y & Hy & E). apply Nat.eqb_eq in E. subst. exact Hy.
    Qed.
    Lemma closure_spec : forall n f S0 S', closure n f S0 = Some S' ->
      (forall x, In x S0 -> In x S') /\ exists S1, f S' = Some S1 /\ forall x, In x S1 -> In x S'.
    Proof.
      induction n as [|n IH]; intros f S0 S' H; [discriminate|]. cbn [closure] in H. destruct (f S0) as [S1|] eqn:E; [|discriminate].
      destruct (subset S1 S0) eqn:B.
      - injection H as <-. split; [auto|]. exists S1. split; [exact E|]. intros x. apply subset_in. exact B.
      - apply IH in H. destruct H as [H1 H2]. split; [|exact H2]. intros x Hx. apply H1. apply in_union. auto.
    Qed.

    Lemma trans_sound : forall f d e k s s' ts S0 S' x, trans d e k S0 = Some S' -> In x S0 -> Safe (rest s) ->
      run f e k false s = POk s' ts -> In (reads x ts) S'.
    Proof.
      induction f as [|f IH]; intros d e k s s' ts S0 S' x HT Hx Hs H; [discriminate|].
      rewrite trans_eq in HT. destruct (mute dm e) eqn:M; [exfalso; exact (mute_sound _ _ _ _ _ _ _ _ M Hs H)|]. clear M.
      destruct e; cbn [Peg.run] in H;
        try (apply take_inv in H; destruct H as [-> _]; injection HT as <-; exact Hx);
        try (apply take_char_inv in H; destruct H as [-> _]; injection HT as <-; exact Hx).
      - destruct (rest s); [|discriminate]. injection H as <- <-. injection HT as <-. exact Hx.
      - destruct (pos s); [|discriminate]. injection H as <- <-. injection HT as <-. exact Hx.
      - destruct (run f e1 k false s) as [s1 t1|s1 t1| |] eqn:E1; try discriminate.
        destruct (run f e2 k false s1) as [s2 t2|s2 t2| |] eqn:E2; try discriminate. injection H as <- <-.
        destruct (trans d e1 k S0) as [S1|] eqn:T1; [|discriminate]. rewrite reads_app.
        eapply IH; [exact HT| |exact (safe_next _ _ _ _ _ _ _ Hs E1)|exact E2]. eapply IH; [exact T1|exact Hx|exact Hs|exact E1].
      - destruct (clean dm e1) eqn:C; [|discriminate]. destruct (trans d e1 k S0) as [S1|] eqn:T1; [|discriminate].
        destruct (trans d e2 k S0) as [S2|] eqn:T2; [|discriminate]. injection HT as <-. apply in_union.
        destruct (run f e1 k false s) as [s1 t1|s1 t1| |] eqn:E1; try discriminate.
        + injection H as <- <-. left. eapply IH; [exact T1|exact Hx|exact Hs|exact E1].
        + destruct (run f e2 k false s1) as [s2 t2|s2 t2| |] eqn:E2; try discriminate. injection H as <- <-.
          destruct (clean_sound _ _ _ _ _ _ _ _ C E1) as [-> Er]. right. cbn [app].
          eapply IH; [exact T2|exact Hx|rewrite Er; exact Hs|exact E2].
      - destruct (run f e k false s) as [s1 t1|s1 t1| |] eqn:E1; try discriminate. injection H as <- <-.
        eapply IH; [exact HT|exact Hx|exact Hs|exact E1].
      - destruct (clean dm e) eqn:C; [|discriminate]. destruct (trans d e k S0) as [S1|] eqn:T1; [|discriminate]. injection HT as <-.
        apply in_union. destruct (run f e k false s) as [s1 t1|s1 t1| |] eqn:E1; try discriminate; injection H as <- <-.
        + right. eapply IH; [exact T1|exact Hx|exact Hs|exact E1].
        + destruct (clean_sound _ _ _ _ _ _ _ _ C E1) as [-> _]. left. exact Hx.
      - destruct (clean dm e) eqn:C; [|discriminate]. pose proof HT as HT'. apply closure_spec in HT'. destruct HT' as (A & S1 & T1 & B).
        destruct (run f e k false s) as [s1 t1|s1 t1| |] eqn:E1; try discriminate.
        + destruct (run f (ERep e) k false s1) as [s2 t2|s2 t2| |] eqn:E2; try discriminate. injection H as <- <-. rewrite reads_app.
          eapply (IH d (ERep e) k s1 s2 t2 S'); [|apply B; eapply IH; [exact T1|apply A; exact Hx|exact Hs|exact E1]|
            exact (safe_next _ _ _ _ _ _ _ Hs E1)|exact E2].
          rewrite trans_eq, C. assert (M : mute dm (ERep e) = false) by (rewrite mute_eq; reflexivity). rewrite M. cbn [closure]. rewrite T1.
          assert (SB : subset S1 S' = true).
          { unfold subset. apply forallb_forall. intros y Hy. apply existsb_exists. exists y. split; [apply B; exact Hy|apply Nat.eqb_refl]. }
          rewrite SB. reflexivity.
        + injection H as <- <-. destruct (clean_sound _ _ _ _ _ _ _ _ C E1) as [-> _]. apply A. exact Hx.
      - destruct (run f e k false s) as [s1 t1|s1 t1| |] eqn:E1; try discriminate. injection H as <- <-.
        eapply IH; [exact HT|exact Hx|exact Hs|exact E1].
      - destruct (run f e k true s) as [s1 t1|s1 t1| |] eqn:E1; try discriminate. injection H as <- <-. injection HT as <-. exact Hx.
      - destruct (run f e k false s) as [s1 t1|s1 t1| |] eqn:E1; try discriminate. injection H as <- <-.
        destruct k; cbn [emits negb].
        + injection HT as <-. cbn. apply in_map_iff. exists x. auto.
        + injection HT as <-. cbn. apply in_map_iff. exists x. auto.
        + eapply IH; [exact HT|exact Hx|exact Hs|exact E1].
      - eapply IH; [exact HT|exact Hx|exact Hs|exact H].
      - destruct (run f e k false s) as [s1 t1|s1 t1| |] eqn:E1; try discriminate. injection H as <- <-.
        eapply IH; [exact HT|exact Hx|exact Hs|exact E1].
      - destruct (stk s) as [|y st]; [discriminate|]. apply take_inv in H. destruct H as [-> _]. injection HT as <-. exact Hx.
      - destruct (stk s) as [|y st]; [discriminate|]. apply take_inv in H. destruct H as [-> _]. injection HT as <-. exact Hx.
      - destruct d as [|d']; [discriminate|]. eapply IH; [exact HT|exact Hx|exact Hs|exact H].
      - destruct k; try (injection H as <- <-; injection HT as <-; exact Hx). destruct d as [|d']; [discriminate|].
        eapply IH; [exact HT|exact Hx|exact Hs|exact H].
    Qed.
  End Automaton.

  (** *** the characters of the matched text *)
  Section Chars.
    Variable p : char -> bool.
    (** the classes whose characters all satisfy p *)
    Variable pc : uclass -> bool.
    Hypothesis pc_sound : forall k c, pc k = true -> in_class U k c = true -> p c = true.
    Definition range (a b : char) : list char := map (fun n => (a + N.of_nat n)%N) (seq 0 (S (N.to_nat (b - a)))).
    Fixpoint chars (d : nat) : pexp R -> bool :=
      fix go (e : pexp R) : bool :=
        match e with
        | EStr l => forallb p l
        | ERange a b => forallb p (range a b)
        | EClass k => pc k
        | EEoi | ESoi | ENot _ => true
        | EThen a b | EElse a b => if go a then go b else false
        | ESeq a | EOpt a | ERep a | ERestore a | ERule _ a | EAtomic _ a | EPush a => go a
        | ECall r => match d with O => false | S d' => chars d' (g r) end
        | _ => false
        end.
    Lemma chars_eq : forall d e, chars d e =
      match e with
      | EStr l => forallb p l
      | ERange a b => forallb p (range a b)
      | EClass k => pc k
      | EEoi | ESoi | ENot _ => true
      | EThen a b | EElse a b => if chars d a then chars d b else false
      | ESeq a | EOpt a | ERep a | ERestore a | ERule _ a | EAtomic _ a | EPush a => chars d a
      | ECall r => match d with O => false | S d' => chars d' (g r) end
      | _ => false
      end.
    Proof. intros [|d] []; reflexivity. Qed.
    Lemma range_in : forall a b c, (a <= c)%N -> (c <= b)%N -> In c (range a b).
    Proof. intros a b c H1 H2. unfold range. apply in_map_iff. exists (N.to_nat (c - a)). split; [lia|]. apply in_seq. lia. Qed.

    Definition spelt (s : pstate) (r : pres R) : Prop :=
      match r with POk s' _ | PErr s' _ => exists w, rest s = w ++ rest s' /\ forallb p w = true | _ => True end.
    Lemma spelt_refl : forall s : pstate, exists w : str, rest s = w ++ rest s /\ forallb p w = true.
    Proof. intro s. exists []. split; reflexivity. Qed.
    Lemma spelt_trans : forall s s1 t r, (exists w, rest s = w ++ rest s1 /\ forallb p w = true) -> spelt s1 r -> spelt s (prepend t r).
    Proof.
      intros s s1 t r (w & E & Hw) H. destruct r as [s' u|s' u| |]; cbn in *; try exact I;
        destruct H as (w' & E' & Hw'); exists (w ++ w'); rewrite E, E', app_assoc, forallb_app, Hw, Hw'; split; reflexivity.
    Qed.
    Lemma chars_sound : forall f d e k q s, chars d e = true -> spelt s (run f e k q s).
    Proof.
      induction f as [|f IH]; intros d e k q s Hc; [exact I|]. rewrite chars_eq in Hc. cbn [Peg.run].
      destruct e; try discriminate Hc.
      - destruct (strip_prefix s0 (rest s)) as [k0|] eqn:E; cbn; [|apply spelt_refl]. apply strip_prefix_app in E. exists s0. auto.
      - unfold take_char. destruct (rest s) as [|c l] eqn:E; [apply spelt_refl|].
        destruct ((a <=? c) && (c <=? b))%N eqn:B; [|apply spelt_refl]. cbn. exists [c]. split; [exact E|].
        rewrite forallb_forall in Hc. apply andb_prop in B. destruct B as [B1 B2]. apply N.leb_le in B1. apply N.leb_le in B2.
        cbn. rewrite (Hc c (range_in _ _ _ B1 B2)). reflexivity.
      - unfold take_char. destruct (rest s) as [|c l] eqn:E; [apply spelt_refl|].
        destruct (in_class U k0 c) eqn:B; [|apply spelt_refl]. cbn. exists [c]. split; [exact E|]. cbn. rewrite (pc_sound _ _ Hc B). reflexivity.
      - destruct (rest s) eqn:E; cbn; rewrite E; exists []; split; reflexivity.
      - destruct (pos s); apply spelt_refl.
      - destruct (chars d e1) eqn:C1; [|discriminate]. pose proof (IH d e1 k q s C1) as H1.
        destruct (run f e1 k q s) as [s1 t1|s1 t1| |]; try exact H1. eapply spelt_trans; [exact H1|]. exact (IH d e2 k q s1 Hc).
      - destruct (chars d e1) eqn:C1; [|discriminate]. pose proof (IH d e1 k q s C1) as H1.
        destruct (run f e1 k q s) as [s1 t1|s1 t1| |]; try exact H1. eapply spelt_trans; [exact H1|]. exact (IH d e2 k q s1 Hc).
      - pose proof (IH d e k q s Hc) as H1. destruct (run f e k q s) as [s1 t1|s1 t1| |]; try exact H1. cbn. exists []. split; reflexivity.
      - pose proof (IH d e k q s Hc) as H1. destruct (run f e k q s) as [s1 t1|s1 t1| |]; exact H1.
      - pose proof (IH d e k q s Hc) as H1. destruct (run f e k q s) as [s1 t1|s1 t1| |]; try exact H1.
        eapply spelt_trans; [exact H1|]. apply (IH d (ERep e)). rewrite chars_eq. exact Hc.
      - pose proof (IH d e k q s Hc) as H1. destruct (run f e k q s) as [s1 t1|s1 t1| |]; exact H1.
      - destruct (run f e k true s) as [s1 t1|s1 t1| |]; try exact I; apply spelt_refl.
      - pose proof (IH d e k q s Hc) as H1. destruct (run f e k q s) as [s1 t1|s1 t1| |]; exact H1.
      - exact (IH d e k0 q s Hc).
      - pose proof (IH d e k q s Hc) as H1. destruct (run f e k q s) as [s1 t1|s1 t1| |]; exact H1.
      - destruct d as [|d']; [discriminate|]. exact (IH d' _ k q s Hc).
    Qed.

    (** some character satisfies p *)
    Fixpoint has (d : nat) : pexp R -> bool :=
      fix go (e : pexp R) : bool :=
        match e with
        | EStr l => existsb p l
        | EThen a b => if go a then true else go b
        | EElse a b => if go a then go b else false
        | ESeq a | ERestore a | ERule _ a | EAtomic _ a | EPush a => go a
        | ECall r => match d with O => false | S d' => has d' (g r) end
        | _ => false
        end.
    Lemma has_eq : forall d e, has d e =
      match e with
      | EStr l => existsb p l
      | EThen a b => if has d a then true else has d b
      | EElse a b => if has d a then has d b else false
      | ESeq a | ERestore a | ERule _ a | EAtomic _ a | EPush a => has d a
      | ECall r => match d with O => false | S d' => has d' (g r) end
      | _ => false
      end.
    Proof. intros [|d] []; reflexivity. Qed.
    Lemma has_sound : forall f d e k q s s' t, has d e = true -> run f e k q s = POk s' t ->
      exists w, rest s = w ++ rest s' /\ existsb p w = true.
    Proof.
      induction f as [|f IH]; intros d e k q s s' t Hh H; [discriminate|]. rewrite has_eq in Hh. cbn [Peg.run] in H.
      destruct e; try discriminate Hh.
      - apply take_inv in H. destruct H as (_ & k0 & E & F). apply strip_prefix_app in E. exists s0. rewrite F. auto.
      - destruct (run f e1 k q s) as [s1 t1|s1 t1| |] eqn:E1; try discriminate.
        destruct (run f e2 k q s1) as [s2 t2|s2 t2| |] eqn:E2; try discriminate. injection H as <- <-. destruct (has d e1) eqn:H1.
        + destruct (IH _ _ _ _ _ _ _ H1 E1) as (w & Ew & Hw). destruct (ok_ends _ _ _ _ _ _ _ E2) as [v Ev].
          exists (w ++ v). rewrite Ew, Ev, app_assoc, existsb_app, Hw. split; reflexivity.
        + destruct (IH _ _ _ _ _ _ _ Hh E2) as (w & Ew & Hw). destruct (ok_ends _ _ _ _ _ _ _ E1) as [v Ev].
          exists (v ++ w). rewrite Ev, Ew, app_assoc, existsb_app, Hw, orb_true_r. split; reflexivity.
      - destruct (has d e1) eqn:H1; [|discriminate]. destruct (run f e1 k q s) as [s1 t1|s1 t1| |] eqn:E1; try discriminate.
        + injection H as <- <-. exact (IH _ _ _ _ _ _ _ H1 E1).
        + destruct (run f e2 k q s1) as [s2 t2|s2 t2| |] eqn:E2; try discriminate. injection H as <- <-.
          destruct (IH _ _ _ _ _ _ _ Hh E2) as (w & Ew & Hw). destruct (err_ends _ _ _ _ _ _ _ E1) as [v Ev].
          exists (v ++ w). rewrite Ev, Ew, app_assoc, existsb_app, Hw, orb_true_r. split; reflexivity.
      - destruct (run f e k q s) as [s1 t1|s1 t1| |] eqn:E1; try discriminate. injection H as <- <-. exact (IH _ _ _ _ _ _ _ Hh E1).
      - destruct (run f e k q s) as [s1 t1|s1 t1| |] eqn:E1; try discriminate. injection H as <- <-. exact (IH _ _ _ _ _ _ _ Hh E1).
      - destruct (run f e k q s) as [s1 t1|s1 t1| |] eqn:E1; try discriminate. injection H as <- <-. exact (IH _ _ _ _ _ _ _ Hh E1).
      - exact (IH _ _ _ _ _ _ _ Hh H).
      - destruct (run f e k q s) as [s1 t1|s1 t1| |] eqn:E1; try discriminate. injection H as <- <-. exact (IH _ _ _ _ _ _ _ Hh E1).
      - destruct d as [|d']; [discriminate|]. exact (IH _ _ _ _ _ _ _ Hh H).
    Qed.
    (** *** the first character satisfies p *)
    Fixpoint first (d : nat) : pexp R -> bool :=
      fix go (e : pexp R) : bool :=
        if mute dm e then true else
        match e with
        | EStr l => match l with c :: _ => p c | [] => false end
        | ERange a b => forallb p (range a b)
        | EClass k => pc k
        | EThen a _ => go a
        | EElse a b => if clean dm a then if go a then go b else false else false
        | ESeq a | ERestore a | ERule _ a | EAtomic _ a | EPush a => go a
        | ECall r => match d with O => false | S d' => first d' (g r) end
        | _ => false
        end.
    Lemma first_eq : forall d e, first d e =
      if mute dm e then true else
      match e with
      | EStr l => match l with c :: _ => p c | [] => false end
      | ERange a b => forallb p (range a b)
      | EClass k => pc k
      | EThen a _ => first d a
      | EElse a b => if clean dm a then if first d a then first d b else false else false
      | ESeq a | ERestore a | ERule _ a | EAtomic _ a | EPush a => first d a
      | ECall r => match d with O => false | S d' => first d' (g r) end
      | _ => false
      end.
    Proof. intros [|d] []; reflexivity. Qed.
    Lemma first_sound : forall f d e k q s s' t, first d e = true -> Safe (rest s) -> run f e k q s = POk s' t ->
      exists c w, rest s = c :: w ++ rest s' /\ p c = true.
    Proof.
      induction f as [|f IH]; intros d e k q s s' t Hh Hs H; [discriminate|]. rewrite first_eq in Hh.
      destruct (mute dm e) eqn:M; [exfalso; exact (mute_sound _ _ _ _ _ _ _ _ M Hs H)|]. clear M. cbn [Peg.run] in H.
      destruct e; try discriminate Hh.
      - apply take_inv in H. destruct H as (_ & k0 & E & F). apply strip_prefix_app in E. destruct s0 as [|c l]; [discriminate|].
        exists c, l. rewrite F. auto.
      - apply take_char_inv in H. destruct H as (_ & c & E & F). exists c, []. split; [exact F|].
        apply andb_prop in E. destruct E as [B1 B2]. apply N.leb_le in B1. apply N.leb_le in B2.
        rewrite forallb_forall in Hh. exact (Hh c (range_in _ _ _ B1 B2)).
      - apply take_char_inv in H. destruct H as (_ & c & E & F). exists c, []. split; [exact F|]. exact (pc_sound _ _ Hh E).
      - destruct (run f e1 k q s) as [s1 t1|s1 t1| |] eqn:E1; try discriminate.
        destruct (run f e2 k q s1) as [s2 t2|s2 t2| |] eqn:E2; try discriminate. injection H as <- <-.
        destruct (IH _ _ _ _ _ _ _ Hh Hs E1) as (c & w & Ew & Hw). destruct (ok_ends _ _ _ _ _ _ _ E2) as [v Ev].
        exists c, (w ++ v). rewrite Ew, Ev, app_assoc. auto.
      - destruct (clean dm e1) eqn:C; [|discriminate]. destruct (first d e1) eqn:H1; [|discriminate].
        destruct (run f e1 k q s) as [s1 t1|s1 t1| |] eqn:E1; try discriminate.
        + injection H as <- <-. exact (IH _ _ _ _ _ _ _ H1 Hs E1).
        + destruct (run f e2 k q s1) as [s2 t2|s2 t2| |] eqn:E2; try discriminate. injection H as <- <-.
          destruct (clean_sound _ _ _ _ _ _ _ _ C E1) as [_ Er]. rewrite <- Er in Hs |- *. exact (IH _ _ _ _ _ _ _ Hh Hs E2).
      - destruct (run f e k q s) as [s1 t1|s1 t1| |] eqn:E1; try discriminate. injection H as <- <-. exact (IH _ _ _ _ _ _ _ Hh Hs E1).
      - destruct (run f e k q s) as [s1 t1|s1 t1| |] eqn:E1; try discriminate. injection H as <- <-. exact (IH _ _ _ _ _ _ _ Hh Hs E1).
      - destruct (run f e k q s) as [s1 t1|s1 t1| |] eqn:E1; try discriminate. injection H as <- <-. exact (IH _ _ _ _ _ _ _ Hh Hs E1).
      - exact (IH _ _ _ _ _ _ _ Hh Hs H).
      - destruct (run f e k q s) as [s1 t1|s1 t1| |] eqn:E1; try discriminate. injection H as <- <-. exact (IH _ _ _ _ _ _ _ Hh Hs E1).
      - destruct d as [|d']; [discriminate|]. exact (IH _ _ _ _ _ _ _ Hh Hs H).
    Qed.

    (** *** the last character satisfies p; not [strict]: or nothing is matched *)
    Fixpoint tail (d : nat) : bool -> pexp R -> bool :=
      fix go (strict : bool) (e : pexp R) : bool :=
        if mute dm e then true else
        match e with
        | EStr l => match l with [] => negb strict | _ => p (last l 0%N) end
        | ERange a b => forallb p (range a b)
        | EClass k => pc k
        | EEoi | ESoi | ENot _ => negb strict
        | EThen a b => if go true b then true else if go strict a then go false b else false
        | EElse a b => if clean dm a then if go strict a then go strict b else false else false
        | EOpt a | ERep a => if strict then false else if clean dm a then go false a else false
        | ESeq a | ERestore a | ERule _ a | EAtomic _ a | EPush a => go strict a
        | ECall r => match d with O => false | S d' => tail d' strict (g r) end
        | _ => false
        end.
    Lemma tail_eq : forall d strict e, tail d strict e =
      if mute dm e then true else
      match e with
      | EStr l => match l with [] => negb strict | _ => p (last l 0%N) end
      | ERange a b => forallb p (range a b)
      | EClass k => pc k
      | EEoi | ESoi | ENot _ => negb strict
      | EThen a b => if tail d true b then true else if tail d strict a then tail d false b else false
      | EElse a b => if clean dm a then if tail d strict a then tail d strict b else false else false
      | EOpt a | ERep a => if strict then false else if clean dm a then tail d false a else false
      | ESeq a | ERestore a | ERule _ a | EAtomic _ a | EPush a => tail d strict a
      | ECall r => match d with O => false | S d' => tail d' strict (g r) end
      | _ => false
      end.
    Proof. intros [|d] strict []; reflexivity. Qed.
    Definition ending (strict : bool) (s s' : pstate) : Prop :=
      (strict = false /\ rest s' = rest s) \/ exists w c, rest s = w ++ c :: rest s' /\ p c = true.
    Lemma ending_after : forall strict w s s1 s', rest s = w ++ rest s1 -> ending true s1 s' -> ending strict s s'.
    Proof. intros strict w s s1 s' E [[H _]|(v & c & F & Hc)]; [discriminate|]. right. exists (w ++ v), c. rewrite E, F, <- app_assoc. auto. Qed.
    Lemma ending_trans : forall strict s s1 s', ending strict s s1 -> ending false s1 s' -> ending strict s s'.
    Proof.
      intros strict s s1 s' H1 [[_ H2]|(v & c & F & Hc)].
      - destruct H1 as [[-> H1]|(w & c & F & Hc)]; [left; split; [reflexivity|congruence]|right; exists w, c; rewrite H2; auto].
      - right. destruct H1 as [[-> H1]|(w & c1 & E & _)]; [exists v, c; rewrite <- H1; auto|].
        exists (w ++ c1 :: v), c. rewrite E, F, <- app_assoc. auto.
    Qed.
    Lemma tail_sound : forall f d strict e k q s s' t, tail d strict e = true -> Safe (rest s) -> run f e k q s = POk s' t -> ending strict s s'.
    Proof.
      induction f as [|f IH]; intros d strict e k q s s' t Hh Hs H; [discriminate|]. rewrite tail_eq in Hh.
      destruct (mute dm e) eqn:M; [exfalso; exact (mute_sound _ _ _ _ _ _ _ _ M Hs H)|]. clear M.
      destruct e; try discriminate Hh; cbn [Peg.run] in H.
      - apply take_inv in H. destruct H as (_ & k0 & E & F). apply strip_prefix_app in E. destruct s0 as [|c l].
        + left. apply negb_true_iff in Hh. split; [exact Hh|]. rewrite F, E. reflexivity.
        + right. exists (removelast (c :: l)), (last (c :: l) 0%N). split; [|exact Hh]. rewrite E, F.
          rewrite (app_removelast_last 0%N (l := c :: l)) at 1 by discriminate. rewrite <- app_assoc. reflexivity.
      - apply take_char_inv in H. destruct H as (_ & c & E & F). right. exists [], c. split; [exact F|].
        apply andb_prop in E. destruct E as [B1 B2]. apply N.leb_le in B1. apply N.leb_le in B2.
        rewrite forallb_forall in Hh. exact (Hh c (range_in _ _ _ B1 B2)).
      - apply take_char_inv in H. destruct H as (_ & c & E & F). right. exists [], c. split; [exact F|]. exact (pc_sound _ _ Hh E).
      - left. apply negb_true_iff in Hh. split; [exact Hh|]. destruct (rest s) eqn:E; [|discriminate]. injection H as <- <-. exact E.
      - left. apply negb_true_iff in Hh. split; [exact Hh|]. destruct (pos s); [|discriminate]. injection H as <- <-. reflexivity.
      - destruct (run f e1 k q s) as [s1 t1|s1 t1| |] eqn:E1; try discriminate.
        destruct (run f e2 k q s1) as [s2 t2|s2 t2| |] eqn:E2; try discriminate. injection H as <- <-.
        pose proof (safe_next _ _ _ _ _ _ _ Hs E1) as Hs1. destruct (tail d true e2) eqn:H2.
        + destruct (ok_ends _ _ _ _ _ _ _ E1) as [v Ev]. eapply ending_after; [exact Ev|]. exact (IH _ _ _ _ _ _ _ _ H2 Hs1 E2).
        + destruct (tail d strict e1) eqn:H1; [|discriminate]. eapply ending_trans; [exact (IH _ _ _ _ _ _ _ _ H1 Hs E1)|exact (IH _ _ _ _ _ _ _ _ Hh Hs1 E2)].
      - destruct (clean dm e1) eqn:C; [|discriminate]. destruct (tail d strict e1) eqn:H1; [|discriminate].
        destruct (run f e1 k q s) as [s1 t1|s1 t1| |] eqn:E1; try discriminate.
        + injection H as <- <-. exact (IH _ _ _ _ _ _ _ _ H1 Hs E1).
        + destruct (run f e2 k q s1) as [s2 t2|s2 t2| |] eqn:E2; try discriminate. injection H as <- <-.
          destruct (clean_sound _ _ _ _ _ _ _ _ C E1) as [_ Er]. unfold ending. rewrite <- Er in Hs |- *. exact (IH _ _ _ _ _ _ _ _ Hh Hs E2).
      - destruct (run f e k q s) as [s1 t1|s1 t1| |] eqn:E1; try discriminate. injection H as <- <-. exact (IH _ _ _ _ _ _ _ _ Hh Hs E1).
      - destruct strict; [discriminate|]. destruct (clean dm e) eqn:C; [|discriminate].
        destruct (run f e k q s) as [s1 t1|s1 t1| |] eqn:E1; try discriminate; injection H as <- <-.
        + exact (IH _ _ _ _ _ _ _ _ Hh Hs E1).
        + destruct (clean_sound _ _ _ _ _ _ _ _ C E1) as [_ Er]. left. auto.
      - destruct strict; [discriminate|]. destruct (clean dm e) eqn:C; [|discriminate].
        destruct (run f e k q s) as [s1 t1|s1 t1| |] eqn:E1; try discriminate.
        + destruct (run f (ERep e) k q s1) as [s2 t2|s2 t2| |] eqn:E2; try discriminate. injection H as <- <-.
          eapply ending_trans; [exact (IH _ _ _ _ _ _ _ _ Hh Hs E1)|].
          apply (IH d false (ERep e) k q s1 s2 t2); [|exact (safe_next _ _ _ _ _ _ _ Hs E1)|exact E2].
          rewrite tail_eq, C, Hh. destruct (mute dm (ERep e)); reflexivity.
        + injection H as <- <-. destruct (clean_sound _ _ _ _ _ _ _ _ C E1) as [_ Er]. left. auto.
      - destruct (run f e k q s) as [s1 t1|s1 t1| |] eqn:E1; try discriminate. injection H as <- <-. exact (IH _ _ _ _ _ _ _ _ Hh Hs E1).
      - left. apply negb_true_iff in Hh. split; [exact Hh|]. destruct (run f e k true s) as [s1 t1|s1 t1| |]; try discriminate. injection H as <- <-. reflexivity.
      - destruct (run f e k q s) as [s1 t1|s1 t1| |] eqn:E1; try discriminate. injection H as <- <-. exact (IH _ _ _ _ _ _ _ _ Hh Hs E1).
      - exact (IH _ _ _ _ _ _ _ _ Hh Hs H).
      - destruct (run f e k q s) as [s1 t1|s1 t1| |] eqn:E1; try discriminate. injection H as <- <-. exact (IH _ _ _ _ _ _ _ _ Hh Hs E1).
      - destruct d as [|d']; [discriminate|]. exact (IH _ _ _ _ _ _ _ _ Hh Hs H).
    Qed.
  End Chars.

  (** *** the next character is not of the class; not [strict]: if it was not before *)
  Section Stop.
    Variable kl : uclass.
    Variable same : uclass -> bool.
    Hypothesis same_sound : forall k, same k = true -> k = kl.
    Definition stopped (s : pstate) : Prop := match rest s with c :: _ => in_class U kl c = false | [] => True end.
    (** fails only where the next character is not of the class *)
    Fixpoint refuses (d : nat) (e : pexp R) : bool :=
      match e with
      | EClass k => same k
      | ECall r => match d with O => false | S d' => refuses d' (g r) end
      | _ => false
      end.
    Lemma refuses_sound : forall f d e k q s s' t, refuses d e = true -> run f e k q s = PErr s' t -> stopped s' /\ rest s' = rest s.
    Proof.
      induction f as [|f IH]; intros d e k q s s' t Hr H; [discriminate|]. destruct e; cbn [Peg.run] in H; destruct d as [|d']; cbn [refuses] in Hr; try discriminate Hr.
      - apply same_sound in Hr. subst k0. unfold take_char in H. unfold stopped. destruct (rest s) as [|c l] eqn:E.
        + injection H as <- <-. rewrite E. auto.
        + destruct (in_class U kl c) eqn:B; [discriminate|]. injection H as <- <-. rewrite E. auto.
      - apply same_sound in Hr. subst k0. unfold take_char in H. unfold stopped. destruct (rest s) as [|c l] eqn:E.
        + injection H as <- <-. rewrite E. auto.
        + destruct (in_class U kl c) eqn:B; [discriminate|]. injection H as <- <-. rewrite E. auto.
      - exact (IH _ _ _ _ _ _ _ Hr H).
    Qed.
    Lemma rep_refuses : forall f d e k q s s' t, refuses d e = true -> run f (ERep e) k q s = POk s' t -> stopped s'.
    Proof.
      induction f as [|f IH]; intros d e k q s s' t Hr H; [discriminate|]. cbn [Peg.run] in H.
      destruct (run f e k q s) as [s1 t1|s1 t1| |] eqn:E1; try discriminate.
      - destruct (run f (ERep e) k q s1) as [s2 t2|s2 t2| |] eqn:E2; try discriminate. injection H as <- <-. exact (IH _ _ _ _ _ _ _ Hr E2).
      - injection H as <- <-. exact (proj1 (refuses_sound _ _ _ _ _ _ _ _ Hr E1)).
    Qed.
    Fixpoint stops (d : nat) : bool -> pexp R -> bool :=
      fix go (strict : bool) (e : pexp R) : bool :=
        match e with
        | EThen a b => if go true b then true else if go strict a then go false b else false
        | EElse a b => if clean dm a then if go strict a then go strict b else false else false
        | ERep a => if refuses dm a then true else if strict then false else if clean dm a then go false a else false
        | ESeq a | ERestore a | ERule _ a | EAtomic _ a | EPush a => go strict a
        | ECall r => match d with O => false | S d' => stops d' strict (g r) end
        | _ => false
        end.
    Lemma stops_eq : forall d strict e, stops d strict e =
      match e with
      | EThen a b => if stops d true b then true else if stops d strict a then stops d false b else false
      | EElse a b => if clean dm a then if stops d strict a then stops d strict b else false else false
      | ERep a => if refuses dm a then true else if strict then false else if clean dm a then stops d false a else false
      | ESeq a | ERestore a | ERule _ a | EAtomic _ a | EPush a => stops d strict a
      | ECall r => match d with O => false | S d' => stops d' strict (g r) end
      | _ => false
      end.
    Proof. intros [|d] strict []; reflexivity. Qed.
    Lemma stopped_rest : forall s s', rest s' = rest s -> stopped s -> stopped s'.
    Proof. intros s s' E H. unfold stopped. rewrite E. exact H. Qed.
    Lemma stops_sound : forall f d strict e k q s s' t, stops d strict e = true -> (strict = false -> stopped s) -> run f e k q s = POk s' t -> stopped s'.
    Proof.
      induction f as [|f IH]; intros d strict e k q s s' t Hh Hs H; [discriminate|]. rewrite stops_eq in Hh.
      destruct e; try discriminate Hh.
      - cbn [Peg.run] in H. destruct (run f e1 k q s) as [s1 t1|s1 t1| |] eqn:E1; try discriminate.
        destruct (run f e2 k q s1) as [s2 t2|s2 t2| |] eqn:E2; try discriminate. injection H as <- <-.
        destruct (stops d true e2) eqn:H2; [apply (IH _ _ _ _ _ _ _ _ H2) in E2; [exact E2|discriminate]|].
        destruct (stops d strict e1) eqn:H1; [|discriminate]. apply (IH _ _ _ _ _ _ _ _ Hh) in E2; [exact E2|]. intros _.
        exact (IH _ _ _ _ _ _ _ _ H1 Hs E1).
      - cbn [Peg.run] in H. destruct (clean dm e1) eqn:C; [|discriminate]. destruct (stops d strict e1) eqn:H1; [|discriminate].
        destruct (run f e1 k q s) as [s1 t1|s1 t1| |] eqn:E1; try discriminate.
        + injection H as <- <-. exact (IH _ _ _ _ _ _ _ _ H1 Hs E1).
        + destruct (run f e2 k q s1) as [s2 t2|s2 t2| |] eqn:E2; try discriminate. injection H as <- <-.
          destruct (clean_sound _ _ _ _ _ _ _ _ C E1) as [_ Er]. apply (IH _ _ _ _ _ _ _ _ Hh) in E2; [exact E2|].
          intro X. apply (stopped_rest s); auto.
      - cbn [Peg.run] in H. destruct (run f e k q s) as [s1 t1|s1 t1| |] eqn:E1; try discriminate. injection H as <- <-. exact (IH _ _ _ _ _ _ _ _ Hh Hs E1).
      - destruct (refuses dm e) eqn:B; [exact (rep_refuses _ _ _ _ _ _ _ _ B H)|]. destruct strict; [discriminate|].
        destruct (clean dm e) eqn:C; [|discriminate]. cbn [Peg.run] in H.
        destruct (run f e k q s) as [s1 t1|s1 t1| |] eqn:E1; try discriminate.
        + destruct (run f (ERep e) k q s1) as [s2 t2|s2 t2| |] eqn:E2; try discriminate. injection H as <- <-.
          apply (IH d false (ERep e) k q s1 s2 t2); [|intros _; exact (IH _ _ _ _ _ _ _ _ Hh Hs E1)|exact E2].
          rewrite stops_eq, B, C. exact Hh.
        + injection H as <- <-. destruct (clean_sound _ _ _ _ _ _ _ _ C E1) as [_ Er]. apply (stopped_rest s); auto.
      - cbn [Peg.run] in H. destruct (run f e k q s) as [s1 t1|s1 t1| |] eqn:E1; try discriminate. injection H as <- <-. exact (IH _ _ _ _ _ _ _ _ Hh Hs E1).
      - cbn [Peg.run] in H. destruct (run f e k q s) as [s1 t1|s1 t1| |] eqn:E1; try discriminate. injection H as <- <-. exact (IH _ _ _ _ _ _ _ _ Hh Hs E1).
      - exact (IH _ _ _ _ _ _ _ _ Hh Hs H).
      - cbn [Peg.run] in H. destruct (run f e k q s) as [s1 t1|s1 t1| |] eqn:E1; try discriminate. injection H as <- <-. exact (IH _ _ _ _ _ _ _ _ Hh Hs E1).
      - destruct d as [|d']; [discriminate|]. exact (IH _ _ _ _ _ _ _ _ Hh Hs H).
    Qed.
  End Stop.

  (** *** the least length of the matched text *)
  Fixpoint least (d : nat) : pexp R -> nat :=
    fix go (e : pexp R) : nat :=
      match e with
      | EStr l | EInsens l => length l
      | ERange _ _ | EClass _ | EAny => 1
      | EThen a b => go a + go b
      | EElse a b => Nat.min (go a) (go b)
      | ESeq a | ERestore a | ERule _ a | EAtomic _ a | EPush a => go a
      | ECall r => match d with O => 0 | S d' => least d' (g r) end
      | _ => 0
      end.
  Lemma least_eq : forall d e, least d e =
    match e with
    | EStr l | EInsens l => length l
    | ERange _ _ | EClass _ | EAny => 1
    | EThen a b => least d a + least d b
    | EElse a b => Nat.min (least d a) (least d b)
    | ESeq a | ERestore a | ERule _ a | EAtomic _ a | EPush a => least d a
    | ECall r => match d with O => 0 | S d' => least d' (g r) end
    | _ => 0
    end.
  Proof. intros [|d] []; reflexivity. Qed.
  Lemma least_sound : forall f d e k q s s' t, run f e k q s = POk s' t -> least d e + length (rest s') <= length (rest s).
  Proof.
    induction f as [|f IH]; intros d e k q s s' t H; [discriminate|]. pose proof (ok_ends (S f) e k q s s' t H) as (w0 & W).
    assert (L0 : length (rest s') <= length (rest s)) by (rewrite W, app_length; lia).
    rewrite least_eq. cbn [Peg.run] in H. destruct e; try exact L0.
    - apply take_inv in H. destruct H as (_ & k0 & E & F). apply strip_prefix_app in E. rewrite E, F, app_length. lia.
    - apply take_inv in H. destruct H as (_ & k0 & E & F). apply strip_insensitive_app in E. destruct E as (p' & E & L). rewrite E, F, app_length, L. lia.
    - apply take_char_inv in H. destruct H as (_ & c & _ & E). rewrite E. cbn. lia.
    - apply take_char_inv in H. destruct H as (_ & c & _ & E). rewrite E. cbn. lia.
    - apply take_char_inv in H. destruct H as (_ & c & _ & E). rewrite E. cbn. lia.
    - destruct (run f e1 k q s) as [s1 t1|s1 t1| |] eqn:E1; try discriminate.
      destruct (run f e2 k q s1) as [s2 t2|s2 t2| |] eqn:E2; try discriminate. injection H as <- <-.
      apply (IH d) in E1. apply (IH d) in E2. lia.
    - destruct (run f e1 k q s) as [s1 t1|s1 t1| |] eqn:E1; try discriminate.
      + injection H as <- <-. apply (IH d) in E1. lia.
      + destruct (run f e2 k q s1) as [s2 t2|s2 t2| |] eqn:E2; try discriminate. injection H as <- <-.
        destruct (err_ends _ _ _ _ _ _ _ E1) as [v Ev]. apply (IH d) in E2. rewrite Ev, app_length. lia.
    - destruct (run f e k q s) as [s1 t1|s1 t1| |] eqn:E1; try discriminate. injection H as <- <-. exact (IH _ _ _ _ _ _ _ E1).
    - destruct (run f e k q s) as [s1 t1|s1 t1| |] eqn:E1; try discriminate. injection H as <- <-. exact (IH _ _ _ _ _ _ _ E1).
    - destruct (run f e k q s) as [s1 t1|s1 t1| |] eqn:E1; try discriminate. injection H as <- <-. exact (IH _ _ _ _ _ _ _ E1).
    - exact (IH _ _ _ _ _ _ _ H).
    - destruct (run f e k q s) as [s1 t1|s1 t1| |] eqn:E1; try discriminate. injection H as <- <-. exact (IH _ _ _ _ _ _ _ E1).
    - destruct d as [|d']; [exact L0|]. exact (IH _ _ _ _ _ _ _ H).
  Qed.

  (** *** finitely many matched texts *)
  Fixpoint words (d : nat) : pexp R -> option (list str) :=
    fix go (e : pexp R) : option (list str) :=
      if mute dm e then Some [] else
      match e with
      | EStr l => Some [l]
      | EElse a b => if clean dm a then match go a, go b with Some x, Some y => Some (x ++ y) | _, _ => None end else None
      | ESeq a | ERestore a | ERule _ a | EAtomic _ a | EPush a => go a
      | ECall r => match d with O => None | S d' => words d' (g r) end
      | _ => None
      end.
  Lemma words_eq : forall d e, words d e =
    if mute dm e then Some [] else
    match e with
    | EStr l => Some [l]
    | EElse a b => if clean dm a then match words d a, words d b with Some x, Some y => Some (x ++ y) | _, _ => None end else None
    | ESeq a | ERestore a | ERule _ a | EAtomic _ a | EPush a => words d a
    | ECall r => match d with O => None | S d' => words d' (g r) end
    | _ => None
    end.
  Proof. intros [|d] []; reflexivity. Qed.
  Lemma words_sound : forall f d e k q s s' t l, words d e = Some l -> Safe (rest s) -> run f e k q s = POk s' t ->
    exists w, rest s = w ++ rest s' /\ In w l.
  Proof.
    induction f as [|f IH]; intros d e k q s s' t l Hw Hs H; [discriminate|]. rewrite words_eq in Hw.
    destruct (mute dm e) eqn:M; [exfalso; exact (mute_sound _ _ _ _ _ _ _ _ M Hs H)|]. clear M. cbn [Peg.run] in H.
    destruct e; try discriminate Hw.
    - apply take_inv in H. destruct H as (_ & k0 & E & F). apply strip_prefix_app in E. injection Hw as <-. exists s0. rewrite F. cbn. auto.
    - destruct (clean dm e1) eqn:C; [|discriminate]. destruct (words d e1) as [l1|] eqn:W1; [|discriminate].
      destruct (words d e2) as [l2|] eqn:W2; [|discriminate]. injection Hw as <-.
      destruct (run f e1 k q s) as [s1 t1|s1 t1| |] eqn:E1; try discriminate.
      + injection H as <- <-. destruct (IH _ _ _ _ _ _ _ _ W1 Hs E1) as (w & Ew & Hw). exists w. split; [exact Ew|]. apply in_app_iff. auto.
      + destruct (run f e2 k q s1) as [s2 t2|s2 t2| |] eqn:E2; try discriminate. injection H as <- <-.
        destruct (clean_sound _ _ _ _ _ _ _ _ C E1) as [_ Er]. rewrite <- Er in Hs.
        destruct (IH _ _ _ _ _ _ _ _ W2 Hs E2) as (w & Ew & Hw). exists w. rewrite <- Er. split; [exact Ew|]. apply in_app_iff. auto.
    - destruct (run f e k q s) as [s1 t1|s1 t1| |] eqn:E1; try discriminate. injection H as <- <-. exact (IH _ _ _ _ _ _ _ _ Hw Hs E1).
    - destruct (run f e k q s) as [s1 t1|s1 t1| |] eqn:E1; try discriminate. injection H as <- <-. exact (IH _ _ _ _ _ _ _ _ Hw Hs E1).
    - destruct (run f e k q s) as [s1 t1|s1 t1| |] eqn:E1; try discriminate. injection H as <- <-. exact (IH _ _ _ _ _ _ _ _ Hw Hs E1).
    - exact (IH _ _ _ _ _ _ _ _ Hw Hs H).
    - destruct (run f e k q s) as [s1 t1|s1 t1| |] eqn:E1; try discriminate. injection H as <- <-. exact (IH _ _ _ _ _ _ _ _ Hw Hs E1).
    - destruct d as [|d']; [discriminate|]. exact (IH _ _ _ _ _ _ _ _ Hw Hs H).
  Qed.

  (** *** a condition on the text and the inner pairs of every pair *)
  Variable P : R -> str -> list (tree R) -> Prop.
  Inductive fine : tree R -> Prop :=
  | fine_node : forall r a b x l, P r x l -> Forall fine l -> fine (Node r a b x l).

  Fixpoint sound_rules (e : pexp R) : Prop :=
    match e with
    | EThen a b | EElse a b => sound_rules a /\ sound_rules b
    | ESeq a | EOpt a | ERep a | ERestore a | EAtomic _ a | EPush a => sound_rules a
    | ERule r a => sound_rules a /\
        (forall f k s s' ts x, k <> Atomic -> Safe (rest s) -> run f a k false s = POk s' ts -> rest s = x ++ rest s' -> P r x ts)
    | _ => True
    end.
  Hypothesis Hg : forall r, sound_rules (g r).
  Hypothesis Hsk : sound_rules sk.

  Definition fine_res (r : pres R) : Prop := match r with POk _ ts | PErr _ ts => Forall fine ts | _ => True end.
  Lemma fine_prepend : forall t r, Forall fine t -> fine_res r -> fine_res (prepend t r).
  Proof. intros t [s u|s u| |] H1 H2; cbn in *; auto; apply Forall_app; auto. Qed.
  Theorem run_fine : forall f e k s, sound_rules e -> Safe (rest s) -> fine_res (run f e k false s).
  Proof.
    induction f as [|f IH]; intros e k s He Hs; [exact I|]. cbn [Peg.run].
    assert (TK : forall s0 o, fine_res (take (R := R) s0 o)) by (intros s0 [x|]; constructor).
    assert (TC : forall p, fine_res (take_char (R := R) p s)).
    { intro p. unfold take_char. destruct (rest s) as [|c k0]; [constructor|]. destruct (p c); constructor. }
    destruct e; try apply TC; try apply TK; cbn [sound_rules] in He.
    - destruct (rest s); constructor.
    - destruct (pos s); constructor.
    - pose proof (IH e1 k s (proj1 He) Hs) as H1. destruct (run f e1 k false s) as [s1 t1|s1 t1| |] eqn:E1; try exact H1.
      apply fine_prepend; [exact H1|]. apply IH; [apply He|exact (safe_next _ _ _ _ _ _ _ Hs E1)].
    - pose proof (IH e1 k s (proj1 He) Hs) as H1. destruct (run f e1 k false s) as [s1 t1|s1 t1| |] eqn:E1; try exact H1.
      apply fine_prepend; [exact H1|]. apply IH; [apply He|exact (safe_next_err _ _ _ _ _ _ _ Hs E1)].
    - pose proof (IH e k s He Hs) as H1. destruct (run f e k false s) as [s1 t1|s1 t1| |] eqn:E1; try exact H1. constructor.
    - pose proof (IH e k s He Hs) as H1. destruct (run f e k false s) as [s1 t1|s1 t1| |] eqn:E1; exact H1.
    - pose proof (IH e k s He Hs) as H1. destruct (run f e k false s) as [s1 t1|s1 t1| |] eqn:E1; try exact H1.
      apply fine_prepend; [exact H1|]. apply (IH (ERep e)); [exact He|exact (safe_next _ _ _ _ _ _ _ Hs E1)].
    - pose proof (IH e k s He Hs) as H1. destruct (run f e k false s) as [s1 t1|s1 t1| |] eqn:E1; exact H1.
    - destruct (run f e k true s) as [s1 t1|s1 t1| |]; constructor.
    - destruct He as [He HP]. pose proof (IH e k s He Hs) as H1. destruct (run f e k false s) as [s1 t1|s1 t1| |] eqn:E1; try exact H1.
      + cbn [fine_res]. destruct (emits k false) eqn:B; [|exact H1]. constructor; [|constructor]. constructor; [|exact H1].
        destruct (ok_ends _ _ _ _ _ _ _ E1) as [w Ew].
        assert (Ec : consumed (rest s) (rest s1) = w) by (rewrite Ew; apply consumed_app).
        rewrite Ec. apply (HP f k s s1 t1 w); [|exact Hs|exact E1|exact Ew]. intro; subst k; discriminate.
      + cbn [fine_res]. destruct (emits k false); [constructor|exact H1].
    - apply IH; assumption.
    - pose proof (IH e k s He Hs) as H1. destruct (run f e k false s) as [s1 t1|s1 t1| |] eqn:E1; exact H1.
    - destruct (stk s); [exact I|apply TK].
    - destruct (stk s); [exact I|apply TK].
    - apply IH; auto.
    - destruct k; try constructor. apply IH; auto.
  Qed.
End Shape.
