(** Reasoning about runs of the interpreter: evaluation without fuel, and
    evaluation on a known prefix of the input. *)
From Verif Require Import Base Peg SpecPeg ProofPeg ProofPegShift.
Local Open Scope nat_scope.

Section Ev.
  Context {R : Type}.
  Variable U : unicode.
  Variable g : R -> pexp R.
  Variable sk : pexp R.
  Notation run := (run U g sk).
  Notation pres := (pres R).

  Definition ev (e : pexp R) (k : atomicity) (q : bool) (s : pstate) (r : pres) : Prop :=
    r <> PFuel /\ exists f, run f e k q s = r.

  Lemma ev_run : forall e k q s r f, ev e k q s r -> run f e k q s <> PFuel -> run f e k q s = r.
  Proof.
    intros e k q s r f [Hr [f' H]] Hf.
    destruct (Nat.le_ge_cases f f') as [L|L].
    - rewrite <- H. symmetry. eapply run_mono; [reflexivity|exact Hf|exact L].
    - eapply run_mono; eassumption.
  Qed.

  Lemma ev_det : forall e k q s r r', ev e k q s r -> ev e k q s r' -> r = r'.
  Proof.
    intros e k q s r r' H [Hr' [f' H']]. subst r'. symmetry. apply ev_run; assumption.
  Qed.

  Lemma ev_base : forall e k q s r f, run f e k q s = r -> r <> PFuel -> ev e k q s r.
  Proof. intros. split; [assumption|]. exists f. assumption. Qed.

  Lemma prepend_fuel : forall t (r : pres), prepend t r <> PFuel <-> r <> PFuel.
  Proof. intros t [s u|s u| |]; cbn; split; congruence. Qed.

  Lemma ev_then : forall a b k q s s1 t1 r,
    ev a k q s (POk s1 t1) -> ev b k q s1 r -> ev (EThen a b) k q s (prepend t1 r).
  Proof.
    intros a b k q s s1 t1 r [_ [f1 H1]] [Hr [f2 H2]]. split; [apply prepend_fuel; exact Hr|].
    exists (S (Nat.max f1 f2)). cbn [Peg.run].
    rewrite (run_mono U g sk f1 (Nat.max f1 f2) _ _ _ _ _ H1) by (try discriminate; lia).
    rewrite (run_mono U g sk f2 (Nat.max f1 f2) _ _ _ _ _ H2) by (try assumption; lia). reflexivity.
  Qed.
  Lemma ev_then_err : forall a b k q s s1 t1,
    ev a k q s (PErr s1 t1) -> ev (EThen a b) k q s (PErr s1 t1).
  Proof.
    intros a b k q s s1 t1 [_ [f1 H1]]. split; [discriminate|]. exists (S f1). cbn [Peg.run]. rewrite H1. reflexivity.
  Qed.
  Lemma ev_else_ok : forall a b k q s s1 t1, ev a k q s (POk s1 t1) -> ev (EElse a b) k q s (POk s1 t1).
  Proof.
    intros a b k q s s1 t1 [_ [f1 H1]]. split; [discriminate|]. exists (S f1). cbn [Peg.run]. rewrite H1. reflexivity.
  Qed.
  Lemma ev_else : forall a b k q s s1 t1 r,
    ev a k q s (PErr s1 t1) -> ev b k q s1 r -> ev (EElse a b) k q s (prepend t1 r).
  Proof.
    intros a b k q s s1 t1 r [_ [f1 H1]] [Hr [f2 H2]]. split; [apply prepend_fuel; exact Hr|].
    exists (S (Nat.max f1 f2)). cbn [Peg.run].
    rewrite (run_mono U g sk f1 (Nat.max f1 f2) _ _ _ _ _ H1) by (try discriminate; lia).
    rewrite (run_mono U g sk f2 (Nat.max f1 f2) _ _ _ _ _ H2) by (try assumption; lia). reflexivity.
  Qed.
  Lemma ev_rep_stop : forall a k q s s1 t1, ev a k q s (PErr s1 t1) -> ev (ERep a) k q s (POk s1 t1).
  Proof.
    intros a k q s s1 t1 [_ [f1 H1]]. split; [discriminate|]. exists (S f1). cbn [Peg.run]. rewrite H1. reflexivity.
  Qed.
  Lemma ev_rep_step : forall a k q s s1 t1 r,
    ev a k q s (POk s1 t1) -> ev (ERep a) k q s1 r -> ev (ERep a) k q s (prepend t1 r).
  Proof.
    intros a k q s s1 t1 r [_ [f1 H1]] [Hr [f2 H2]]. split; [apply prepend_fuel; exact Hr|].
    exists (S (Nat.max f1 f2)). cbn [Peg.run].
    rewrite (run_mono U g sk f1 (Nat.max f1 f2) _ _ _ _ _ H1) by (try discriminate; lia).
    rewrite (run_mono U g sk f2 (Nat.max f1 f2) _ _ _ _ _ H2) by (try assumption; lia). reflexivity.
  Qed.

  (** one-argument combinators: how they transform the result of the argument *)
  Definition seq_res (s : pstate) (r : pres) : pres :=
    match r with PErr s1 _ => PErr (mkPs (pos s) (rest s) (stk s1)) [] | r => r end.
  Definition opt_res (r : pres) : pres := match r with PErr s1 t1 => POk s1 t1 | r => r end.
  Definition restore_res (s : pstate) (r : pres) : pres :=
    match r with PErr s1 t1 => PErr (mkPs (pos s1) (rest s1) (stk s)) t1 | r => r end.
  Definition not_res (s : pstate) (r : pres) : pres :=
    match r with POk _ _ => PErr s [] | PErr _ _ => POk s [] | r => r end.
  Definition rule_res (x : R) (k : atomicity) (q : bool) (s : pstate) (r : pres) : pres :=
    match r with
    | POk s1 t1 => POk s1 (if emits k q then [Node x (pos s) (pos s1) (consumed (rest s) (rest s1)) t1] else t1)
    | PErr s1 t1 => PErr s1 (if emits k q then [] else t1)
    | r => r
    end.
  Definition push_res (s : pstate) (r : pres) : pres :=
    match r with
    | POk s1 t1 => POk (mkPs (pos s1) (rest s1) (consumed (rest s) (rest s1) :: stk s1)) t1
    | r => r
    end.


  Lemma ev_seq : forall a k q s r, ev a k q s r -> ev (ESeq a) k q s (seq_res s r).
  Proof.
    intros a k q s r [Hr [f1 H1]]. split; [destruct r; cbn; congruence|].
    exists (S f1). cbn [Peg.run]. rewrite H1. destruct r; reflexivity.
  Qed.
  Lemma ev_opt : forall a k q s r, ev a k q s r -> ev (EOpt a) k q s (opt_res r).
  Proof.
    intros a k q s r [Hr [f1 H1]]. split; [destruct r; cbn; congruence|].
    exists (S f1). cbn [Peg.run]. rewrite H1. destruct r; reflexivity.
  Qed.
  Lemma ev_restore : forall a k q s r, ev a k q s r -> ev (ERestore a) k q s (restore_res s r).
  Proof.
    intros a k q s r [Hr [f1 H1]]. split; [destruct r; cbn; congruence|].
    exists (S f1). cbn [Peg.run]. rewrite H1. destruct r; reflexivity.
  Qed.
  Lemma ev_not : forall a k q s r, ev a k true s r -> ev (ENot a) k q s (not_res s r).
  Proof.
    intros a k q s r [Hr [f1 H1]]. split; [destruct r; cbn; congruence|].
    exists (S f1). cbn [Peg.run]. rewrite H1. destruct r; reflexivity.
  Qed.
  Lemma ev_rule : forall x a k q s r, ev a k q s r -> ev (ERule x a) k q s (rule_res x k q s r).
  Proof.
    intros x a k q s r [Hr [f1 H1]]. split; [destruct r; cbn; congruence|].
    exists (S f1). cbn [Peg.run]. rewrite H1. destruct r; reflexivity.
  Qed.
  Lemma ev_push : forall a k q s r, ev a k q s r -> ev (EPush a) k q s (push_res s r).
  Proof.
    intros a k q s r [Hr [f1 H1]]. split; [destruct r; cbn; congruence|].
    exists (S f1). cbn [Peg.run]. rewrite H1. destruct r; reflexivity.
  Qed.
  Lemma ev_atomic : forall k' a k q s r, ev a k' q s r -> ev (EAtomic k' a) k q s r.
  Proof. intros k' a k q s r [Hr [f1 H1]]. split; [exact Hr|]. exists (S f1). exact H1. Qed.
  Lemma ev_call : forall x k q s r, ev (g x) k q s r -> ev (ECall x) k q s r.
  Proof. intros x k q s r [Hr [f1 H1]]. split; [exact Hr|]. exists (S f1). exact H1. Qed.
  Lemma ev_skip_atomic : forall k q s, k <> NonAtomic -> ev ESkip k q s (POk s []).
  Proof. intros k q s H. split; [discriminate|]. exists 1. destruct k; [congruence|reflexivity|reflexivity]. Qed.
  Lemma ev_skip : forall q s r, ev sk NonAtomic q s r -> ev ESkip NonAtomic q s r.
  Proof. intros q s r [Hr [f1 H1]]. split; [exact Hr|]. exists (S f1). exact H1. Qed.

  (** primitives *)
  Lemma advance_app : forall p l k st, advance (mkPs p (l ++ k) st) k = mkPs (p + length l) k st.
  Proof. intros. unfold advance. cbn. rewrite app_length. f_equal. lia. Qed.

  Lemma ev_str : forall l k q p w st, ev (EStr l) k q (mkPs p (l ++ w) st) (POk (mkPs (p + length l) w st) []).
  Proof.
    intros. split; [discriminate|]. exists 1. cbn [Peg.run rest].
    replace (strip_prefix l (l ++ w)) with (Some w) by (symmetry; apply strip_prefix_app; reflexivity).
    unfold take. rewrite advance_app. reflexivity.
  Qed.
  Lemma ev_char : forall e P k q p c w st,
    (forall f s, run (S f) e k q s = take_char P s) -> P c = true ->
    ev e k q (mkPs p (c :: w) st) (POk (mkPs (p + 1) w st) []).
  Proof.
    intros e P k q p c w st He Hc. split; [discriminate|]. exists 1. rewrite He. unfold take_char. cbn [rest].
    rewrite Hc. change (c :: w) with ([c] ++ w). rewrite advance_app. reflexivity.
  Qed.
  Lemma ev_char_err : forall e P k q p w st,
    (forall f s, run (S f) e k q s = take_char P s) ->
    (forall c w', w = c :: w' -> P c = false) ->
    ev e k q (mkPs p w st) (PErr (mkPs p w st) []).
  Proof.
    intros e P k q p w st He Hc. split; [discriminate|]. exists 1. rewrite He. unfold take_char. cbn [rest].
    destruct w; [reflexivity|]. rewrite (Hc _ _ eq_refl). reflexivity.
  Qed.
  Lemma ev_range : forall a b k q p c w st, ((a <=? c) && (c <=? b))%N = true ->
    ev (ERange a b) k q (mkPs p (c :: w) st) (POk (mkPs (p + 1) w st) []).
  Proof. intros. eapply ev_char with (P := fun c => ((a <=? c) && (c <=? b))%N); [reflexivity|assumption]. Qed.
  Lemma ev_class : forall u k q p c w st, in_class U u c = true ->
    ev (EClass u) k q (mkPs p (c :: w) st) (POk (mkPs (p + 1) w st) []).
  Proof. intros. eapply ev_char with (P := in_class U u); [reflexivity|assumption]. Qed.
  Lemma ev_any : forall k q p c w st, ev EAny k q (mkPs p (c :: w) st) (POk (mkPs (p + 1) w st) []).
  Proof. intros. eapply ev_char with (P := fun _ => true); reflexivity. Qed.
  Lemma ev_eoi : forall k q p st, ev EEoi k q (mkPs p [] st) (POk (mkPs p [] st) []).
  Proof. intros. split; [discriminate|]. exists 1. reflexivity. Qed.
  Lemma ev_eoi_err : forall k q p c w st, ev EEoi k q (mkPs p (c :: w) st) (PErr (mkPs p (c :: w) st) []).
  Proof. intros. split; [discriminate|]. exists 1. reflexivity. Qed.
  Lemma ev_soi : forall k q w st, ev ESoi k q (mkPs 0 w st) (POk (mkPs 0 w st) []).
  Proof. intros. split; [discriminate|]. exists 1. reflexivity. Qed.
  Lemma ev_peek : forall k q p t w st st', st = t :: st' ->
    ev EPeek k q (mkPs p (t ++ w) st) (POk (mkPs (p + length t) w st) []).
  Proof.
    intros k q p t w st st' ->. split; [discriminate|]. exists 1. cbn [Peg.run rest stk].
    replace (strip_prefix t (t ++ w)) with (Some w) by (symmetry; apply strip_prefix_app; reflexivity).
    unfold take. rewrite advance_app. reflexivity.
  Qed.
  Lemma ev_pop : forall k q p t w st,
    ev EPop k q (mkPs p (t ++ w) (t :: st)) (POk (mkPs (p + length t) w st) []).
  Proof.
    intros k q p t w st. split; [discriminate|]. exists 1. cbn [Peg.run rest stk pos].
    replace (strip_prefix t (t ++ w)) with (Some w) by (symmetry; apply strip_prefix_app; reflexivity).
    unfold take. rewrite advance_app. reflexivity.
  Qed.

  (** ** Evaluation on a known prefix *)

  (** what is known about the remaining input: it starts with the given text
      ([open]) or is exactly that text (not [open]) *)
  Record look := mkLook { known : str; open : bool }.
  Definition matches (l : look) (w : str) : Prop :=
    exists k, w = known l ++ k /\ (open l = false -> k = []).
  Definition starts (cls : list look) (w : str) : Prop := exists l, In l cls /\ matches l w.

  (** None: not determined by what is known *)
  Fixpoint astrip (o : bool) (p s : str) : option (option str) :=
    match p, s with
    | [], _ => Some (Some s)
    | a :: p', b :: s' => if N.eqb a b then astrip o p' s' else Some None
    | _ :: _, [] => if o then None else Some None
    end.
  Fixpoint astrip_insensitive (o : bool) (p s : str) : option (option str) :=
    match p, s with
    | [], _ => Some (Some s)
    | a :: p', b :: s' =>
        if N.eqb (ascii_lower a) (ascii_lower b) then astrip_insensitive o p' s' else Some None
    | _ :: _, [] => if o then None else Some None
    end.
  Definition atake (s : pstate) (r : option (option str)) : pres :=
    match r with Some r => take s r | None => PFuel end.
  Definition atake_char (o : bool) (p : char -> bool) (s : pstate) : pres :=
    match rest s with [] => if o then PFuel else PErr s [] | _ => take_char p s end.

  Fixpoint arun (o : bool) (fuel : nat) (e : pexp R) (k : atomicity) (quiet : bool) (s : pstate) : pres :=
    match fuel with
    | O => PFuel
    | S f =>
        match e with
        | EStr l => atake s (astrip o l (rest s))
        | EInsens l => atake s (astrip_insensitive o l (rest s))
        | ERange a b => atake_char o (fun c => (a <=? c) && (c <=? b))%N s
        | EClass c => atake_char o (in_class U c) s
        | EAny => atake_char o (fun _ => true) s
        | EEoi => match rest s with [] => if o then PFuel else POk s [] | _ :: _ => PErr s [] end
        | ESoi => PFuel
        | EThen a b =>
            match arun o f a k quiet s with
            | POk s1 t1 => prepend t1 (arun o f b k quiet s1)
            | r => r
            end
        | EElse a b =>
            match arun o f a k quiet s with
            | PErr s1 t1 => prepend t1 (arun o f b k quiet s1)
            | r => r
            end
        | ESeq a => seq_res s (arun o f a k quiet s)
        | EOpt a => opt_res (arun o f a k quiet s)
        | ERep a =>
            match arun o f a k quiet s with
            | POk s1 t1 => prepend t1 (arun o f (ERep a) k quiet s1)
            | PErr s1 t1 => POk s1 t1
            | r => r
            end
        | ERestore a => restore_res s (arun o f a k quiet s)
        | ENot a => not_res s (arun o f a k true s)
        | ERule r a => rule_res r k quiet s (arun o f a k quiet s)
        | EAtomic k' a => arun o f a k' quiet s
        | EPush a => push_res s (arun o f a k quiet s)
        | EPeek => match stk s with [] => PFuel | t :: _ => atake s (astrip o t (rest s)) end
        | EPop => match stk s with
                  | [] => PFuel
                  | t :: st => let s' := mkPs (pos s) (rest s) st in atake s' (astrip o t (rest s'))
                  end
        | ECall r => arun o f (g r) k quiet s
        | ESkip => match k with NonAtomic => arun o f sk k quiet s | _ => POk s [] end
        end
    end.

  (** the real state and result, at offset d, with tail after the known text and
      st below the known stack *)
  Section Sound.
    Variable d : nat.
    Variable tail : str.
    Variable st : list str.
    Definition real (s : pstate) : pstate := mkPs (pos s + d) (rest s ++ tail) (stk s ++ st).
    Definition real_res (r : pres) : pres :=
      match r with
      | POk s t => POk (real s) (map (shift_tree d) t)
      | PErr s t => PErr (real s) (map (shift_tree d) t)
      | r => r
      end.
    Definition suffix_res (s : pstate) (r : pres) : Prop :=
      match r with
      | POk s1 _ | PErr s1 _ => exists p, rest s = p ++ rest s1
      | PPanic => False
      | PFuel => True
      end.

    Lemma astrip_suffix : forall o p s k, astrip o p s = Some (Some k) -> s = p ++ k.
    Proof.
      induction p as [|a p IH]; intros [|b s] k H; cbn in *; try congruence.
      - destruct o; discriminate.
      - destruct (N.eqb_spec a b); [|discriminate]. subst. f_equal. auto.
    Qed.
    Lemma astrip_insensitive_suffix : forall o p s k, astrip_insensitive o p s = Some (Some k) -> exists p', s = p' ++ k.
    Proof.
      induction p as [|a p IH]; intros [|b s] k H; cbn in *; try (injection H as <-; exists []; reflexivity).
      - destruct o; discriminate.
      - destruct (N.eqb _ _); [|discriminate]. destruct (IH _ _ H) as [p' ->]. exists (b :: p'). reflexivity.
    Qed.

    Lemma suffix_trans : forall s s1 t1 r, (exists p, rest s = p ++ rest s1) -> suffix_res s1 r ->
      suffix_res s (prepend t1 r).
    Proof.
      intros s s1 t1 r [p E] H. destruct r as [s2 t2|s2 t2| |]; cbn in *; auto;
        destruct H as [p2 E2]; exists (p ++ p2); rewrite E, E2, app_assoc; reflexivity.
    Qed.
    Lemma suffix_atake : forall s r, (forall k, r = Some (Some k) -> exists p, rest s = p ++ k) ->
      suffix_res s (atake s r).
    Proof.
      intros s [[k|]|] H; cbn; auto. exists []; reflexivity.
    Qed.
    Lemma suffix_atake_char : forall o s p, suffix_res s (atake_char o p s).
    Proof.
      intros. unfold atake_char, take_char. destruct (rest s) eqn:E.
      - destruct o; cbn; auto. exists []. reflexivity.
      - destruct (p c); cbn; [exists [c]; exact E | exists []; reflexivity].
    Qed.

    Lemma arun_suffix : forall o f e k q s, suffix_res s (arun o f e k q s).
    Proof.
      intro o. induction f as [|f IH]; intros e k q s; [exact I|]. cbn [arun].
      assert (Hh : exists p : str, rest s = p ++ rest s) by (exists []; reflexivity).
      destruct e.
      - apply suffix_atake. intros k0 H. eexists. eapply astrip_suffix. exact H.
      - apply suffix_atake. intros k0 H. eapply astrip_insensitive_suffix. exact H.
      - apply suffix_atake_char.
      - apply suffix_atake_char.
      - apply suffix_atake_char.
      - destruct (rest s) eqn:E; [destruct o|]; cbn; auto; rewrite E; exists []; reflexivity.
      - exact I.
      - specialize (IH e1 k q s) as H1. destruct (arun o f e1 k q s) as [s1 t1|s1 t1| |]; auto. eapply suffix_trans; [exact H1|apply IH].
      - specialize (IH e1 k q s) as H1. destruct (arun o f e1 k q s) as [s1 t1|s1 t1| |]; auto. eapply suffix_trans; [exact H1|apply IH].
      - specialize (IH e k q s) as H1. destruct (arun o f e k q s) as [s1 t1|s1 t1| |]; auto.
      - specialize (IH e k q s) as H1. destruct (arun o f e k q s) as [s1 t1|s1 t1| |]; auto.
      - specialize (IH e k q s) as H1. destruct (arun o f e k q s) as [s1 t1|s1 t1| |]; auto. eapply suffix_trans; [exact H1|apply IH].
      - specialize (IH e k q s) as H1. destruct (arun o f e k q s) as [s1 t1|s1 t1| |]; auto.
      - specialize (IH e k true s) as H1. destruct (arun o f e k true s) as [s1 t1|s1 t1| |]; auto.
      - specialize (IH e k q s) as H1. destruct (arun o f e k q s) as [s1 t1|s1 t1| |]; auto.
      - apply IH.
      - specialize (IH e k q s) as H1. destruct (arun o f e k q s) as [s1 t1|s1 t1| |]; auto.
      - destruct (stk s); [exact I|]. apply suffix_atake. intros k0 H. eexists. eapply astrip_suffix. exact H.
      - destruct (stk s); [exact I|]. cbn zeta.
        pose proof (suffix_atake (mkPs (pos s) (rest s) l) (astrip o s0 (rest s))) as H. apply H.
        intros k0 H'. eexists. eapply astrip_suffix. exact H'.
      - apply IH.
      - destruct k; auto.
    Qed.

    Lemma consumed_tail : forall p w1 : str, consumed ((p ++ w1) ++ tail) (w1 ++ tail) = consumed (p ++ w1) w1.
    Proof. intros. rewrite <- app_assoc, !consumed_app. reflexivity. Qed.

    Lemma advance_real : forall s p k, rest s = p ++ k -> advance (real s) (k ++ tail) = real (advance s k).
    Proof.
      intros s p k E. unfold advance, real. cbn. rewrite E, !app_length. f_equal. lia.
    Qed.

    Variable o : bool.
    Hypothesis Htail : o = false -> tail = [].

    Lemma astrip_sound : forall p s r, astrip o p s = Some r ->
      strip_prefix p (s ++ tail) = match r with Some k => Some (k ++ tail) | None => None end.
    Proof.
      induction p as [|a p IH]; intros [|b s] r H; cbn in *; try (injection H as <-; reflexivity).
      - destruct o eqn:E; [discriminate|]. injection H as <-. rewrite (Htail eq_refl). reflexivity.
      - destruct (N.eqb_spec a b); [apply IH; exact H|]. injection H as <-. reflexivity.
    Qed.
    Lemma astrip_insensitive_sound : forall p s r, astrip_insensitive o p s = Some r ->
      strip_prefix_insensitive p (s ++ tail) = match r with Some k => Some (k ++ tail) | None => None end.
    Proof.
      induction p as [|a p IH]; intros [|b s] r H; cbn in *; try (injection H as <-; reflexivity).
      - destruct o eqn:E; [discriminate|]. injection H as <-. rewrite (Htail eq_refl). reflexivity.
      - destruct (N.eqb _ _); [apply IH; exact H|]. injection H as <-. reflexivity.
    Qed.

    Lemma prepend_real : forall t r, prepend (map (shift_tree d) t) (real_res r) = real_res (prepend t r).
    Proof. intros t [s u|s u| |]; cbn; rewrite ?map_app; reflexivity. Qed.

    Lemma take_real : forall s (r : option str) p, (forall k, r = Some k -> rest s = p k ++ k) ->
      take (real s) (match r with Some k => Some (k ++ tail) | None => None end) = real_res (take s r).
    Proof.
      intros s [k|] p H; cbn [take]; [|reflexivity].
      rewrite (advance_real s (p k) k); [reflexivity|]. apply H. reflexivity.
    Qed.
    Lemma atake_char_real : forall p s, atake_char o p s <> PFuel ->
      take_char p (real s) = real_res (atake_char o p s).
    Proof.
      intros p s H. unfold atake_char, take_char in *. cbn [rest real].
      destruct (rest s) as [|c w] eqn:E.
      - cbn. destruct o eqn:Eo; [congruence|]. rewrite (Htail eq_refl). reflexivity.
      - cbn. destruct (p c); [|reflexivity].
        change (advance (real s) (w ++ tail)) with (advance (real s) (w ++ tail)).
        rewrite (advance_real s [c] w E). reflexivity.
    Qed.

    Theorem arun_sound : forall f e k q s, arun o f e k q s <> PFuel ->
      run f e k q (real s) = real_res (arun o f e k q s).
    Proof.
      induction f as [|f IH]; intros e k q s Hr; [cbn in Hr; congruence|].
      cbn [arun] in *. cbn [Peg.run].
      destruct e.
      - cbn [rest real]. destruct (astrip o s0 (rest s)) as [r|] eqn:E; [|cbn in Hr; congruence].
        rewrite (astrip_sound _ _ _ E). cbn [atake]. apply take_real with (p := fun _ => s0).
        intros k0 ->. eapply astrip_suffix. exact E.
      - cbn [rest real]. destruct (astrip_insensitive o s0 (rest s)) as [r|] eqn:E; [|cbn in Hr; congruence].
        rewrite (astrip_insensitive_sound _ _ _ E). cbn [atake].
        apply take_real with (p := fun k0 => consumed (rest s) k0).
        intros k0 ->. destruct (astrip_insensitive_suffix _ _ _ _ E) as [p' ->]. rewrite consumed_app. reflexivity.
      - apply atake_char_real. exact Hr.
      - apply atake_char_real. exact Hr.
      - apply atake_char_real. exact Hr.
      - cbn [rest real]. destruct (rest s) eqn:E; [|reflexivity].
        destruct o eqn:Eo; [congruence|]. rewrite (Htail eq_refl). cbn [app real_res map]. reflexivity.
      - congruence.
      - specialize (IH e1 k q s) as H1. destruct (arun o f e1 k q s) as [s1 t1|s1 t1| |]; try congruence;
          rewrite H1 by congruence; cbn [real_res]; try reflexivity.
        rewrite IH by (apply prepend_fuel in Hr; exact Hr). apply prepend_real.
      - specialize (IH e1 k q s) as H1. destruct (arun o f e1 k q s) as [s1 t1|s1 t1| |]; try congruence;
          rewrite H1 by congruence; cbn [real_res]; try reflexivity.
        rewrite IH by (apply prepend_fuel in Hr; exact Hr). apply prepend_real.
      - specialize (IH e k q s) as H1. destruct (arun o f e k q s) as [s1 t1|s1 t1| |]; cbn in Hr; try congruence;
          rewrite H1 by congruence; reflexivity.
      - specialize (IH e k q s) as H1. destruct (arun o f e k q s) as [s1 t1|s1 t1| |]; cbn in Hr; try congruence;
          rewrite H1 by congruence; reflexivity.
      - specialize (IH e k q s) as H1. destruct (arun o f e k q s) as [s1 t1|s1 t1| |]; try congruence;
          rewrite H1 by congruence; cbn [real_res]; try reflexivity.
        rewrite IH by (apply prepend_fuel in Hr; exact Hr). apply prepend_real.
      - specialize (IH e k q s) as H1. destruct (arun o f e k q s) as [s1 t1|s1 t1| |]; cbn in Hr; try congruence;
          rewrite H1 by congruence; reflexivity.
      - specialize (IH e k true s) as H1. destruct (arun o f e k true s) as [s1 t1|s1 t1| |]; cbn in Hr; try congruence;
          rewrite H1 by congruence; reflexivity.
      - pose proof (arun_suffix o f e k q s) as HS.
        specialize (IH e k q s) as H1. destruct (arun o f e k q s) as [s1 t1|s1 t1| |]; cbn in Hr; try congruence;
          rewrite H1 by congruence; cbn [real_res rule_res real rest pos stk]; try reflexivity.
        + destruct HS as [p E]. rewrite E, consumed_tail. destruct (emits k q); reflexivity.
        + destruct (emits k q); reflexivity.
      - apply IH. exact Hr.
      - pose proof (arun_suffix o f e k q s) as HS.
        specialize (IH e k q s) as H1. destruct (arun o f e k q s) as [s1 t1|s1 t1| |]; cbn in Hr; try congruence;
          rewrite H1 by congruence; cbn [real_res push_res real rest pos stk]; try reflexivity.
        destruct HS as [p E]. rewrite E, consumed_tail. reflexivity.
      - cbn [rest real stk]. destruct (stk s) as [|t st']; [congruence|]. cbn [app].
        destruct (astrip o t (rest s)) as [r|] eqn:E; [|cbn in Hr; congruence].
        rewrite (astrip_sound _ _ _ E). cbn [atake]. apply take_real with (p := fun _ => t).
        intros k0 ->. eapply astrip_suffix. exact E.
      - cbn [rest real stk pos]. destruct (stk s) as [|t st']; [congruence|]. cbn [app]. cbn zeta in *. cbn [rest] in *.
        destruct (astrip o t (rest s)) as [r|] eqn:E; [|cbn in Hr; congruence].
        rewrite (astrip_sound _ _ _ E). cbn [atake].
        apply (take_real (mkPs (pos s) (rest s) st') r (fun _ => t)).
        intros k0 ->. eapply astrip_suffix. exact E.
      - apply IH. exact Hr.
      - destruct k; try reflexivity. apply IH. exact Hr.
    Qed.
  End Sound.

  Lemma shift_tree_0 : forall d (l : list (tree R)), l = [] -> map (shift_tree d) l = [].
  Proof. intros d l ->. reflexivity. Qed.

  (** failing, or succeeding on nothing, decided by what is known *)
  Definition fails_on (f : nat) (e : pexp R) (k : atomicity) (q : bool) (l : look) : bool :=
    match arun (open l) f e k q (mkPs 0 (known l) []) with
    | PErr s [] => Nat.eqb (pos s) 0 && match stk s with [] => true | _ => false end && Nat.eqb (length (rest s)) (length (known l))
    | _ => false
    end.
  Definition skips_on (f : nat) (e : pexp R) (k : atomicity) (q : bool) (l : look) : bool :=
    match arun (open l) f e k q (mkPs 0 (known l) []) with
    | POk s [] => Nat.eqb (pos s) 0 && match stk s with [] => true | _ => false end && Nat.eqb (length (rest s)) (length (known l))
    | _ => false
    end.

  Lemma suffix_all : forall (p a b : str), a = p ++ b -> length b = length a -> a = b.
  Proof. intros p a b -> H. rewrite app_length in H. destruct p; [reflexivity|cbn in H; lia]. Qed.

  Lemma fails_sound : forall f e k q cls p w st,
    forallb (fails_on f e k q) cls = true -> starts cls w ->
    ev e k q (mkPs p w st) (PErr (mkPs p w st) []).
  Proof.
    intros f e k q cls p w st H (l & Hin & kk & -> & Hk).
    rewrite forallb_forall in H. specialize (H l Hin). unfold fails_on in H.
    pose proof (arun_suffix (open l) f e k q (mkPs 0 (known l) [])) as HS.
    pose proof (arun_sound p kk st (open l) Hk f e k q (mkPs 0 (known l) [])) as HA.
    destruct (arun (open l) f e k q (mkPs 0 (known l) [])) as [s1 t1|s1 t1| |]; try discriminate.
    destruct t1; [|discriminate]. apply andb_true_iff in H. destruct H as [H H3].
    apply andb_true_iff in H. destruct H as [H1 H2].
    apply Nat.eqb_eq in H1, H3. destruct s1 as [p1 r1 st1]. cbn in *. destruct st1; [|discriminate].
    destruct HS as [p' E]. apply (suffix_all p') in E; [|exact H3]. subst.
    split; [discriminate|]. exists f. unfold real in HA. cbn in HA. apply HA. discriminate.
  Qed.
  Lemma skips_sound : forall f e k q cls p w st,
    forallb (skips_on f e k q) cls = true -> starts cls w ->
    ev e k q (mkPs p w st) (POk (mkPs p w st) []).
  Proof.
    intros f e k q cls p w st H (l & Hin & kk & -> & Hk).
    rewrite forallb_forall in H. specialize (H l Hin). unfold skips_on in H.
    pose proof (arun_suffix (open l) f e k q (mkPs 0 (known l) [])) as HS.
    pose proof (arun_sound p kk st (open l) Hk f e k q (mkPs 0 (known l) [])) as HA.
    destruct (arun (open l) f e k q (mkPs 0 (known l) [])) as [s1 t1|s1 t1| |]; try discriminate.
    destruct t1; [|discriminate]. apply andb_true_iff in H. destruct H as [H H3].
    apply andb_true_iff in H. destruct H as [H1 H2].
    apply Nat.eqb_eq in H1, H3. destruct s1 as [p1 r1 st1]. cbn in *. destruct st1; [|discriminate].
    destruct HS as [p' E]. apply (suffix_all p') in E; [|exact H3]. subst.
    split; [discriminate|]. exists f. unfold real in HA. cbn in HA. apply HA. discriminate.
  Qed.
End Ev.
