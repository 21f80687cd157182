(** The parser does not get past a character without a meaning. *)
From Verif Require Import Base Ast Display SmError Peg Grammar Climber Build Track SpecAst SpecPeg SpecClimb SpecParse SpecSyntax SpecText SpecPlace SpecFault.
From Verif Require Import ProofPeg ProofTrack.
Local Open Scope nat_scope.

Section Static.
  Context {R : Type}.
  Variable U : unicode.
  Variable g : R -> pexp R.
  Variable sk : pexp R.
  Notation run := (run U g sk).
  Notation trace := (trace U g sk).
  Variable dead : str -> bool.
  Variable known : char -> bool.
  Variable good : R -> bool.
  Variable level : nat.

  (** fails at once *)
  Fixpoint dies (n : nat) (e : pexp R) : bool :=
    match n with
    | O => false
    | S n =>
        match e with
        | EStr l => dead l
        | EThen a _ => dies n a
        | EElse a b => dies n a && dies n b
        | ESeq a | ERule _ a | EAtomic _ a | EPush a | ERestore a => dies n a
        | ECall r => dies n (g r)
        | _ => false
        end
    end.
  Definition alnum (a : char) : bool := ascii_letter a || ascii_digit a.
  (** does not read past an unknown character *)
  Fixpoint fine (e : pexp R) : bool :=
    match e with
    | EStr l => forallb known l || dead l
    | EInsens l => forallb alnum l
    | ERange a b => ((48 <=? a) && (b <=? 57) || (65 <=? a) && (b <=? 90) || (97 <=? a) && (b <=? 122))%N
    | EClass _ | EEoi | ESoi | ESkip => true
    | EAny | EPeek | EPop => false
    | EThen a b => dies level a || fine a && fine b
    | EElse a b => fine a && fine b
    | ESeq a | EOpt a | ERep a | ERestore a | ENot a | ERule _ a | EAtomic _ a => fine a
    | EPush a => dies level a
    | ECall r => dies level (g r) || good r
    end.
  Hypothesis good_fine : forall r, good r = true -> fine (g r) = true.
  Hypothesis skip_fine : fine sk = true.

  Variables (u : str) (c : char) (w : str).
  Hypothesis unknown : known c = false.
  Hypothesis odd : alnum c = false.
  Hypothesis classless : forall k, in_class U k c = false.
  Hypothesis no_start : forall l, dead l = true -> forall a v, u = a ++ v -> strip_prefix l (v ++ c :: w) = None.

  Definition on (s : pstate) : Prop := exists a v, u = a ++ v /\ rest s = v ++ c :: w /\ pos s = length a.
  Definition on_res (r : pres R) : Prop := match r with POk s _ | PErr s _ => on s | _ => True end.
  Lemma on_pos : forall s, on s -> pos s <= length u.
  Proof. intros s (a & v & -> & _ & ->). rewrite app_length. lia. Qed.

  Lemma dies_sound : forall n e, dies n e = true -> forall f k q s, on s ->
    run f e k q s = PFuel \/ exists t, run f e k q s = PErr s t.
  Proof.
    induction n as [|n IH]; intros e H f k q s Hs; [discriminate|]. destruct f as [|f]; [left; reflexivity|]. cbn [dies] in H. cbn [Peg.run].
    destruct e; try discriminate H.
    - right. destruct Hs as (a & v & E & Rs & _). rewrite Rs, (no_start _ H a v E). eexists. reflexivity.
    - destruct (IH _ H f k q s Hs) as [-> |[t ->]]; eauto.
    - apply andb_prop in H as [H1 H2]. destruct (IH _ H1 f k q s Hs) as [-> |[t ->]]; [left; reflexivity|].
      destruct (IH _ H2 f k q s Hs) as [-> |[t' ->]]; cbn [prepend]; eauto.
    - destruct (IH _ H f k q s Hs) as [-> |[t ->]]; [left; reflexivity|]. right. destruct s. eexists. reflexivity.
    - destruct (IH _ H f k q s Hs) as [-> |[t ->]]; [left; reflexivity|]. right. destruct s. eexists. reflexivity.
    - destruct (IH _ H f k q s Hs) as [-> |[t ->]]; eauto.
    - destruct (IH _ H f k0 q s Hs) as [-> |[t ->]]; eauto.
    - destruct (IH _ H f k q s Hs) as [-> |[t ->]]; eauto.
    - apply IH; assumption.
  Qed.
  Lemma dies_trace : forall n e, dies n e = true -> forall f k l s a, on s -> a_pos a <= length u -> a_pos (trace f e k l s a) <= length u.
  Proof.
    induction n as [|n IH]; intros e H f k l s a Hs Ha; [discriminate|]. destruct f as [|f]; [exact Ha|]. cbn [dies] in H. cbn [Track.trace].
    pose proof (on_pos s Hs) as P.
    destruct e; try discriminate H; try exact Ha; try (apply IH; assumption).
    - destruct (dies_sound _ _ H f k (quiet_of l) s Hs) as [-> |[t ->]]; apply IH; assumption.
    - apply andb_prop in H as [H1 H2]. destruct (dies_sound _ _ H1 f k (quiet_of l) s Hs) as [-> |[t ->]]; [apply IH; assumption|].
      apply IH; [exact H2|exact Hs|]. apply IH; assumption.
    - pose proof (IH _ H f k l s a Hs Ha). destruct (dies_sound _ _ H f k (quiet_of l) s Hs) as [-> |[t ->]]; [assumption|].
      match goal with |- context [tracked ?l ?k ?r ?p ?o ?b ?x] => pose proof (tracked_pos l k r p o b x) end; lia.
  Qed.

  Lemma strip_short : forall l v k, forallb known l = true -> strip_prefix l (v ++ c :: w) = Some k -> exists b, v = l ++ b /\ k = b ++ c :: w.
  Proof.
    induction l as [|x l IH]; intros v k H E; [injection E as <-; exists v; auto|]. cbn [forallb] in H. apply andb_prop in H as [Hx Hl].
    destruct v as [|y v]; cbn [app strip_prefix] in E; (match type of E with (if (?a =? ?b)%N then _ else _) = _ => destruct (N.eqb_spec a b) end; [|discriminate]); subst.
    - congruence.
    - destruct (IH v k Hl E) as (b & -> & ->). exists b. auto.
  Qed.
  Lemma lower_alnum : forall x, alnum x = true -> alnum (ascii_lower x) = true.
  Proof.
    intros x H. unfold alnum, ascii_lower, ascii_letter, ascii_digit in H |- *. destruct ((65 <=? x) && (x <=? 90))%N eqn:E; [|rewrite E; exact H].
    apply andb_prop in E as [E1 E2]. apply N.leb_le in E1, E2.
    assert (X : ((97 <=? x + 32) && (x + 32 <=? 122))%N = true) by (apply andb_true_intro; split; apply N.leb_le; lia). rewrite X, orb_true_r. reflexivity.
  Qed.
  Lemma lower_odd : ascii_lower c = c.
  Proof.
    unfold ascii_lower. destruct ((65 <=? c) && (c <=? 90))%N eqn:E; [|reflexivity]. unfold alnum, ascii_letter in odd. rewrite E in odd. discriminate.
  Qed.
  Lemma strip_short_insensitive : forall l v k, forallb alnum l = true -> strip_prefix_insensitive l (v ++ c :: w) = Some k ->
    exists d b, v = d ++ b /\ k = b ++ c :: w.
  Proof.
    induction l as [|x l IH]; intros v k H E; [injection E as <-; exists [], v; auto|]. cbn [forallb] in H. apply andb_prop in H as [Hx Hl].
    destruct v as [|y v]; cbn [app strip_prefix_insensitive] in E; (match type of E with (if (?a =? ?b)%N then _ else _) = _ => destruct (N.eqb_spec a b) as [X|X] end; [|discriminate]).
    - exfalso. rewrite lower_odd in X. pose proof (lower_alnum x Hx) as L. rewrite X, odd in L. discriminate.
    - destruct (IH v k Hl E) as (d & b & -> & ->). exists (y :: d), b. auto.
  Qed.
  Lemma on_advance : forall s a d b, u = a ++ d ++ b -> rest s = (d ++ b) ++ c :: w -> pos s = length a -> on (advance s (b ++ c :: w)).
  Proof.
    intros s a d b E Rs P. exists (a ++ d), b. unfold advance. cbn [rest pos]. split; [rewrite <- app_assoc; exact E|]. split; [reflexivity|].
    rewrite Rs, P. rewrite !app_length. cbn [length]. lia.
  Qed.
  Lemma on_char : forall P s, P c = false -> on s -> on_res (take_char P s).
  Proof.
    intros P s H Hs. pose proof Hs as (a & v & E & Rs & Q). unfold take_char. rewrite Rs. destruct v as [|y v]; cbn [app].
    - rewrite H. exact Hs.
    - destruct (P y); [|exact Hs]. apply (on_advance s a [y] v); assumption.
  Qed.
  Lemma on_prepend : forall t r, on_res r -> on_res (prepend t r).
  Proof. intros t [| | |]; exact (fun H => H). Qed.
  Lemma on_same : forall s st, on s -> on (mkPs (pos s) (rest s) st).
  Proof. intros s st H. exact H. Qed.

  Lemma fine_run : forall f e k q s, fine e = true -> on s -> on_res (run f e k q s).
  Proof.
    induction f as [|f IH]; intros e k q s H Hs; [exact Logic.I|].
    assert (D : forall n e k q s, dies n e = true -> on s -> on_res (run f e k q s)).
    { intros n e' k' q' s' D' S'. destruct (dies_sound n e' D' f k' q' s' S') as [-> |[t ->]]; [exact Logic.I|exact S']. }
    destruct e; cbn [fine] in H; cbn [Peg.run]; try discriminate H; try exact Hs.
    - pose proof Hs as (a & v & E & Rs & Q). rewrite Rs. destruct (strip_prefix s0 (v ++ c :: w)) as [k'|] eqn:X; [|exact Hs]. cbn [take].
      apply orb_prop in H as [H|H]; [|rewrite (no_start _ H a v E) in X; discriminate].
      destruct (strip_short _ _ _ H X) as (b & -> & ->). apply (on_advance s a s0 b); assumption.
    - pose proof Hs as (a & v & E & Rs & Q). rewrite Rs. destruct (strip_prefix_insensitive s0 (v ++ c :: w)) as [k'|] eqn:X; [|exact Hs]. cbn [take].
      destruct (strip_short_insensitive _ _ _ H X) as (d & b & -> & ->). apply (on_advance s a d b); assumption.
    - apply on_char; [|exact Hs]. unfold alnum, ascii_letter, ascii_digit in odd. apply orb_false_iff in odd as [O1 O2]. apply orb_false_iff in O1 as [O1 O3].
      assert (X : forall p q, ((p <=? a) && (b <=? q))%N = true -> ((p <=? c) && (c <=? q))%N = false -> ((a <=? c) && (c <=? b))%N = false).
      { intros p q' X Y. apply andb_prop in X as [X1 X2]. apply N.leb_le in X1, X2. apply andb_false_iff in Y as [Y|Y]; apply N.leb_gt in Y; apply andb_false_iff; [left|right]; apply N.leb_gt; lia. }
      apply orb_prop in H as [H|H]; [apply orb_prop in H as [H|H]|]; (eapply X; [exact H|assumption]).
    - apply on_char; [apply classless|exact Hs].
    - destruct (rest s); exact Hs.
    - destruct (pos s); exact Hs.
    - apply orb_prop in H as [H|H].
      + pose proof (dies_sound _ _ H f k q s Hs) as [-> |[t ->]]; [exact Logic.I|exact Hs].
      + apply andb_prop in H as [H1 H2]. pose proof (IH e1 k q s H1 Hs) as X. destruct (run f e1 k q s) as [s1 t1|s1 t1| |]; try exact X. apply on_prepend, IH; assumption.
    - apply andb_prop in H as [H1 H2]. pose proof (IH e1 k q s H1 Hs) as X. destruct (run f e1 k q s) as [s1 t1|s1 t1| |]; try exact X. apply on_prepend, IH; assumption.
    - pose proof (IH e k q s H Hs) as X. destruct (run f e k q s) as [s1 t1|s1 t1| |]; try exact X. exact Hs.
    - pose proof (IH e k q s H Hs) as X. destruct (run f e k q s) as [s1 t1|s1 t1| |]; exact X.
    - pose proof (IH e k q s H Hs) as X. destruct (run f e k q s) as [s1 t1|s1 t1| |]; try exact X. apply on_prepend, IH; [exact H|exact X].
    - pose proof (IH e k q s H Hs) as X. destruct (run f e k q s) as [s1 t1|s1 t1| |]; exact X.
    - destruct (run f e k true s) as [s1 t1|s1 t1| |]; try exact Hs; exact Logic.I.
    - pose proof (IH e k q s H Hs) as X. destruct (run f e k q s) as [s1 t1|s1 t1| |]; exact X.
    - apply IH; assumption.
    - pose proof (dies_sound _ _ H f k q s Hs) as [-> |[t ->]]; [exact Logic.I|exact Hs].
    - apply orb_prop in H as [H|H]; [eapply D; eassumption|]. apply IH; [apply good_fine; exact H|exact Hs].
    - destruct k; try exact Hs. apply IH; assumption.
  Qed.
  Lemma fine_trace : forall f e k l s a, fine e = true -> on s -> a_pos a <= length u -> a_pos (trace f e k l s a) <= length u.
  Proof.
    induction f as [|f IH]; intros e k l s a H Hs Ha; [exact Ha|].
    destruct e; cbn [fine] in H; cbn [Track.trace]; try discriminate H; try exact Ha; try (apply IH; assumption).
    - apply orb_prop in H as [H|H].
      + pose proof (dies_sound _ _ H f k (quiet_of l) s Hs) as [-> |[t ->]]; eapply dies_trace; eassumption.
      + apply andb_prop in H as [H1 H2]. pose proof (fine_run f e1 k (quiet_of l) s H1 Hs) as X. destruct (run f e1 k (quiet_of l) s) as [s1 t1|s1 t1| |]; try (apply IH; assumption).
        apply IH; [exact H2|exact X|]. apply IH; assumption.
    - apply andb_prop in H as [H1 H2]. pose proof (fine_run f e1 k (quiet_of l) s H1 Hs) as X. destruct (run f e1 k (quiet_of l) s) as [s1 t1|s1 t1| |]; try (apply IH; assumption).
      apply IH; [exact H2|exact X|]. apply IH; assumption.
    - pose proof (fine_run f e k (quiet_of l) s H Hs) as X. destruct (run f e k (quiet_of l) s) as [s1 t1|s1 t1| |]; try (apply IH; assumption).
      apply IH; [exact H|exact X|]. apply IH; assumption.
    - pose proof (IH e k l s a H Hs Ha). pose proof (on_pos s Hs). destruct (run f e k (quiet_of l) s) as [s1 t1|s1 t1| |]; try assumption.
      all: match goal with |- context [tracked ?l ?k ?r ?p ?o ?b ?x] => pose proof (tracked_pos l k r p o b x) end; lia.
    - eapply dies_trace; eassumption.
    - apply orb_prop in H as [H|H]; [eapply dies_trace; eassumption|]. apply IH; [apply good_fine; exact H|exact Hs|exact Ha].
    - destruct k; try exact Ha. apply IH; assumption.
  Qed.
End Static.
