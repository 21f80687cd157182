(** Where the parser's error points. *)
From Verif Require Import Base Ast Display SmError Peg Grammar Climber Build Track SpecAst SpecPeg SpecClimb SpecParse SpecSyntax SpecText SpecPlace.
From Verif Require Import ProofPeg.
From Verif Require ProofSym.
Local Open Scope nat_scope.

Section Generic.
  Context {R : Type}.
  Variable U : unicode.
  Variable g : R -> pexp R.
  Variable sk : pexp R.
  Notation run := (run U g sk).
  Notation trace := (trace U g sk).
  Notation ev := (ProofSym.ev U g sk).

  (** ** One rule *)
  Lemma track_pos : forall l k (r : R) p yi ni prev a,
    a_pos a <= a_pos (track l k r p yi ni prev a) <= Nat.max (a_pos a) p.
  Proof.
    intros l k r p yi ni prev a. unfold track. destruct (atomic k); [lia|].
    destruct ((prev <? attempts_at a p) && (attempts_at a p - prev =? 1)); [lia|].
    destruct (Nat.eqb_spec p (a_pos a)) as [E|E]; cbn [a_pos].
    - rewrite <- E. rewrite Nat.ltb_irrefl. cbn [a_pos]. rewrite Nat.eqb_refl. destruct (negative l); cbn [a_pos]; lia.
    - destruct (Nat.ltb_spec (a_pos a) p); cbn [a_pos].
      + rewrite Nat.eqb_refl. destruct (negative l); cbn [a_pos]; lia.
      + destruct (Nat.eqb_spec p (a_pos a)); [congruence|]. lia.
  Qed.
  Lemma track_reach : forall l k (r : R) p yi ni prev a, atomic k = false -> p <= a_pos (track l k r p yi ni prev a).
  Proof.
    intros l k r p yi ni prev a H. unfold track. rewrite H.
    destruct ((prev <? attempts_at a p) && (attempts_at a p - prev =? 1)) eqn:E.
    - apply andb_prop in E as [E _]. apply Nat.ltb_lt in E. unfold attempts_at in E. destruct (Nat.eqb_spec (a_pos a) p); lia.
    - destruct (Nat.eqb_spec p (a_pos a)) as [X|X]; cbn [a_pos].
      + rewrite <- X. rewrite Nat.ltb_irrefl. cbn [a_pos]. rewrite Nat.eqb_refl. destruct (negative l); cbn [a_pos]; lia.
      + destruct (Nat.ltb_spec (a_pos a) p); cbn [a_pos].
        * rewrite Nat.eqb_refl. destruct (negative l); cbn [a_pos]; lia.
        * destruct (Nat.eqb_spec p (a_pos a)); [congruence|]. lia.
  Qed.
  Lemma tracked_pos : forall l k (r : R) p ok b a, a_pos a <= a_pos (tracked l k r p ok b a) <= Nat.max (a_pos a) p.
  Proof. intros. unfold tracked. destruct (Bool.eqb _ _); [apply track_pos|lia]. Qed.

  (** ** Bounds *)
  Lemma trace_up : forall f e k l s a, a_pos a <= a_pos (trace f e k l s a).
  Proof.
    induction f as [|f IH]; intros e k l s a; [cbn; lia|]. cbn [Track.trace].
    destruct e; try lia; try apply IH.
    - destruct (run f e1 k (quiet_of l) s) as [s1 t1|s1 t1| |]; try apply IH. etransitivity; [apply IH|apply IH].
    - destruct (run f e1 k (quiet_of l) s) as [s1 t1|s1 t1| |]; try apply IH. etransitivity; [apply IH|apply IH].
    - destruct (run f e k (quiet_of l) s) as [s1 t1|s1 t1| |]; try apply IH. etransitivity; [apply IH|apply IH].
    - destruct (run f e k (quiet_of l) s) as [s1 t1|s1 t1| |]; try apply IH; (etransitivity; [apply IH|apply tracked_pos]).
    - destruct k; try lia. apply IH.
  Qed.
  Lemma trace_down : forall input n, length input <= n -> forall f e k l s a, at_input input s -> a_pos a <= n -> a_pos (trace f e k l s a) <= n.
  Proof.
    intros input n L. induction f as [|f IH]; intros e k l s a Hs Ha; [exact Ha|].
    pose proof (fun e => run_good U g sk input f e k (quiet_of l) s Hs) as G. cbn [Track.trace].
    destruct e; try exact Ha; try (apply IH; assumption).
    - specialize (G e1). destruct (run f e1 k (quiet_of l) s) as [s1 t1|s1 t1| |]; try (apply IH; assumption). apply IH; [apply G|apply IH; assumption].
    - specialize (G e1). destruct (run f e1 k (quiet_of l) s) as [s1 t1|s1 t1| |]; try (apply IH; assumption). apply IH; [apply G|apply IH; assumption].
    - specialize (G e). destruct (run f e k (quiet_of l) s) as [s1 t1|s1 t1| |]; try (apply IH; assumption). apply IH; [apply G|apply IH; assumption].
    - destruct Hs as [Hp Hr]. pose proof (IH e k l s a (conj Hp Hr) Ha).
      destruct (run f e k (quiet_of l) s) as [s1 t1|s1 t1| |]; try assumption.
      all: match goal with |- context [tracked ?l ?k ?r ?p ?o ?b ?x] => pose proof (tracked_pos l k r p o b x) end; lia.
    - destruct k; try exact Ha. apply IH; assumption.
  Qed.

  (** ** Places the error cannot be before *)
  Definition reaches (e : pexp R) (k : atomicity) (l : lookahead) (s : pstate) (q : nat) : Prop :=
    forall f a, run f e k (quiet_of l) s <> PFuel -> q <= a_pos (trace f e k l s a).
  Ltac enter f a F := let f0 := fresh in intros f0 a F; destruct f0 as [|f]; [exfalso; apply F; reflexivity|]; cbn [Peg.run Track.trace] in *.
  Lemma pf : forall ts (r : pres R), prepend ts r <> PFuel -> r <> PFuel.
  Proof. intros ts [| | |]; cbn; congruence. Qed.
  Lemma run_ev : forall f e k q s, run f e k q s <> PFuel -> ev e k q s (run f e k q s).
  Proof. intros. split; [assumption|]. eexists. reflexivity. Qed.

  Lemma reaches_then1 : forall x y k l s q, reaches x k l s q -> reaches (EThen x y) k l s q.
  Proof.
    intros x y k l s q H. enter f a F. destruct (run f x k (quiet_of l) s) eqn:E; try (apply H; congruence).
    eapply Nat.le_trans; [apply (H f a); congruence|apply trace_up].
  Qed.
  Lemma reaches_then2 : forall x y k l s s1 t1 q, ev x k (quiet_of l) s (POk s1 t1) -> reaches y k l s1 q -> reaches (EThen x y) k l s q.
  Proof.
    intros x y k l s s1 t1 q E H. enter f a F. destruct (run f x k (quiet_of l) s) eqn:X; try congruence.
    all: pose proof (ProofSym.ev_det U g sk _ _ _ _ _ _ E (ProofSym.ev_base U g sk _ _ _ _ _ _ X ltac:(discriminate))) as D; try discriminate D.
    injection D as -> ->. apply H. eapply pf. exact F.
  Qed.
  Lemma reaches_else1 : forall x y k l s q, reaches x k l s q -> reaches (EElse x y) k l s q.
  Proof.
    intros x y k l s q H. enter f a F. destruct (run f x k (quiet_of l) s) eqn:E; try (apply H; congruence).
    eapply Nat.le_trans; [apply (H f a); congruence|apply trace_up].
  Qed.
  Lemma reaches_else2 : forall x y k l s s1 t1 q, ev x k (quiet_of l) s (PErr s1 t1) -> reaches y k l s1 q -> reaches (EElse x y) k l s q.
  Proof.
    intros x y k l s s1 t1 q E H. enter f a F. destruct (run f x k (quiet_of l) s) eqn:X; try congruence.
    all: pose proof (ProofSym.ev_det U g sk _ _ _ _ _ _ E (ProofSym.ev_base U g sk _ _ _ _ _ _ X ltac:(discriminate))) as D; try discriminate D.
    injection D as -> ->. apply H. eapply pf. exact F.
  Qed.
  Lemma reaches_seq : forall x k l s q, reaches x k l s q -> reaches (ESeq x) k l s q.
  Proof. intros x k l s q H. enter f a F. apply H. destruct (run f x k (quiet_of l) s); congruence. Qed.
  Lemma reaches_opt : forall x k l s q, reaches x k l s q -> reaches (EOpt x) k l s q.
  Proof. intros x k l s q H. enter f a F. apply H. destruct (run f x k (quiet_of l) s); congruence. Qed.
  Lemma reaches_restore : forall x k l s q, reaches x k l s q -> reaches (ERestore x) k l s q.
  Proof. intros x k l s q H. enter f a F. apply H. destruct (run f x k (quiet_of l) s); congruence. Qed.
  Lemma reaches_rule : forall r x k l s q, reaches x k l s q -> reaches (ERule r x) k l s q.
  Proof.
    intros r x k l s q H. enter f a F. destruct (run f x k (quiet_of l) s) eqn:E; try congruence.
    all: try (eapply Nat.le_trans; [apply (H f a); congruence|apply tracked_pos]). apply H. congruence.
  Qed.
  (** a rule that fails is recorded where it was tried *)
  Lemma reaches_failure : forall r x k l s s1 t1, atomic k = false -> negative l = false -> ev x k (quiet_of l) s (PErr s1 t1) -> reaches (ERule r x) k l s (pos s).
  Proof.
    intros r x k l s s1 t1 K L E. enter f a F. destruct (run f x k (quiet_of l) s) eqn:X; try congruence.
    all: pose proof (ProofSym.ev_det U g sk _ _ _ _ _ _ E (ProofSym.ev_base U g sk _ _ _ _ _ _ X ltac:(discriminate))) as D; try discriminate D.
    unfold tracked. rewrite L. cbn [Bool.eqb]. apply track_reach. exact K.
  Qed.
  Lemma reaches_atomic : forall k' x k l s q, reaches x k' l s q -> reaches (EAtomic k' x) k l s q.
  Proof. intros k' x k l s q H. enter f a F. apply H. exact F. Qed.
  Lemma reaches_call : forall r k l s q, reaches (g r) k l s q -> reaches (ECall r) k l s q.
  Proof. intros r k l s q H. enter f a F. apply H. exact F. Qed.
  Lemma reaches_rep : forall x k l s q, reaches x k l s q -> reaches (ERep x) k l s q.
  Proof.
    intros x k l s q H. enter f a F. destruct (run f x k (quiet_of l) s) eqn:E; try (apply H; congruence).
    eapply Nat.le_trans; [apply (H f a); congruence|apply trace_up].
  Qed.
  Lemma reaches_rep2 : forall x k l s s1 t1 q, ev x k (quiet_of l) s (POk s1 t1) -> reaches (ERep x) k l s1 q -> reaches (ERep x) k l s q.
  Proof.
    intros x k l s s1 t1 q E H. enter f a F. destruct (run f x k (quiet_of l) s) eqn:X; try congruence.
    all: pose proof (ProofSym.ev_det U g sk _ _ _ _ _ _ E (ProofSym.ev_base U g sk _ _ _ _ _ _ X ltac:(discriminate))) as D; try discriminate D.
    injection D as -> ->. apply H. eapply pf. exact F.
  Qed.
  (** the last round of a repetition is tried where it ends *)
  Lemma reaches_last : forall x k l s s2 t2 q, ev (ERep (ESeq x)) k (quiet_of l) s (POk s2 t2) ->
    (forall st, reaches (ESeq x) k l (mkPs (pos s2) (rest s2) st) q) -> reaches (ERep (ESeq x)) k l s q.
  Proof.
    intros x k l s s2 t2 q [_ [n E]] H. revert s t2 E. induction n as [|n IH]; intros s t2 E; [discriminate|].
    cbn [Peg.run] in E. destruct n as [|n]; [discriminate|]. set (m := S n) in *.
    destruct (run m (ESeq x) k (quiet_of l) s) as [s1 t1|s1 t1| |] eqn:E1; try discriminate.
    - destruct (run m (ERep (ESeq x)) k (quiet_of l) s1) as [s3 t3|s3 t3| |] eqn:E2; try discriminate. cbn [prepend] in E. injection E as -> <-.
      pose proof (IH s1 t3 E2) as B. enter f a F.
      destruct (run f (ESeq x) k (quiet_of l) s) eqn:X; try congruence.
      all: pose proof (ProofSym.ev_det U g sk _ _ _ _ _ _ (ProofSym.ev_base U g sk _ _ _ _ _ _ E1 ltac:(discriminate)) (ProofSym.ev_base U g sk _ _ _ _ _ _ X ltac:(discriminate))) as D; try discriminate D.
      injection D as <- <-. apply B. eapply pf. exact F.
    - injection E as -> ->. subst m. cbn [Peg.run] in E1. destruct (run n x k (quiet_of l) s) as [s3 t3|s3 t3| |]; try discriminate. injection E1 as <- _.
      cbn [pos rest] in H. apply reaches_rep. specialize (H (stk s)). destruct s. exact H.
  Qed.
End Generic.
