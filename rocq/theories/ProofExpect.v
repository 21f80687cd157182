(** What the parser's error says was expected. *)
From Verif Require Import Base Peg Grammar Build Track SpecPest Source SpecFault.
From Verif Require Import ProofPeg ProofPest ProofFollow ProofTrack.
From Verif Require ProofSym.
Local Open Scope nat_scope.

Section Names.
  Context {R : Type}.
  Variable U : unicode.
  Variable g : R -> pexp R.
  Variable sk : pexp R.
  Notation run := (run U g sk).
  Notation trace := (trace U g sk).

  (** ** Lists without names *)
  Definition named (a : attempts R) : Prop := a_pos a = 0 \/ a_yes a ++ a_no a <> [].
  Lemma some_named : forall p (y n : list R) r, named (mkAt p (y ++ [r]) n) /\ named (mkAt p y (n ++ [r])).
  Proof. intros p y n r. split; right; cbn [a_yes a_no]; intro E; apply (f_equal (@length R)) in E; rewrite !app_length in E; cbn [length] in E; lia. Qed.
  Lemma track_named : forall l k (r : R) p yi ni prev a, named a -> named (track l k r p yi ni prev a).
  Proof.
    intros l k r p yi ni prev a H. unfold track. destruct (atomic k); [exact H|].
    destruct ((prev <? attempts_at a p) && (attempts_at a p - prev =? 1)); [exact H|].
    destruct (Nat.eqb_spec p (a_pos a)) as [E|E]; cbn [a_pos].
    - rewrite <- E. rewrite Nat.ltb_irrefl. cbn [a_pos]. rewrite Nat.eqb_refl. destruct (negative l); apply some_named.
    - destruct (Nat.ltb_spec (a_pos a) p); cbn [a_pos].
      + rewrite Nat.eqb_refl. destruct (negative l); apply some_named.
      + destruct (Nat.eqb_spec p (a_pos a)); [congruence|]. exact H.
  Qed.
  Lemma tracked_named : forall l k (r : R) p ok b a, named a -> named (tracked l k r p ok b a).
  Proof. intros. unfold tracked. destruct (Bool.eqb _ _); [apply track_named|]; assumption. Qed.
  Lemma trace_named : forall f e k l s a, named a -> named (trace f e k l s a).
  Proof.
    induction f as [|f IH]; intros e k l s a Ha; [exact Ha|]. cbn [Track.trace].
    destruct e; try exact Ha; try (apply IH; assumption).
    - destruct (run f e1 k (quiet_of l) s); auto.
    - destruct (run f e1 k (quiet_of l) s); auto.
    - destruct (run f e k (quiet_of l) s); auto.
    - destruct (run f e k (quiet_of l) s); auto using tracked_named.
    - destruct k; auto.
  Qed.
  (** a failed rule leaves a name *)
  Lemma failed_named : forall k (r : R) p b a, atomic k = false -> named a -> 
    let x := tracked LNone k r p false b a in a_yes x ++ a_no x <> [].
  Proof.
    intros k r p b a K [Z|N]; cbv zeta; unfold tracked; cbn [negative Bool.eqb].
    - unfold track. rewrite K. match goal with |- context [(?x <? attempts_at a p) && _] => destruct ((x <? attempts_at a p) && (attempts_at a p - x =? 1)) eqn:E end.
      + apply andb_prop in E as [E _]. apply Nat.ltb_lt in E. unfold attempts_at in E. destruct (a_pos a =? p); [|lia].
        intro F. apply (f_equal (@length R)) in F. rewrite app_length in F. cbn [length] in F. lia.
      + cbn [negative]. destruct (Nat.eqb_spec p (a_pos a)) as [Q|Q]; cbn [a_pos].
        * rewrite <- Q, Nat.ltb_irrefl. cbn [a_pos]. rewrite Nat.eqb_refl. cbn [a_yes a_no]. destruct (firstn _ (a_yes a)); discriminate.
        * destruct (Nat.ltb_spec (a_pos a) p); [|lia]. cbn [a_pos]. rewrite Nat.eqb_refl. discriminate.
    - assert (P : named (mkAt 1 (a_yes a) (a_no a))) by (right; exact N).
      unfold track. rewrite K. match goal with |- context [(?x <? attempts_at a p) && _] => destruct ((x <? attempts_at a p) && (attempts_at a p - x =? 1)); [exact N|] end.
      cbn [negative]. destruct (Nat.eqb_spec p (a_pos a)) as [Q|Q]; cbn [a_pos].
      + rewrite <- Q, Nat.ltb_irrefl. cbn [a_pos]. rewrite Nat.eqb_refl. cbn [a_yes a_no]. destruct (firstn _ (a_yes a)); discriminate.
      + destruct (Nat.ltb_spec (a_pos a) p); cbn [a_pos].
        * rewrite Nat.eqb_refl. discriminate.
        * destruct (Nat.eqb_spec p (a_pos a)); [congruence|]. exact N.
  Qed.
End Names.

(** ** Names only in front of the rules' bodies *)
Fixpoint bodied (e : pexp rule) : bool :=
  match e with
  | EThen a b | EElse a b => bodied a && bodied b
  | ESeq a | EOpt a | ERep a | ERestore a | ENot a | EAtomic _ a | EPush a => bodied a
  | ERule _ _ => false
  | _ => true
  end.
Definition fronted (r : rule) : bool :=
  match grammar r with
  | ERule r' x => (number r =? number r') && bodied x
  | EAtomic _ (ERule r' x) => (number r =? number r') && bodied x
  | x => bodied x
  end.
Lemma all_fronted : forall r, fronted r = true.
Proof. intros []; vm_compute; reflexivity. Qed.
Lemma skip_bodied : bodied skip_body = true.
Proof. reflexivity. Qed.

Definition meets (U : unicode) (text : str) (i : nat) (r : rule) : Prop :=
  exists m st o, reads U source m (Name r) (mkPs i (skipn i text) st) (Some o).

(** ** Nothing is recorded in a lookahead *)
Fixpoint silent_in (call : rule -> atomicity -> bool) (e : pexp rule) (k : atomicity) : bool :=
  match e with
  | EThen a b | EElse a b => silent_in call a k && silent_in call b k
  | ESeq a | EOpt a | ERep a | ERestore a | ENot a | EPush a => silent_in call a k
  | EAtomic k' a => silent_in call a k'
  | ERule _ a => atomic k && silent_in call a k
  | ECall r => call r k
  | ESkip => false
  | _ => true
  end.
Fixpoint silent_call (d : nat) (r : rule) (k : atomicity) : bool :=
  match d with O => false | S d' => silent_in (silent_call d') (grammar r) k end.
Notation silent d := (silent_in (silent_call d)).
Fixpoint clean (e : pexp rule) (k : atomicity) : bool :=
  match e with
  | EThen a b | EElse a b => clean a k && clean b k
  | ESeq a | EOpt a | ERep a | ERestore a | EPush a | ERule _ a => clean a k
  | EAtomic k' a => clean a k'
  | ENot a => silent 3 a k
  | _ => true
  end.
Lemma all_clean : forall r k, clean (grammar r) k = true.
Proof. intros [] []; vm_compute; reflexivity. Qed.
Lemma skip_clean : forall k, clean skip_body k = true.
Proof. intros []; reflexivity. Qed.

Section Silence.
  Variable U : unicode.
  Notation run := (run U grammar skip_body).
  Notation trace := (trace U grammar skip_body).
  Lemma silent_trace : forall f d e k l s a, silent d e k = true -> trace f e k l s a = a.
  Proof.
    induction f as [|f IH]; intros d e k l s a H; [reflexivity|]. cbn [Track.trace].
    destruct e; try reflexivity; cbn [silent_in] in H; try (eapply IH; exact H).
    - apply andb_prop in H as [H1 H2]. destruct (run f e1 k (quiet_of l) s); rewrite (IH d e1) by exact H1; try reflexivity. apply (IH d). exact H2.
    - apply andb_prop in H as [H1 H2]. destruct (run f e1 k (quiet_of l) s); rewrite (IH d e1) by exact H1; try reflexivity. apply (IH d). exact H2.
    - destruct (run f e k (quiet_of l) s); rewrite (IH d e) by exact H; try reflexivity. apply (IH d (ERep e)). exact H.
    - apply andb_prop in H as [K H]. destruct (run f e k (quiet_of l) s); rewrite (IH d e) by exact H; try reflexivity;
        unfold tracked, track; rewrite K; destruct (Bool.eqb _ _); reflexivity.
    - destruct d as [|d]; [discriminate|]. apply (IH d). exact H.
    - discriminate.
  Qed.
  Lemma tracked_no : forall k (r : rule) p ok b a, a_no a = [] -> a_no (tracked LNone k r p ok b a) = [].
  Proof.
    intros k r p ok b a H. unfold tracked. destruct (Bool.eqb _ _); [|exact H]. unfold track. destruct (atomic k); [exact H|].
    destruct (_ && _); [exact H|]. cbn [negative].
    destruct (Nat.eqb_spec p (a_pos a)) as [E|E]; cbn [a_pos].
    - rewrite <- E. rewrite Nat.ltb_irrefl. cbn [a_pos]. rewrite Nat.eqb_refl. cbn [a_no]. rewrite H. apply firstn_nil.
    - destruct (Nat.ltb_spec (a_pos a) p); cbn [a_pos].
      + rewrite Nat.eqb_refl. reflexivity.
      + destruct (Nat.eqb_spec p (a_pos a)); [congruence|]. exact H.
  Qed.
  Lemma trace_no : forall f e k s a, clean e k = true -> a_no a = [] -> a_no (trace f e k LNone s a) = [].
  Proof.
    induction f as [|f IH]; intros e k s a H A; [exact A|]. cbn [Track.trace quiet_of].
    destruct e; try exact A; cbn [clean] in H; try (apply IH; assumption).
    - apply andb_prop in H as [H1 H2]. pose proof (IH e1 k s a H1 A). destruct (run f e1 k false s); auto.
    - apply andb_prop in H as [H1 H2]. pose proof (IH e1 k s a H1 A). destruct (run f e1 k false s); auto.
    - pose proof (IH e k s a H A). destruct (run f e k false s); auto.
    - rewrite (silent_trace f 3 e k _ s a H). exact A.
    - pose proof (IH e k s a H A). destruct (run f e k false s); auto using tracked_no.
    - apply IH; [apply all_clean|exact A].
    - destruct k; try exact A. apply IH; [apply skip_clean|exact A].
  Qed.
  Lemma never_unexpected : forall text i yes no, parse_error U text = Some (i, yes, no) -> no = [].
  Proof.
    intros text i yes no. unfold parse_error. destruct (run_program U text) as [| s1 t1 | |]; try discriminate. intros [= <- <- <-].
    apply trace_no; reflexivity.
  Qed.
End Silence.

Section Expect.
  Variable U : unicode.
  Variable text : str.
  Notation run := (run U grammar skip_body).
  Notation trace := (trace U grammar skip_body).
  Notation reads := (reads U source).

  Lemma call_reads : forall f r m q s, match run f (ECall r) m q s with
    | POk s1 _ => exists t, reads m (Name r) s (Some (s1, t))
    | PErr _ _ => reads m (Name r) s None
    | _ => True
    end.
  Proof.
    intros f r m q s. pose proof (calls_follow U f r m f q s (le_n _)) as P. destruct (run f (ECall r) m q s) as [s1 ts|s1 ts| |]; cbn [post] in P; try exact I.
    - destruct P as (ts' & P1 & _). eauto.
    - apply P.
  Qed.

  Definition right_names (a : attempts rule) : Prop :=
    (forall r, In r (a_yes a) -> misses U text (a_pos a) r) /\ (forall r, In r (a_no a) -> meets U text (a_pos a) r).
  Lemma in_firstn : forall (A : Type) n (l : list A) x, In x (firstn n l) -> In x l.
  Proof. induction n as [|n IH]; intros [|y l] x; cbn; tauto || (intros [E|E]; auto). Qed.
  Lemma track_right : forall l k r p yi ni prev a, right_names a -> (if negative l then meets U text p r else misses U text p r) ->
    right_names (track l k r p yi ni prev a).
  Proof.
    intros l k r p yi ni prev a [Y N] X. unfold track. destruct (atomic k); [split; assumption|].
    destruct ((prev <? attempts_at a p) && (attempts_at a p - prev =? 1)); [split; assumption|].
    set (a1 := if p =? a_pos a then mkAt (a_pos a) (firstn yi (a_yes a)) (firstn ni (a_no a)) else a).
    assert (H1 : right_names a1 /\ a_pos a1 = a_pos a).
    { subst a1. destruct (p =? a_pos a); [|repeat split; assumption]. split; [|reflexivity]. split; intros x Hx; cbn in *; [apply Y|apply N]; eapply in_firstn; exact Hx. }
    destruct H1 as [[Y1 N1] _]. clearbody a1. set (a2 := if a_pos a1 <? p then mkAt p [] [] else a1).
    assert (H2 : right_names a2). { subst a2. destruct (a_pos a1 <? p); [|split; assumption]. split; intros x []. }
    clearbody a2. destruct H2 as [Y2 N2]. destruct (Nat.eqb_spec p (a_pos a2)) as [E|E]; [|split; assumption]. subst p.
    destruct (negative l); split; cbn [a_pos a_yes a_no]; auto; intros x Hx; apply in_app_or in Hx as [Hx|[<-|[]]]; auto.
  Qed.
  (** a rule's body was tried where the rule was *)
  Lemma tracked_right : forall l k r p ok b a, right_names a -> (ok = true -> meets U text p r) -> (ok = false -> misses U text p r) -> right_names (tracked l k r p ok b a).
  Proof.
    intros l k r p ok b a H T F. unfold tracked. destruct (Bool.eqb ok (negative l)) eqn:E; [|exact H].
    apply Bool.eqb_prop in E. apply track_right; [exact H|]. rewrite <- E. destruct ok; auto.
  Qed.
  Lemma input_state : forall s, at_input text s -> s = mkPs (pos s) (skipn (pos s) text) (stk s).
  Proof. intros [p v st] [_ H]. cbn in *. rewrite <- H. reflexivity. Qed.

  Lemma trace_right : forall f,
    (forall e k l s a, bodied e = true -> at_input text s -> right_names a -> right_names (trace f e k l s a)) /\
    (forall r k l s a, at_input text s -> right_names a -> right_names (trace f (ECall r) k l s a)).
  Proof.
    induction f as [f IH] using lt_wf_ind. 
    assert (B : forall f0, f0 < f -> forall e k l s a, bodied e = true -> at_input text s -> right_names a -> right_names (trace f0 e k l s a)) by (intros f0 L; apply (IH f0 L)).
    assert (C : forall r k l s a, at_input text s -> right_names a -> right_names (trace f (ECall r) k l s a)).
    { intros r k l s a Hs Ha. pose proof (fun m => call_reads f r m (quiet_of l) s) as X. pose proof (input_state s Hs) as Es.
      assert (M : forall m, match run f (ECall r) m (quiet_of l) s with POk _ _ => meets U text (pos s) r | PErr _ _ => misses U text (pos s) r | _ => True end).
      { intro m. specialize (X m). destruct (run f (ECall r) m (quiet_of l) s) as [s1 t1|s1 t1| |]; try exact I.
        - destruct X as [t X]. rewrite Es in X. exists m, (stk s). eexists. exact X.
        - rewrite Es in X. exists m, (stk s). exact X. }
      clear X. destruct f as [|f1]; [exact Ha|]. cbn [Track.trace]. cbn [Peg.run] in M.
      pose proof (all_fronted r) as Fr. unfold fronted in Fr. destruct (grammar r) as [] eqn:G; try (apply B; [lia|exact Fr|exact Hs|exact Ha]).
      - apply andb_prop in Fr as [Q Fr]. apply Nat.eqb_eq, number_inj in Q. subst r0. specialize (M k).
        destruct f1 as [|f2]; [exact Ha|]. cbn [Track.trace]. cbn [Peg.run] in M.
        pose proof (B f2 ltac:(lia) p k l s a Fr Hs Ha) as T.
        destruct (run f2 p k (quiet_of l) s); try exact T; apply tracked_right; auto; discriminate.
      - destruct p; try (apply B; [lia|exact Fr|exact Hs|exact Ha]).
        apply andb_prop in Fr as [Q Fr]. apply Nat.eqb_eq, number_inj in Q. subst r0. specialize (M k).
        destruct f1 as [|f2]; [exact Ha|]. cbn [Track.trace]. cbn [Peg.run] in M.
        destruct f2 as [|f3]; [exact Ha|]. cbn [Track.trace]. cbn [Peg.run] in M.
        pose proof (B f3 ltac:(lia) p k0 l s a Fr Hs Ha) as T.
        destruct (run f3 p k0 (quiet_of l) s); try exact T; apply tracked_right; auto; discriminate. }
    split; [|exact C]. intros e k l s a He Hs Ha. destruct e; try (apply C; assumption).
    all: destruct f as [|f1]; [exact Ha|]; cbn [Track.trace]; cbn [bodied] in He; try exact Ha; try discriminate; try (apply B; [lia|assumption..]).
    - apply andb_prop in He as [H1 H2]. pose proof (run_good U grammar skip_body text f1 e1 k (quiet_of l) s Hs) as G.
      pose proof (B f1 ltac:(lia) e1 k l s a H1 Hs Ha). destruct (run f1 e1 k (quiet_of l) s); try assumption. apply B; [lia|assumption|apply G|assumption].
    - apply andb_prop in He as [H1 H2]. pose proof (run_good U grammar skip_body text f1 e1 k (quiet_of l) s Hs) as G.
      pose proof (B f1 ltac:(lia) e1 k l s a H1 Hs Ha). destruct (run f1 e1 k (quiet_of l) s); try assumption. apply B; [lia|assumption|apply G|assumption].
    - pose proof (run_good U grammar skip_body text f1 e k (quiet_of l) s Hs) as G.
      pose proof (B f1 ltac:(lia) e k l s a He Hs Ha). destruct (run f1 e k (quiet_of l) s); try assumption. apply B; [lia|exact He|apply G|assumption].
    - destruct k; try exact Ha. apply B; [lia|apply skip_bodied|exact Hs|exact Ha].
  Qed.
  Lemma expected_right : forall i yes no, parse_error U text = Some (i, yes, no) ->
    (forall r, In r yes -> misses U text i r) /\ (forall r, In r no -> meets U text i r).
  Proof.
    intros i yes no. unfold parse_error. destruct (run_program U text) as [| s1 t1 | |]; try discriminate. intros [= <- <- <-].
    apply (proj2 (trace_right (peg_fuel text))); [split; [cbn; lia|reflexivity]|]. split; intros r [].
  Qed.
End Expect.
