(** Which pairs lie inside a pair, and which texts a rule reads. *)
From Verif Require Import Base Peg Grammar SpecPest Source ProofPest SpecValue.
Local Open Scope nat_scope.

Definition noise (t : tree rule) : Prop := rule_of t = R_MultiLineComment.
(** repetitions, with comments between *)
Inductive star (P : list (tree rule) -> Prop) : list (tree rule) -> Prop :=
| star_nil : star P []
| star_more : forall a b c, P a -> Forall noise b -> star P c -> star P (a ++ b ++ c).
Definition joined (P Q : list (tree rule) -> Prop) (ts : list (tree rule)) : Prop :=
  exists a b c, ts = a ++ b ++ c /\ P a /\ Forall noise b /\ Q c.
Definition single (r : rule) (ts : list (tree rule)) : Prop := exists t, ts = [t] /\ rule_of t = r.

(** the lists of pairs that an expression can produce in mode m; rules without a
    pair of their own are followed n deep *)
Fixpoint shape (n : nat) (m : atomicity) : gexp -> list (tree rule) -> Prop :=
  fix go (e : gexp) (ts : list (tree rule)) : Prop :=
    match e with
    | Text _ | AnyCase _ | Not _ => ts = []
    | Then a b => joined (go a) (go b) ts
    | Or a b => go a ts \/ go b ts
    | Maybe a => ts = [] \/ go a ts
    | Many a => star (go a) ts
    | Several a => joined (go a) (star (go a)) ts
    | Times _ a => star (go a) ts
    | Push a => go a ts
    | Name r =>
        match source r with
        | Rule k e' => if makes_pair k m then single r ts else match n with O => True | S n' => shape n' (body_mode r k m) e' ts end
        | Built EndOfInput => if makes_pair Plain m then single r ts else ts = []
        | Built _ => ts = []
        end
    end.

Lemma star_one : forall (P : list (tree rule) -> Prop) a, P a -> star P a.
Proof. intros P a H. rewrite <- (app_nil_r a). rewrite <- (app_nil_l []). apply star_more; [exact H|constructor|constructor]. Qed.
Lemma star_noise : forall (P : list (tree rule) -> Prop) ts, (forall a, P a -> Forall noise a) -> star P ts -> Forall noise ts.
Proof. intros P ts H. induction 1 as [|a b c Ha Hb _ IH]; [constructor|]. apply Forall_app. split; [auto|]. apply Forall_app. auto. Qed.
Lemma times_shape : forall n m k a ts, shape n m (times k a) ts -> star (shape n m a) ts.
Proof.
  intros n m k a. induction k as [|k IH]; intros ts H; [destruct n; apply star_one; exact H|].
  destruct k as [|k]; [destruct n; apply star_one; exact H|].
  assert (J : joined (shape n m a) (shape n m (times (S k) a)) ts) by (destruct n; exact H).
  destruct J as (x & y & z & -> & Hx & Hy & Hz). apply star_more; auto.
Qed.

Section Shape.
  Variable U : unicode.
  Notation reads := (reads U source).
  Notation again := (again U source).
  Notation skips := (skips U source).

  Lemma skip_shape : forall t, shape 3 Atomic (Many (Or (Name R_WHITESPACE) (Name R_COMMENT))) t -> Forall noise t.
  Proof.
    intros t H. cbn [shape] in H. revert H. apply star_noise.
    assert (E : forall a : list (tree rule), a = [] -> Forall noise a) by (intros a ->; constructor).
    assert (S : forall a, star (joined (fun ts => ts = []) (fun ts => ts = [])) a -> Forall noise a).
    { intro a. apply star_noise. intros b (x & y & z & -> & -> & Hy & ->). cbn. rewrite app_nil_r. exact Hy. }
    intros a [H|H]; cbn in H.
    - destruct H as [[[H|H]|H]|H]; apply E, H.
    - destruct H as [[[[H|H]|H]|H]|H]; [destruct H as (x & -> & Hx); repeat constructor; exact Hx|..];
        destruct H as (x & y & z & -> & -> & Hy & Hz); cbn; apply Forall_app; (split; [exact Hy|]); apply S, Hz.
  Qed.

  Lemma reads_shape :
    (forall m e s o, reads m e s o -> forall s1 ts, o = Some (s1, ts) -> forall n, shape n m e ts) /\
    (forall m a s s1 ts, again m a s s1 ts -> forall n, exists b c, ts = b ++ c /\ Forall noise b /\ star (shape n m a) c) /\
    (forall m s s1 ts, skips m s s1 ts -> Forall noise ts).
  Proof.
    apply reads_all; try discriminate.
    - intros. injection H as <- <-. destruct n; reflexivity.
    - intros. injection H as <- <-. destruct n; reflexivity.
    - intros m a b s s1 t1 s2 t2 s3 t3 _ IH1 _ IH2 _ IH3 s4 ts E n. injection E as <- <-.
      assert (J : joined (shape n m a) (shape n m b) (t1 ++ t2 ++ t3)) by (exists t1, t2, t3; eauto 10). destruct n; exact J.
    - intros m a b s o _ IH s1 ts E n. specialize (IH s1 ts E n). destruct n; left; exact IH.
    - intros m a b s o _ _ _ IH s1 ts E n. specialize (IH s1 ts E n). destruct n; right; exact IH.
    - intros m a s o _ IH s1 ts E n. specialize (IH s1 ts E n). destruct n; right; exact IH.
    - intros m a s _ _ s1 ts E n. injection E as <- <-. destruct n; left; reflexivity.
    - intros m a s s1 t1 s2 t2 _ IH1 _ IH2 s3 ts E n. injection E as <- <-. destruct (IH2 n) as (b & c & -> & Hb & Hc).
      assert (J : star (shape n m a) (t1 ++ b ++ c)) by (apply star_more; eauto). destruct n; exact J.
    - intros m a s _ _ s1 ts E n. injection E as <- <-. assert (J : star (shape n m a) []) by constructor. destruct n; exact J.
    - intros m a s o _ IH s1 ts E n. specialize (IH s1 ts E n). destruct n; exact IH.
    - intros m k a s o _ IH s1 ts E n. specialize (IH s1 ts E n). apply times_shape in IH. destruct n; exact IH.
    - intros m a s _ _ s1 ts E n. injection E as <- <-. destruct n; reflexivity.
    - intros m a s s1 t1 w _ IH _ s2 ts E n. injection E as <- <-. specialize (IH _ _ eq_refl n). destruct n; exact IH.
    - intros m r k e s s1 t1 w Hr _ IH _ s2 ts E n. injection E as <- <-.
      assert (J : if makes_pair k m then single r (if makes_pair k m then [Node r (pos s) (pos s1) w t1] else t1)
        else match n with O => True | S n' => shape n' (body_mode r k m) e (if makes_pair k m then [Node r (pos s) (pos s1) w t1] else t1) end).
      { destruct (makes_pair k m); [eexists; split; reflexivity|]. destruct n; [exact I|]. eapply IH. reflexivity. }
      destruct n; cbn [shape]; rewrite Hr; exact J.
    - intros m r b P c s s1 Hr Hb _ _ s2 ts E n. injection E as <- <-. destruct b; try discriminate Hb; destruct n; cbn [shape]; rewrite Hr; reflexivity.
    - intros m r s Hr _ s1 ts E n. injection E as <- <-. destruct n; cbn [shape]; rewrite Hr; reflexivity.
    - intros m r s Hr _ s1 ts E n. injection E as <- <-.
      assert (J : if makes_pair Plain m then single r (if makes_pair Plain m then [Node r (pos s) (pos s) [] []] else []) else
        (if makes_pair Plain m then [Node r (pos s) (pos s) [] []] else []) = []).
      { destruct (makes_pair Plain m); [eexists; split; reflexivity|reflexivity]. }
      destruct n; cbn [shape]; rewrite Hr; exact J.
    - intros m r t st s o Hr _ _ IH s1 ts E n. specialize (IH s1 ts E n). destruct n; cbn [shape]; rewrite Hr; exact IH.
    - intros m r t st s o Hr _ _ IH s1 ts E n. specialize (IH s1 ts E n). destruct n; cbn [shape]; rewrite Hr; exact IH.
    - intros m a s s1 t1 _ _ _ _ n. exists [], []. repeat split; constructor.
    - intros m a s s1 t1 s2 t2 s3 t3 _ IH1 _ IH2 _ IH3 n. destruct (IH3 n) as (b & c & -> & Hb & Hc). exists t1, (t2 ++ b ++ c).
      split; [reflexivity|]. split; [exact IH1|]. apply star_more; eauto.
    - constructor.
    - intros s s1 t _ IH. eapply skip_shape, IH. reflexivity.
  Qed.

  (** ** Texts *)
  Inductive wstar (P : str -> Prop) : str -> Prop :=
  | wstar_nil : wstar P []
  | wstar_more : forall a b, P a -> wstar P b -> wstar P (a ++ b).
  Definition wjoined (P Q : str -> Prop) (w : str) : Prop := exists a b, w = a ++ b /\ P a /\ Q b.
  (** the texts that an expression can read where white space is not skipped *)
  Fixpoint spells (n : nat) : gexp -> str -> Prop :=
    fix go (e : gexp) (w : str) : Prop :=
      match e with
      | Text v => w = v
      | AnyCase v => same_but_case w v
      | Not _ => w = []
      | Then a b => wjoined (go a) (go b) w
      | Or a b => go a w \/ go b w
      | Maybe a => w = [] \/ go a w
      | Many a => wstar (go a) w
      | Several a => wjoined (go a) (wstar (go a)) w
      | Times _ a => wstar (go a) w
      | Push a => go a w
      | Name r =>
          match source r with
          | Rule NonAtomicRule _ => True
          | Rule _ e' => match n with O => True | S n' => spells n' e' w end
          | Built b => match is_char U b with Some P => exists c, w = [c] /\ P c | None => True end
          end
      end.
  Lemma wstar_one : forall (P : str -> Prop) a, P a -> wstar P a.
  Proof. intros P a H. rewrite <- (app_nil_r a). apply wstar_more; [exact H|constructor]. Qed.
  Lemma times_spells : forall n k a w, spells n (times k a) w -> wstar (spells n a) w.
  Proof.
    intros n k a. induction k as [|k IH]; intros w H; [destruct n; apply wstar_one; exact H|].
    destruct k as [|k]; [destruct n; apply wstar_one; exact H|].
    assert (J : wjoined (spells n a) (spells n (times (S k) a)) w) by (destruct n; exact H).
    destruct J as (x & y & -> & Hx & Hy). apply wstar_more; auto.
  Qed.

  Definition covers (s s1 : pstate) (P : str -> Prop) : Prop := exists w, rest s = w ++ rest s1 /\ P w.
  Lemma reads_spells :
    (forall m e s o, reads m e s o -> forall s1 ts, o = Some (s1, ts) -> m <> NonAtomic -> forall n, covers s s1 (spells n e)) /\
    (forall m a s s1 ts, again m a s s1 ts -> m <> NonAtomic -> forall n, covers s s1 (wstar (spells n a))) /\
    (forall m s s1 ts, skips m s s1 ts -> m <> NonAtomic -> s1 = s).
  Proof.
    apply reads_all; try discriminate.
    - intros m w s s1 (E & _) s2 ts X Hm n. injection X as <- <-. exists w. split; [exact E|destruct n; reflexivity].
    - intros m v w s s1 Hv (E & _) s2 ts X Hm n. injection X as <- <-. exists v. split; [exact E|destruct n; exact Hv].
    - intros m a b s s1 t1 s2 t2 s3 t3 _ IH1 _ IH2 _ IH3 s4 ts E Hm n. injection E as <- <-. rewrite (IH2 Hm) in *.
      destruct (IH1 s1 t1 eq_refl Hm n) as (x & Ex & Hx). destruct (IH3 s3 t3 eq_refl Hm n) as (y & Ey & Hy).
      exists (x ++ y). split; [rewrite Ex, Ey, app_assoc; reflexivity|].
      assert (J : wjoined (spells n a) (spells n b) (x ++ y)) by (exists x, y; auto). destruct n; exact J.
    - intros m a b s o _ IH s1 ts E Hm n. destruct (IH s1 ts E Hm n) as (w & Ew & Hw). exists w. split; [exact Ew|destruct n; left; exact Hw].
    - intros m a b s o _ _ _ IH s1 ts E Hm n. destruct (IH s1 ts E Hm n) as (w & Ew & Hw). exists w. split; [exact Ew|destruct n; right; exact Hw].
    - intros m a s o _ IH s1 ts E Hm n. destruct (IH s1 ts E Hm n) as (w & Ew & Hw). exists w. split; [exact Ew|destruct n; right; exact Hw].
    - intros m a s _ _ s1 ts E Hm n. injection E as <- <-. exists []. split; [reflexivity|destruct n; left; reflexivity].
    - intros m a s s1 t1 s2 t2 _ IH1 _ IH2 s3 ts E Hm n. injection E as <- <-.
      destruct (IH1 s1 t1 eq_refl Hm n) as (x & Ex & Hx). destruct (IH2 Hm n) as (y & Ey & Hy).
      exists (x ++ y). split; [rewrite Ex, Ey, app_assoc; reflexivity|].
      assert (J : wstar (spells n a) (x ++ y)) by (apply wstar_more; auto). destruct n; exact J.
    - intros m a s _ _ s1 ts E Hm n. injection E as <- <-. exists []. split; [reflexivity|].
      assert (J : wstar (spells n a) []) by constructor. destruct n; exact J.
    - intros m a s o _ IH s1 ts E Hm n. destruct (IH s1 ts E Hm n) as (w & Ew & Hw). exists w. split; [exact Ew|destruct n; exact Hw].
    - intros m k a s o _ IH s1 ts E Hm n. destruct (IH s1 ts E Hm n) as (w & Ew & Hw). apply times_spells in Hw. exists w. split; [exact Ew|destruct n; exact Hw].
    - intros m a s _ _ s1 ts E Hm n. injection E as <- <-. exists []. split; [reflexivity|destruct n; reflexivity].
    - intros m a s s1 t1 w _ IH _ s2 ts E Hm n. injection E as <- <-. destruct (IH s1 t1 eq_refl Hm n) as (x & Ex & Hx).
      exists x. split; [exact Ex|destruct n; exact Hx].
    - intros m r k e s s1 t1 w Hr _ IH Ew s2 ts E Hm n. injection E as <- <-.
      assert (D : k = NonAtomicRule \/ body_mode r k m <> NonAtomic).
      { unfold body_mode. destruct (implicit r); [right; discriminate|]. destruct k; auto; right; discriminate. }
      destruct D as [->|D].
      + exists w. split; [exact Ew|]. destruct n; cbn [spells]; rewrite Hr; exact I.
      + destruct n as [|n]; [exists w; split; [exact Ew|]; cbn [spells]; rewrite Hr; destruct k; exact I|].
        destruct (IH s1 t1 eq_refl D n) as (x & Ex & Hx). exists x. split; [exact Ex|]. cbn [spells]. rewrite Hr. destruct k; exact Hx || exact I.
    - intros m r b P c s s1 Hr Hb Hc (E & _) s2 ts X Hm n. injection X as <- <-. exists [c]. split; [exact E|].
      destruct n; cbn [spells]; rewrite Hr, Hb; eauto.
    - intros m r s Hr _ s1 ts E Hm n. injection E as <- <-. exists []. split; [reflexivity|]. destruct n; cbn [spells]; rewrite Hr; exact I.
    - intros m r s Hr _ s1 ts E Hm n. injection E as <- <-. exists []. split; [reflexivity|]. destruct n; cbn [spells]; rewrite Hr; exact I.
    - intros m r t st s o Hr _ _ IH s1 ts E Hm n. destruct (IH s1 ts E Hm n) as (w & Ew & _). exists w. split; [exact Ew|].
      destruct n; cbn [spells]; rewrite Hr; exact I.
    - intros m r t st s o Hr _ _ IH s1 ts E Hm n. destruct (IH s1 ts E Hm n) as (w & Ew & _). exists w. split; [exact Ew|].
      destruct n; cbn [spells]; rewrite Hr; exact I.
    - intros. exists []. split; [reflexivity|constructor].
    - intros m a s s1 t1 s2 t2 s3 t3 _ IH1 _ IH2 _ IH3 Hm n. rewrite (IH1 Hm) in *.
      destruct (IH2 s2 t2 eq_refl Hm n) as (x & Ex & Hx). destruct (IH3 Hm n) as (y & Ey & Hy).
      exists (x ++ y). split; [rewrite Ex, Ey, app_assoc; reflexivity|]. apply wstar_more; auto.
    - reflexivity.
    - congruence.
  Qed.

  (** ** Pairs that come from the grammar *)
  Inductive grown : tree rule -> Prop :=
  | grown_rule : forall r i j w l k e m s s1, source r = Rule k e -> makes_pair k m = true -> reads (body_mode r k m) e s (Some (s1, l)) ->
      rest s = w ++ rest s1 -> Forall grown l -> grown (Node r i j w l)
  | grown_end : forall i, grown (Node R_EOI i i [] []).
  Lemma reads_grown :
    (forall m e s o, reads m e s o -> forall s1 ts, o = Some (s1, ts) -> Forall grown ts) /\
    (forall m a s s1 ts, again m a s s1 ts -> Forall grown ts) /\
    (forall m s s1 ts, skips m s s1 ts -> Forall grown ts).
  Proof.
    apply reads_all; try discriminate; try (intros; match goal with H : Some _ = Some _ |- _ => injection H as <- <- end; constructor); eauto.
    - intros m a b s s1 t1 s2 t2 s3 t3 _ IH1 _ IH2 _ IH3 s4 ts E. injection E as <- <-. apply Forall_app. split; [eauto|]. apply Forall_app. eauto.
    - intros m a s s1 t1 s2 t2 _ IH1 _ IH2 s3 ts E. injection E as <- <-. apply Forall_app. eauto.
    - intros m a s s1 t1 w _ IH _ s2 ts E. injection E as <- <-. eauto.
    - intros m r k e s s1 t1 w Hr Hb IH Ew s2 ts E. injection E as <- <-. destruct (makes_pair k m) eqn:Em; [|eauto].
      constructor; [|constructor]. eapply grown_rule; eauto.
    - intros m r s Hr _ s1 ts E. injection E as <- <-. destruct m; cbn; repeat constructor;
      destruct r; try discriminate Hr; apply grown_end.
    - intros m a s s1 t1 s2 t2 s3 t3 _ IH1 _ IH2 _ IH3. apply Forall_app. split; [exact IH1|]. apply Forall_app. eauto.
  Qed.

  Lemma pair_mode : forall r k m, source r = Rule k (match source r with Rule _ e => e | _ => Text [] end) -> makes_pair k m = true ->
    k = AtomicRule /\ body_mode r k m = Atomic \/ k <> AtomicRule /\ body_mode r k m <> Atomic.
  Proof.
    intros r k m Hr Hm. unfold body_mode. destruct k; try discriminate Hm.
    - right. split; [discriminate|]. destruct (implicit r) eqn:Ei; [destruct r; try discriminate Ei; discriminate Hr|]. destruct m; discriminate.
    - left. destruct (implicit r); auto.
    - right. split; [discriminate|]. destruct (implicit r) eqn:Ei; [destruct r; try discriminate Ei; discriminate Hr|discriminate].
    - right. split; [discriminate|]. destruct (implicit r) eqn:Ei; [destruct r; try discriminate Ei; discriminate Hr|discriminate].
  Qed.
  (** what is inside a pair *)
  Lemma grown_shape : forall r i j w l k e, grown (Node r i j w l) -> source r = Rule k e -> k <> AtomicRule ->
    (forall n, shape n NonAtomic e l) \/ (forall n, shape n CompoundAtomic e l).
  Proof.
    intros r i j w l k e H Hr Hk. inversion H as [r' i' j' w' l' k' e' m s s1 Hr' Hm Hb Hw Hl|]; subst; [|discriminate].
    rewrite Hr in Hr'. injection Hr' as <- <-. destruct (pair_mode r k m) as [[A _]|[_ A]]; [rewrite Hr; reflexivity|exact Hm|contradiction|].
    pose proof (proj1 reads_shape _ _ _ _ Hb _ _ eq_refl) as G. destruct (body_mode r k m); [auto|auto|contradiction].
  Qed.
  (** the text of a pair *)
  Lemma grown_spells : forall r i j w l k e, grown (Node r i j w l) -> source r = Rule k e -> k = AtomicRule \/ k = CompoundRule ->
    forall n, spells n e w.
  Proof.
    intros r i j w l k e H Hr Hk n. inversion H as [r' i' j' w' l' k' e' m s s1 Hr' Hm Hb Hw Hl|]; subst; [|discriminate].
    rewrite Hr in Hr'. injection Hr' as <- <-.
    assert (D : body_mode r k m <> NonAtomic) by (unfold body_mode; destruct (implicit r); [discriminate|]; destruct Hk as [->| ->]; discriminate).
    destruct (proj1 reads_spells _ _ _ _ Hb _ _ eq_refl D n) as (x & Ex & Hx).
    rewrite Hw in Ex. apply app_inv_tail in Ex. subst x. exact Hx.
  Qed.
  Lemma grown_inner : forall r i j w l, grown (Node r i j w l) -> Forall grown l.
  Proof. intros r i j w l H. inversion H; subst; auto. Qed.
End Shape.
