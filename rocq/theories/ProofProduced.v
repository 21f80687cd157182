(** Every tree that the parser returns is one of [SpecImage]. *)
From Verif Require Import Base Ast SmError Peg Grammar Build Display SpecAst SpecClimb SpecSyntax SpecPest Source SpecValue SpecImage.
From Verif Require Import SpecOrder ProofOrder ProofDisplay ProofAst ProofValue ProofPest ProofInside ProofMeaning ProofToken ProofOrigin.
From Verif Require SpecSource ProofSource ProofImage ProofPeg.
Local Open Scope Z_scope.

Section Produced.
  Variable U : unicode.
  Hypothesis HU : sane U.
  Notation grown := (grown U).
  Notation reads := (reads U source).
  Notation again := (again U source).
  Notation skips := (skips U source).
  Notation produced := (produced U).

  Ltac shaped_by H r :=
    let G := fresh "G" in
    pose proof H as G; apply (grown_shape U) with (k := match source r with Rule k _ => k | _ => Plain end) (e := match source r with Rule _ e => e | _ => Text [] end) in G;
      [|reflexivity|discriminate]; destruct G as [G|G]; specialize (G 4%nat); cbn in G.
  Ltac spelled H r :=
    let G := fresh "G" in
    pose proof H as G; apply (grown_spells U) with (n := 4%nat) (k := match source r with Rule k _ => k | _ => Plain end) (e := match source r with Rule _ e => e | _ => Text [] end) in G;
      [|reflexivity|first [left; reflexivity|right; reflexivity]]; cbn in G.

  (** ** Words *)
  Definition spelled_word (w : str) : Prop :=
    wjoined (fun w => exists c, w = [c] /\ xid_start U c = true) (wstar (fun w => exists c, w = [c] /\ xid_continue U c = true)) w \/
    wjoined (fun w => w = lit "_") (wjoined (fun w => exists c, w = [c] /\ xid_continue U c = true) (wstar (fun w => exists c, w = [c] /\ xid_continue U c = true))) w.
  Lemma continues : forall w, wstar (fun w => exists c, w = [c] /\ xid_continue U c = true) w -> forallb (xid_continue U) w = true.
  Proof. induction 1 as [|a b (c & -> & Hc) _ IH]; [reflexivity|]. cbn [app forallb]. rewrite Hc. exact IH. Qed.
  Lemma spelled_word_word : forall w, spelled_word w -> word U w = true.
  Proof.
    intros w [(a & b & -> & (c & -> & Hc) & Hb)|(a & b & -> & -> & (x & y & -> & (c & -> & Hc) & Hy))].
    - cbn [app word]. rewrite Hc, (continues _ Hb). reflexivity.
    - change (lit "_") with [95%N]. cbn [app word forallb]. rewrite Hc, (continues _ Hy). apply orb_true_r.
  Qed.
  Lemma grown_word : forall i j w l, grown (Node R_SYMBOL i j w l) -> word U w = true.
  Proof. intros i j w l H. spelled H R_SYMBOL. apply spelled_word_word. exact G. Qed.
  Lemma join_segment : forall x y, word U x = true -> segment U y = true -> segment U (x ++ 8759%N :: y) = true.
  Proof.
    intros x y Hx Hy. unfold segment in *. assert (E : cut_at 8759%N (x ++ 8759%N :: y) = x :: cut_at 8759%N y).
    { assert (N : ~ In 8759%N x).
      { destruct (HU 8759%N eq_refl) as [S C]. destruct x as [|c x]; [discriminate|]. cbn [word] in Hx. intros [->|I]; [rewrite S in Hx; discriminate|].
        assert (F : forallb (xid_continue U) x = true) by (apply orb_prop in Hx as [H|H]; apply andb_prop in H as [_ H]; [exact H|destruct x; [discriminate|exact H]]).
        rewrite forallb_forall in F. rewrite (F _ I) in C. discriminate. }
      clear Hx. induction x as [|c x IH]; [reflexivity|]. cbn [app cut_at]. rewrite IH by (intro I; apply N; right; exact I).
      destruct (c =? 8759)%N eqn:D; [|reflexivity]. apply N.eqb_eq in D. subst c. destruct N. left. reflexivity. }
    rewrite E. cbn [forallb]. rewrite Hx. exact Hy.
  Qed.
  Lemma grown_path : forall i j w l, grown (Node R_Symbol i j w l) -> exists x m, w = x ++ path_tail m /\ segment U x = true /\ forallb (segment U) m = true.
  Proof.
    intros i j w l H. spelled H R_Symbol. clear H. destruct G as (a & b & -> & Ha & Hb). apply spelled_word_word in Ha. revert a Ha.
    induction Hb as [|x y (p & v & -> & Hp & Hv) _ IH]; intros a Ha.
    - exists a, []. split; [reflexivity|]. split; [apply (ProofSource.word_part U HU), Ha|reflexivity].
    - apply spelled_word_word in Hv. destruct (IH v Hv) as (x & m & E & Hx & Hm). destruct Hp as [->| ->].
      + exists a, (x :: m). split; [cbn [path_tail]; rewrite <- E, <- app_assoc; reflexivity|]. split; [apply (ProofSource.word_part U HU), Ha|]. cbn [forallb]. rewrite Hx. exact Hm.
      + exists (a ++ 8759%N :: x), m. split; [|split; [apply join_segment; assumption|exact Hm]]. rewrite <- app_assoc. cbn [app]. rewrite <- app_assoc in *. cbn [app] in *. rewrite E. reflexivity.
  Qed.
  Lemma parts_of_named : forall w l, name_parts (SpecSource.named w l) = w :: l.
  Proof. intros w l. unfold name_parts, SpecSource.named. cbn [name_space name]. symmetry. apply app_removelast_last. discriminate. Qed.
  Lemma path_writable : forall i j w l s, grown (Node R_Symbol i j w l) -> named w s -> writable U s /\ SpecSource.constant_like (hd [] (name_parts s)) = SpecSource.constant_like w.
  Proof.
    intros i j w l s H N. destruct (grown_path _ _ _ _ H) as (x & m & -> & Hx & Hm). apply named_symbol in N. rewrite (ProofSource.named_symbol U HU x m Hx Hm) in N. subst s.
    unfold writable. rewrite parts_of_named. cbn [hd]. split; [|symmetry; apply ProofImage.constant_tail].
    split; [|split; reflexivity]. constructor; [exact Hx|]. apply Forall_forall. rewrite forallb_forall in Hm. exact Hm.
  Qed.
  Lemma word_named : forall w s, word U w = true -> named w s -> s = mkSymbol [] w Normal 0.
  Proof.
    intros w s H N. apply named_symbol in N. subst s. pose proof (ProofSource.named_symbol U HU w [] (ProofSource.word_part U HU w H) eq_refl) as E. cbn [path_tail] in E. rewrite app_nil_r in E. exact E.
  Qed.

  (** ** Readings *)
  Lemma skips_same : forall m s s1 t, m <> NonAtomic -> skips m s s1 t -> s1 = s /\ t = [].
  Proof. intros m s s1 t N H. inversion H; subst; [split; reflexivity|contradiction]. Qed.
  Lemma then_inv : forall m a b s s3 t, m <> NonAtomic -> reads m (Then a b) s (Some (s3, t)) ->
    exists s1 t1 t3, reads m a s (Some (s1, t1)) /\ reads m b s1 (Some (s3, t3)) /\ t = t1 ++ t3.
  Proof. intros m a b s s3 t N H. inversion H as [| | | |? ? ? ? s1 t1 s2 t2 ? t3 H1 H2 H3| | | | | | | | | | | | | | | | | | | | | | | |]; subst. apply skips_same in H2 as [-> ->]; [|exact N]. exists s1, t1, t3. auto. Qed.
  Lemma or_inv : forall m a b s o, reads m (Or a b) s (Some o) -> reads m a s (Some o) \/ reads m a s None /\ reads m b s (Some o).
  Proof. intros m a b s o H. inversion H; subst; auto. Qed.
  Lemma or_none : forall m a b s, reads m (Or a b) s None -> reads m a s None /\ reads m b s None.
  Proof. intros m a b s H. inversion H; subst; auto. Qed.
  Lemma text_inv : forall m w s s1 t, reads m (Text w) s (Some (s1, t)) -> past w s s1 /\ t = [].
  Proof. intros m w s s1 t H. inversion H; subst; auto. Qed.
  Lemma text_none : forall m w s, reads m (Text w) s None -> forall k, rest s <> w ++ k.
  Proof. intros m w s H k E. inversion H as [|? ? ? N| | | | | | | | | | | | | | | | | | | | | | | | | | |]; subst. apply N. exists k. exact E. Qed.
  Lemma name_inv : forall m r k e s s1 t, source r = Rule k e -> reads m (Name r) s (Some (s1, t)) ->
    exists t1 w, reads (body_mode r k m) e s (Some (s1, t1)) /\ rest s = w ++ rest s1 /\ t = (if makes_pair k m then [Node r (pos s) (pos s1) w t1] else t1).
  Proof. intros m r k e s s1 t E H. inversion H; subst; try congruence. match goal with A : source r = Rule ?k' ?e', B : reads (body_mode r ?k' _) ?e' _ _ |- _ => rewrite E in A; injection A as <- <- end. eauto. Qed.
  Lemma name_none : forall m r k e s, source r = Rule k e -> reads m (Name r) s None -> reads (body_mode r k m) e s None.
  Proof. intros m r k e s E H. inversion H; subst; congruence. Qed.
  Lemma not_inv : forall m a s s1 t, reads m (Not a) s (Some (s1, t)) -> reads m a s None /\ s1 = s /\ t = [].
  Proof. intros m a s s1 t H. inversion H; subst; auto. Qed.
  Lemma any_inv : forall m s s1 t, reads m (Name R_ANY) s (Some (s1, t)) -> exists c, past [c] s s1.
  Proof. intros m s s1 t H. inversion H; subst; try discriminate. eauto. Qed.
  Lemma many_inv : forall m a s s1 t, reads m (Many a) s (Some (s1, t)) -> reads m a s None /\ s1 = s \/ exists s2 t1 t2, reads m a s (Some (s2, t1)) /\ again m a s2 s1 t2.
  Proof. intros m a s s1 t H. inversion H; subst; [right; eauto 10|left; auto]. Qed.
  Lemma mode_atomic : forall r m, implicit r = false -> body_mode r AtomicRule m = Atomic.
  Proof. intros r m E. unfold body_mode. rewrite E. reflexivity. Qed.
  Lemma quote_inv : forall m s s1 t, reads m (Name R_Quotation) s (Some (s1, t)) -> past [34%N] s s1.
  Proof. intros m s s1 t H. destruct (name_inv _ R_Quotation _ _ _ _ _ eq_refl H) as (t1 & w & R & _). apply text_inv in R. apply R. Qed.
  Lemma quote_none : forall m s, reads m (Name R_Quotation) s None -> head_is (N.eqb 34) (rest s) = false.
  Proof.
    intros m s H. apply (name_none _ R_Quotation _ _ _ eq_refl) in H. destruct (rest s) as [|c k] eqn:E; [reflexivity|]. cbn [head_is].
    destruct (34 =? c)%N eqn:D; [|reflexivity]. apply N.eqb_eq in D. subst c. destruct (text_none _ _ _ H k). exact E.
  Qed.
  Lemma escape_inv : forall m s s1 t, reads m (Name R_Escape) s (Some (s1, t)) -> past [92%N] s s1.
  Proof. intros m s s1 t H. destruct (name_inv _ R_Escape _ _ _ _ _ eq_refl H) as (t1 & w & R & _). apply text_inv in R. apply R. Qed.
  Lemma sign_reads : forall r c s k m, source r = Rule AtomicRule (Text [c]) -> implicit r = false -> rest s = c :: k ->
    exists s1 t, reads m (Name r) s (Some (s1, t)) /\ rest s1 = k.
  Proof.
    intros r c s k m E I R. eexists (mkPs (pos s + 1) k (stk s)), _. split; [|reflexivity]. eapply r_rule with (w := [c]); [exact E| |exact R].
    apply r_text. unfold past. cbn. auto.
  Qed.

  (** ** Names that are not constants *)
  Lemma special_reads : forall m s, SpecSource.constant_like (rest s) = true -> reads m (Name R_Special) s None -> False.
  Proof.
    intros m s C H. apply (name_none _ R_Special _ _ _ eq_refl) in H. apply or_none in H as [H H3]. apply or_none in H as [H1 H2].
    unfold SpecSource.constant_like in C. cbn [existsb] in C.
    assert (K : forall k x, starts_with k x = true -> exists y, x = k ++ y).
    { intros k x Hk. unfold starts_with in Hk. destruct (strip_prefix k x) as [y|] eqn:E; [|discriminate]. exists y. apply ProofPeg.strip_prefix_app, E. }
    repeat (apply orb_prop in C as [C|C]); try discriminate; apply K in C as [y C]; [exact (text_none _ _ _ H1 y C)|exact (text_none _ _ _ H2 y C)|exact (text_none _ _ _ H3 y C)].
  Qed.
  Lemma constant_app : forall w k, SpecSource.constant_like w = true -> SpecSource.constant_like (w ++ k) = true.
  Proof.
    intros w k H. unfold SpecSource.constant_like in *. apply existsb_exists in H as (x & I & H). apply existsb_exists. exists x. split; [exact I|].
    unfold starts_with in *. destruct (strip_prefix x w) as [y|] eqn:E; [|discriminate]. apply ProofPeg.strip_prefix_app in E. subst w.
    destruct (strip_prefix x ((x ++ y) ++ k)) eqn:D; [reflexivity|]. assert (Q : strip_prefix x ((x ++ y) ++ k) = Some (y ++ k)) by (apply ProofPeg.strip_prefix_app; symmetry; apply app_assoc). congruence.
  Qed.
  Lemma data_name_ordinary : forall i j w i' j' w' l l', grown (Node R_data i j w (Node R_Symbol i' j' w' l' :: l)) -> SpecSource.constant_like w' = false.
  Proof.
    intros i j w i' j' w' l l' H. inversion H as [? ? ? ? ? k e m s s1 Hr Hm Hb Hw _|]; subst. cbn in Hr. injection Hr as <- <-.
    assert (M : body_mode R_data CompoundRule m = CompoundAtomic) by reflexivity. rewrite M in Hb.
    apply or_inv in Hb as [Hb|[Hn Hb]].
    { exfalso. pose proof (proj1 (reads_shape U) _ _ _ _ Hb _ _ eq_refl 2%nat) as G. cbn in G.
      repeat (destruct G as [G|G]); destruct G as (t & E & Ht); injection E as <- _; discriminate Ht. }
    apply or_none in Hn as [Hn _]. apply or_none in Hn as [Hn _]. apply or_none in Hn as [Hn _]. apply or_none in Hn as [Hn _]. apply or_none in Hn as [_ Hn].
    destruct (SpecSource.constant_like w') eqn:C; [|reflexivity]. exfalso. refine (special_reads _ s _ Hn).
    destruct (name_inv _ R_Symbol _ _ _ _ _ eq_refl Hb) as (t1 & w1 & _ & E & F). cbn in F. injection F as _ _ <- _. rewrite E. apply constant_app, C.
  Qed.

  (** ** Strings *)
  Definition item : gexp := Or (Then (Name R_Escape) (Or (Name R_Quotation) (Name R_Escape))) (Then (Not (Name R_Quotation)) (Name R_ANY)).
  Definition paired (k : str) : bool := match k with d :: _ => (d =? 34)%N || (d =? 92)%N | [] => false end.
  Lemma item_inv : forall s s1 t, reads Atomic item s (Some (s1, t)) ->
    (exists d, (d = 34%N \/ d = 92%N) /\ rest s = 92%N :: d :: rest s1) \/
    (exists c, c <> 34%N /\ (c = 92%N -> paired (rest s1) = false) /\ rest s = c :: rest s1).
  Proof.
    intros s s1 t H. apply or_inv in H as [H|[N H]]; (destruct (then_inv Atomic _ _ _ _ _ ltac:(discriminate) H) as (s2 & t2 & t3 & H1 & H2 & _)).
    - left. apply escape_inv in H1. destruct H1 as (E1 & _). apply or_inv in H2 as [H2|[_ H2]]; [apply quote_inv in H2|apply escape_inv in H2]; destruct H2 as (E2 & _); rewrite E2 in E1; eexists; (split; [|exact E1]); auto.
    - right. apply not_inv in H1 as (H1 & -> & _). apply any_inv in H2 as (c & E & _). exists c. apply quote_none in H1. rewrite E in H1. cbn [app head_is] in H1. apply N.eqb_neq in H1.
      split; [congruence|]. split; [|exact E]. intros ->. destruct (paired (rest s1)) eqn:P; [|reflexivity]. exfalso.
      destruct (rest s1) as [|d k] eqn:R; [discriminate|]. cbn [paired] in P. destruct (sign_reads R_Escape 92%N s (d :: k) Atomic eq_refl eq_refl E) as (s3 & t4 & A & B).
      assert (Q : exists s4 t5, reads Atomic (Or (Name R_Quotation) (Name R_Escape)) s3 (Some (s4, t5))).
      { destruct (d =? 34)%N eqn:D.
        - apply N.eqb_eq in D. subst d. destruct (sign_reads R_Quotation 34%N s3 k Atomic eq_refl eq_refl B) as (s4 & t5 & Q & _). exists s4, t5. apply r_or1, Q.
        - cbn [orb] in P. apply N.eqb_eq in P. subst d. destruct (sign_reads R_Escape 92%N s3 k Atomic eq_refl eq_refl B) as (s4 & t5 & Q & _). exists s4, t5. apply r_or2; [|exact Q].
          eapply r_rule_no; [reflexivity|]. apply r_text_no. intros (x & X). rewrite B in X. discriminate X. }
      destruct Q as (s4 & t5 & Q). pose proof (r_then U source Atomic _ _ _ _ _ _ _ _ _ A (skips_nothing U source Atomic s3 ltac:(discriminate)) Q) as X.
      pose proof (reads_once U _ _ _ _ _ N X) as Y. discriminate Y.
  Qed.
  Lemma items_quotable : forall s s1 t, again Atomic item s s1 t -> head_is (N.eqb 34) (rest s1) = true -> exists w, rest s = w ++ rest s1 /\ quotable w = true.
  Proof.
    intros s s1 t H Q. remember Atomic as m eqn:M. remember item as e eqn:E. revert M E Q. induction H as [m a s s1 t1 _ _|m a s s1 t1 s2 t2 s3 t3 Hs Hr _ IH]; intros -> -> Q.
    - exists []. split; reflexivity.
    - apply skips_same in Hs as [-> _]; [|discriminate]. destruct (IH eq_refl eq_refl Q) as (w & E & Hw). apply item_inv in Hr as [(d & Hd & R)|(c & Hc & Hp & R)]; rewrite E in R.
      + exists (92%N :: d :: w). split; [exact R|]. cbn [quotable]. cbn. destruct Hd as [->| ->]; exact Hw.
      + exists (c :: w). split; [exact R|]. cbn [quotable]. destruct (c =? 92)%N eqn:C.
        * apply N.eqb_eq in C. specialize (Hp C). rewrite E in Hp. destruct w as [|d w].
          -- cbn [app] in Hp. destruct (rest s3) as [|q k]; [discriminate Q|]. cbn [head_is] in Q. apply N.eqb_eq in Q. subst q. discriminate Hp.
          -- cbn [app paired] in Hp. rewrite Hp. exact Hw.
        * apply N.eqb_neq in Hc. rewrite Hc. exact Hw.
  Qed.
  Lemma normal_quotable : forall i j s l, grown (Node R_StringNormal i j (quoted s) l) -> quotable s = true.
  Proof.
    intros i j s l H. inversion H as [? ? ? ? ? k e m a a1 Hr Hm Hb Hw _|]; subst. cbn in Hr. injection Hr as <- <-. change (body_mode R_StringNormal AtomicRule m) with Atomic in Hb.
    destruct (then_inv Atomic _ _ _ _ _ ltac:(discriminate) Hb) as (a2 & t2 & t3 & H1 & H2 & _). destruct (then_inv Atomic _ _ _ _ _ ltac:(discriminate) H1) as (a3 & t4 & t5 & H3 & H4 & _).
    apply quote_inv in H3 as (E3 & _). apply quote_inv in H2 as (E2 & _).
    assert (X : exists w, rest a3 = w ++ rest a2 /\ quotable w = true).
    { change (reads Atomic (Many item) a3 (Some (a2, t5))) in H4. assert (Q : head_is (N.eqb 34) (rest a2) = true) by (rewrite E2; reflexivity).
      apply many_inv in H4 as [[_ ->]|(b & u1 & u2 & R & A)]; [exists []; split; reflexivity|].
      apply (items_quotable a3 a2 (u1 ++ u2)); [|exact Q]. rewrite <- (app_nil_l (u1 ++ u2)). eapply again_more; [apply skips_nothing; discriminate|exact R|exact A]. }
    destruct X as (w & E & Qw). rewrite E, E2 in E3. rewrite E3 in Hw. unfold quoted in Hw. cbn [app] in Hw. injection Hw as Hw. rewrite <- !app_assoc in Hw. cbn [app] in Hw.
    apply app_inv_tail in Hw. subst w. exact Qw.
  Qed.

  Lemma quotes_again : forall m s s1 t, again m (Name R_Quotation) s s1 t -> m <> NonAtomic -> exists n, rest s = repeat 34%N n ++ rest s1 /\ head_is (N.eqb 34) (rest s1) = false.
  Proof.
    intros m s s1 t H. remember (Name R_Quotation) as e eqn:E. revert E. induction H as [m a s s1 t1 Hs Hr|m a s s1 t1 s2 t2 s3 t3 Hs Hr _ IH]; intros -> M.
    - apply skips_same in Hs as [-> _]; [|exact M]. apply quote_none in Hr. exists O. auto.
    - apply skips_same in Hs as [-> _]; [|exact M]. destruct (IH eq_refl M) as (n & E & Hh). apply quote_inv in Hr as (E1 & _). exists (S n). cbn [repeat app]. rewrite <- E. auto.
  Qed.
  Lemma quotes_many : forall m s s1 t, reads m (Many (Name R_Quotation)) s (Some (s1, t)) -> m <> NonAtomic -> exists n, rest s = repeat 34%N n ++ rest s1 /\ head_is (N.eqb 34) (rest s1) = false.
  Proof.
    intros m s s1 t H M. apply many_inv in H as [[H ->]|(s2 & t1 & t2 & H & A)].
    - exists O. split; [reflexivity|]. apply quote_none in H. exact H.
    - apply quote_inv in H as (E & _). destruct (quotes_again _ _ _ _ A M) as (n & E' & Hh). exists (S n). cbn [repeat app]. rewrite <- E'. auto.
  Qed.
  Lemma three_inv : forall m s s1 t, m <> NonAtomic -> reads m (Times 3 (Name R_Quotation)) s (Some (s1, t)) -> rest s = lit """""""" ++ rest s1.
  Proof.
    intros m s s1 t M H. inversion H; subst. match goal with A : reads m (times 3 _) _ _ |- _ => rename A into R end. cbn [times] in R.
    destruct (then_inv m _ _ _ _ _ M R) as (s2 & t2 & t3 & H1 & H2 & _). destruct (then_inv m _ _ _ _ _ M H2) as (s3 & t4 & t5 & H3 & H4 & _).
    apply quote_inv in H1 as (E1 & _). apply quote_inv in H3 as (E3 & _). apply quote_inv in H4 as (E4 & _). rewrite E1, E3, E4. reflexivity.
  Qed.
  Lemma quotes_only : forall m e s s1 t, (e = Times 3 (Name R_Quotation) \/ e = Push (Many (Name R_Quotation))) -> reads m e s (Some (s1, t)) -> m = CompoundAtomic ->
    Forall (fun x => rule_of x <> R_StringText) t.
  Proof.
    intros m e s s1 t He H ->. pose proof (proj1 (reads_shape U) _ _ _ _ H _ _ eq_refl 2%nat) as G.
    assert (S : star (single R_Quotation) t) by (destruct He as [->| ->]; exact G). revert S. apply star_forall.
    - intros a (x & -> & Hx). constructor; [rewrite Hx; discriminate|constructor].
    - intros x Hx. unfold noise in Hx. rewrite Hx. discriminate.
  Qed.
  Definition closing_fence : gexp := Then (Times 3 (Name R_Quotation)) (Name R_PEEK).
  Definition step : gexp := Then (Not closing_fence) (Name R_ANY).
  Lemma step_inv : forall s s1 t, reads Atomic step s (Some (s1, t)) -> reads Atomic closing_fence s None /\ (exists c, rest s = c :: rest s1) /\ stk s1 = stk s.
  Proof.
    intros s s1 t H. destruct (then_inv Atomic _ _ _ _ _ ltac:(discriminate) H) as (s2 & t2 & t3 & H1 & H2 & _). apply not_inv in H1 as (H1 & -> & _). apply any_inv in H2 as (c & E & _ & K).
    split; [exact H1|]. split; [exists c; exact E|exact K].
  Qed.
  Lemma steps_last : forall s s1 t, again Atomic step s s1 t -> s1 = s \/ exists x c v, rest x = c :: rest s1 /\ stk x = stk s /\ reads Atomic closing_fence x None /\ rest s = v ++ rest x.
  Proof.
    intros s s1 t H. remember Atomic as m eqn:M. remember step as e eqn:E. revert M E. induction H as [m a s s1 t1 _ _|m a s s1 t1 s2 t2 s3 t3 Hs Hr _ IH]; intros -> ->.
    - left. reflexivity.
    - apply skips_same in Hs as [-> _]; [|discriminate]. right. apply step_inv in Hr as (A & (c & B) & C). destruct (IH eq_refl eq_refl) as [->|(x & d & v & D & K & F & V)].
      + exists s, c, []. auto.
      + exists x, d, (c :: v). rewrite K, C, B, V. auto.
  Qed.
  Lemma fence_reads : forall s n k z, rest s = lit """""""" ++ repeat 34%N n ++ z -> stk s = repeat 34%N n :: k -> reads Atomic closing_fence s None -> False.
  Proof.
    intros s n k z E K H.
    assert (Q : forall a k, rest a = 34%N :: k -> exists b t, reads Atomic (Name R_Quotation) a (Some (b, t)) /\ rest b = k /\ stk b = stk a).
    { intros a r Ha. destruct (sign_reads R_Quotation 34%N a r Atomic eq_refl eq_refl Ha) as (b & t & R & F). exists b, t. split; [exact R|]. split; [exact F|].
      exact (level_stack U _ (Name R_Quotation) _ _ _ eq_refl R). }
    assert (N : forall a, skips Atomic a a []) by (intro a; apply skips_nothing; discriminate).
    destruct (Q s _ E) as (b & t & R1 & E1 & K1). destruct (Q b _ E1) as (c & t' & R2 & E2 & K2). destruct (Q c _ E2) as (d & t'' & R3 & E3 & K3).
    assert (T : exists u, reads Atomic (Times 3 (Name R_Quotation)) s (Some (d, u))).
    { eexists. apply r_times. cbn [times]. eapply r_then; [exact R1|apply N|]. eapply r_then; [exact R2|apply N|exact R3]. }
    destruct T as [u T].
    assert (P : exists e v, reads Atomic (Name R_PEEK) d (Some (e, v))).
    { eexists (mkPs (pos d + length (repeat 34%N n)) z (stk d)), _. eapply r_peek; [reflexivity|rewrite K3, K2, K1; exact K|]. apply r_text. unfold past. cbn [rest pos stk]. auto. }
    destruct P as (e & v & P). pose proof (r_then U source Atomic _ _ _ _ _ _ _ _ _ T (N d) P) as X. pose proof (reads_once U _ _ _ _ _ H X) as Y. discriminate Y.
  Qed.
  Lemma pop_inv : forall m s s1 t, reads m (Name R_POP) s (Some (s1, t)) -> forall v k, stk s = v :: k -> rest s = v ++ rest s1.
  Proof.
    intros m s s1 t H v k E. inversion H; subst; try discriminate;
      try match goal with A : source R_POP = Built ?b, B : is_char U ?b = _ |- _ => cbn in A; injection A as <-; discriminate B end.
    match goal with A : stk s = ?t' :: _, B : reads _ (Text ?t') _ _ |- _ => apply text_inv in B as [(B & _) _]; rewrite E in A; injection A as <- _; exact B end.
  Qed.
  Lemma repeat_shift : forall n (c : char) z, c :: repeat c n ++ z = repeat c n ++ c :: z.
  Proof. induction n as [|n IH]; intros c z; [reflexivity|]. cbn [repeat app]. rewrite IH. reflexivity. Qed.
  Lemma block_text : forall i j w l t l', grown (Node R_StringBlock i j w (l ++ t :: l')) -> rule_of t = R_StringText ->
    text_of t <> [] /\ hd_error (text_of t) <> Some 34%N /\ last (text_of t) 0%N <> 34%N.
  Proof.
    intros i j w l t l' H Ht. inversion H as [? ? ? ? ? k e m a a1 Hr Hm Hb Hw _|]; subst. cbn in Hr. injection Hr as <- <-. change (body_mode R_StringBlock CompoundRule m) with CompoundAtomic in Hb.
    destruct (then_inv CompoundAtomic _ _ _ _ _ ltac:(discriminate) Hb) as (b4 & u4 & q3 & H1 & H5 & E4). destruct (then_inv CompoundAtomic _ _ _ _ _ ltac:(discriminate) H1) as (b3 & u3 & u5 & H2 & H4 & E3).
    destruct (then_inv CompoundAtomic _ _ _ _ _ ltac:(discriminate) H2) as (b2 & u2 & u6 & H3 & HT & E2). destruct (then_inv CompoundAtomic _ _ _ _ _ ltac:(discriminate) H3) as (b1 & q1 & q2 & H6 & H7 & E1).
    pose proof (quotes_only _ _ _ _ _ (or_introl eq_refl) H6 eq_refl) as Q1. pose proof (quotes_only _ _ _ _ _ (or_intror eq_refl) H7 eq_refl) as Q2. pose proof (quotes_only _ _ _ _ _ (or_introl eq_refl) H5 eq_refl) as Q3.
    pose proof (proj1 (reads_shape U) _ _ _ _ H4 _ _ eq_refl 2%nat) as Z. cbn in Z. subst u5.
    destruct (name_inv _ R_StringText _ _ _ _ _ eq_refl HT) as (t1 & x & B & EX & F). change (body_mode R_StringText AtomicRule CompoundAtomic) with Atomic in B. cbn [makes_pair] in F. subst u6.
    assert (X : text_of t = x).
    { assert (I : In t (l ++ t :: l')) by (apply in_app_iff; right; left; reflexivity). rewrite E4, E3, E2, E1 in I. rewrite app_nil_r in I. rewrite Forall_forall in Q1, Q2, Q3.
      apply in_app_iff in I as [I|I]; [|contradiction (Q3 _ I Ht)]. apply in_app_iff in I as [I|[<-|[]]]; [|reflexivity].
      apply in_app_iff in I as [I|I]; [contradiction (Q1 _ I Ht)|contradiction (Q2 _ I Ht)]. }
    rewrite X. clear X. apply three_inv in H5; [|discriminate].
    inversion H7; subst. match goal with A : reads CompoundAtomic (Many _) b1 (Some (?c, _)), A2 : rest b1 = ?v ++ rest ?c |- _ => rename A into MQ; rename A2 into EV end.
    destruct (quotes_many _ _ _ _ MQ ltac:(discriminate)) as (n & EN & HN). rewrite EV in EN. apply app_inv_tail in EN. subst w0.
    assert (POP : rest b3 = repeat 34%N n ++ rest b4).
    { pose proof (level_stack U _ (Name R_StringText) _ _ _ eq_refl HT) as K. cbn [with_stack stk] in K. exact (pop_inv _ _ _ _ H4 _ _ K). }
    cbn [with_stack rest] in EX.
    inversion B as [| | | | | | | | | | | | |? ? ? ? S'| | | | | | | | | | | | | | |]; subst. destruct (then_inv Atomic _ _ _ _ _ ltac:(discriminate) S') as (c1 & v1 & v2 & S1 & S2 & _).
    change (reads Atomic step (with_stack s1 (repeat 34%N n :: stk s1)) (Some (c1, v1))) in S1. change (reads Atomic (Many step) c1 (Some (b3, v2))) in S2.
    apply step_inv in S1 as (A1 & (c & A2) & A3). cbn [with_stack rest stk] in A2, A3.
    assert (LAST : exists y d x', rest y = d :: rest b3 /\ stk y = repeat 34%N n :: stk s1 /\ reads Atomic closing_fence y None /\ x = x' ++ [d]).
    { apply many_inv in S2 as [[_ ->]|(c2 & y1 & y2 & R & A)].
      - exists (with_stack s1 (repeat 34%N n :: stk s1)), c, []. rewrite A2 in EX. split; [exact A2|]. split; [reflexivity|]. split; [exact A1|].
        change (c :: rest c1) with ([c] ++ rest c1) in EX. apply app_inv_tail in EX. symmetry. exact EX.
      - destruct (steps_last c1 b3 (y1 ++ y2)) as [Y|(y & d & v & D & K & F & V)].
        + rewrite <- (app_nil_l (y1 ++ y2)). eapply again_more; [apply skips_nothing; discriminate|exact R|exact A].
        + exists (with_stack s1 (repeat 34%N n :: stk s1)), c, []. subst b3. rewrite A2 in EX. split; [exact A2|]. split; [reflexivity|]. split; [exact A1|].
          change (c :: rest c1) with ([c] ++ rest c1) in EX. apply app_inv_tail in EX. symmetry. exact EX.
        + exists y, d, (c :: v). split; [exact D|]. split; [rewrite K; exact A3|]. split; [exact F|]. rewrite A2, V, D in EX.
          change (c :: v ++ d :: rest b3) with ((c :: v) ++ [d] ++ rest b3) in EX. rewrite app_assoc in EX. apply app_inv_tail in EX. symmetry. exact EX. }
    destruct LAST as (y & d & x' & D & K & F & ->). split; [|split].
    - destruct x'; discriminate.
    - rewrite EX in HN. destruct x' as [|x0 x']; cbn [app head_is hd_error] in HN |- *; intros E; injection E as ->; discriminate.
    - rewrite last_last. intros ->. rewrite POP, H5 in D. refine (fence_reads y n _ (34%N :: rest a1) _ K F). rewrite D.
      change (lit """""""" ++ rest a1) with (34%N :: 34%N :: 34%N :: rest a1). rewrite <- !repeat_shift. reflexivity.
  Qed.

  (** ** Numbers *)
  Lemma digits_forall : forall w, forallb digit w = true -> Forall is_digit w.
  Proof. intros w H. apply Forall_forall. rewrite forallb_forall in H. intros c I. specialize (H c I). unfold digit in H. apply andb_prop in H as [A B]. apply N.leb_le in A, B. unfold is_digit. lia. Qed.
  Lemma digits_value : forall w, digits w -> 0 <= numeral_value w.
  Proof. intros w [_ H]. apply numeral_value_bounds, digits_forall, H. Qed.
  Lemma numeral_digits : forall y, numeral y = true -> has_digits (Z.of_nat (length y)) (numeral_value y).
  Proof.
    intros [|c y] H; [discriminate|]. cbn [numeral] in H. unfold has_digits. destruct (c =? 48)%N eqn:C.
    - apply N.eqb_eq in C. subst c. destruct y; [|discriminate]. left. cbn. lia.
    - apply andb_prop in H as [Hc Hy]. assert (D : Forall is_digit (c :: y)) by (apply digits_forall; cbn [forallb]; rewrite Hc; exact Hy).
      pose proof (numeral_value_bounds _ D) as B. pose proof (numeral_value_bounds _ (digits_forall _ Hy)) as B'. apply N.eqb_neq in C.
      rewrite numeral_value_cons in *. unfold digit in Hc. apply andb_prop in Hc as [A1 A2]. apply N.leb_le in A1, A2. unfold digit_value in *. cbn [length] in *. rewrite Nat2Z.inj_succ in *.
      destruct y as [|d y]; [left; cbn in *; lia|right]. split; [cbn [length]; lia|]. rewrite Z.sub_1_r, Z.pred_succ. split; [|lia]. assert (1 <= Z.of_N c - 48) by lia. nia.
  Qed.
  Definition spelled_integer (w : str) : Prop :=
    w = lit "0" \/ wjoined (fun w => exists c, w = [c] /\ between 49%N 57%N c) (wstar (fun w => exists c, w = [c] /\ between 48%N 57%N c)) w.
  Lemma integer_numeral : forall w, spelled_integer w -> numeral w = true.
  Proof.
    intros w [->|(a & b & -> & (c & -> & Hc) & Hb)]; [reflexivity|]. unfold between in Hc. cbn [app numeral]. destruct (c =? 48)%N eqn:C; [apply N.eqb_eq in C; lia|].
    rewrite (wstar_digits _ _ digit_between Hb), andb_true_r. unfold digit. apply andb_true_intro. split; apply N.leb_le; lia.
  Qed.
  Lemma numeral_no_dot : forall w, forallb digit w = true -> ~ In 46%N w.
  Proof. intros w H I. rewrite forallb_forall in H. specialize (H _ I). discriminate. Qed.
  Lemma numeral_all_digits : forall w, numeral w = true -> forallb digit w = true.
  Proof. intros [|c w] H; [discriminate|]. cbn [numeral] in H. cbn [forallb]. destruct (c =? 48)%N eqn:C; [|exact H]. apply N.eqb_eq in C. subst c. destruct w; [reflexivity|discriminate]. Qed.
  Lemma cut_unique : forall (c : char) a b x y, ~ In c a -> ~ In c x -> a ++ c :: b = x ++ c :: y -> a = x /\ b = y.
  Proof.
    intros c. induction a as [|d a IH]; intros b [|e x] y Ha Hx E; cbn [app] in E.
    - injection E as ->. auto.
    - injection E as -> _. contradiction Hx. left. reflexivity.
    - injection E as -> _. contradiction Ha. left. reflexivity.
    - injection E as -> E. destruct (IH b x y) as [-> ->]; auto; intro I; [apply Ha|apply Hx]; right; exact I.
  Qed.
  Lemma decimal_produced : forall i j x y l, grown (Node R_Decimal i j (x ++ lit "." ++ y) l) -> digits x -> digits y ->
    produced (Decimal (mkDecimal (numeral_value (x ++ y)) (Z.of_nat (length y)))).
  Proof.
    intros i j x y l H Hx Hy. spelled H R_Decimal. destruct G as (a & b & E & (a' & p & -> & Ha & ->) & Hb). apply integer_numeral in Ha. apply integer_numeral in Hb.
    rewrite <- app_assoc in E. change (lit "." ++ y) with (46%N :: y) in E. change (lit "." ++ b) with (46%N :: b) in E.
    apply cut_unique in E as [-> ->]; [|apply numeral_no_dot, Hx|apply numeral_no_dot, numeral_all_digits, Ha]. rewrite numeral_value_app. apply produced_decimal; [apply digits_value, Hx|apply numeral_digits, Hb].
  Qed.
  Lemma based_nonneg : forall b P s, based b P -> grouped P s = true -> 0 <= based_value (base_of b) s.
  Proof.
    intros b P s B G. assert (K : 0 <= base_of b) by (unfold base_of; repeat match goal with |- context [if ?x then _ else _] => destruct x end; lia).
    assert (F : forall c, P c = true -> 0 <= figure c).
    { intros c Hc. assert (H : (48 <= c <= 57 \/ 97 <= c <= 102 \/ 65 <= c <= 70)%N).
      { destruct B; unfold bin_digit, oct_digit, hex_digit in Hc; rewrite ?orb_true_iff, !andb_true_iff, !N.leb_le in Hc; lia. }
      unfold figure, digit. destruct ((48 <=? c) && (c <=? 57))%N eqn:D; [rewrite andb_true_iff, !N.leb_le in D; lia|].
      destruct ((97 <=? c) && (c <=? 102))%N eqn:D'; [rewrite andb_true_iff, !N.leb_le in D'; lia|]. assert (65 <= c)%N; [|lia].
      rewrite andb_false_iff, !N.leb_gt in D, D'. lia. }
    unfold based_value. assert (A : forall n s a, (length s <= n)%nat -> grouped P s = true -> 0 <= a -> 0 <= fold_left (fun a c => if (c =? 95)%N then a else base_of b * a + figure c) s a).
    { clear G s. induction n as [|n IH]; intros s a Hn G Ha; [destruct s; [exact Ha|cbn in Hn; lia]|]. destruct s as [|c s]; [exact Ha|]. cbn [length grouped fold_left] in *. destruct (c =? 95)%N.
      - destruct s as [|d s]; [discriminate|]. apply andb_prop in G as [Hd G]. cbn [fold_left length] in *. apply IH; [lia|exact G|]. destruct (d =? 95)%N; [exact Ha|]. specialize (F d Hd). nia.
      - apply andb_prop in G as [Hc G]. apply IH; [lia|exact G|]. specialize (F c Hc). nia. }
    apply (A (length s)); [apply le_n|exact G|apply Z.le_refl].
  Qed.

  (** ** Calls *)
  Variable f text : str.
  Notation call_at := (call_at f text).
  Lemma call_produced : forall s vs t, writable U s -> Forall produced vs -> produced (call_at s vs t).
  Proof.
    intros s vs t W V. apply produced_call; [exact W|discriminate|]. constructor; [|constructor]. split; [exact V|]. split; [|constructor].
    intros i j a b _ E _. destruct i; discriminate E.
  Qed.
  Lemma standard_writable : forall m n, word U m = true -> word U n = true -> writable U (standard m n).
  Proof. intros m n Hm Hn. split; [|split; reflexivity]. repeat apply Forall_cons; try apply Forall_nil; apply (ProofSource.word_part U HU); [reflexivity|exact Hm|exact Hn]. Qed.
  Lemma operator_produced : forall s n vs t, operator_symbol s n -> (n <= length vs)%nat -> Forall produced vs -> produced (call_at s vs t).
  Proof. intros s n vs t O L V. exact (produced_operator U s n vs (spot f text t) O L V). Qed.
  Lemma dotted_produced : forall t a b c, dotted f text t a b c -> produced a -> produced b -> produced c.
  Proof.
    intros t a b c [s|s args opts p ps|n] Ha Hb.
    - inversion Hb as [| | |E|? W O| | | | |]; subst; [apply (operator_produced _ 1); [constructor|cbn; lia|auto]|apply call_produced; auto].
    - inversion Hb as [| | | | | |? ? W N F|? k ? ? O L F|l vs ? F1 L F2|o z l ? Hz F]; subst.
      + apply produced_call; [exact W|discriminate|]. inversion F as [|? ? (F1 & F2 & F3) F']; subst. constructor; [|exact F']. cbn [arguments options] in *. auto.
      + apply (produced_operator U s k); [exact O|cbn [length]; lia|auto].
      + apply (produced_product U (a :: l) vs); auto.
      + apply (produced_back U o z (a :: l)); auto.
    - apply call_produced; [apply standard_writable; reflexivity|]. repeat constructor; [exact Ha|]. inversion Hb; subst. assumption.
  Qed.
  Lemma prefixed_produced : forall l a b, prefixed f text l a b -> produced a -> produced b.
  Proof.
    induction 1 as [a|t l a b n Ht _ IH Hn]; intro Ha; [exact Ha|]. apply (operator_produced _ 1); [|cbn; lia|auto]. apply operator_prefix. apply lookup_in, Hn.
  Qed.
  Lemma factors_simple : forall l vs, Forall2 factor_value l vs -> Forall grown l -> Forall (simple_factor U) vs.
  Proof.
    induction 1 as [|t v l vs H _ IH]; intro Hl; [constructor|]. inversion Hl as [|? ? H1 H2]; subst. constructor; [|auto].
    destruct H as [i j w l' Hd|i j w l' s Hs]; [apply SpecImage.factor_integer, digits_value, Hd|apply factor_symbol; eapply path_writable; eassumption].
  Qed.
  Lemma word_quotable : forall w, word U w = true -> quotable w = true.
  Proof.
    intros w H. assert (N : ~ In 34%N w /\ ~ In 92%N w).
    { destruct w as [|c w]; [discriminate|]. cbn [word] in H. assert (F : forallb (xid_continue U) w = true) by (apply orb_prop in H as [H|H]; apply andb_prop in H as [_ H]; [exact H|destruct w; [discriminate|exact H]]).
      rewrite forallb_forall in F. split; intros [->|I]; try discriminate H; specialize (F _ I); discriminate F. }
    clear H. induction w as [|c w IH]; [reflexivity|]. cbn [quotable]. destruct N as [N1 N2]. destruct (c =? 92)%N eqn:C; [apply N.eqb_eq in C; subst c; contradiction N2; left; reflexivity|].
    destruct (c =? 34)%N eqn:D; [apply N.eqb_eq in D; subst c; contradiction N1; left; reflexivity|]. apply IH. split; intro I; [apply N1|apply N2]; right; exact I.
  Qed.
  Lemma slots_produced : forall l vs, Forall2 slot_value l vs -> Forall grown l -> Forall produced vs.
  Proof.
    induction 1 as [|t v l vs H _ IH]; intro Hl; [constructor|]. inversion Hl as [|? ? H1 H2]; subst. constructor; [|auto].
    destruct H as [i j w l'|i j w l' Hd]; [apply produced_string; left; apply word_quotable; eapply grown_word; eassumption|apply produced_integer, digits_value, Hd].
  Qed.
  Lemma register_input : forall c s, register c s -> exists o, s = input_symbol o.
  Proof. intros c s [[_ ->]|[_ ->]]; [exists false|exists true]; reflexivity. Qed.
  Lemma refers_produced : forall w s n t, refers w s n -> produced (call_at s [Integer n] t).
  Proof.
    intros w s n t [c s' x Hr Hd|c s' k Hr]; destruct (register_input _ _ Hr) as [o ->].
    - apply call_produced; [|repeat constructor; apply digits_value, Hd]. destruct o; apply standard_writable; reflexivity.
    - apply (produced_back U o _ []); [lia|constructor].
  Qed.
  Lemma string_produced : forall x s, string_value x s -> grown x -> produced (Str s).
  Proof.
    intros x s [i j s' l|i j w l t l' Ht _] H; apply produced_string.
    - left. eapply normal_quotable, H.
    - right. eapply block_text; eassumption.
  Qed.
  Lemma factors_count : forall l vs, Forall2 factor_value l vs -> length l = length vs.
  Proof. induction 1; cbn [length]; congruence. Qed.
  Lemma joined_length : forall (P Q : list (tree rule) -> Prop) x y l, (forall a, P a -> (x <= length a)%nat) -> (forall a, Q a -> (y <= length a)%nat) -> joined P Q l -> (x + y <= length l)%nat.
  Proof. intros P Q x y l HP HQ (a & b & c & -> & Ha & _ & Hc). rewrite !app_length. specialize (HP _ Ha). specialize (HQ _ Hc). lia. Qed.
  Lemma single_length : forall r l, single r l -> (1 <= length l)%nat.
  Proof. intros r l (t & -> & _). cbn. lia. Qed.
  Ltac counted := repeat match goal with
    | H : _ \/ _ |- _ => destruct H
    | H : single _ ?l |- (1 <= length ?l)%nat => exact (single_length _ _ H) end.
  Lemma two_factors : forall i j w l, grown (Node R_space_call i j w l) -> (2 <= length l)%nat.
  Proof.
    intros i j w l H. shaped_by H R_space_call; clear H; revert G; apply (joined_length _ _ 1 1); intros a Ha; try solve [counted].
    all: revert Ha; apply (joined_length _ _ 1 0); [|intros; lia]; intros b Hb; revert Hb; apply (joined_length _ _ 0 1); [intros; lia|]; intros c Hc; counted.
  Qed.
  Lemma some_apply : forall i j w h l, grown (Node R_apply_call i j w (h :: l)) -> l <> [].
  Proof.
    intros i j w h l H E. assert (L : (2 <= length (h :: l))%nat); [|subst l; cbn in L; lia].
    shaped_by H R_apply_call; clear H; revert G; apply (joined_length _ _ 1 1); intros a Ha; try solve [counted].
    all: revert Ha; apply (joined_length _ _ 1 0); [|intros; lia]; intros b Hb; revert Hb; apply (joined_length _ _ 0 1); [intros; lia|]; intros c Hc; counted.
  Qed.
  Definition good_pair (o : ast * ast) : Prop := (exists k, fst o = Sym (mkSymbol [] k Normal 0) /\ word U k = true) /\ produced (snd o).
  Definition good_param (p : parameter) : Prop := Forall produced (arguments p) /\ strictly_increasing earlier_key (map fst (options p)) /\ Forall good_pair (options p).
  Lemma collected_good : forall writes opts, collected writes opts -> Forall good_pair writes -> Forall good_pair opts /\ strictly_increasing earlier_key (map fst opts).
  Proof.
    intros writes opts C W. destruct (collected_among _ _ C) as [_ I]. assert (G : Forall good_pair opts) by (apply Forall_forall; rewrite Forall_forall in W; intros o Ho; apply W, I, Ho).
    split; [exact G|]. destruct C as [S _]. intros i j a b L Ha Hb. pose proof (S i j a b L Ha Hb) as Q. rewrite nth_error_map in Ha, Hb.
    destruct (nth_error opts i) as [o|] eqn:Ei; [|discriminate]. destruct (nth_error opts j) as [o'|] eqn:Ej; [|discriminate]. cbn in Ha, Hb. injection Ha as <-. injection Hb as <-.
    rewrite Forall_forall in G. destruct (G _ (nth_error_In _ _ Ei)) as [(k & Ek & _) _]. destruct (G _ (nth_error_In _ _ Ej)) as [(k' & Ek' & _) _]. rewrite Ek, Ek' in *.
    apply key_before in Q. exact Q.
  Qed.
  Notation inner := (grown_inner U _ _ _ _ _).

  Lemma all_produced :
    (forall t a, expr_value f text t a -> grown t -> produced a) /\
    (forall t b a, group_value f text t b a -> Forall grown (written b) -> produced a) /\
    (forall t a, term_value f text t a -> grown t -> produced a) /\
    (forall r a b, suffixed f text r a b -> Forall grown r -> produced a -> produced b) /\
    (forall l vs, indices_value f text l vs -> Forall grown l -> Forall produced vs) /\
    (forall t a, index_value f text t a -> grown t -> produced a) /\
    (forall r d l v, bound_value f text r d l v -> Forall grown l -> produced d -> produced v) /\
    (forall t a, node_value f text t a -> grown t -> produced a) /\
    (forall l ps, applies f text l ps -> Forall grown l -> Forall good_param ps /\ (l <> [] -> ps <> [])) /\
    (forall l args kvs, arguments_value f text l args kvs -> Forall grown l -> Forall produced args /\ Forall good_pair kvs) /\
    (forall t a, data_value f text t a -> grown t -> (forall i j w l, t = Node R_Symbol i j w l -> SpecSource.constant_like w = false) -> produced a) /\
    (forall l vs, elements_value f text l vs -> Forall grown l -> Forall produced vs).
  Proof.
    apply values_all.
    - intros i j w x0 l k b a t _ _ _ Hw _ IH Ht. unfold t in Ht. apply grown_inner in Ht. apply Forall_app in Ht as [L _]. rewrite Hw in IH. apply IH, L.
    - intros t x a _ IH H. cbn [written] in *. inversion H; subst. auto.
    - intros t l o r a b c Ho _ IHl _ IHr Hd H. cbn [written] in *. apply Forall_app in H as [Hl H]. inversion H as [|? ? H1 H2]; subst. eapply dotted_produced; eauto.
    - intros t l o r a b q n p Ho Hd _ IHl _ IHr Hs H. cbn [written] in *. apply Forall_app in H as [Hl H]. inversion H as [|? ? H1 H2]; subst.
      apply (operator_produced _ 2); [eapply operator_infix; [apply lookup_in, Hs|exact Hd]|cbn; lia|auto].
    - intros i j w l x r a b c _ IHn _ IHs Hp H. apply grown_inner in H. apply Forall_app in H as [L L']. inversion L' as [|? ? Lx Lr]; subst. eapply prefixed_produced; eauto.
    - intros a _ D. exact D.
    - intros t r a b n Ht Hn _ IH H D. inversion H as [|? ? H1 H2]; subst. apply IH; [exact H2|]. apply (operator_produced _ 1); [|cbn; lia|auto]. apply operator_suffix, lookup_in, Hn.
    - intros i j w l r a b vs _ IHl _ IH H D. inversion H as [|? ? H1 H2]; subst. apply IH; [exact H2|]. apply call_produced; [apply standard_writable; reflexivity|]. constructor; [exact D|]. apply IHl. eapply grown_inner, H1.
    - intros _. constructor.
    - intros c l vs Hc _ IH H. inversion H; subst. auto.
    - intros x l v vs _ IHx _ IH H. inversion H; subst. auto.
    - intros i j w x v _ IH H. apply grown_inner in H. inversion H; subst. auto.
    - intros i j w a c b va vb t _ IHa Hc _ IHb H. unfold t in H. apply grown_inner in H. apply Forall_app in H as [La L]. inversion L as [|? ? Lc Lb]; subst.
      apply call_produced; [apply standard_writable; reflexivity|]. repeat constructor; [apply IHa; [exact La|constructor; lia]|apply IHb; [exact Lb|]|lia].
      apply produced_name; [apply standard_writable; reflexivity|reflexivity].
    - intros i j w a c b d e va vb ve t _ IHa Hc _ IHb Hd _ IHe H. unfold t in H. apply grown_inner in H. apply Forall_app in H as [La L]. inversion L as [|? ? Lc Lb']; subst. apply Forall_app in Lb' as [Lb L']. inversion L' as [|? ? Ld Le]; subst.
      apply call_produced; [apply standard_writable; reflexivity|]. repeat constructor; [apply IHa; [exact La|constructor; lia]|apply IHb; [exact Lb|]|apply IHe; [exact Le|constructor; lia]].
      apply produced_name; [apply standard_writable; reflexivity|reflexivity].
    - intros r d _ D. exact D.
    - intros r d i j w x v _ IH H _. inversion H as [|? ? H1 _]; subst. apply grown_inner in H1. inversion H1; subst. auto.
    - intros i j w x l v _ IH H. apply grown_inner in H. inversion H; subst. auto.
    - intros i j w i' j' w' h l l' s ps Hh Hs _ IH H. apply grown_inner in H. inversion H as [|? ? La _]; subst. pose proof (some_apply _ _ _ _ _ La) as N. apply grown_inner in La. inversion La as [|? ? Lh Ll]; subst.
      destruct (IH Ll) as [D E]. apply produced_call; [|auto|exact D]. destruct h as [r0 i0 j0 w0 l0]. cbn in Hh, Hs. subst r0. eapply path_writable; eassumption.
    - intros i j w i' j' w' l l' vs t Hv H. unfold t in H. apply grown_inner in H. inversion H as [|? ? La _]; subst. pose proof (two_factors _ _ _ _ La) as N. apply grown_inner in La.
      apply (produced_product U [] vs); [apply Forall_nil|rewrite <- (factors_count _ _ Hv); exact N|eapply factors_simple; eassumption].
    - intros i j w i' j' w' x l l' v _ IH H. apply grown_inner in H. inversion H as [|? ? La _]; subst. apply IH; [apply grown_inner in La; inversion La; assumption|].
      intros i0 j0 w0 l0 ->. eapply data_name_ordinary, La.
    - intros _. split; [constructor|congruence].
    - intros i j w l r args writes opts ps t _ IHa Hc _ IH H. inversion H as [|? ? H1 H2]; subst. apply grown_inner in H1. destruct (IHa H1) as [D1 D2]. destruct (IH H2) as [D3 _]. destruct (collected_good _ _ Hc D2) as [D4 D5].
      split; [|discriminate]. constructor; [|exact D3]. split; [exact D1|]. auto.
    - intros _. split; constructor.
    - intros c l args kvs Hc _ IH H. inversion H; subst. auto.
    - intros i j w x l v args kvs _ IHx _ IH H. inversion H as [|? ? H1 H2]; subst. destruct (IH H2) as [D1 D2]. apply grown_inner in H1. inversion H1; subst. auto.
    - intros i j w k s c x l v args kvs Hk Hs Hc _ IHx _ IH H. inversion H as [|? ? H1 H2]; subst. destruct (IH H2) as [D1 D2]. apply grown_inner in H1.
      inversion H1 as [|? ? Lk L']; subst. inversion L' as [|? ? Lc L'']; subst. inversion L'' as [|? ? Lx _]; subst. split; [exact D1|]. constructor; [|exact D2]. split; [|auto].
      destruct k as [r0 i0 j0 w0 l0]. cbn in Hk, Hs. subst r0. exists w0. pose proof (grown_word _ _ _ _ Lk) as W. split; [|exact W]. cbn [fst]. f_equal. apply word_named; assumption.
    - intros i j w l Hd _ _. apply produced_integer, digits_value, Hd.
    - intros i j x y l Hx Hy H _. eapply decimal_produced; eassumption.
    - intros i j b P s l Hb Hs Hg Hu _ _. apply produced_integer. eapply based_nonneg; eassumption.
    - intros i j w l a [] _ _; constructor.
    - intros i j w l s Hs H O. destruct (path_writable _ _ _ _ _ H Hs) as [W E]. apply produced_name; [exact W|]. exact (eq_trans E (O _ _ _ _ eq_refl)).
    - intros i j w l x s _ Hx H _. apply grown_inner in H. apply Forall_app in H as [_ H]. inversion H; subst. eapply string_produced; eassumption.
    - intros i j w l s n t Hr _ _. eapply refers_produced, Hr.
    - intros i j w l vs t Hv H _. unfold t in H. apply grown_inner in H. apply call_produced; [|eapply slots_produced; eassumption]. destruct (starts_with (lit "##") w); apply standard_writable; reflexivity.
    - intros i j w l vs t _ IH H _. unfold t in H. apply grown_inner in H. apply call_produced; [apply standard_writable; reflexivity|auto].
    - intros _. constructor.
    - intros c l vs Hc _ IH H. inversion H; subst. auto.
    - intros x l v vs _ IHx _ IH H. inversion H; subst. auto.
  Qed.
End Produced.

Lemma parse_produced : forall U f text a, sane U -> parse U f text = Ret (Ok a) -> a = EmptyStatement \/ produced U a.
Proof.
  intros U f text a HU H. apply parse_tree in H as (s & ts & R & V). pose proof (proj1 (reads_grown U) _ _ _ _ R _ _ eq_refl) as G.
  destruct V as [t _|i j w x l l' a _ Hx]; [left; reflexivity|right]. inversion G as [|? ? H1 _]; subst. apply grown_inner in H1. inversion H1; subst. eapply (proj1 (all_produced U HU f text)); eassumption.
Qed.
