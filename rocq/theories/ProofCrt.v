(** Garner's algorithm: [chinese_remainder]. *)
From Verif Require Import Base AlgoError NumTypes AlgoBasic SpecNum ProofBasic.
From Coq Require Import Znumtheory.
Local Open Scope Z_scope.

(** Mixed-radix value of digits [v] over moduli [d]. *)
Fixpoint mrval (l : list (Z * Z)) : Z :=
  match l with
  | [] => 0
  | (v, d) :: l' => v + d * mrval l'
  end.

Lemma congruent_refl : forall m a, congruent m a a.
Proof. intros. exists 0. ring. Qed.

Lemma rem_congruent : forall m a, congruent m (Z.rem a m) a.
Proof.
  intros m a. pose proof (Z.quot_rem' a m). exists (- (Z.quot a m)). nia.
Qed.

Lemma crt_prod_spec : forall ms mi p, mi <> 0 ->
  exists p', crt_prod ms mi p = Ret p' /\ congruent mi p' (p * product ms).
Proof.
  induction ms as [|v ms IH]; intros mi p Hmi.
  - exists p. cbn. split; auto. exists 0. ring.
  - cbn [crt_prod]. unfold big_rem. replace (mi =? 0) with false by lia. cbn [obind].
    destruct (IH mi (Z.rem (p * v) mi) Hmi) as (p' & E & C).
    exists p'. split; auto. cbn [product fold_right]. fold (product ms).
    destruct C as [k Hk]. destruct (rem_congruent mi (p * v)) as [j Hj].
    exists (k + j * product ms). nia.
Qed.

Lemma crt_eval_app : forall a b mi t,
  crt_eval (a ++ b) mi t = obind (crt_eval a mi t) (crt_eval b mi).
Proof.
  induction a as [|[vj mj] a IH]; intros; cbn; auto.
  unfold big_rem. destruct (mi =? 0); cbn; auto.
Qed.

Lemma crt_eval_spec : forall l mi, mi <> 0 ->
  exists t, crt_eval (rev l) mi 0 = Ret t /\ congruent mi t (mrval l).
Proof.
  induction l as [|[v d] l IH]; intros mi Hmi.
  - exists 0. cbn. split; auto. apply congruent_refl.
  - cbn [rev mrval]. destruct (IH mi Hmi) as (t & E & k & Hk).
    rewrite crt_eval_app, E. cbn [obind crt_eval]. unfold big_rem.
    replace (mi =? 0) with false by lia. cbn [obind].
    eexists. split; eauto. destruct (rem_congruent mi v) as [j Hj].
    exists (d * k + j). nia.
Qed.

Lemma mrval_snoc : forall v d x y, length v = length d ->
  mrval (combine (v ++ [x]) (d ++ [y])) = mrval (combine v d) + product d * x.
Proof.
  induction v as [|a v IH]; intros [|b d] x y H; cbn in H; try discriminate.
  - cbn [combine app mrval product fold_right]. ring.
  - cbn [combine app mrval product fold_right]. fold (product d).
    rewrite IH by lia. ring.
Qed.

Lemma crt_assemble_spec : forall l r,
  crt_assemble (rev l) r = mrval l + product (map snd l) * r.
Proof.
  induction l as [|[v d] l IH]; intros r.
  - cbn [rev crt_assemble fold_left mrval map product fold_right]. unfold crt_assemble. cbn [fold_left]. ring.
  - cbn [rev]. unfold crt_assemble in *. rewrite fold_left_app, IH.
    cbn [fold_left fst snd mrval map product fold_right]. fold (product (map snd l)). ring.
Qed.

Lemma combine_firstn_len : forall (A B : Type) (v : list A) (d r : list B),
  length v = length d -> combine v (d ++ r) = combine v d.
Proof.
  induction v; intros [|b d] r H; cbn in *; try discriminate; auto. f_equal. apply IHv. lia.
Qed.

Lemma map_snd_combine : forall (v d : list Z), length v = length d -> map snd (combine v d) = d.
Proof. induction v; intros [|b d] H; cbn in *; try discriminate; auto. f_equal. apply IHv. lia. Qed.

(** gcd with a product *)
Lemma gcd_mul_1 : forall a b c, Z.gcd (a * b) c = 1 <-> Z.gcd a c = 1 /\ Z.gcd b c = 1.
Proof.
  intros. rewrite !Zgcd_1_rel_prime. split.
  - intros H. split.
    + apply rel_prime_div with (p := a * b); auto. exists b. ring.
    + apply rel_prime_div with (p := a * b); auto. exists a. ring.
  - intros [H1 H2]. apply rel_prime_sym. apply rel_prime_mult; apply rel_prime_sym; auto.
Qed.

Lemma gcd_product_1 : forall l c, Z.gcd (product l) c = 1 <-> Forall (fun d => Z.gcd d c = 1) l.
Proof.
  induction l; intros c; cbn [product fold_right].
  - split; auto. intros _. apply Z.gcd_1_l.
  - fold (product l). rewrite gcd_mul_1, IHl. split.
    + intros [H1 H2]. constructor; auto.
    + intros H. inversion H; auto.
Qed.

Lemma gcd_congruent : forall m a b, congruent m a b -> Z.gcd a m = Z.gcd b m.
Proof.
  intros m a b [k Hk]. replace a with (b + k * m) by lia.
  rewrite Z.gcd_comm, Z.gcd_add_mult_diag_r. apply Z.gcd_comm.
Qed.

Lemma pairwise_snoc : forall l x,
  pairwise_coprime (l ++ [x]) <-> pairwise_coprime l /\ Forall (fun d => Z.gcd d x = 1) l.
Proof.
  unfold pairwise_coprime. induction l as [|a l IH]; intros x; cbn [app].
  - split; [intros _; split; constructor|]. intros _. constructor; constructor.
  - split.
    + intros H. inversion H as [|a' l' Hh Ht]; subst. apply IH in Ht. destruct Ht as [Ht Hx].
      apply Forall_app in Hh. destruct Hh as [Hl Hx']. inversion Hx'; subst.
      split; constructor; auto.
    + intros [H Hx]. inversion H; inversion Hx; subst. constructor; [|apply IH; auto].
      apply Forall_app. split; auto.
Qed.

Lemma pairwise_app_l : forall l r, pairwise_coprime (l ++ r) -> pairwise_coprime l.
Proof.
  intros l r. revert l. induction r as [|x r IH]; intros l H.
  - now rewrite app_nil_r in H.
  - replace (l ++ x :: r) with ((l ++ [x]) ++ r) in H by (rewrite <- app_assoc; auto).
    apply IH in H. apply pairwise_snoc in H. tauto.
Qed.

Definition nonzero (l : list Z) : Prop := Forall (fun x => x <> 0) l.

(** One iteration. *)
Lemma crt_iteration : forall done v u mi us ms,
  length v = length done -> mi <> 0 ->
  (Forall (fun d => Z.gcd d mi = 1) done /\
   exists d, Z.abs d < Z.abs mi /\
     congruent mi (mrval (combine v done) + product done * d) u /\
     crt_loop (done ++ mi :: ms) (u :: us) (mi :: ms) v
     = crt_loop (done ++ mi :: ms) us ms (v ++ [d])) \/
  (~ Forall (fun d => Z.gcd d mi = 1) done /\
   crt_loop (done ++ mi :: ms) (u :: us) (mi :: ms) v = Ret None).
Proof.
  intros done v u mi us ms Hl Hmi. cbn [crt_loop].
  rewrite firstn_app, <- Hl, Nat.sub_diag. cbn [firstn]. rewrite app_nil_r, Hl, firstn_all.
  destruct (crt_prod_spec done mi 1 Hmi) as (p & E & C). rewrite E. cbn [obind].
  rewrite Z.mul_1_l in C. pose proof (gcd_congruent _ _ _ C) as G.
  rewrite <- gcd_product_1.
  destruct (modulo_inverse_spec p mi) as [(G1 & ci & Ei & Hi)|(G1 & Ei)]; rewrite Ei; cbn [obind].
  - left. split; [congruence|].
    rewrite combine_firstn_len by auto.
    destruct (crt_eval_spec (combine v done) mi Hmi) as (t & Et & Ct). rewrite Et. cbn [obind].
    unfold big_rem. replace (mi =? 0) with false by lia. cbn [obind].
    exists (Z.rem ((u - t) * ci) mi). split; [apply Z.rem_bound_abs; auto|]. split; auto.
    destruct (rem_congruent mi ((u - t) * ci)) as [k1 H1].
    destruct Ct as [k2 H2]. destruct C as [k3 H3]. destruct Hi as [k4 H4].
    set (d := Z.rem ((u - t) * ci) mi) in *.
    replace d with ((u - t) * ci + k1 * mi) by lia.
    replace t with (mrval (combine v done) + k2 * mi) by lia.
    replace (product done) with (p - k3 * mi) by lia.
    set (V := mrval (combine v done)) in *.
    (* V + (p - k3 mi)((u - V - k2 mi) ci + k1 mi) - u *)
    exists ((u - V - k2 * mi) * k4 - k2 + (p - k3 * mi) * k1 - k3 * (u - V - k2 * mi) * ci).
    assert (Hp : p * ci = 1 + k4 * mi) by lia.
    transitivity (V - u + (u - V - k2 * mi) * (p * ci) + (p - k3 * mi) * k1 * mi
                  - k3 * (u - V - k2 * mi) * ci * mi); [ring|].
    rewrite Hp. ring.
  - right. split; [congruence|auto].
Qed.

Lemma crt_iteration_zero : forall done v u us ms, length v = length done ->
  crt_loop (done ++ 0 :: ms) (u :: us) (0 :: ms) v = Panic PDivZero.
Proof.
  intros done v u us ms Hl. cbn [crt_loop].
  rewrite firstn_app, <- Hl, Nat.sub_diag. cbn [firstn]. rewrite app_nil_r, Hl, firstn_all.
  destruct done as [|d done].
  - cbn [crt_prod obind]. destruct v; [|discriminate].
    destruct (modulo_inverse_spec 1 0) as [(G1 & ci & Ei & Hi)|(G1 & Ei)]; rewrite Ei; cbn [obind].
    + cbn. reflexivity.
    + exfalso. now apply G1.
  - cbn. reflexivity.
Qed.

Definition digit_bound (v m : list Z) : Prop := Forall2 (fun d mi => Z.abs d < Z.abs mi) v m.

(** What the answer of the loop means, [m] being the full list. *)
Definition crt_loop_post (udone done us ms : list Z) (res : outcome (option (list Z))) : Prop :=
  match res with
  | Ret (Some v) =>
      pairwise_coprime (done ++ ms) /\ nonzero (done ++ ms) /\
      solves (mrval (combine v (done ++ ms))) (udone ++ us) (done ++ ms) /\
      digit_bound v (done ++ ms)
  | Ret None => exists pre mi post, ms = pre ++ mi :: post /\ nonzero (done ++ pre ++ [mi]) /\
      pairwise_coprime (done ++ pre) /\ ~ pairwise_coprime (done ++ pre ++ [mi])
  | Panic k => k = PDivZero /\ exists pre post, ms = pre ++ 0 :: post /\
      nonzero (done ++ pre) /\ pairwise_coprime (done ++ pre)
  | OutOfFuel => False
  end.

Lemma product_divide : forall l x, In x l -> (x | product l).
Proof.
  induction l; intros x H; [destruct H|]. cbn [product fold_right]. fold (product l).
  destruct H as [->|H].
  - exists (product l). ring.
  - destruct (IHl x H) as [k Hk]. exists (a * k). rewrite Hk. ring.
Qed.

Lemma solves_shift : forall x y u m, solves x u m -> (forall mi, In mi m -> (mi | y - x)) ->
  solves y u m.
Proof.
  unfold solves. intros x y u m H. induction H as [|ui mi u m H1 H2 IH]; intros Hd; constructor.
  - destruct H1 as [k Hk]. destruct (Hd mi (or_introl eq_refl)) as [j Hj]. exists (j + k). lia.
  - apply IH. intros mi' Hin. apply Hd. now right.
Qed.

Lemma crt_loop_spec : forall us ms udone done v,
  length us = length ms -> length v = length done ->
  pairwise_coprime done -> nonzero done ->
  solves (mrval (combine v done)) udone done -> digit_bound v done ->
  crt_loop_post udone done us ms (crt_loop (done ++ ms) us ms v).
Proof.
  induction us as [|u us IH]; intros [|mi ms] udone done v Hlu Hlv Hp Hn Hs Hb;
    cbn [length] in Hlu; try discriminate.
  - cbn [crt_loop crt_loop_post]. rewrite !app_nil_r. auto.
  - destruct (Z.eq_dec mi 0) as [->|Hmi].
    + rewrite crt_iteration_zero by auto. cbn. split; auto. exists [], ms.
      rewrite app_nil_r. auto.
    + destruct (crt_iteration done v u mi us ms Hlv Hmi) as [(Hf & d & Hd & Hc & E)|(Hf & E)]; rewrite E.
      * specialize (IH ms (udone ++ [u]) (done ++ [mi]) (v ++ [d])).
        rewrite <- app_assoc in IH. cbn [app] in IH.
        match goal with |- crt_loop_post _ _ _ _ ?r => set (res := r) in * end.
        assert (IH' : crt_loop_post (udone ++ [u]) (done ++ [mi]) us ms res).
        { apply IH.
          - lia.
          - rewrite !app_length. cbn. lia.
          - apply pairwise_snoc. auto.
          - apply Forall_app. split; auto.
          - rewrite mrval_snoc by auto. apply Forall2_app.
            + apply solves_shift with (x := mrval (combine v done)); auto.
              intros m' Hin. replace (_ - _) with (product done * d) by ring.
              apply Z.divide_mul_l. apply product_divide; auto.
            + constructor; auto.
          - apply Forall2_app; auto. }
        clear - IH'. destruct res as [[v'|]|k|]; unfold crt_loop_post in *.
        -- rewrite <- !app_assoc in IH'. cbn [app] in IH'. exact IH'.
        -- destruct IH' as (pre & m1 & post & -> & H1 & H2 & H3).
           exists (mi :: pre), m1, post. rewrite <- !app_assoc in *. cbn [app] in *. auto.
        -- destruct IH' as (-> & pre & post & -> & H1 & H2). split; auto.
           exists (mi :: pre), post. rewrite <- !app_assoc in *. cbn [app] in *. auto.
        -- auto.
      * cbn. exists [], mi, ms. cbn. rewrite app_nil_r. repeat split; auto.
        -- apply Forall_app. split; auto.
        -- rewrite pairwise_snoc. tauto.
Qed.

Lemma mrval_bound : forall v m, digit_bound v m -> Z.abs (mrval (combine v m)) < Z.abs (product m).
Proof.
  intros v m H. induction H as [|d mi v m H1 H2 IH]; cbn [combine mrval product fold_right].
  - cbn. lia.
  - fold (product m). rewrite Z.abs_mul.
    pose proof (Z.abs_triangle d (mi * mrval (combine v m))) as T. rewrite Z.abs_mul in T. nia.
Qed.

Lemma Forall2_len : forall (A B : Type) (R : A -> B -> Prop) l l', Forall2 R l l' -> length l = length l'.
Proof. intros A B R l l' H. induction H; cbn; auto. Qed.

Definition crt_post (u m : list Z) (res : outcome (option Z)) : Prop :=
  match res with
  | Ret (Some x) =>
      length u = length m /\ m <> [] /\ pairwise_coprime m /\ nonzero m /\
      solves x u m /\ Z.abs x < Z.abs (product m)
  | Ret None => length u <> length m \/
      exists pre mi post, m = pre ++ mi :: post /\ nonzero (pre ++ [mi]) /\
        pairwise_coprime pre /\ ~ pairwise_coprime (pre ++ [mi])
  | Panic k => length u = length m /\
      ((m = [] /\ k = PUnwrap) \/
       (k = PDivZero /\ exists pre post, m = pre ++ 0 :: post /\ nonzero pre /\ pairwise_coprime pre))
  | OutOfFuel => False
  end.

Lemma crt_spec : forall u m, crt_post u m (chinese_remainder u m).
Proof.
  intros u m. unfold chinese_remainder.
  destruct (Nat.eqb_spec (length u) (length m)) as [Hl|Hl]; cbn [negb].
  2: { cbn. auto. }
  pose proof (crt_loop_spec u m [] [] []) as H. cbn [app] in H.
  specialize (H Hl eq_refl).
  assert (H' : crt_loop_post [] [] u m (crt_loop m u m [])).
  { apply H; try constructor. }
  clear H. destruct (crt_loop m u m []) as [[v|]|k|]; cbn [obind]; unfold crt_loop_post in H'; cbn [app] in H'.
  - destruct H' as (H1 & H2 & H3 & H4).
    assert (Hlv : length v = length m) by (eapply Forall2_len; eauto).
    destruct (rev v) as [|last vrest] eqn:Er.
    + assert (v = []) by (rewrite <- (rev_involutive v), Er; auto). subst v.
      destruct m; [|discriminate]. cbn. auto.
    + assert (Hv : v = rev vrest ++ [last]) by (rewrite <- (rev_involutive v), Er; auto).
      assert (Hm : m <> []) by (intros ->; destruct v; [destruct (rev vrest)|]; discriminate).
      destruct (exists_last Hm) as (mi & ml & Em).
      assert (Hll : length (rev vrest) = length mi).
      { rewrite Hv, Em, !app_length in Hlv. cbn in Hlv. lia. }
      replace (crt_assemble (rev (combine (rev vrest) m)) last) with (mrval (combine v m)).
      * cbn. repeat split; auto. apply mrval_bound; auto.
      * rewrite crt_assemble_spec, Em, Hv, mrval_snoc by auto.
        rewrite combine_firstn_len by auto. now rewrite map_snd_combine by auto.
  - cbn. right. destruct H' as (pre & mi & post & H1 & H2 & H3 & H4). exists pre, mi, post. auto.
  - cbn. split; auto.
  - cbn. auto.
Qed.

Lemma crt_some_sound : forall u m x, chinese_remainder u m = Ret (Some x) -> solves x u m.
Proof. intros u m x E. pose proof (crt_spec u m) as H. rewrite E in H. cbn in H. tauto. Qed.

Lemma crt_bound : forall u m x, chinese_remainder u m = Ret (Some x) -> Z.abs x < Z.abs (product m).
Proof. intros u m x E. pose proof (crt_spec u m) as H. rewrite E in H. cbn in H. tauto. Qed.

Lemma product_divides : forall m d, pairwise_coprime m -> Forall (fun mi => (mi | d)) m -> (product m | d).
Proof.
  intros m d. induction m as [|a m IH]; intros P F; [exists d; cbn; lia|].
  inversion P as [|? ? P1 P2]; subst. inversion F as [|? ? [k ->] F2]; subst. specialize (IH P2 F2).
  cbn [product fold_right]. fold (product m). rewrite (Z.mul_comm k a) in *. apply Z.mul_divide_mono_l. apply (Z.gauss _ a _ IH).
  apply gcd_product_1. eapply Forall_impl; [|exact P1]. cbn. intros x E. rewrite Z.gcd_comm. exact E.
Qed.
Lemma solves_differ : forall x y u m, solves x u m -> solves y u m -> Forall (fun mi => (mi | y - x)) m.
Proof.
  intros x y u m H. induction H as [|ui mi u m [j J] H IH]; intro K; [constructor|]. inversion K as [|? ? ? ? [k E] K2]; subst. constructor; [|exact (IH K2)].
  exists (k - j). lia.
Qed.
Lemma crt_all : forall u m x, chinese_remainder u m = Ret (Some x) -> forall y, solves y u m <-> congruent (product m) y x.
Proof.
  intros u m x E y. pose proof (crt_spec u m) as H. rewrite E in H. cbn in H. split.
  - intro Y. apply product_divides; [tauto|]. apply (solves_differ x y u m); tauto.
  - intro Y. apply (solves_shift x y u m); [tauto|]. intros mi I. apply Z.divide_trans with (product m); [apply product_divide; exact I|exact Y].
Qed.
Lemma crt_candidates : forall u m x r, chinese_remainder u m = Ret (Some x) -> solves r u m -> 0 <= r < Z.abs (product m) ->
  x = r \/ x = r - Z.abs (product m).
Proof.
  intros u m x r E S R. apply (crt_all u m x E) in S. pose proof (crt_bound u m x E) as B.
  assert (D : (Z.abs (product m) | r - x)) by (apply Z.divide_abs_l; exact S). destruct D as [k K].
  assert (k = 0 \/ k = 1) as [-> | ->] by nia; lia.
Qed.

Lemma nonzero_no_split : forall m pre post, nonzero m -> m <> pre ++ 0 :: post.
Proof.
  intros m pre post H ->. apply Forall_app in H. destruct H as [_ H]. inversion H; auto.
Qed.

Lemma crt_total : forall u m, length u = length m -> m <> [] -> nonzero m -> pairwise_coprime m ->
  exists x, chinese_remainder u m = Ret (Some x).
Proof.
  intros u m Hl Hm Hn Hp. pose proof (crt_spec u m) as H.
  destruct (chinese_remainder u m) as [[x|]|k|]; cbn in H.
  - eauto.
  - exfalso. destruct H as [H|(pre & mi & post & -> & H1 & H2 & H3)]; auto.
    apply H3. replace (pre ++ mi :: post) with ((pre ++ [mi]) ++ post) in Hp by (rewrite <- app_assoc; auto).
    now apply pairwise_app_l in Hp.
  - exfalso. destruct H as [_ [[H _]|(_ & pre & post & H & _)]]; auto.
    eapply nonzero_no_split; eauto.
  - destruct H.
Qed.

Lemma crt_none : forall u m, nonzero m ->
  (chinese_remainder u m = Ret None <-> length u <> length m \/ ~ pairwise_coprime m).
Proof.
  intros u m Hn. pose proof (crt_spec u m) as H. split.
  - intros E. rewrite E in H. cbn in H. destruct H as [H|(pre & mi & post & -> & H1 & H2 & H3)]; auto.
    right. intros Hp. apply H3.
    replace (pre ++ mi :: post) with ((pre ++ [mi]) ++ post) in Hp by (rewrite <- app_assoc; auto).
    now apply pairwise_app_l in Hp.
  - intros Hor. destruct (chinese_remainder u m) as [[x|]|k|]; cbn in H.
    + tauto.
    + auto.
    + exfalso. destruct H as [Hl [[H _]|(_ & pre & post & H & _)]].
      * subst m. destruct Hor as [|Hor]; auto. apply Hor. constructor.
      * eapply nonzero_no_split; eauto.
    + destruct H.
Qed.

Lemma crt_panic_empty : chinese_remainder [] [] = Panic PUnwrap.
Proof. reflexivity. Qed.

Lemma crt_panic_zero : forall u pre post, length u = length (pre ++ 0 :: post) ->
  nonzero pre -> pairwise_coprime pre -> chinese_remainder u (pre ++ 0 :: post) = Panic PDivZero.
Proof.
  intros u pre post Hl Hn Hp. pose proof (crt_spec u (pre ++ 0 :: post)) as H.
  destruct (chinese_remainder u (pre ++ 0 :: post)) as [[x|]|k|]; cbn in H.
  - exfalso. destruct H as (_ & _ & _ & H & _). eapply nonzero_no_split; eauto.
  - exfalso. destruct H as [H|(pre' & mi & post' & E & H1 & H2 & H3)]; [now apply H|].
    (* the first failing index would be before the zero *)
    assert (exists l, pre = (pre' ++ [mi]) ++ l \/ pre' ++ [mi] = (pre ++ [0]) ++ l) as [l [Hx|Hx]].
    { clear - E. revert pre' E. induction pre as [|a pre IH]; intros pre' E; destruct pre' as [|b pre']; cbn in E.
      - inversion E; subst. exists []. right. auto.
      - inversion E; subst. exists (pre' ++ [mi]). right. auto.
      - inversion E; subst. exists pre. left. auto.
      - inversion E as [[E1 E2]]; subst. destruct (IH pre' E2) as [l [Hl|Hl]]; exists l; [left|right]; cbn.
        + now rewrite Hl.
        + rewrite Hl. auto. }
    + rewrite Hx in Hp. apply pairwise_app_l in Hp. auto.
    + rewrite Hx in H1. rewrite <- app_assoc in H1. eapply nonzero_no_split; [exact H1|]. cbn. reflexivity.
  - destruct H as [_ [[H _]|(-> & _)]]; auto. destruct pre; discriminate.
  - destruct H.
Qed.
