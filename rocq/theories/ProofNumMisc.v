(** Remaining lemmas behind PropNum.v. *)
From Verif Require Import Base AlgoError NumTypes AlgoBasic AlgoGamma AlgoFib AlgoPrime SpecNum.
From Verif Require Import ProofBasic ProofCrt ProofFib ProofPrime.
From Coq Require Import Znumtheory.
Local Open Scope Z_scope.

Lemma power_iu_wrong_iff : forall a b r, 0 <= b -> power_iu a b = Ok r ->
  (r = a ^ b <-> ~ (b = 0 \/ (b = 1 /\ a <> 0 /\ a <> 1))).
Proof.
  intros a b r Hb E. rewrite power_iu_spec in E by auto.
  destruct (Z.eqb_spec b 0) as [->|H0].
  { destruct (Z.eqb_spec a 0) as [->|]; [discriminate|]. injection E as <-.
    rewrite Z.pow_0_r. split; [discriminate|]. intros H. exfalso. tauto. }
  destruct (Z.eqb_spec b 1) as [->|H1].
  { injection E as <-. rewrite Z.pow_1_r.
    destruct (Z.eqb_spec a 0) as [->|]; [split; [lia|auto]|]. split; [lia|].
    intros H. destruct (Z.eq_dec a 1) as [->|]; [auto|]. exfalso. apply H. tauto. }
  assert (Hr : r = a ^ b); [|split; [lia|auto]].
  destruct (Z.eqb_spec a 0) as [->|]; cbn [orb] in E.
  { injection E as <-. now rewrite Z.pow_0_l by lia. }
  destruct (Z.eqb_spec a 1) as [->|].
  { injection E as <-. now rewrite Z.pow_1_l by lia. }
  destruct (b <? 2 ^ 32); [now injection E|discriminate].
Qed.

Lemma power_iu_refuted : exists a b r, 0 <= b /\ power_iu a b = Ok r /\ r <> a ^ b.
Proof. exists 7, 1, 1. repeat split; vm_compute; congruence. Qed.

Lemma extended_gcd2_total : forall a b, exists x y,
  extended_gcd2 a b = Ret (Z.gcd a b, [x; y]) /\ a * x + b * y = Z.gcd a b.
Proof.
  intros a b. destruct (extended_gcd_total a b) as (x & y & E & B). exists x, y.
  split; auto. unfold extended_gcd2. now rewrite E.
Qed.

Lemma modulo_inverse_some : forall a m x, modulo_inverse a m = Ret (Some x) ->
  Z.gcd a m = 1 /\ congruent m (a * x) 1.
Proof.
  intros a m x E. destruct (modulo_inverse_spec a m) as [(G & x' & E' & C)|(G & E')];
    rewrite E in E'; [|discriminate]. injection E' as <-. auto.
Qed.

Lemma modulo_inverse_iff : forall a m,
  ((exists x, modulo_inverse a m = Ret (Some x)) <-> Z.gcd a m = 1) /\
  (modulo_inverse a m = Ret None <-> Z.gcd a m <> 1).
Proof.
  intros a m. destruct (modulo_inverse_spec a m) as [(G & x' & E' & C)|(G & E')]; rewrite E'.
  - split; split; auto; try discriminate; try tauto. eauto.
  - split; split; auto; try tauto. intros [x Hx]. discriminate.
Qed.

Lemma modulo_inverse_one : forall m, 1 < m -> modulo_inverse 1 m = Ret (Some (m + 1)).
Proof.
  intros m Hm. unfold modulo_inverse, extended_gcd, egcd_fuel.
  pose proof (Z.log2_nonneg (Z.abs m)).
  replace (Z.to_nat (Z.log2 (Z.abs m) + 1)) with (S (Z.to_nat (Z.log2 (Z.abs m)))) by lia.
  replace (S (2 * S (Z.to_nat (Z.log2 (Z.abs m))))) with (S (S (S (2 * Z.to_nat (Z.log2 (Z.abs m)))))) by lia.
  cbn [egcd_loop fst snd]. replace (m =? 0) with false by lia.
  unfold egcd_f. cbn [fst snd].
  rewrite (Z.quot_small 1 m) by lia.
  rewrite !Z.mul_0_l, !Z.sub_0_r. cbn [Z.eqb].
  rewrite Z.quot_1_r. rewrite !Z.mul_1_r, !Z.sub_diag. cbn [Z.eqb Z.leb Z.compare obind].
  cbn [Pos.eqb]. do 2 f_equal. lia.
Qed.

Lemma gcd_divide_solvable : forall a b m, (Z.gcd b m | a) <-> exists x, congruent m (b * x) a.
Proof.
  intros a b m. split.
  - intros [k Hk]. destruct (Z.gcd_bezout b m (Z.gcd b m) eq_refl) as (p & q & B).
    exists (p * k). exists (- (q * k)). rewrite Hk, <- B. ring.
  - intros [x [k Hk]]. replace a with (b * x - k * m) by lia.
    apply Z.divide_sub_r.
    + apply Z.divide_mul_l. apply Z.gcd_divide_l.
    + apply Z.divide_mul_r. apply Z.gcd_divide_r.
Qed.

Lemma modulo_division_solvable : forall a b m, (b <> 0 \/ m <> 0) ->
  ((exists x, modulo_division a b m = Ret (Some x)) <-> (exists x, congruent m (b * x) a)) /\
  (modulo_division a b m = Ret None <-> ~ (exists x, congruent m (b * x) a)).
Proof.
  intros a b m H. rewrite <- !gcd_divide_solvable.
  destruct (modulo_division_spec a b m) as [(-> & -> & _)|(_ & [(x & E & D & _)|(E & D)])]; [tauto| |]; rewrite E.
  - split; split; auto; try discriminate; try tauto. eauto.
  - split; split; auto; try tauto. intros [x Hx]; discriminate.
Qed.

Lemma modulo_division_gives : forall a b m x, modulo_division a b m = Ret (Some x) ->
  congruent b (m * x) a.
Proof.
  intros a b m x E.
  destruct (modulo_division_spec a b m) as [(_ & _ & E')|(_ & [(x' & E' & _ & C)|(E' & _)])];
    rewrite E in E'; try discriminate. now injection E' as <-.
Qed.

Lemma modulo_division_zero : forall a, modulo_division a 0 0 = Panic PDivZero.
Proof. intros. reflexivity. Qed.

Lemma modulo_division_refuted : exists a b m x,
  modulo_division a b m = Ret (Some x) /\ ~ congruent m (b * x) a.
Proof.
  exists 1, 3, 7, 1. split; [reflexivity|]. intros [k Hk]. lia.
Qed.

Lemma crt_some_iff : forall u m, length u = length m -> m <> [] -> nonzero m ->
  ((exists x, chinese_remainder u m = Ret (Some x)) <-> pairwise_coprime m).
Proof.
  intros u m Hl Hm Hn. split.
  - intros [x E]. pose proof (crt_spec u m) as H. rewrite E in H. cbn in H. tauto.
  - intros Hp. apply crt_total; auto.
Qed.

Lemma crt_mismatch : forall u m, length u <> length m -> chinese_remainder u m = Ret None.
Proof.
  intros u m H. unfold chinese_remainder. apply Nat.eqb_neq in H. now rewrite H.
Qed.

Lemma pairwise_dec : forall l, pairwise_coprime l \/ ~ pairwise_coprime l.
Proof.
  intros l. induction l as [|x l IH] using rev_ind; [left; constructor|].
  destruct IH as [IH|IH].
  - destruct (Forall_dec (fun d => Z.gcd d x = 1) (fun d => Z.eq_dec (Z.gcd d x) 1) l) as [H|H].
    + left. apply pairwise_snoc. auto.
    + right. rewrite pairwise_snoc. tauto.
  - right. rewrite pairwise_snoc. tauto.
Qed.

Lemma crt_zero_none : forall u pre post, length u = length (pre ++ 0 :: post) ->
  nonzero pre -> ~ pairwise_coprime pre -> chinese_remainder u (pre ++ 0 :: post) = Ret None.
Proof.
  intros u pre post Hl Hn Hp. pose proof (crt_spec u (pre ++ 0 :: post)) as H.
  destruct (chinese_remainder u (pre ++ 0 :: post)) as [[x|]|k|]; cbn in H.
  - exfalso. destruct H as (_ & _ & H & _). apply Hp. eapply pairwise_app_l; eauto.
  - reflexivity.
  - exfalso. destruct H as [_ [[H _]|(_ & pre' & post' & E & Hn' & Hp')]].
    + destruct pre; discriminate.
    + apply Hp. clear - E Hn Hn' Hp'.
      assert (pre = pre').
      { clear Hp'. revert pre' E Hn'. induction pre as [|a pre IH]; intros [|b pre'] E Hn'; cbn in E; auto.
        - inversion E; subst. inversion Hn'; subst. congruence.
        - inversion E; subst. inversion Hn; subst. congruence.
        - inversion E; subst. inversion Hn; inversion Hn'; subst. f_equal. apply IH; auto. }
      now subst.
  - destruct H.
Qed.

Lemma crt_zero_iff : forall u pre post, length u = length (pre ++ 0 :: post) -> nonzero pre ->
  (chinese_remainder u (pre ++ 0 :: post) = Panic PDivZero <-> pairwise_coprime pre) /\
  (chinese_remainder u (pre ++ 0 :: post) = Ret None <-> ~ pairwise_coprime pre).
Proof.
  intros u pre post Hl Hn. destruct (pairwise_dec pre) as [Hp|Hp].
  - rewrite crt_panic_zero by auto. split; split; auto; try discriminate; tauto.
  - rewrite crt_zero_none by auto. split; split; auto; try discriminate; tauto.
Qed.

Lemma crt_least_refuted : exists u m x, chinese_remainder u m = Ret (Some x) /\
  Forall (fun mi => 0 < mi) m /\ ~ (0 <= x < product m).
Proof.
  exists [2; 3; 2], [3; 5; 7], (-82). split; [reflexivity|]. split; [repeat constructor|]. lia.
Qed.

Lemma is_coprime_iff : forall x y,
  is_coprime x y = true <-> (forall d, (d | x) -> (d | y) -> (d | 1)).
Proof.
  intros x y. rewrite is_coprime_spec. unfold rel_prime. split.
  - intros H. apply H.
  - intros H. constructor; auto using Z.divide_1_l.
Qed.

Lemma table_get_in : forall t n v, table_get n t = Some v -> In (n, v) t.
Proof.
  induction t as [|[k w] t IH]; intros n v H; cbn in H; [discriminate|].
  destruct (Z.eqb_spec k n); [inversion H; subst; now left|right; auto].
Qed.

Lemma in_table_get : forall t n v, NoDup (map fst t) -> In (n, v) t -> table_get n t = Some v.
Proof.
  induction t as [|[k w] t IH]; intros n v Hd Hin; [destruct Hin|].
  destruct Hin as [E|Hin]; cbn.
  - inversion E; subst. now rewrite Z.eqb_refl.
  - inversion Hd; subst. destruct (Z.eqb_spec k n) as [->|]; [|auto].
    exfalso. apply H1. change n with (fst (n, v)). apply in_map; auto.
Qed.

Fixpoint nodupb (l : list Z) : bool :=
  match l with [] => true | x :: l' => negb (existsb (Z.eqb x) l') && nodupb l' end.
Lemma nodupb_ok : forall l, nodupb l = true -> NoDup l.
Proof.
  induction l; cbn; intros H; constructor; apply andb_prop in H; destruct H as [H1 H2]; auto.
  intros Hin. rewrite negb_true_iff in H1. assert (existsb (Z.eqb a) l = true); [|congruence].
  apply existsb_exists. exists a. split; auto. apply Z.eqb_refl.
Qed.

Lemma prime_sum_table_nodup : NoDup (map fst prime_sum_table).
Proof. apply nodupb_ok. reflexivity. Qed.
Lemma prime_count_table_nodup : NoDup (map fst prime_count_table).
Proof. apply nodupb_ok. reflexivity. Qed.

Lemma table_get_none : forall t n, (forall v, ~ In (n, v) t) -> table_get n t = None.
Proof.
  intros t n H. destruct (table_get n t) eqn:E; auto. exfalso. eapply H. apply table_get_in; eauto.
Qed.

Lemma prime_sum_i_dispatch : forall md n,
  (forall v, In (n, v) prime_sum_table -> prime_sum_i md n = Ret (Ok v)) /\
  ((forall v, ~ In (n, v) prime_sum_table) ->
     (n < 0 -> prime_sum_i md n = Ret (Err (Undefined (lit "wrong def")))) /\
     (2 ^ 64 <= n -> prime_sum_i md n = Ret (Err Unimplemented)) /\
     (0 <= n < 2 ^ 64 -> prime_sum_i md n = omap Ok (prime_sum_u64 md n))).
Proof.
  intros md n. unfold prime_sum_i. split.
  - intros v H. rewrite (in_table_get _ _ v); auto. apply prime_sum_table_nodup.
  - intros H. rewrite table_get_none by auto. unfold to_u64. repeat split; intros Hn.
    + replace (n <? 0) with true by lia. reflexivity.
    + replace (n <? 0) with false by lia. replace (n <? 2 ^ 64) with false by lia.
      now rewrite andb_false_r.
    + replace (n <? 0) with false by lia. replace (n <? 2 ^ 64) with true by lia.
      replace (0 <=? n) with true by lia. reflexivity.
Qed.

Definition powers10 (k : nat) : list Z := map (fun i => 10 ^ Z.of_nat i) (seq 0 k).
Lemma in_powers10 : forall k n, In n (powers10 (S k)) <-> exists i, 0 <= i <= Z.of_nat k /\ n = 10 ^ i.
Proof.
  intros k n. unfold powers10. rewrite in_map_iff. split.
  - intros (i & <- & Hi). apply in_seq in Hi. exists (Z.of_nat i). split; [lia|auto].
  - intros (i & Hi & ->). exists (Z.to_nat i). rewrite Z2Nat.id by lia. split; auto. apply in_seq. lia.
Qed.

Lemma prime_sum_table_keys : forall n,
  (exists v, In (n, v) prime_sum_table) <-> exists k, 0 <= k <= 25 /\ n = 10 ^ k.
Proof.
  intros n. rewrite <- (in_powers10 25).
  replace (powers10 26) with (map fst prime_sum_table) by reflexivity.
  rewrite in_map_iff. split.
  - intros [v H]. exists (n, v). auto.
  - intros ([n' v] & E & H). cbn in E. subst. eauto.
Qed.

Lemma prime_sum_i_zero : forall md, prime_sum_i md 0 = Panic PUnwrap.
Proof. destruct md; reflexivity. Qed.

Lemma prime_count_i_spec : forall n,
  (forall v, In (n, v) prime_count_table -> prime_count_i n = Ok v) /\
  ((forall v, ~ In (n, v) prime_count_table) ->
     prime_count_i n = Err (if n <? 0 then Undefined (lit "wrong def") else Unimplemented)).
Proof.
  intros n. unfold prime_count_i. split.
  - intros v H. rewrite (in_table_get _ _ v); auto. apply prime_count_table_nodup.
  - intros H. rewrite table_get_none by auto. destruct (n <? 0); auto. now destruct (to_u64 n).
Qed.

Lemma prime_count_i_ok_iff : forall n,
  (exists v, prime_count_i n = Ok v) <-> exists k, 0 <= k <= 27 /\ n = 10 ^ k.
Proof.
  intros n. rewrite <- (in_powers10 27).
  replace (powers10 28) with (map fst prime_count_table) by reflexivity.
  rewrite in_map_iff. unfold prime_count_i. split.
  - intros [v H]. destruct (table_get n prime_count_table) eqn:E.
    + exists (n, z). split; auto. apply table_get_in; auto.
    + exfalso. destruct (n <? 0); [discriminate|]. now destruct (to_u64 n).
  - intros ([n' v] & E & H). cbn in E. subst. exists v.
    rewrite (in_table_get _ _ v); auto. apply prime_count_table_nodup.
Qed.
