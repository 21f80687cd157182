From Verif Require Import Base AlgoError NumTypes AlgoFib SpecNum ProofBasic.
Local Open Scope Z_scope.

Lemma fib_SS : forall n, fib (S (S n)) = fib (S n) + fib n.
Proof. reflexivity. Qed.

Lemma fib_add : forall m n, fib (m + S n) = fib (S m) * fib (S n) + fib m * fib n.
Proof.
  intros m. enough (H : forall n, fib (m + S n) = fib (S m) * fib (S n) + fib m * fib n /\
                      fib (m + S (S n)) = fib (S m) * fib (S (S n)) + fib m * fib (S n)) by (intros; apply H).
  induction n.
  - replace (m + 2)%nat with (S (S m)) by lia. replace (m + 1)%nat with (S m) by lia.
    rewrite !fib_SS. change (fib 1) with 1. change (fib 0) with 0. lia.
  - destruct IHn as [H1 H2]. split; auto.
    replace (m + S (S (S n)))%nat with (S (S (m + S n))) by lia.
    rewrite fib_SS. replace (S (m + S n)) with (m + S (S n))%nat by lia.
    rewrite H1, H2. rewrite (fib_SS (S n)), (fib_SS n). ring.
Qed.

Lemma fib_nonneg : forall n, 0 <= fib n /\ 0 <= fib (S n).
Proof.
  induction n; [cbn; lia|]. rewrite fib_SS. lia.
Qed.

Lemma fib_double : forall k, fib (2 * k) = fib k * (fib (k + 1) * 2 - fib k).
Proof.
  intros [|k]; [reflexivity|].
  replace (2 * S k)%nat with (S k + S k)%nat by lia. rewrite fib_add.
  replace (S k + 1)%nat with (S (S k)) by lia. rewrite fib_SS. ring.
Qed.

Lemma fib_double_1 : forall k, fib (2 * k + 1) = fib (k + 1) * fib (k + 1) + fib k * fib k.
Proof.
  intros k. replace (2 * k + 1)%nat with (k + S k)%nat by lia. rewrite fib_add.
  now replace (k + 1)%nat with (S k) by lia.
Qed.

Lemma fib_fold_u_nat : forall n a,
  fold_left (fun (x : Z * Z) (_ : Z) => (fst x + snd x, fst x)) (zseq a (S n)) (0, 1)
  = (fib (S n), fib n).
Proof.
  induction n; intros a.
  - reflexivity.
  - rewrite zseq_S_last, fold_left_app, IHn. cbn [fold_left fst snd]. now rewrite fib_SS.
Qed.

Lemma fibonacci_fold_u_ok : forall n, fibonacci_fold_u n = fib (Z.to_nat n).
Proof.
  intros n. unfold fibonacci_fold_u. destruct (Z.to_nat n).
  - reflexivity.
  - now rewrite fib_fold_u_nat.
Qed.

Definition memo_ok (m : memo) : Prop :=
  (forall k v, memo_get k m = Some v -> 0 <= k -> v = fib (Z.to_nat k)) /\
  (forall k, 0 <= k <= 2 -> memo_get k m <> None).

Lemma memo_ok_insert : forall m n, memo_ok m -> memo_ok (memo_insert n (fib (Z.to_nat n)) m).
Proof.
  intros m n [H1 H2]. split.
  - intros k v. cbn [memo_insert memo_get]. destruct (Z.eqb_spec n k); intros E Hk.
    + inversion E. congruence.
    + eauto.
  - intros k Hk. cbn [memo_insert memo_get]. destruct (n =? k); [discriminate|auto].
Qed.

Lemma memoization_ok : forall k fuel n m, 0 <= n -> n - 2 < 2 ^ Z.of_nat k -> (k < fuel)%nat ->
  memo_ok m ->
  exists m', memoization fuel n m = Ret (fib (Z.to_nat n), m') /\ memo_ok m'.
Proof.
  induction k; intros fuel n m Hn Hlt Hf Hm; (destruct fuel as [|fuel]; [lia|]);
    cbn [memoization]; destruct (memo_get n m) as [v|] eqn:E.
  - exists m. split; auto. do 2 f_equal. eapply (proj1 Hm); eauto.
  - exfalso. change (2 ^ Z.of_nat 0) with 1 in Hlt. apply (proj2 Hm n); auto. lia.
  - exists m. split; auto. do 2 f_equal. eapply (proj1 Hm); eauto.
  - assert (Hn3 : 3 <= n).
    { destruct (Z.le_gt_cases 3 n); auto. exfalso. apply (proj2 Hm n); auto. lia. }
    replace (Z.of_nat (S k)) with (Z.succ (Z.of_nat k)) in Hlt by lia.
    rewrite Z.pow_succ_r in Hlt by lia.
    pose proof (Z.div_mod n 2). pose proof (Z.mod_pos_bound n 2).
    assert (E2 : Z.to_nat (n / 2 + 1) = (Z.to_nat (n / 2) + 1)%nat) by lia.
    destruct (Z.even n) eqn:Ev.
    + assert (n mod 2 = 0) by (rewrite Zmod_even, Ev; auto).
      destruct (IHk fuel (n / 2) m) as (m1 & E1 & Hm1); try lia; auto.
      rewrite E1. cbn [obind].
      destruct (IHk fuel (n / 2 + 1) m1) as (m2 & E3 & Hm2); try lia; auto.
      rewrite E3. cbn [obind]. rewrite E2.
      assert (Hle : fib (Z.to_nat (n / 2)) <= fib (Z.to_nat (n / 2) + 1) * 2).
      { destruct (Z.to_nat (n / 2)) as [|j]; [cbn; lia|].
        replace (S j + 1)%nat with (S (S j)) by lia. rewrite fib_SS.
        pose proof (fib_nonneg j). lia. }
      unfold biguint_sub.
      replace (fib (Z.to_nat (n / 2) + 1) * 2 <? fib (Z.to_nat (n / 2))) with false by lia.
      cbn [obind]. rewrite <- fib_double.
      replace (2 * Z.to_nat (n / 2))%nat with (Z.to_nat n) by lia.
      eexists. split; eauto. apply memo_ok_insert; auto.
    + assert (n mod 2 = 1) by (rewrite Zmod_even, Ev; auto).
      destruct (IHk fuel (n / 2 + 1) m) as (m1 & E1 & Hm1); try lia; auto.
      rewrite E1. cbn [obind].
      destruct (IHk fuel (n / 2) m1) as (m2 & E3 & Hm2); try lia; auto.
      rewrite E3. cbn [obind]. rewrite E2, <- fib_double_1.
      replace (2 * Z.to_nat (n / 2) + 1)%nat with (Z.to_nat n) by lia.
      eexists. split; eauto. apply memo_ok_insert; auto.
Qed.

Lemma memo_init_ok : memo_ok (memo_insert 2 1 (memo_insert 1 1 (memo_insert 0 0 []))).
Proof.
  split; intros k.
  - intros v. cbn [memo_insert memo_get]. intros E Hk.
    destruct (Z.eqb_spec 2 k); [subst; now inversion E|].
    destruct (Z.eqb_spec 1 k); [subst; now inversion E|].
    destruct (Z.eqb_spec 0 k); [subst; now inversion E|]. discriminate.
  - intros Hk. cbn [memo_insert memo_get].
    destruct (Z.eqb_spec 2 k); [discriminate|].
    destruct (Z.eqb_spec 1 k); [discriminate|].
    destruct (Z.eqb_spec 0 k); [discriminate|]. lia.
Qed.

Lemma fibonacci_fast_u_ok : forall n, 0 <= n -> fibonacci_fast_u n = Ret (fib (Z.to_nat n)).
Proof.
  intros n Hn. unfold fibonacci_fast_u.
  destruct (memoization_ok (Z.to_nat (Z.log2 n) + 1) (fib_fuel n) n
              (memo_insert 2 1 (memo_insert 1 1 (memo_insert 0 0 [])))) as (m' & E & _).
  - auto.
  - destruct (Z.eq_dec n 0) as [->|Hz]; [cbn; lia|].
    pose proof (Z.log2_spec n). pose proof (Z.log2_nonneg n).
    replace (Z.of_nat (Z.to_nat (Z.log2 n) + 1)) with (Z.succ (Z.log2 n)) by lia. lia.
  - unfold fib_fuel. lia.
  - apply memo_init_ok.
  - rewrite E. reflexivity.
Qed.

Lemma fibonacci_i_nonneg : forall W n, 0 < W -> 0 <= n < 2 ^ (W - 1) ->
  fibonacci_i W n = Ret (Ok (fib (Z.to_nat n))).
Proof.
  intros W n HW H. unfold fibonacci_i. rewrite to_isize_some by lia.
  rewrite isize_as_usize_nonneg by lia. rewrite fibonacci_fast_u_ok by lia. cbn [obind].
  replace (n <? 0) with false by lia. reflexivity.
Qed.

Lemma fibonacci_i_big : forall W n, n < - 2 ^ (W - 1) \/ 2 ^ (W - 1) <= n ->
  fibonacci_i W n = Ret (Err OverFlow).
Proof. intros W n H. unfold fibonacci_i. now rewrite to_isize_none. Qed.

Lemma fibonacci_i_neg : forall W n, 0 < W -> - 2 ^ (W - 1) <= n < 0 ->
  fibonacci_i W n = if Z.even n then Panic PNegate else Ret (Ok (fib (Z.to_nat (n + 2 ^ W)))).
Proof.
  intros W n HW H. unfold fibonacci_i. rewrite to_isize_some by lia.
  rewrite isize_as_usize_neg by lia.
  pose proof (pow2_pred W HW).
  rewrite fibonacci_fast_u_ok by lia. cbn [obind].
  replace (n <? 0) with true by lia. cbn [andb]. destruct (Z.even n); reflexivity.
Qed.

(** Fibonacci grows strictly, so the values for negative odd inputs are wrong. *)
Lemma fib_pos : forall n, 1 <= fib (S n).
Proof.
  induction n; [cbn; lia|]. rewrite fib_SS. pose proof (fib_nonneg n). lia.
Qed.

Lemma fib_strict : forall n k, fib (S n) < fib (S n + (2 + k)).
Proof.
  intros n k. induction k.
  - replace (S n + (2 + 0))%nat with (S (S (S n))) by lia. rewrite !fib_SS.
    pose proof (fib_pos n). pose proof (fib_nonneg n). lia.
  - replace (S n + (2 + S k))%nat with (S (S (S (S (n + k))))) by lia. rewrite fib_SS.
    replace (S n + (2 + k))%nat with (S (S (S (n + k)))) in IHk by lia.
    pose proof (fib_nonneg (S (S (n + k)))). lia.
Qed.

Lemma fibonacci_i_neg_wrong : forall W n, 2 <= W -> - 2 ^ (W - 1) <= n < 0 ->
  fibonacci_i W n <> Ret (Ok (fibonacci_number n)).
Proof.
  intros W n HW H. rewrite fibonacci_i_neg by lia.
  unfold fibonacci_number. replace (0 <=? n) with false by lia.
  destruct (Z.even n) eqn:Ev; [discriminate|].
  intros E. injection E as E.
  assert (Hev : Z.even (2 ^ (W - 1)) = true).
  { rewrite Z.even_pow by lia. reflexivity. }
  assert (Hne : n <> - 2 ^ (W - 1)).
  { intros ->. rewrite Z.even_opp in Ev. congruence. }
  assert (Hw : 2 ^ W = 2 * 2 ^ (W - 1)) by (apply pow2_pred; lia).
  assert (Hd : exists a k, Z.to_nat (- n) = S a /\ Z.to_nat (n + 2 ^ W) = (S a + (2 + k))%nat).
  { exists (Z.to_nat (- n - 1)), (Z.to_nat (2 ^ W + n + n - 2)). lia. }
  destruct Hd as (a & k & E1 & E2). rewrite E1, E2 in E.
  pose proof (fib_strict a k). lia.
Qed.
