(** The constant tables checked by running the proved recursion of [ProofLegendre]. *)
From Verif Require Import Base AlgoError NumTypes AlgoPrime SpecNum ProofPrime ProofSieve ProofCount ProofNumMisc ProofLegendre.
From Coq Require Import Znumtheory.
Local Open Scope Z_scope.

Fixpoint rows_eqb (l : list (Z * Z)) (s c : list (Z * Z)) : bool :=
  match l, s, c with
  | [], [], [] => true
  | (x, y) :: l', (_, x') :: s', (_, y') :: c' => (x =? x') && (y =? y') && rows_eqb l' s' c'
  | _, _, _ => false
  end.

Lemma rows_9 : rows_eqb (primes_to_all (map fst (firstn 10 prime_sum_table))) (firstn 10 prime_sum_table) (firstn 10 prime_count_table) = true.
Proof. vm_cast_no_check (eq_refl true). Qed.

Lemma rows_eqb_spec : forall (f g : Z -> Z) s c, map fst s = map fst c -> rows_eqb (map (fun n => (f n, g n)) (map fst s)) s c = true ->
  (forall n v, In (n, v) s -> v = f n) /\ (forall n v, In (n, v) c -> v = g n).
Proof.
  intros f g. induction s as [|[n x] s IH]; intros [|[m y] c] E H; try discriminate; [split; intros ? ? []|].
  cbn [map fst] in *. injection E as -> E. cbn [rows_eqb] in H. apply andb_prop in H as [H H3]. apply andb_prop in H as [H1 H2].
  apply Z.eqb_eq in H1, H2. destruct (IH c E H3) as [A B]. split; intros n v [X|X]; try (injection X as <- <-; congruence); auto.
Qed.

Lemma rows_right : (forall n v, In (n, v) (firstn 10 prime_sum_table) -> v = sum_of_primes n) /\
  (forall n v, In (n, v) (firstn 10 prime_count_table) -> v = number_of_primes n).
Proof.
  apply rows_eqb_spec; [reflexivity|]. rewrite <- primes_to_right; [exact rows_9|].
  cbn [firstn prime_sum_table map fst]. repeat (constructor; [lia|]). constructor.
Qed.

Lemma table_row : forall (t : list (Z * Z)) k j n v, NoDup (map fst t) ->
  map fst (firstn (S k) t) = powers10 (S k) ->
  0 <= j <= Z.of_nat k -> n = 10 ^ j -> In (n, v) t -> In (n, v) (firstn (S k) t).
Proof.
  intros t k j n v Hd Hk Hj Hn Hin.
  assert (Hp : In n (map fst (firstn (S k) t))).
  { rewrite Hk. apply in_powers10. eauto. }
  apply in_map_iff in Hp. destruct Hp as ([n' v'] & E & Hin'). cbn [fst] in E. subst n'.
  assert (Hin2 : In (n, v') t).
  { rewrite <- (firstn_skipn (S k) t). apply in_or_app. auto. }
  pose proof (in_table_get t n v Hd Hin). pose proof (in_table_get t n v' Hd Hin2).
  congruence.
Qed.

Lemma prime_sum_table_ok : forall j v, 0 <= j <= 9 -> In (10 ^ j, v) prime_sum_table ->
  v = sum_of_primes (10 ^ j).
Proof.
  intros j v Hj Hin. apply (proj1 rows_right).
  exact (table_row prime_sum_table 9 j (10 ^ j) v prime_sum_table_nodup eq_refl Hj eq_refl Hin).
Qed.

Lemma prime_count_table_ok : forall j v, 0 <= j <= 9 -> In (10 ^ j, v) prime_count_table ->
  v = number_of_primes (10 ^ j).
Proof.
  intros j v Hj Hin. apply (proj2 rows_right).
  exact (table_row prime_count_table 9 j (10 ^ j) v prime_count_table_nodup eq_refl Hj eq_refl Hin).
Qed.

Lemma prime_sum_i_correct : forall md n, 1 <= n < 2 ^ 32 ->
  prime_sum_i md n = Ret (Ok (sum_of_primes n)).
Proof.
  intros md n Hn. destruct (prime_sum_i_dispatch md n) as [Ht Hd].
  destruct (in_dec Z.eq_dec n (map fst prime_sum_table)) as [Hin|Hnin].
  - apply in_map_iff in Hin. destruct Hin as ([n' v] & E & Hin). cbn [fst] in E. subst n'.
    rewrite (Ht v Hin). do 2 f_equal.
    destruct (proj1 (prime_sum_table_keys n) (ex_intro _ v Hin)) as (k & Hk & ->).
    apply prime_sum_table_ok; auto. split; [lia|].
    destruct (Z.le_gt_cases k 9); auto. exfalso.
    assert (10 ^ 10 <= 10 ^ k) by (apply Z.pow_le_mono_r; lia). lia.
  - destruct Hd as (_ & _ & Hd).
    { intros v Hin. apply Hnin. apply in_map_iff. exists (n, v). auto. }
    rewrite Hd by lia. rewrite prime_sum_correct by lia. reflexivity.
Qed.

(** the sum of the primes up to n >= 2 is even exactly when their number is odd *)
Lemma sum_count_parity : forall n, 2 <= n -> Z.odd (sum_of_primes n + number_of_primes n) = true.
Proof.
  intros n Hn. replace n with (2 + (n - 2)) by lia. apply (ssum_ind (fun k => Z.odd (sum_of_primes (2 + k) + number_of_primes (2 + k)) = true)); [|intros k Hk IH|lia].
  - change 2 with (1 + 1) at 1 2. rewrite Z.add_0_r, sum_succ, count_succ by lia. change (1 + 1) with 2. change (2 - 1) with 1. rewrite sum_succ, count_succ by lia. change (1 - 1) with 0. change (sum_of_primes 0) with 0. change (number_of_primes 0) with 0.
    destruct (prime_dec 1) as [P|P]; [elim (not_prime_1 P)|]. destruct (prime_dec 2) as [Q|Q]; [reflexivity|]. elim Q. exact prime_2.
  - rewrite sum_succ, count_succ by lia. replace (2 + (k + 1) - 1) with (2 + k) by lia. destruct (prime_dec (2 + (k + 1))) as [P|P]; [|rewrite !Z.add_0_r; exact IH].
    assert (O : Z.odd (2 + (k + 1)) = true).
    { destruct (Z.odd (2 + (k + 1))) eqn:O; [reflexivity|]. exfalso. rewrite <- Z.negb_even in O. apply negb_false_iff, Z.even_spec in O. destruct O as [x Ex].
      assert (Dv : (2 | 2 + (k + 1))) by (exists x; lia). destruct (prime_divisors _ P 2 Dv) as [X|[X|[X|X]]]; lia. }
    replace (sum_of_primes (2 + k) + (2 + (k + 1)) + (number_of_primes (2 + k) + 1)) with ((sum_of_primes (2 + k) + number_of_primes (2 + k)) + ((2 + (k + 1)) + 1)) by lia.
    rewrite Z.odd_add, IH. rewrite Z.odd_add, O. reflexivity.
Qed.
Lemma tables_parity : forall n s c, 2 <= n -> In (n, s) prime_sum_table -> In (n, c) prime_count_table -> Z.odd (s + c) = true.
Proof.
  intros n s c Hn Hs Hc. apply in_table_get in Hc; [|exact prime_count_table_nodup].
  assert (A : forallb (fun row => (fst row <? 2) || match table_get (fst row) prime_count_table with Some c => Z.odd (snd row + c) | None => false end) prime_sum_table = true) by (vm_compute; reflexivity).
  rewrite forallb_forall in A. specialize (A _ Hs). cbn [fst snd] in A. rewrite Hc in A. rewrite (proj2 (Z.ltb_ge n 2)) in A by lia. exact A.
Qed.
