(** Property theorems C01-C14, C16: the sm-algorithm crate. *)
From Verif Require Import Base AlgoError NumTypes AlgoBasic AlgoGamma AlgoFib AlgoPrime SpecNum.
From Verif Require Import ProofBasic ProofCrt ProofFib ProofPrime ProofBezout ProofNumMisc.
From Coq Require Import Znumtheory.
Local Open Scope Z_scope.

(** ** C01 factorial_i.  [W] is the number of bits of usize. *)
Theorem C01_factorial_nonneg : forall W n, 0 < W -> 0 <= n < 2 ^ (W - 1) ->
  factorial_i W n = Ok (factorial n).
Proof. exact factorial_i_nonneg. Qed.
Print Assumptions C01_factorial_nonneg.
Theorem C01_factorial_negative : forall W n, 0 < W -> - 2 ^ (W - 1) <= n < 0 ->
  factorial_i W n = Err ComplexInfinity.
Proof. exact factorial_i_neg. Qed.
Print Assumptions C01_factorial_negative.
Theorem C01_factorial_overflow : forall W n, n < - 2 ^ (W - 1) \/ 2 ^ (W - 1) <= n ->
  factorial_i W n = Err OverFlow.
Proof. exact factorial_i_big. Qed.
Print Assumptions C01_factorial_overflow.
Example C01_example : 0 <= 5 < 2 ^ (64 - 1) /\ factorial_i 64 5 = Ok 120 /\
  - 2 ^ (64 - 1) <= -5 < 0 /\ factorial_i 64 (-5) = Err ComplexInfinity /\
  2 ^ (64 - 1) <= 2 ^ 70 /\ factorial_i 64 (2 ^ 70) = Err OverFlow.
Proof. repeat split; vm_compute; congruence. Qed.

(** ** C02 Fibonacci numbers *)
Theorem C02_fibonacci_fast : forall n, 0 <= n -> fibonacci_fast_u n = Ret (fib (Z.to_nat n)).
Proof. exact fibonacci_fast_u_ok. Qed.
Print Assumptions C02_fibonacci_fast.
Theorem C02_fibonacci_fold : forall n, fibonacci_fold_u n = fib (Z.to_nat n).
Proof. exact fibonacci_fold_u_ok. Qed.
Print Assumptions C02_fibonacci_fold.
Theorem C02_fibonacci_i : forall W n, 0 < W -> 0 <= n < 2 ^ (W - 1) ->
  fibonacci_i W n = Ret (Ok (fib (Z.to_nat n))).
Proof. exact fibonacci_i_nonneg. Qed.
Print Assumptions C02_fibonacci_i.
Theorem C02_fibonacci_overflow : forall W n, n < - 2 ^ (W - 1) \/ 2 ^ (W - 1) <= n ->
  fibonacci_i W n = Ret (Err OverFlow).
Proof. exact fibonacci_i_big. Qed.
Print Assumptions C02_fibonacci_overflow.
Example C02_example : 0 <= 100 < 2 ^ (64 - 1) /\
  fibonacci_i 64 100 = Ret (Ok 354224848179261915075) /\ fib 10 = 55.
Proof. repeat split; vm_compute; congruence. Qed.

(** ** C03 negative indices *)
Theorem C03_fibonacci_negative : forall W n, 0 < W -> - 2 ^ (W - 1) <= n < 0 ->
  fibonacci_i W n = if Z.even n then Panic PNegate else Ret (Ok (fib (Z.to_nat (n + 2 ^ W)))).
Proof. exact fibonacci_i_neg. Qed.
Print Assumptions C03_fibonacci_negative.
(** [fibonacci_number] extends F to all integers by the same recurrence. *)
Theorem C03_fibonacci_negative_always_wrong : forall W n, 2 <= W -> - 2 ^ (W - 1) <= n < 0 ->
  fibonacci_i W n <> Ret (Ok (fibonacci_number n)).
Proof. exact fibonacci_i_neg_wrong. Qed.
Print Assumptions C03_fibonacci_negative_always_wrong.
Example C03_example : - 2 ^ (8 - 1) <= -3 < 0 /\ fibonacci_number (-3) = 2 /\
  fibonacci_i 8 (-3) = Ret (Ok 33449372971981195681356806732944396691005381570580873) /\ fibonacci_i 8 (-4) = Panic PNegate.
Proof. repeat split; vm_compute; congruence. Qed.

(** ** C04 power_iu *)
Theorem C04_power_exact : forall a b, 2 <= b < 2 ^ 32 -> power_iu a b = Ok (a ^ b).
Proof. exact power_iu_correct. Qed.
Print Assumptions C04_power_exact.
Theorem C04_power_all : forall a b, 0 <= b ->
  power_iu a b =
    if (b =? 0) then (if a =? 0 then Err Indeterminate else Ok 0)
    else if (b =? 1) then Ok (if a =? 0 then 0 else 1)
    else if (a =? 0) || (a =? 1) then Ok a
    else if b <? 2 ^ 32 then Ok (a ^ b) else Err OverFlow.
Proof. exact power_iu_spec. Qed.
Print Assumptions C04_power_all.
(** An answer is the mathematical power except exactly at b = 0 and b = 1. *)
Theorem C04_power_wrong_exactly : forall a b r, 0 <= b -> power_iu a b = Ok r ->
  (r = a ^ b <-> ~ (b = 0 \/ (b = 1 /\ a <> 0 /\ a <> 1))).
Proof. exact power_iu_wrong_iff. Qed.
Print Assumptions C04_power_wrong_exactly.
Theorem C04_power_law_refuted : exists a b r, 0 <= b /\ power_iu a b = Ok r /\ r <> a ^ b.
Proof. exact power_iu_refuted. Qed.
Print Assumptions C04_power_law_refuted.
Example C04_example : 2 <= 100 < 2 ^ 32 /\ power_iu (-3) 5 = Ok (-243) /\ power_iu 7 0 = Ok 0 /\ power_iu 7 1 = Ok 1.
Proof. repeat split; vm_compute; congruence. Qed.

(** ** C05 extended gcd *)
Theorem C05_extended_gcd2 : forall a b, exists x y,
  extended_gcd2 a b = Ret (Z.gcd a b, [x; y]) /\ a * x + b * y = Z.gcd a b.
Proof. exact extended_gcd2_total. Qed.
Print Assumptions C05_extended_gcd2.
(** no others are smaller *)
Theorem C05_least : forall a b g x y x' y', Z.abs a <> Z.abs b -> extended_gcd2 a b = Ret (g, [x; y]) -> a * x' + b * y' = g ->
  Z.abs x <= Z.abs x' /\ Z.abs y <= Z.abs y'.
Proof. exact extended_gcd2_smallest. Qed.
Print Assumptions C05_least.
(** each is at most half the other number, divided by the greatest common divisor *)
Theorem C05_size : forall a b g x y, a <> 0 -> b <> 0 -> Z.abs a <> Z.abs b -> extended_gcd2 a b = Ret (g, [x; y]) ->
  2 * g * Z.abs x <= Z.abs b /\ 2 * g * Z.abs y <= Z.abs a.
Proof. exact extended_gcd2_least. Qed.
Print Assumptions C05_size.
(** and in the cases left out one of them is zero *)
Theorem C05_rest : (forall a b, Z.abs a = Z.abs b -> b <> 0 -> extended_gcd2 a b = Ret (Z.abs b, [0; Z.sgn b])) /\
  (forall b, b <> 0 -> extended_gcd2 0 b = Ret (Z.abs b, [0; Z.sgn b])) /\
  (forall a, extended_gcd2 a 0 = Ret (Z.abs a, [if a <? 0 then -1 else 1; 0])).
Proof. exact (conj extended_gcd2_same (conj extended_gcd2_zero_left extended_gcd2_zero_right)). Qed.
Print Assumptions C05_rest.
Example C05_example : extended_gcd2 240 (-46) = Ret (2, [-9; -47]) /\ extended_gcd2 6 4 = Ret (2, [1; -1]) /\ 2 * 2 * Z.abs 1 = Z.abs 4 /\
  extended_gcd2 (-5) 5 = Ret (5, [0; 1]) /\ 240 * 14 + -46 * 73 = 2.
Proof. repeat split. Qed.

(** ** C06 modular inverse *)
Theorem C06_modulo_inverse_some : forall a m x, modulo_inverse a m = Ret (Some x) ->
  Z.gcd a m = 1 /\ congruent m (a * x) 1.
Proof. exact modulo_inverse_some. Qed.
Print Assumptions C06_modulo_inverse_some.
Theorem C06_modulo_inverse_iff : forall a m,
  ((exists x, modulo_inverse a m = Ret (Some x)) <-> Z.gcd a m = 1) /\
  (modulo_inverse a m = Ret None <-> Z.gcd a m <> 1).
Proof. exact modulo_inverse_iff. Qed.
Print Assumptions C06_modulo_inverse_iff.
Theorem C06_modulo_inverse_range : forall a m x, 0 < m ->
  modulo_inverse a m = Ret (Some x) -> 0 < x < 2 * m /\ m <= 2 * x <= 3 * m.
Proof. exact modulo_inverse_between2. Qed.
Print Assumptions C06_modulo_inverse_range.
Theorem C06_modulo_inverse_reduced_refuted : forall m, 1 < m -> modulo_inverse 1 m = Ret (Some (m + 1)).
Proof. exact modulo_inverse_one. Qed.
Print Assumptions C06_modulo_inverse_reduced_refuted.
Example C06_example : modulo_inverse 3 7 = Ret (Some 5) /\ modulo_inverse 4 6 = Ret None /\ modulo_inverse 1 7 = Ret (Some 8).
Proof. repeat split. Qed.

(** ** C07 modular division *)
Theorem C07_modulo_division_solvable : forall a b m, (b <> 0 \/ m <> 0) ->
  ((exists x, modulo_division a b m = Ret (Some x)) <-> (exists x, congruent m (b * x) a)) /\
  (modulo_division a b m = Ret None <-> ~ (exists x, congruent m (b * x) a)).
Proof. exact modulo_division_solvable. Qed.
Print Assumptions C07_modulo_division_solvable.
Theorem C07_modulo_division_gives : forall a b m x, modulo_division a b m = Ret (Some x) ->
  congruent b (m * x) a.
Proof. exact modulo_division_gives. Qed.
Print Assumptions C07_modulo_division_gives.
Theorem C07_modulo_division_zero_panics : forall a, modulo_division a 0 0 = Panic PDivZero.
Proof. exact modulo_division_zero. Qed.
Print Assumptions C07_modulo_division_zero_panics.
Theorem C07_modulo_division_law_refuted : exists a b m x,
  modulo_division a b m = Ret (Some x) /\ ~ congruent m (b * x) a.
Proof. exact modulo_division_refuted. Qed.
Print Assumptions C07_modulo_division_law_refuted.
(** dividing by a proper divisor of the modulus gives 0 whenever it gives anything, so dividing by one always does *)
Theorem C07_divisor_gives_zero : forall a b m, b <> 0 -> (b | m) -> Z.abs b <> Z.abs m -> (b | a) -> modulo_division a b m = Ret (Some 0).
Proof. exact modulo_division_divisor. Qed.
Print Assumptions C07_divisor_gives_zero.
(** which is wrong unless the modulus divides a *)
Theorem C07_divisor_wrong : forall a b m x, b <> 0 -> (b | m) -> Z.abs b <> Z.abs m -> (b | a) -> ~ (m | a) ->
  modulo_division a b m = Ret (Some x) -> ~ congruent m (b * x) a.
Proof. exact modulo_division_divisor_wrong. Qed.
Print Assumptions C07_divisor_wrong.
Example C07_example : modulo_division 1 3 7 = Ret (Some 1) /\ modulo_division 1 4 6 = Ret None /\ (2 | 6) /\ (2 | 4) /\ modulo_division 4 2 6 = Ret (Some 0) /\
  modulo_division 5 1 7 = Ret (Some 0).
Proof. repeat split; [exists 3|exists 2]; reflexivity. Qed.

(** ** C08-C10 Chinese remainder *)
Theorem C08_crt_sound : forall u m x, chinese_remainder u m = Ret (Some x) -> solves x u m.
Proof. exact crt_some_sound. Qed.
Print Assumptions C08_crt_sound.
Example C08_example : chinese_remainder [2; 3; 2] [3; 5; 7] = Ret (Some (-82)).
Proof. reflexivity. Qed.

Theorem C09_crt_some : forall u m, length u = length m -> m <> [] ->
  Forall (fun x => x <> 0) m ->
  ((exists x, chinese_remainder u m = Ret (Some x)) <-> pairwise_coprime m).
Proof. exact crt_some_iff. Qed.
Print Assumptions C09_crt_some.
Theorem C09_crt_none : forall u m, Forall (fun x => x <> 0) m ->
  (chinese_remainder u m = Ret None <-> length u <> length m \/ ~ pairwise_coprime m).
Proof. exact crt_none. Qed.
Print Assumptions C09_crt_none.
Theorem C09_crt_length_mismatch : forall u m, length u <> length m -> chinese_remainder u m = Ret None.
Proof. exact crt_mismatch. Qed.
Print Assumptions C09_crt_length_mismatch.
Theorem C09_crt_empty_panics : chinese_remainder [] [] = Panic PUnwrap.
Proof. exact crt_panic_empty. Qed.
Print Assumptions C09_crt_empty_panics.
(** A zero modulus is reached iff the moduli before it are pairwise coprime. *)
Theorem C09_crt_zero_modulus : forall u pre post, length u = length (pre ++ 0 :: post) ->
  Forall (fun x => x <> 0) pre ->
  (chinese_remainder u (pre ++ 0 :: post) = Panic PDivZero <-> pairwise_coprime pre) /\
  (chinese_remainder u (pre ++ 0 :: post) = Ret None <-> ~ pairwise_coprime pre).
Proof. exact crt_zero_iff. Qed.
Print Assumptions C09_crt_zero_modulus.
Example C09_example : chinese_remainder [1; 2] [4; 6] = Ret None /\ ~ pairwise_coprime [4; 6] /\
  pairwise_coprime [3; 5; 7] /\ chinese_remainder [1; 2; 3] [3; 0; 5] = Panic PDivZero.
Proof.
  repeat split; try reflexivity.
  - intros H. inversion H as [|? ? H1 _]. inversion H1. discriminate.
  - repeat constructor.
Qed.

Theorem C10_crt_bound : forall u m x, chinese_remainder u m = Ret (Some x) ->
  Z.abs x < Z.abs (product m).
Proof. exact crt_bound. Qed.
Print Assumptions C10_crt_bound.
(** the solutions are the numbers that differ from the answer by a multiple of the product *)
Theorem C10_all_solutions : forall u m x, chinese_remainder u m = Ret (Some x) ->
  forall y, solves y u m <-> congruent (product m) y x.
Proof. exact crt_all. Qed.
Print Assumptions C10_all_solutions.
(** so the answer is the least solution that is not negative, or the one before it *)
Theorem C10_two_candidates : forall u m x r, chinese_remainder u m = Ret (Some x) -> solves r u m -> 0 <= r < Z.abs (product m) ->
  x = r \/ x = r - Z.abs (product m).
Proof. exact crt_candidates. Qed.
Print Assumptions C10_two_candidates.
Theorem C10_crt_least_refuted : exists u m x, chinese_remainder u m = Ret (Some x) /\
  Forall (fun mi => 0 < mi) m /\ ~ (0 <= x < product m).
Proof. exact crt_least_refuted. Qed.
Print Assumptions C10_crt_least_refuted.
Example C10_example : chinese_remainder [1; 2] [3; 5] = Ret (Some 7) /\ product [3; 5] = 15 /\ solves 7 [1; 2] [3; 5] /\
  chinese_remainder [2; 3; 2] [3; 5; 7] = Ret (Some (23 - 105)) /\ solves 23 [2; 3; 2] [3; 5; 7].
Proof. repeat split; try reflexivity; repeat constructor; [exists 2|exists 1|exists 7|exists 4|exists 3]; reflexivity. Qed.

(** ** C11 *)
Theorem C11_is_coprime : forall x y,
  is_coprime x y = true <-> (forall d, (d | x) -> (d | y) -> (d | 1)).
Proof. exact is_coprime_iff. Qed.
Print Assumptions C11_is_coprime.
Example C11_example : is_coprime 14 (-15) = true /\ is_coprime 14 21 = false.
Proof. split; reflexivity. Qed.

(** ** C12, C13 prime_sum_u64 *)
Theorem C12_prime_sum : forall md n, 1 <= n < 2 ^ 32 -> prime_sum_u64 md n = Ret (sum_of_primes n).
Proof. exact prime_sum_correct. Qed.
Print Assumptions C12_prime_sum.
Example C12_example : 1 <= 100 < 2 ^ 32 /\ prime_sum_u64 Checked 100 = Ret 1060.
Proof. split; [lia|reflexivity]. Qed.

Theorem C13_prime_sum_zero_panics : forall md, prime_sum_u64 md 0 = Panic PUnwrap.
Proof. exact prime_sum_zero. Qed.
Print Assumptions C13_prime_sum_zero_panics.
Theorem C13_prime_sum_debug_overflow : forall n, 2 ^ 32 <= n < 2 ^ 64 ->
  prime_sum_u64 Checked n = Panic POverflow.
Proof. exact prime_sum_checked_big. Qed.
Print Assumptions C13_prime_sum_debug_overflow.
Theorem C13_prime_sum_release_mod : forall n, 1 <= n < (2 ^ 32 - 1) * (2 ^ 32 - 1) ->
  exists x, prime_sum_u64 Wrapping n = Ret x /\ 0 <= x < 2 ^ 64 /\
            x mod 2 ^ 63 = sum_of_primes n mod 2 ^ 63.
Proof. exact prime_sum_wrapping_mod. Qed.
Print Assumptions C13_prime_sum_release_mod.
Theorem C13_prime_sum_release_exact : forall n, 1 <= n < 2 ^ 33 ->
  prime_sum_u64 Wrapping n = Ret ((sum_of_primes n - 2 ^ 63 * (n * (n + 1) / 2 ^ 64)) mod 2 ^ 64).
Proof. exact prime_sum_wrapping_exact. Qed.
Print Assumptions C13_prime_sum_release_exact.
Theorem C13_prime_sum_release_wrong : forall n, 2 ^ 32 <= n <= 6074000999 ->
  prime_sum_u64 Wrapping n = Ret ((sum_of_primes n + 2 ^ 63) mod 2 ^ 64) /\
  (sum_of_primes n + 2 ^ 63) mod 2 ^ 64 <> sum_of_primes n.
Proof. exact prime_sum_wrapping_off. Qed.
Print Assumptions C13_prime_sum_release_wrong.
Theorem C13_prime_sum_release_huge_panics : forall n, (2 ^ 32 - 1) * (2 ^ 32 - 1) <= n < 2 ^ 64 ->
  prime_sum_u64 Wrapping n = Panic PAssert.
Proof. exact prime_sum_wrapping_huge. Qed.
Print Assumptions C13_prime_sum_release_huge_panics.
Example C13_example : 2 ^ 32 <= 5000000000 <= 6074000999 /\
  (2 ^ 32 - 1) * (2 ^ 32 - 1) <= 18446744073709551615 < 2 ^ 64.
Proof. lia. Qed.

(** ** C14 prime_sum_i *)
Theorem C14_prime_sum_i_dispatch : forall md n,
  (forall v, In (n, v) prime_sum_table -> prime_sum_i md n = Ret (Ok v)) /\
  ((forall v, ~ In (n, v) prime_sum_table) ->
     (n < 0 -> prime_sum_i md n = Ret (Err (Undefined (lit "wrong def")))) /\
     (2 ^ 64 <= n -> prime_sum_i md n = Ret (Err Unimplemented)) /\
     (0 <= n < 2 ^ 64 -> prime_sum_i md n = omap Ok (prime_sum_u64 md n))).
Proof. exact prime_sum_i_dispatch. Qed.
Print Assumptions C14_prime_sum_i_dispatch.
Theorem C14_prime_sum_i_keys : forall n,
  (exists v, In (n, v) prime_sum_table) <-> exists k, 0 <= k <= 25 /\ n = 10 ^ k.
Proof. exact prime_sum_table_keys. Qed.
Print Assumptions C14_prime_sum_i_keys.
Theorem C14_prime_sum_i_zero_panics : forall md, prime_sum_i md 0 = Panic PUnwrap.
Proof. exact prime_sum_i_zero. Qed.
Print Assumptions C14_prime_sum_i_zero_panics.
Example C14_example : prime_sum_i Checked 100 = Ret (Ok 1060) /\ prime_sum_i Checked 101 = Ret (Ok 1161)
  /\ prime_sum_i Checked (-1) = Ret (Err (Undefined (lit "wrong def"))).
Proof. repeat split. Qed.

(** ** C16 prime_count_i *)
Theorem C16_prime_count_i : forall n,
  (forall v, In (n, v) prime_count_table -> prime_count_i n = Ok v) /\
  ((forall v, ~ In (n, v) prime_count_table) ->
     prime_count_i n = Err (if n <? 0 then Undefined (lit "wrong def") else Unimplemented)).
Proof. exact prime_count_i_spec. Qed.
Print Assumptions C16_prime_count_i.
Theorem C16_prime_count_i_keys : forall n,
  (exists v, prime_count_i n = Ok v) <-> exists k, 0 <= k <= 27 /\ n = 10 ^ k.
Proof. exact prime_count_i_ok_iff. Qed.
Print Assumptions C16_prime_count_i_keys.
Example C16_example : prime_count_i 100 = Ok 25 /\ prime_count_i 101 = Err Unimplemented.
Proof. repeat split. Qed.
