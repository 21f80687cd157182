(** C89: how much work the number functions do. *)
From Verif Require Import Base NumTypes AlgoBasic AlgoFib AlgoPrime SpecNum Effort ProofEffort.
Local Open Scope Z_scope.

(** ** C89 *)
(** [fibonacci_fast_u n] makes at most 6 log n + 7 calls; any fuel that is enough gives the same bound *)
Theorem C89_fibonacci : forall n fuel, 0 < n -> Z.log2 n + 3 <= Z.of_nat fuel ->
  Z.of_nat (fibonacci_calls fuel n) <= 6 * Z.log2 n + 7.
Proof. exact fibonacci_cost. Qed.
Print Assumptions C89_fibonacci.
(** it stores no number twice, at most 3 log n + 6 in all, and makes two calls for each it adds to the first three *)
Theorem C89_fibonacci_entries : forall n fuel, 0 < n -> Z.log2 n + 3 <= Z.of_nat fuel -> exists v m,
  memoization fuel n (memo_insert 2 1 (memo_insert 1 1 (memo_insert 0 0 []))) = Ret (v, m) /\ NoDup (map fst m) /\
  Z.of_nat (length m) <= 3 * Z.log2 n + 6 /\ (fibonacci_calls fuel n + 5 = 2 * length m)%nat.
Proof. exact fibonacci_entries. Qed.
Print Assumptions C89_fibonacci_entries.
(** the extended Euclidean algorithm makes at most 2 log |b| + 2 divisions, whatever a is *)
Theorem C89_euclid : forall fuel a b, b <> 0 -> Z.of_nat (euclid_divisions fuel a b) <= 2 * Z.log2 (Z.abs b) + 2.
Proof. exact euclid_below. Qed.
Print Assumptions C89_euclid.
Theorem C89_euclid_zero : forall fuel a, euclid_divisions fuel a 0 = 0%nat.
Proof. exact euclid_zero. Qed.
Print Assumptions C89_euclid_zero.
(** two neighbouring Fibonacci numbers need as many divisions as their index, so no bound of a lower order holds *)
Theorem C89_euclid_worst : forall k fuel, (k + 2 <= fuel)%nat -> euclid_divisions fuel (fib (k + 3)) (fib (k + 2)) = (k + 1)%nat.
Proof. exact euclid_worst. Qed.
Print Assumptions C89_euclid_worst.
(** the loop needs one round for each division, and one more to see that it is done *)
Theorem C89_euclid_rounds : forall fuel r s t, egcd_loop fuel r s t <> OutOfFuel <-> (egcd_divisions fuel r < fuel)%nat.
Proof. exact euclid_rounds. Qed.
Print Assumptions C89_euclid_rounds.
(** the table of [prime_sum_u64 n] has at most 2 sqrt n + 2 entries *)
Theorem C89_prime_sum_table : forall n, 1 <= n -> forall v, ps_keys n (Z.sqrt n) = Ret v -> Z.of_nat (length v) <= 2 * Z.sqrt n + 2.
Proof. exact table_size. Qed.
Print Assumptions C89_prime_sum_table.
(** the loop for one prime stops at the first entry below its square: the entries before it are those counted *)
Theorem C89_prime_sum_stops : forall md p sp p2 v s,
  ps_inner md p sp p2 v s = ps_inner md p sp p2 (firstn (inner_updates p2 v) v) s /\ Forall (fun k => p2 <= k) (firstn (inner_updates p2 v) v).
Proof. exact inner_stops. Qed.
Print Assumptions C89_prime_sum_stops.
(** in all the table is updated fewer than 2 n^(1/4) n^(1/2) + n / n^(1/4) times, roots rounded down *)
Theorem C89_prime_sum_updates : forall n, 1 <= n -> forall md,
  Z.of_nat (prime_sum_updates md n) < 2 * Z.sqrt (Z.sqrt n) * Z.sqrt n + n / Z.sqrt (Z.sqrt n).
Proof. exact updates_below. Qed.
Print Assumptions C89_prime_sum_updates.
(** so never as often as 24 n^(3/4) *)
Theorem C89_prime_sum_order : forall md n, 1 <= n -> exists q, 0 < q /\ q ^ 4 <= n < (q + 1) ^ 4 /\ Z.of_nat (prime_sum_updates md n) < 24 * q ^ 3.
Proof. exact updates_cubed. Qed.
Print Assumptions C89_prime_sum_order.

Example C89_example : Z.log2 1000 + 3 <= Z.of_nat 12 /\ fibonacci_calls 12 1000 = 45%nat /\ euclid_divisions 20 144 89 = 10%nat /\
  (exists v, ps_keys 1000 (Z.sqrt 1000) = Ret v /\ length v = 63%nat) /\ prime_sum_updates Checked 1000 = 192%nat.
Proof. split; [vm_compute; discriminate|]. split; [vm_compute; reflexivity|]. split; [vm_compute; reflexivity|]. split; [eexists; split; vm_compute; reflexivity|]. vm_compute. reflexivity. Qed.
