(** Property theorems C15 (and the composed statement of C14). *)
From Verif Require Import Base AlgoError NumTypes AlgoPrime SpecNum ProofTable.
Local Open Scope Z_scope.

(** Full statement: the same with 25 (27 for the counts) in place of 9.  The
    remaining rows are out of reach of the kernel. *)
Theorem C15_prime_sum_table_partial : forall j v, 0 <= j <= 9 -> In (10 ^ j, v) prime_sum_table ->
  v = sum_of_primes (10 ^ j).
Proof. exact prime_sum_table_ok. Qed.
Print Assumptions C15_prime_sum_table_partial.
Theorem C15_prime_count_table_partial : forall j v, 0 <= j <= 9 -> In (10 ^ j, v) prime_count_table ->
  v = number_of_primes (10 ^ j).
Proof. exact prime_count_table_ok. Qed.
Print Assumptions C15_prime_count_table_partial.
(** Every row of both tables, up to 10^25: sum and number of primes have different
    parity in the tables, as they have in truth. *)
Theorem C15_parity_partial : forall n, 2 <= n ->
  Z.odd (sum_of_primes n + number_of_primes n) = true /\
  (forall s c, In (n, s) prime_sum_table -> In (n, c) prime_count_table -> Z.odd (s + c) = true).
Proof. intros n H. exact (conj (sum_count_parity n H) (fun s c => tables_parity n s c H)). Qed.
Print Assumptions C15_parity_partial.
Example C15_example : In (10 ^ 9, 24739512092254535) prime_sum_table /\ In (10 ^ 9, 50847534) prime_count_table.
Proof. split; cbn; tauto. Qed.

(** prime_sum_i on [1,2^32): tabulated or computed, the answer is the sum. *)
Theorem C14_prime_sum_i_correct : forall md n, 1 <= n < 2 ^ 32 ->
  prime_sum_i md n = Ret (Ok (sum_of_primes n)).
Proof. exact prime_sum_i_correct. Qed.
Print Assumptions C14_prime_sum_i_correct.
Example C14_correct_example : 1 <= 10 ^ 9 < 2 ^ 32 /\ prime_sum_i Checked (10 ^ 9) = Ret (Ok 24739512092254535).
Proof. split; [lia|reflexivity]. Qed.
