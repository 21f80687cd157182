(** Mathematical vocabulary of the number-theoretic properties.  Nothing in
    this file refers to the model of the code. *)
From Coq Require Import ZArith List Znumtheory Lia.
Import ListNotations.
Local Open Scope Z_scope.

(** n! is the standard library's [fact]. *)
Definition factorial (n : Z) : Z := Z.of_nat (Coq.Arith.Factorial.fact (Z.to_nat n)).

(** Fibonacci numbers: F(0)=0, F(1)=1, F(n+2)=F(n+1)+F(n). *)
Fixpoint fib (n : nat) : Z :=
  match n with
  | O => 0
  | S m => match m with
           | O => 1
           | S k => fib m + fib k
           end
  end.

(** ... extended to negative indices by F(n) = F(n+2) - F(n+1), that is
    F(-n) = (-1)^(n+1) F(n) (see [fibonacci_number_recurrence]). *)
Definition fibonacci_number (n : Z) : Z :=
  if 0 <=? n then fib (Z.to_nat n)
  else if Z.even n then - fib (Z.to_nat (- n)) else fib (Z.to_nat (- n)).

Lemma fibonacci_number_recurrence : forall n,
  fibonacci_number (n + 2) = fibonacci_number (n + 1) + fibonacci_number n.
Proof.
  intros n. unfold fibonacci_number.
  assert (Hev : Z.even (n + 2) = Z.even n) by (rewrite Z.even_add; now destruct (Z.even n)).
  assert (Hev1 : Z.even (n + 1) = negb (Z.even n)) by (rewrite Z.even_add; now destruct (Z.even n)).
  rewrite Hev, Hev1.
  destruct (Z.leb_spec 0 n).
  - replace (0 <=? n + 1) with true by lia. replace (0 <=? n + 2) with true by lia.
    replace (Z.to_nat (n + 2)) with (S (S (Z.to_nat n))) by lia.
    replace (Z.to_nat (n + 1)) with (S (Z.to_nat n)) by lia. reflexivity.
  - destruct (Z.eq_dec n (-1)) as [->|H1]; [reflexivity|].
    destruct (Z.eq_dec n (-2)) as [->|H2]; [reflexivity|].
    replace (0 <=? n + 1) with false by lia. replace (0 <=? n + 2) with false by lia.
    replace (Z.to_nat (- n)) with (S (S (Z.to_nat (- (n + 2))))) by lia.
    replace (Z.to_nat (- (n + 1))) with (S (Z.to_nat (- (n + 2)))) by lia.
    change (fib (S (S (Z.to_nat (- (n + 2)))))) with
      (fib (S (Z.to_nat (- (n + 2)))) + fib (Z.to_nat (- (n + 2)))).
    destruct (Z.even n); cbn [negb]; lia.
Qed.

(** Sum of the primes p <= n. *)
Fixpoint prime_sum_upto (n : nat) : Z :=
  match n with
  | O => 0
  | S m => prime_sum_upto m + (if prime_dec (Z.of_nat n) then Z.of_nat n else 0)
  end.
Definition sum_of_primes (n : Z) : Z := prime_sum_upto (Z.to_nat n).

(** Number of the primes p <= n. *)
Fixpoint prime_count_upto (n : nat) : Z :=
  match n with
  | O => 0
  | S m => prime_count_upto m + (if prime_dec (Z.of_nat n) then 1 else 0)
  end.
Definition number_of_primes (n : Z) : Z := prime_count_upto (Z.to_nat n).

(** Congruence modulo m, also for m <= 0. *)
Definition congruent (m a b : Z) : Prop := (m | a - b).

Definition product (l : list Z) : Z := fold_right Z.mul 1 l.

(** Every element is coprime to every later one. *)
Definition pairwise_coprime (l : list Z) : Prop :=
  ForallOrdPairs (fun x y => Z.gcd x y = 1) l.

(** x solves x = u_i (mod m_i) for all i. *)
Definition solves (x : Z) (u m : list Z) : Prop :=
  Forall2 (fun ui mi => congruent mi x ui) u m.
