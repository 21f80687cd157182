(** How often the loops and recursions of the number functions are passed.  The work of
    one addition, multiplication or division of big integers is not counted. *)
From Verif Require Import Base NumTypes AlgoBasic AlgoFib AlgoPrime.
From Coq Require Import FMapPositive.
Local Open Scope Z_scope.

(** the calls of [memoization] made by one call, itself included; fibonacci.rs:20-40 *)
Fixpoint fib_calls (fuel : nat) (n : Z) (m : memo) : nat :=
  match fuel with
  | O => 0
  | S f =>
      S match memo_get n m with
        | Some _ => 0
        | None =>
            let x := if Z.even n then n / 2 else n / 2 + 1 in
            let y := if Z.even n then n / 2 + 1 else n / 2 in
            fib_calls f x m + match memoization f x m with Ret (_, m1) => fib_calls f y m1 | _ => 0%nat end
        end
  end.
(** the calls of [memoization] made by [fibonacci_fast_u], fibonacci.rs:19-46 *)
Definition fibonacci_calls (fuel : nat) (n : Z) : nat := fib_calls fuel n (memo_insert 2 1 (memo_insert 1 1 (memo_insert 0 0 []))).

(** the divisions in the loop of [extended_gcd], called at basic/mod.rs:42, 60, 73 *)
Fixpoint egcd_divisions (fuel : nat) (r : Z * Z) : nat :=
  match fuel with
  | O => 0
  | S f => if fst r =? 0 then 0 else S (egcd_divisions f (egcd_f (Z.quot (snd r) (fst r)) r))
  end.
(** those of [a.extended_gcd(b)], basic/mod.rs:42 *)
Definition euclid_divisions (fuel : nat) (a b : Z) : nat := egcd_divisions fuel (b, a).

(** the entries the loop for one prime updates, prime_sum.rs:24-27 *)
Fixpoint inner_updates (p2 : Z) (v : list Z) : nat :=
  match v with
  | [] => 0
  | ve :: v' => if ve <? p2 then 0 else S (inner_updates p2 v')
  end.
(** prime_sum.rs:20-29; [s] is the map when the loop reaches the first of [ps] *)
Fixpoint outer_updates (md : ovf_mode) (v : list Z) (ps : list Z) (s : smap) : nat :=
  match ps with
  | [] => 0
  | p :: ps' =>
      (match s_index s p, s_index s (p - 1) with
       | Ret a, Ret b => if (b <? a)%Z then inner_updates (p * p) v else 0
       | _, _ => 0
       end +
       match ps_step md v p s with Ret s' => outer_updates md v ps' s' | _ => 0 end)%nat
  end.
(** the updates of the map made by [prime_sum_u64], prime_sum.rs:14-31 *)
Definition prime_sum_updates (md : ovf_mode) (n : Z) : nat :=
  match ps_keys n (Z.sqrt n) with
  | Ret v => match ps_init md v (PositiveMap.empty Z) with
             | Ret s => outer_updates md v (zseq 2 (Z.to_nat (Z.sqrt n - 1))) s
             | _ => 0
             end
  | _ => 0
  end.
