(** projects/sm-algorithm/src/linear/fibonacci.rs *)
From Verif Require Import Base AlgoError NumTypes.
Local Open Scope Z_scope.
Local Open Scope outcome_scope.

(** The BTreeMap<usize, BigUint> of fibonacci.rs:20: an association list,
    newest binding first ([insert] shadows, [get] finds the newest). *)
Definition memo := list (Z * Z).
(** [m.get], fibonacci.rs:20-40 *)
Fixpoint memo_get (n : Z) (m : memo) : option Z :=
  match m with
  | [] => None
  | (k, v) :: m' => if k =? n then Some v else memo_get n m'
  end.
(** [m.insert], fibonacci.rs:20-40 *)
Definition memo_insert (n v : Z) (m : memo) : memo := (n, v) :: m.

(** fibonacci.rs:20-40 [memoization]: the map is passed by [&mut]. *)
Fixpoint memoization (fuel : nat) (n : Z) (m : memo) : outcome (Z * memo) :=
  match fuel with
  | O => OutOfFuel
  | S fuel' =>
      match memo_get n m with
      | Some s => Ret (s, m)
      | None =>
          ' (result, m) <-
            (if Z.even n then
               ' (a, m) <- memoization fuel' (n / 2) m;
               ' (b, m) <- memoization fuel' (n / 2 + 1) m;
               d <- biguint_sub (b * 2) a;
               Ret (a * d, m)
             else
               ' (a, m) <- memoization fuel' (n / 2 + 1) m;
               ' (b, m) <- memoization fuel' (n / 2) m;
               Ret (a * a + b * b, m));
          Ret (result, memo_insert n result m)
      end
  end.

(** depth enough for the recursion of fibonacci.rs:20-40 (no code) *)
Definition fib_fuel (n : Z) : nat := Z.to_nat (Z.log2 n) + 3.

(** fibonacci.rs:19-46 [fibonacci_fast_u] *)
Definition fibonacci_fast_u (number : Z) : outcome Z :=
  ' (r, _) <- memoization (fib_fuel number) number
                (memo_insert 2 1 (memo_insert 1 1 (memo_insert 0 0 [])));
  Ret r.

(** fibonacci.rs:15-17 [fibonacci_fold_u] *)
Definition fibonacci_fold_u (n : Z) : Z :=
  fst (fold_left (fun x _ => (fst x + snd x, fst x)) (zseq 0 (Z.to_nat n)) (0, 1)).

(** fibonacci.rs:5-13 [fibonacci_i]; [-u] on a BigUint panics. *)
Definition fibonacci_i (W : Z) (n : Z) : outcome (alg_result Z) :=
  match to_isize W n with
  | Some s =>
      u <- fibonacci_fast_u (isize_as_usize W s);
      if (s <? 0) && Z.even s then Panic PNegate else Ret (Ok u)
  | None => Ret (Err OverFlow)
  end.
