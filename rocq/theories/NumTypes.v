(** Conversions and operators of the [num] crate and of Rust's machine
    integers that the modelled code uses.  BigInt and BigUint are [Z]. *)
From Verif Require Import Base.
Local Open Scope Z_scope.

(** [ToPrimitive::to_isize] for BigInt, [W] = bits of usize.
    num-traits; called at linear/fibonacci.rs:6, gamma/factorial.rs:23 *)
Definition to_isize (W : Z) (n : Z) : option Z :=
  if (- 2 ^ (W - 1) <=? n) && (n <? 2 ^ (W - 1)) then Some n else None.

(** [ToPrimitive::to_u64];
    num-traits; called at prime/prime_sum.rs:79, prime/prime_count.rs:55, evaluate/forward.rs:96 *)
Definition to_u64 (n : Z) : option Z :=
  if (0 <=? n) && (n <? 2 ^ 64) then Some n else None.

(** [ToPrimitive::to_u32]; num-traits; called at basic/mod.rs:25 *)
Definition to_u32 (n : Z) : option Z :=
  if (0 <=? n) && (n <? 2 ^ 32) then Some n else None.

(** [s as usize] for [s : isize]; linear/fibonacci.rs:8, gamma/factorial.rs:29 *)
Definition isize_as_usize (W : Z) (s : Z) : Z := s mod 2 ^ W.

(** BigInt [%] and [/]: truncate towards zero, panic on a zero divisor.
    num-bigint; used at basic/mod.rs:72-104 *)
Definition big_rem (a b : Z) : outcome Z :=
  if b =? 0 then Panic PDivZero else Ret (Z.rem a b).
(** num-bigint [/]; used at basic/mod.rs:72-104 *)
Definition big_quot (a b : Z) : outcome Z :=
  if b =? 0 then Panic PDivZero else Ret (Z.quot a b).

(** BigUint subtraction panics on underflow. num-bigint; used at linear/fibonacci.rs:20-40. *)
Definition biguint_sub (a b : Z) : outcome Z :=
  if a <? b then Panic POverflow else Ret (a - b).

(** Build profile: with overflow checks (debug) or without (release;
    /repo/Cargo.toml:14-16 does not switch them on). *)
Inductive ovf_mode := Checked | Wrapping.

(** no code *)
Definition two64 : Z := 18446744073709551616.   (* 2^64 *)

(** a value modulo 2^64 (prime/prime_sum.rs:14-31 in a build without overflow checks) *)
Definition u64_wrap (md : ovf_mode) (x : Z) : outcome Z :=
  if (0 <=? x) && (x <? two64) then Ret x
  else match md with
       | Checked => Panic POverflow
       | Wrapping => Ret (x mod two64)
       end.
(** u64 [+], prime/prime_sum.rs:14-31 *)
Definition u64_add md (a b : Z) := u64_wrap md (a + b).
(** u64 [-], prime/prime_sum.rs:14-31 *)
Definition u64_sub md (a b : Z) := u64_wrap md (a - b).
(** u64 [*], prime/prime_sum.rs:14-31 *)
Definition u64_mul md (a b : Z) := u64_wrap md (a * b).
(** [u64::wrapping_sub]; prime/prime_sum.rs:19 *)
Definition u64_wrapping_sub (a b : Z) : Z := (a - b) mod two64.
