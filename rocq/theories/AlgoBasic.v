(** projects/sm-algorithm/src/basic/mod.rs *)
From Verif Require Import Base AlgoError NumTypes.
Local Open Scope Z_scope.
Local Open Scope outcome_scope.

(** basic/mod.rs:12-29 [power_iu]; [b] is a BigUint. *)
Definition power_iu (a b : Z) : alg_result Z :=
  if (a =? 0) && (b =? 0) then Err Indeterminate
  else if (a =? 0) || (b =? 0) then Ok 0
  else if a =? 1 then Ok 1
  else if b =? 1 then Ok b                 (* mod.rs:23: [b.clone()], sic *)
  else match to_u32 b with
       | None => Err OverFlow
       | Some u => Ok (a ^ u)
       end.

(** num-integer 0.1 [Integer::extended_gcd] (called at mod.rs:42, 60, 73):
    the while loop on the pairs r, s, t.  [f] swaps the pair and subtracts
    [q] times the (new) second component from the first. *)
Definition egcd_f (q : Z) (p : Z * Z) : Z * Z := (snd p - q * fst p, fst p).

(** the loop of [extended_gcd], called at basic/mod.rs:42, 60, 73 *)
Fixpoint egcd_loop (fuel : nat) (r s t : Z * Z) : outcome (Z * Z * Z) :=
  match fuel with
  | O => OutOfFuel
  | S fuel' =>
      if fst r =? 0
      then if 0 <=? snd r then Ret (snd r, snd s, snd t)
           else Ret (0 - snd r, 0 - snd s, 0 - snd t)
      else let q := Z.quot (snd r) (fst r) in
           egcd_loop fuel' (egcd_f q r) (egcd_f q s) (egcd_f q t)
  end.

(** iterations enough for that loop (no code; proved in ProofBasic.v) *)
Definition egcd_fuel (b : Z) : nat := S (2 * Z.to_nat (Z.log2 (Z.abs b) + 1)).

(** [self.extended_gcd(other)] = (gcd, x, y). called at basic/mod.rs:42, 60, 73. *)
Definition extended_gcd (self other : Z) : outcome (Z * Z * Z) :=
  egcd_loop (egcd_fuel other) (other, self) (0, 1) (1, 0).

(** basic/mod.rs:41-44 [extended_gcd2] *)
Definition extended_gcd2 (a b : Z) : outcome (Z * list Z) :=
  ' (g, x, y) <- extended_gcd a b;
  Ret (g, [x; y]).

(** basic/mod.rs:59-62 [modulo_inverse] *)
Definition modulo_inverse (a m : Z) : outcome (option Z) :=
  ' (g, x, _) <- extended_gcd a m;
  Ret (if g =? 1 then Some (x + m) else None).

(** basic/mod.rs:72-75 [modulo_division]; uses [y], the coefficient of [m]. *)
Definition modulo_division (a b m : Z) : outcome (option Z) :=
  ' (g, _, y) <- extended_gcd b m;
  r <- big_rem a g;
  if r =? 0 then (d <- big_quot a g; Ret (Some (d * y))) else Ret None.

(** basic/mod.rs:84-86 [is_coprime]; num's [gcd] on BigInt is non-negative. *)
Definition is_coprime (x y : Z) : bool := Z.gcd x y =? 1.

(** basic/mod.rs:95 the fold [m[0..i].iter().fold(1, |p, v| p * v % m_i)] *)
Fixpoint crt_prod (ms : list Z) (mi : Z) (p : Z) : outcome Z :=
  match ms with
  | [] => Ret p
  | v :: ms' => p' <- big_rem (p * v) mi; crt_prod ms' mi p'
  end.

(** basic/mod.rs:96 the fold over [v.iter().zip(m.iter()).rev()] *)
Fixpoint crt_eval (vms : list (Z * Z)) (mi : Z) (t : Z) : outcome Z :=
  match vms with
  | [] => Ret t
  | (vj, mj) :: vms' => w <- big_rem vj mi; crt_eval vms' mi (mj * t + w)
  end.

(** basic/mod.rs:94-98 the main loop.  [m] is the whole slice, [us]/[ms] the
    remaining part of the zipped slices, [v] the digits so far.
    [None] is the early return of [?]. *)
Fixpoint crt_loop (m us ms v : list Z) : outcome (option (list Z)) :=
  match us, ms with
  | ui :: us', mi :: ms' =>
      p <- crt_prod (firstn (length v) m) mi 1;
      c <- modulo_inverse p mi;
      match c with
      | None => Ret None
      | Some ci =>
          t <- crt_eval (rev (combine v m)) mi 0;
          d <- big_rem ((ui - t) * ci) mi;
          crt_loop m us' ms' (v ++ [d])
      end
  | _, _ => Ret (Some v)
  end.

(** basic/mod.rs:100-102 [ret = ret * m_i + v_i] over the reversed zip. *)
Definition crt_assemble (vms : list (Z * Z)) (ret : Z) : Z :=
  fold_left (fun r vm => r * snd vm + fst vm) vms ret.

(** basic/mod.rs:89-104 [chinese_remainder]; [v.pop().unwrap()] panics on []. *)
Definition chinese_remainder (u m : list Z) : outcome (option Z) :=
  if negb (Nat.eqb (length u) (length m)) then Ret None
  else
    v <- crt_loop m u m [];
    match v with
    | None => Ret None
    | Some v =>
        match rev v with
        | [] => Panic PUnwrap
        | last :: vrest =>
            Ret (Some (crt_assemble (rev (combine (rev vrest) m)) last))
        end
    end.
