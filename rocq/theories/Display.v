(** projects/sm-ast/src/ast/traits.rs: printing and predicates; and the external
    number printers it uses. *)
From Verif Require Import Base Ast.
Local Open Scope Z_scope.
Local Open Scope outcome_scope.

(** Decimal digits of a natural number, most significant first
    (num-bigint [to_str_radix(10)] of a BigUint). used at ast/traits.rs:13-53. *)
Fixpoint digits_loop (fuel : nat) (n : Z) (acc : str) : str :=
  match fuel with
  | O => acc
  | S f =>
      let acc' := Z.to_N (48 + n mod 10) :: acc in
      if n <? 10 then acc' else digits_loop f (n / 10) acc'
  end.
(** num-bigint [to_string] of a BigUint, used at ast/traits.rs:13-53 *)
Definition show_nat (n : Z) : str := digits_loop (S (Z.to_nat (Z.log2 n))) n [].

(** num-bigint [impl Display for BigInt]; used at ast/traits.rs:13-53 *)
Definition show_int (n : Z) : str :=
  if n <? 0 then lit "-" ++ show_nat (- n) else show_nat n.

(** the zeros [show_decimal] pads with *)
Fixpoint zeros (n : nat) : str :=
  match n with O => [] | S m => 48%N :: zeros m end.

(** bigdecimal 0.1 [impl Display for BigDecimal] (no precision requested);
    used at ast/traits.rs:13-53 *)
Definition show_decimal (d : decimal) : str :=
  let abs_int := show_nat (Z.abs (dec_int d)) in
  let len := Z.of_nat (length abs_int) in
  let '(before, after) :=
    if dec_scale d >=? len
    then (lit "0", zeros (Z.to_nat (dec_scale d - len)) ++ abs_int)
    else let location := len - dec_scale d in
         if location >? len
         then (abs_int ++ zeros (Z.to_nat (location - len)), [])
         else (firstn (Z.to_nat location) abs_int, skipn (Z.to_nat location) abs_int) in
  let complete := match after with [] => before | _ => before ++ lit "." ++ after end in
  if dec_int d <? 0 then lit "-" ++ complete else complete.

(** ast/traits.rs:108-115 [precedence] *)
Definition precedence (a : ast) : Z :=
  match a with
  | Function s _ => match kind s with Infix _ p => p | _ => 255 end
  | _ => 255
  end.

(** ast/traits.rs:218-231 [Parameter::is_unary], [Parameter::is_multiary] *)
Definition param_is_unary (p : parameter) : bool :=
  Nat.eqb (length (arguments p)) 1 && Nat.eqb (length (options p)) 0.
(** ast/traits.rs:225-231 *)
Definition param_is_multiary (p : parameter) : bool :=
  Nat.ltb 1 (length (arguments p)) && Nat.eqb (length (options p)) 0.

(** ast/traits.rs:200-216 [is_unary], [is_multiary] *)
Definition is_unary (ps : list parameter) : bool :=
  match ps with [p] => param_is_unary p | _ => false end.
(** ast/traits.rs:209-216 *)
Definition is_multiary (ps : list parameter) : bool :=
  match ps with [p] => param_is_multiary p | _ => false end.

(** ast/traits.rs:29-32: one operand of an infix node *)
Definition wrap_operand (a : ast) (p : Z) (text : str) : str :=
  if precedence a <? p then lit "(" ++ text ++ lit ")" else text.

(** ast/traits.rs:13-53 [impl Display for AST].  A panic inside a nested
    [format!] aborts the whole formatting. *)
Fixpoint display (a : ast) : outcome str :=
  match a with
  | EmptyStatement => Panic PUnimplemented
  | Program _ => Panic PUnimplemented
  | Function s ps =>
      match kind s with
      | Normal | Alias => Panic PUnimplemented
      | Prefix o =>
          if is_unary ps then
            match ps with
            | p :: _ => match arguments p with
                        | x :: _ => t <- display x; Ret (o ++ t)
                        | [] => Panic PIndex
                        end
            | [] => Panic PIndex
            end
          else Ret []
      | Infix o prec =>
          if is_multiary ps then
            match ps with
            | p :: _ =>
                v <- omapM (fun x => t <- display x; Ret (wrap_operand x prec t)) (arguments p);
                Ret (join o v)
            | [] => Panic PIndex
            end
          else Ret []
      | Suffix o =>
          if is_unary ps then
            match ps with
            | p :: _ => match arguments p with
                        | x :: _ => t <- display x; Ret (t ++ o)
                        | [] => Panic PIndex
                        end
            | [] => Panic PIndex
            end
          else Ret []
      end
  | Boolean b => Ret (if b then lit "true" else lit "false")
  | Integer n => Ret (show_int n)
  | Decimal d => Ret (show_decimal d)
  | Sym s => Ret (display_symbol s)
  | Str s => Ret s
  end.

(** ** Predicates, ast/traits.rs:118-198 *)

(** 120-125 *)
Definition is_string (a : ast) : bool := match a with Str _ => true | _ => false end.
(** 126-132 *)
Definition is_zero (a : ast) : bool :=
  match a with
  | Integer i => i =? 0
  | Decimal n => dec_int n =? 0
  | _ => false
  end.
(** 133-139; BigDecimal::is_one is numeric equality with 1 (num-traits default). *)
Definition is_one (a : ast) : bool :=
  match a with
  | Integer i => i =? 1
  | Decimal n => match dec_compare n (mkDecimal 1 0) with Eq => true | _ => false end
  | _ => false
  end.
(** 140-145 *)
Definition is_boolean (a : ast) : bool := match a with Boolean _ => true | _ => false end.
(** 146-151 *)
Definition is_null (a : ast) : bool :=
  match a with Sym s => str_eqb (name s) (lit "Null") | _ => false end.
(** 152-172: these always answer false in the source. *)
Definition is_function (a : ast) : bool := false.
(** ast/traits.rs:155-157 *)
Definition is_power (a : ast) : bool := false.
(** ast/traits.rs:158-160 *)
Definition is_number (a : ast) : bool := false.
(** ast/traits.rs:161-163 *)
Definition is_complex (a : ast) : bool := false.
(** ast/traits.rs:164-166 *)
Definition is_integer (a : ast) : bool := false.
(** ast/traits.rs:167-169 *)
Definition is_positive (a : ast) : bool := false.
(** ast/traits.rs:170-172 *)
Definition is_negative (a : ast) : bool := false.
(** 177-197 *)
Definition is_prefix (s : symbol) : bool := match kind s with Prefix _ => true | _ => false end.
(** ast/traits.rs:183-188 *)
Definition is_infix (s : symbol) : bool := match kind s with Infix _ _ => true | _ => false end.
(** ast/traits.rs:189-194 *)
Definition is_suffix (s : symbol) : bool := match kind s with Suffix _ => true | _ => false end.
(** ast/traits.rs:195-197 *)
Definition is_times (s : symbol) : bool := str_eqb (display_symbol s) (lit "std::infix::times").
