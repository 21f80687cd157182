(** What a session replies to a text: the value of a tree and how values are
    written.  Nothing here refers to the evaluator or the printer. *)
From Verif Require Import Base Ast SmError Peg Grammar SpecNum SpecAst SpecSession SpecUtf8 SpecPest Source SpecValue.
Local Open Scope Z_scope.

(** ** Values.  [W] is the number of bits of usize.  A tree without a value is one
    on which evaluation panics. *)
Definition out_of_range (W n : Z) : Prop := n < - 2 ^ (W - 1) \/ 2 ^ (W - 1) <= n.

(** a function, by its name, on one list of arguments *)
Inductive applied (W : Z) : str -> list ast -> sm_result ast -> Prop :=
| first_char : forall c s l, applied W (lit "first") (Str (c :: s) :: l) (Ok (Str [c]))
| first_none : forall l, applied W (lit "first") (Str [] :: l) (Err (EmptyContainer (lit "Can't call `first` on empty string")))
| last_char : forall c s l, applied W (lit "last") (Str (s ++ [c]) :: l) (Ok (Str [c]))
| last_none : forall l, applied W (lit "last") (Str [] :: l) (Err (EmptyContainer (lit "Can't call `last` on empty string")))
| length_bytes : forall s bs l, utf8 s bs -> applied W (lit "length") (Str s :: l) (Ok (Integer (Z.of_nat (length bs))))
| factorial_value : forall n l, 0 <= n < 2 ^ (W - 1) -> applied W (lit "factorial") (Integer n :: l) (Ok (Integer (factorial n)))
| factorial_negative : forall n l, - 2 ^ (W - 1) <= n < 0 -> applied W (lit "factorial") (Integer n :: l) (Err SMComplexInfinity)
| factorial_large : forall n l, out_of_range W n -> applied W (lit "factorial") (Integer n :: l) (Err Overflow)
| factorial_decimal : forall d l, applied W (lit "factorial") (Decimal d :: l) (Ok (Decimal d))
| fibonacci_value : forall n l, 0 <= n < 2 ^ (W - 1) -> applied W (lit "fibonacci") (Integer n :: l) (Ok (Integer (fib (Z.to_nat n))))
(** wrong (see C03), and without a value when n is even *)
| fibonacci_odd : forall n l, - 2 ^ (W - 1) <= n < 0 -> Z.even n = false -> applied W (lit "fibonacci") (Integer n :: l) (Ok (Integer (fib (Z.to_nat (n + 2 ^ W)))))
| fibonacci_large : forall n l, out_of_range W n -> applied W (lit "fibonacci") (Integer n :: l) (Err Overflow)
| fibonacci_decimal : forall d l, applied W (lit "fibonacci") (Decimal d :: l) (Ok (Decimal d))
| plus_two : forall m n, applied W (lit "plus") [Integer m; Integer n] (Ok (Integer (m + n)))
| times_two : forall m n, applied W (lit "times") [Integer m; Integer n] (Ok (Integer (m * n)))
| power_two : forall m n, 0 <= n < 2 ^ 64 -> applied W (lit "power") [Integer m; Integer n] (Ok (Integer (m ^ n)))
(** the base, when the exponent is no u64 *)
| power_base : forall m n, n < 0 \/ 2 ^ 64 <= n -> applied W (lit "power") [Integer m; Integer n] (Ok (Integer m))
| arithmetic_other : forall f l, In f [lit "plus"; lit "times"; lit "power"] -> (forall m n, l <> [Integer m; Integer n]) -> applied W f l (Err unimplemented_function)
| unknown_name : forall f l, ~ In f builtin_names -> applied W f l (Err unimplemented_function).

Inductive evaluates (W : Z) : ast -> sm_result ast -> Prop :=
| value_self : forall a, match a with Program _ | Function _ _ => False | _ => True end -> evaluates W a (Ok a)
| value_name : forall s, evaluates W (Function s []) (Ok (Sym s))
| value_call : forall s args opts pos r, applied W (name s) args r -> evaluates W (Function s [mkParam args opts pos]) r
| value_curried : forall s p q ps, evaluates W (Function s (p :: q :: ps)) (Err unimplemented_function).

(** ** How values are written *)
Definition signed (n : Z) (w w' : str) : Prop := 0 <= n /\ w' = w \/ n < 0 /\ w' = lit "-" ++ w.
Inductive shown : ast -> str -> Prop :=
| shown_true : shown (Boolean true) (lit "true")
| shown_false : shown (Boolean false) (lit "false")
| shown_integer : forall n w w', numeral_of (Z.abs n) w -> signed n w w' -> shown (Integer n) w'
(** i * 10^-k: with k digits after the dot *)
| shown_fraction : forall i k q r x y w, 0 < k -> Z.abs i = q * 10 ^ k + r -> numeral_of q x ->
    Forall is_digit y -> Z.of_nat (length y) = k -> numeral_value y = r -> signed i (x ++ lit "." ++ y) w -> shown (Decimal (mkDecimal i k)) w
| shown_whole : forall i k x w, k <= 0 -> numeral_of (Z.abs i) x -> signed i (x ++ repeat 48%N (Z.to_nat (- k))) w -> shown (Decimal (mkDecimal i k)) w
| shown_symbol : forall ns n k a, shown (Sym (mkSymbol ns n k a)) (flat_map (fun m => m ++ lit "::") ns ++ n)
| shown_string : forall s, shown (Str s) s.

(** ** Replies *)
(** the tree of a text in a session *)
Definition understood (U : unicode) (text : str) (a : ast) : Prop :=
  exists s ts, reads U source NonAtomic (Name R_program) (mkPs 0 text []) (Some (s, ts)) /\ program_value (lit "anonymous") text ts a.
Definition refused (U : unicode) (text : str) : Prop := reads U source NonAtomic (Name R_program) (mkPs 0 text []) None.
