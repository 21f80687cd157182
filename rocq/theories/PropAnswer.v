(** Property theorems about what a session answers to a source text.  [answer]
    and [prints] are in [SpecAnswer]; U is the Unicode table, W the width of a
    machine word, and the session before is arbitrary. *)
From Verif Require Import Base Ast Internal Peg Build Runner SpecNum SpecAst SpecSyntax SpecSource SpecText SpecSession SpecAnswer.
From Verif Require Import ProofSample ProofAnswer.
Local Open Scope Z_scope.
Local Open Scope outcome_scope.

(** ** C42 arithmetic from text to text *)
Theorem C42_times : forall U, sane U -> forall W calls g a x g1 g2 b y ws,
  spacing g = true -> numeral_of a x -> spacing g1 = true -> spacing g2 = true -> numeral_of b y -> closing ws = true ->
  prints (a * b) (answer U W calls (g ++ (x ++ g1 ++ lit "*" ++ g2 ++ y) ++ ws)).
Proof. exact answer_times. Qed.
Print Assumptions C42_times.
(** an exponent that does not fit 64 bits is ignored *)
Theorem C42_power : forall U, sane U -> forall W calls g a x g1 g2 b y ws,
  spacing g = true -> numeral_of a x -> spacing g1 = true -> spacing g2 = true -> numeral_of b y -> closing ws = true ->
  prints (if b <? 2 ^ 64 then a ^ b else a) (answer U W calls (g ++ (x ++ g1 ++ lit "^" ++ g2 ++ y) ++ ws)).
Proof. exact answer_power. Qed.
Print Assumptions C42_power.
(** the other infix operators are not implemented *)
Theorem C42_other : forall U, sane U -> forall W calls g a x g1 s g2 b y ws,
  spacing g = true -> numeral_of a x -> spacing g1 = true -> In s [lit "+"; lit "-"; lit "/"; [215%N]; [247%N]] ->
  spacing g2 = true -> (s = lit "/" -> head_is (N.eqb 47) g2 = false) -> numeral_of b y -> closing ws = true ->
  answer U W calls (g ++ (x ++ g1 ++ s ++ g2 ++ y) ++ ws) = Ret (Err unimplemented_function).
Proof. exact answer_other. Qed.
Print Assumptions C42_other.
Theorem C42_factorial : forall U, sane U -> forall W calls g a x ws, 0 < W -> spacing g = true -> numeral_of a x -> closing ws = true ->
  (a < 2 ^ (W - 1) -> prints (factorial a) (answer U W calls (g ++ (x ++ lit "!") ++ ws))) /\
  (2 ^ (W - 1) <= a -> answer U W calls (g ++ (x ++ lit "!") ++ ws) = Ret (Err Overflow)).
Proof. exact answer_factorial. Qed.
Print Assumptions C42_factorial.
Theorem C42_double_factorial : forall U, sane U -> forall W calls g a x ws, spacing g = true -> numeral_of a x -> closing ws = true ->
  answer U W calls (g ++ (x ++ lit "!!") ++ ws) = Ret (Err unimplemented_function).
Proof. exact answer_double_factorial. Qed.
Print Assumptions C42_double_factorial.
Theorem C42_fibonacci : forall U, sane U -> forall W calls g a x ws, 0 < W -> spacing g = true -> numeral_of a x -> closing ws = true ->
  (a < 2 ^ (W - 1) -> prints (fib (Z.to_nat a)) (answer U W calls (g ++ (lit "fibonacci" ++ paren x) ++ ws))) /\
  (2 ^ (W - 1) <= a -> answer U W calls (g ++ (lit "fibonacci" ++ paren x) ++ ws) = Ret (Err Overflow)).
Proof. exact answer_fibonacci. Qed.
Print Assumptions C42_fibonacci.
(** addition is reached by its name only *)
Theorem C42_plus : forall U, sane U -> forall W calls g a x b y ws, spacing g = true -> numeral_of a x -> numeral_of b y -> closing ws = true ->
  prints (a + b) (answer U W calls (g ++ (lit "plus" ++ paren (x ++ lit ", " ++ y)) ++ ws)).
Proof. exact answer_plus. Qed.
Print Assumptions C42_plus.
(** numbers side by side *)
Theorem C42_juxtaposed : forall U, sane U -> forall W calls g xs ns ws,
  spacing g = true -> Forall2 (fun x n => numeral_of n x) xs ns -> (2 <= length xs)%nat -> closing ws = true ->
  match ns with
  | [a; b] => prints (a * b) (answer U W calls (g ++ join (lit " ") xs ++ ws))
  | _ => answer U W calls (g ++ join (lit " ") xs ++ ws) = Ret (Err unimplemented_function)
  end.
Proof. exact answer_juxtaposed. Qed.
Print Assumptions C42_juxtaposed.
Example C42_example : numeral_of 12 (lit "12") /\ numeral_of 5 (lit "5") /\
  answer ascii_only 64 [lit "2*3"; lit "("] (lit " 12 * 5") = Ret (Ok (lit "60")) /\
  answer ascii_only 64 [lit "2*3"] (lit "5!") = Ret (Ok (lit "120")) /\
  answer ascii_only 64 [] (lit "12+5") = Ret (Err unimplemented_function).
Proof.
  split; [exact (sample_numeral (lit "12") eq_refl)|]. split; [exact (sample_numeral (lit "5") eq_refl)|].
  split; [vm_compute; reflexivity|]. split; vm_compute; reflexivity.
Qed.

(** ** C46 the empty text *)
(** white space alone is accepted by the parser, but printing the answer panics *)
Theorem C46_empty_text_panics : forall U W calls g, closing g = true -> answer U W calls g = Panic PUnimplemented.
Proof. exact answer_empty. Qed.
Print Assumptions C46_empty_text_panics.
Example C46_empty_example : white (lit "  ") = true /\ answer ascii_only 64 [] [] = Panic PUnimplemented.
Proof. split; [reflexivity|vm_compute; reflexivity]. Qed.

(** ** C53 nested arithmetic is not evaluated *)
(** an infix operation whose operands are not both integer literals *)
Theorem C53_nested : forall U W calls text n s p a b,
  denotes U text (Ret (binary n s p [a; b])) -> (forall i j, a = Integer i -> b <> Integer j) ->
  In n (map (fun o => snd (fst (snd o))) operators) ->
  answer U W calls text = Ret (Err unimplemented_function).
Proof. exact answer_nested. Qed.
Print Assumptions C53_nested.
Example C53_example : forall f,
  omap forget_result (parse ascii_only f (lit "2*3*4")) = Ret (Ok (times [times [Integer 2; Integer 3]; Integer 4])) /\
  answer ascii_only 64 [] (lit "2*3*4") = Ret (Err unimplemented_function).
Proof. intros f. split; vm_compute; reflexivity. Qed.
