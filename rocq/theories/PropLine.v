(** C88: line breaks in an expression. *)
From Verif Require Import Base Ast SmError Peg Grammar Build SpecAst SpecSyntax SpecSource SpecText SpecLine.
From Verif Require Import ProofSyntax ProofLine ProofSample.
Local Open Scope outcome_scope.

(** ** C88 line breaks *)
(** an expression ends with its line if the next line starts with anything but an infix operator: a parenthesis or a
    bracket there is no argument list and no index, a number or a name no factor, ! no factorial; what stands there
    is another statement, which is dropped, or for which the text is refused *)
Theorem C88_line_ends_expression : forall U, sane U -> forall g x o h c w, spacing g = true -> expr U x o -> plain_start x = true -> line_break h = true -> fresh c = true ->
  denotes_or_refused U (g ++ x ++ h ++ c :: w) o /\ (statements U (c :: w) -> denotes U (g ++ x ++ h ++ c :: w) o).
Proof. exact line_ends_expression. Qed.
Print Assumptions C88_line_ends_expression.
(** around an infix operator lines may be broken, before it or after it *)
Theorem C88_operator_continues : forall U, sane U -> forall g x a h s h' y b ws, spacing g = true -> term U x a -> spacing h = true ->
  In s (map fst operators) -> spacing h' = true -> term U y b ->
  (s = lit "." -> h' = [] -> head_is digit y = false) -> (s = lit "/" -> head_is (N.eqb 47) h' = false) ->
  plain_start (x ++ h ++ s ++ h' ++ y) = true -> closing ws = true ->
  denotes U (g ++ x ++ h ++ s ++ h' ++ y ++ ws) (u <- a; v <- b; token_apply u (Sign s) v).
Proof. exact operator_continues. Qed.
Print Assumptions C88_operator_continues.

(** f (x), a [1], a b, 2 x and x ! on one line and on two; a + b and 1 - 2 broken before and after the operator *)
Example C88_example : let n := [10%N] in let p t := omap forget_result (parse ascii_only [] t) in let sym s := Sym (named s []) in
  line_break n = true /\ line_break (lit " /// so" ++ [13; 10; 9]%N) = true /\ line_break (lit " ") = false /\
  fresh 40%N = true /\ fresh 91%N = true /\ fresh 98%N = true /\ fresh 50%N = true /\ fresh 33%N = true /\ fresh 45%N = false /\
  statements ascii_only (lit "2") /\ expr ascii_only (lit "7") (Ret (Integer 7)) /\
  p (lit "f (x)") = Ret (Ok (call (named (lit "f") []) [sym (lit "x")])) /\ p (lit "f" ++ n ++ lit "(x)") = Ret (Ok (sym (lit "f"))) /\
  p (lit "a" ++ n ++ lit "[1]") = Ret (Ok (sym (lit "a"))) /\ p (lit "a [1]") <> Ret (Ok (sym (lit "a"))) /\
  p (lit "a b") = Ret (Ok (times [sym (lit "a"); sym (lit "b")])) /\ p (lit "a" ++ n ++ lit "b") = Ret (Ok (sym (lit "a"))) /\
  p (lit "2" ++ n ++ lit "x") = Ret (Ok (Integer 2)) /\ p (lit "x" ++ n ++ lit "!y") = Ret (Ok (sym (lit "x"))) /\
  p (lit "x" ++ n ++ lit "!") = Ret (Err SMParseError) /\
  p (lit "a" ++ n ++ lit "+ b") = p (lit "a+b") /\ p (lit "a +" ++ n ++ lit "b") = p (lit "a+b") /\
  p (lit "1" ++ n ++ lit "-2") = Ret (Ok (binary (lit "subtract") (lit "-") 80 [Integer 1; Integer 2])) /\
  p (lit "1" ++ n ++ lit "(-2)") = Ret (Ok (Integer 1)).
Proof.
  cbv zeta. repeat (split; [reflexivity|]).
  assert (E : forall x, numeral x = true -> expr ascii_only x (Ret (Integer (numeral_value x)))) by (intros x H; exact (term_expr ascii_only _ _ (sample_number x H))).
  split; [exact (ss_last _ [] _ _ [] eq_refl (E (lit "2") eq_refl) eq_refl eq_refl)|]. split; [exact (E (lit "7") eq_refl)|].
  repeat match goal with |- _ /\ _ => split | |- _ = _ => vm_compute; reflexivity | |- _ <> _ => vm_compute; discriminate end.
Qed.
