(** Property theorems about the length of replies ([SpecLength], [SpecSafe]). *)
From Verif Require Import Base Ast SmError Internal Peg Build Display Runner SpecAst SpecSyntax SpecSafe SpecAnswer SpecLength.
From Verif Require Import ProofSample ProofLength.
Local Open Scope Z_scope.

(** ** C83 the length of a reply *)
(** without powers, factorials and Fibonacci numbers the reply is at most about three times as long as the text *)
Theorem C83_linear : forall U W calls text w, sane U -> 0 < W -> avoids growing_words text -> answer U W calls text = Ret (Ok w) ->
  (length w <= 3 * length text + 24)%nat.
Proof. exact short_reply. Qed.
Print Assumptions C83_linear.
(** with them there is a bound too *)
Theorem C83_bound : forall U W calls text w, sane U -> 0 < W -> answer U W calls text = Ret (Ok w) ->
  Z.of_nat (length w) <= 2 * (Z.of_nat (length text) + 12) * 2 ^ 64 + 2 * W * 2 ^ W.
Proof. exact any_reply. Qed.
Print Assumptions C83_bound.
(** powers of ten are written out, so that short texts have long replies *)
Theorem C83_power : forall U, sane U -> forall W calls n x, 0 <= n < 2 ^ 64 -> numeral_of n x ->
  answer U W calls (lit "10^" ++ x) = Ret (Ok (49%N :: repeat 48%N (Z.to_nat n))).
Proof. exact long_reply. Qed.
Print Assumptions C83_power.
(** a text of 23 characters has a reply of 2^64 characters *)
Theorem C83_reached : forall U, sane U -> forall W calls,
  exists text w, length text = 23%nat /\ answer U W calls text = Ret (Ok w) /\ Z.of_nat (length w) = 2 ^ 64.
Proof. exact longest_reply. Qed.
Print Assumptions C83_reached.
(** a text without and a text with one of the words *)
Example C83_example : avoids growing_words (lit "99 * 99999999") /\ answer ascii_only 64 [] (lit "99 * 99999999") = Ret (Ok (lit "9899999901")) /\
  answer ascii_only 64 [] (lit "20!") = Ret (Ok (lit "2432902008176640000")).
Proof. exact length_sample. Qed.
Print Assumptions C83_example.
