(** How long replies can be. *)
From Verif Require Import Base SpecSafe.

(** the signs and the names that stand for powers, factorials and Fibonacci numbers *)
Definition growing_words : list str := [lit "^"; lit "!"; lit "power"; lit "factorial"; lit "fibonacci"].
