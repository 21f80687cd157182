(** Property theorems: which trees have the same export to Wolfram ([SpecExport]). *)
From Verif Require Import Base Ast SmError Peg Build Wolfram SpecAst SpecSyntax SpecExport.
From Verif Require Import ProofSample ProofInject.

(** ** C86 what an export leaves of a tree *)
(** nothing but positions, namespaces, kinds and attributes is lost, and how the first letters of functions are written;
    for texts that call nothing by a name of the export's own *)
Theorem C86_same_export : forall U, sane U -> forall cap f g s t a b, parse U f s = Ret (Ok a) -> parse U g t = Ret (Ok b) ->
  calls_nothing_reserved cap a -> calls_nothing_reserved cap b -> (to_wolfram cap a = to_wolfram cap b <-> agree cap a b).
Proof. exact texts_same. Qed.
Print Assumptions C86_same_export.
(** for trees in general *)
Theorem C86_trees : forall cap a b, calls_nothing_reserved cap a -> decimals_written a -> calls_nothing_reserved cap b -> decimals_written b ->
  (to_wolfram cap a = to_wolfram cap b <-> agree cap a b).
Proof. exact export_same. Qed.
Print Assumptions C86_trees.
(** the export does not tell an option from a call of Rule *)
Theorem C86_option_refuted : forall cap, cap (lit "Rule") = lit "Rule" -> exists a b,
  parse ascii_only [] (lit "f(k: 1)") = Ret (Ok a) /\ parse ascii_only [] (lit "f(Rule(k, 1))") = Ret (Ok b) /\ to_wolfram cap a = to_wolfram cap b /\ ~ agree cap a b.
Proof. exact mixed_rule. Qed.
Print Assumptions C86_option_refuted.
(** nor names that differ in the case of the first letter, nor factor and factorInteger *)
Theorem C86_case_refuted : forall cap, cap (lit "f") = cap (lit "F") -> exists a b,
  parse ascii_only [] (lit "f(1)") = Ret (Ok a) /\ parse ascii_only [] (lit "F(1)") = Ret (Ok b) /\ to_wolfram cap a = to_wolfram cap b /\ ~ same_shape a b.
Proof. exact mixed_case. Qed.
Print Assumptions C86_case_refuted.
Theorem C86_factor_refuted : forall cap, cap (lit "factorInteger") = lit "FactorInteger" -> exists a b,
  parse ascii_only [] (lit "factor(6)") = Ret (Ok a) /\ parse ascii_only [] (lit "factorInteger(6)") = Ret (Ok b) /\ to_wolfram cap a = to_wolfram cap b /\ ~ same_shape a b.
Proof. exact mixed_factor. Qed.
Print Assumptions C86_factor_refuted.
(** capitalising as for ASCII letters *)
Example C86_example : let cap s := match s with c :: r => (if (97 <=? c)%N && (c <=? 122)%N then (c - 32)%N else c) :: r | [] => [] end in
  exists a b, parse ascii_only [] (lit "f(g(1.5, x), k: true)") = Ret (Ok a) /\ parse ascii_only [] (lit "f( G(1.5, x), k: true)") = Ret (Ok b) /\
    calls_nothing_reserved cap a /\ calls_nothing_reserved cap b /\ agree cap a b /\ ~ same_shape a b /\ cap (lit "Rule") = lit "Rule" /\ cap (lit "factorInteger") = lit "FactorInteger".
Proof. exact export_sample. Qed.
