(** C74: the tests on trees and names. *)
From Coq Require Import QArith.
From Verif Require Import Base Ast SmError Peg Build Display SpecAst SpecTest.
From Verif Require Import ProofTest.
Local Open Scope Z_scope.

(** ** C74 tests on trees *)
(** a tree passes the test for zero, or for one, iff it is an integer or a decimal of that value, however written *)
Theorem C74_zero : forall a, is_zero a = true <-> is_the_number a 0.
Proof. exact zero_test. Qed.
Print Assumptions C74_zero.
Theorem C74_one : forall a, is_one a = true <-> is_the_number a 1.
Proof. exact one_test. Qed.
Print Assumptions C74_one.
Theorem C74_string : forall a, is_string a = true <-> exists s, a = Str s.
Proof. exact string_test. Qed.
Print Assumptions C74_string.
Theorem C74_boolean : forall a, is_boolean a = true <-> exists b, a = Boolean b.
Proof. exact boolean_test. Qed.
Print Assumptions C74_boolean.
(** the test for null asks for a name Null in any namespace *)
Theorem C74_null : forall a, is_null a = true <-> exists s, a = Sym s /\ name s = lit "Null".
Proof. exact null_test. Qed.
Print Assumptions C74_null.
(** and so the tree of the text null fails it *)
Theorem C74_null_refuted : forall xs xc f, exists a, parse (mkUnicode xs xc) f (lit "null") = Ret (Ok a) /\ is_null a = false.
Proof. intros. eexists. split; vm_compute; reflexivity. Qed.
Print Assumptions C74_null_refuted.
(** seven tests have no tree that passes, not even the integer 1 *)
Theorem C74_unanswered : forall a, is_function a = false /\ is_power a = false /\ is_number a = false /\ is_complex a = false /\ is_integer a = false /\
  is_positive a = false /\ is_negative a = false.
Proof. repeat split. Qed.
Print Assumptions C74_unanswered.
(** the tests on names *)
Theorem C74_operators : forall s, (is_prefix s = true <-> exists t, kind s = Prefix t) /\ (is_infix s = true <-> exists t p, kind s = Infix t p) /\
  (is_suffix s = true <-> exists t, kind s = Suffix t).
Proof. exact kind_tests. Qed.
Print Assumptions C74_operators.
Theorem C74_times : forall s, Forall (fun c => ~ In 58%N c) (name_space s) -> ~ In 58%N (name s) ->
  (is_times s = true <-> name_space s = [lit "std"; lit "infix"] /\ name s = lit "times").
Proof. exact times_test. Qed.
Print Assumptions C74_times.
(** a position is shown without its lines and columns; the default name is shown as nothing *)
Theorem C74_position : forall n s e, display_position (mkPosition n s e) = n.
Proof. reflexivity. Qed.
Print Assumptions C74_position.
Theorem C74_default : display_symbol default_symbol = [] /\ display_position default_position = [].
Proof. split; reflexivity. Qed.
Print Assumptions C74_default.
(** 0.00 is zero, 100 * 10^-2 is one, 10 * 10^-2 is not; the sign * is tested as a product *)
Example C74_example : is_the_number (Decimal (mkDecimal 0 2)) 0 /\ is_the_number (Decimal (mkDecimal 100 2)) 1 /\ is_one (Decimal (mkDecimal 100 2)) = true /\
  is_one (Decimal (mkDecimal 10 2)) = false /\ is_one (Str (lit "1")) = false /\ is_null (Sym (mkSymbol [lit "std"] (lit "Null") Normal 0)) = true /\
  is_times (mkSymbol [lit "std"; lit "infix"] (lit "times") Normal 0) = true /\ is_times (mkSymbol [lit "std"] (lit "times") Normal 0) = false.
Proof.
  split; [eexists; split; [reflexivity|vm_compute; reflexivity]|]. split; [eexists; split; [reflexivity|vm_compute; reflexivity]|].
  repeat split; vm_compute; reflexivity.
Qed.
