(** Property theorems: where the parts of a tree come from and how large a tree is
    ([SpecOrigin]). *)
From Verif Require Import Base Ast SmError Peg Build SpecAst SpecSyntax SpecSafe SpecValue SpecOrigin.
From Verif Require Import ProofSample ProofOrigin.
Local Open Scope nat_scope.

(** ** C75 nothing is invented *)
(** every name (with its path), sign, string and number of the tree is in the text, or one of a few that the parser adds *)
Theorem C75_nothing_invented : forall U f text a, parse U f text = Ret (Ok a) -> drawn text a.
Proof. intros U f text a H. exact (proj1 (parse_drawn U f text a H)). Qed.
Print Assumptions C75_nothing_invented.
(** at most two nodes for each character; the blank text of no characters has one *)
Theorem C75_size : forall U f text a, parse U f text = Ret (Ok a) -> nodes a <= Nat.max 1 (2 * length text).
Proof. intros U f text a H. exact (proj2 (parse_drawn U f text a H)). Qed.
Print Assumptions C75_size.
(** which is all but reached by texts of every even length *)
Theorem C75_size_reached : forall U f n, sane U -> exists text a, length text = 2 * n + 4 /\ parse U f text = Ret (Ok a) /\ nodes a = 2 * length text - 1.
Proof. exact size_reached. Qed.
Print Assumptions C75_size_reached.
(** the one character ¶ gives a call with an argument; the name y is not in the text x+1 *)
Example C75_example : (forall f, exists a, parse ascii_only f [182%N] = Ret (Ok a) /\ nodes a = 2 * length [182%N] /\
    exists b, parse ascii_only f (lit "f(x,k:2)") = Ret (Ok b) /\ nodes b = 4) /\
  drawn (lit "x+1") (Sym (mkSymbol [] (lit "x") Normal 0)) /\ ~ drawn (lit "x+1") (Sym (mkSymbol [] (lit "y") Normal 0)) /\ ~ drawn (lit "x+1") (Integer 2).
Proof. exact origin_example. Qed.
