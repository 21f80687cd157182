(** What the tests on trees are meant to say. *)
From Coq Require Import QArith.
From Verif Require Import Base Ast.
Local Open Scope Z_scope.

(** the number a tree is, if it is one *)
Definition number (a : ast) : option Q :=
  match a with
  | Integer i => Some (inject_Z i)
  | Decimal d => Some (inject_Z (dec_int d) * inject_Z 10 ^ (- dec_scale d))%Q
  | _ => None
  end.
Definition is_the_number (a : ast) (q : Q) : Prop := exists v, number a = Some v /\ (v == q)%Q.
