(** Specification vocabulary for the parser: operator table, pairs. *)
From Verif Require Import Base Peg Grammar SpecClimb.
Local Open Scope Z_scope.

Definition pair_rule (t : tree rule) : rule := match t with Node r _ _ _ _ => r end.

(** The infix operators with a meaning, weakest first:
    + and -; then *; then /; then ^, which associates to the right; then /@; then . *)
Definition op_strength (o : tree rule) : Z :=
  match pair_rule o with
  | R_Plus | R_Minus => 1
  | R_Multiply => 2
  | R_Divide => 3
  | R_Power => 4
  | R_Map => 5
  | R_Dot => 6
  | _ => 0
  end.
Definition op_to_right (o : tree rule) : bool :=
  match pair_rule o with R_Power => true | _ => false end.
Definition supported (o : tree rule) : Prop := op_strength o > 0.
