(** projects/sm-ast/src/evaluate/forward.rs and the context of evaluate/mod.rs *)
From Verif Require Import Base NumTypes Ast Display Internal.
Local Open Scope Z_scope.
Local Open Scope outcome_scope.

(** evaluate/mod.rs:15-22 [Context]; maps are lists of entries in key order. *)
Record context := mkContext {
  index : Z; inputs : list (Z * str); outputs : list (Z * ast); symbols : list symbol }.

(** The evaluator gets [&mut Context] and returns a result; the final context is
    threaded explicitly. evaluate/forward.rs:10. *)
Definition eval_out := outcome (sm_result ast * context).

(** the same for a result that leaves the context alone, evaluate/forward.rs:10-23 *)
Definition with_ctx (r : outcome (sm_result ast)) (ctx : context) : eval_out :=
  x <- r; Ret (x, ctx).

(** forward.rs:74-82 [evaluate_additive] *)
Definition evaluate_additive (v : list ast) (ctx : context) : eval_out :=
  match v with
  | [Integer lhs; Integer rhs] => Ret (Ok (Integer (lhs + rhs)), ctx)
  | _ => Ret (Err unimplemented_function, ctx)
  end.

(** forward.rs:84-92 [evaluate_multiplicative] *)
Definition evaluate_multiplicative (v : list ast) (ctx : context) : eval_out :=
  match v with
  | [Integer lhs; Integer rhs] => Ret (Ok (Integer (lhs * rhs)), ctx)
  | _ => Ret (Err unimplemented_function, ctx)
  end.

(** forward.rs:94-105 [evaluate_power] *)
Definition evaluate_power (v : list ast) (ctx : context) : eval_out :=
  match v with
  | [Integer lhs; Integer rhs] =>
      match to_u64 rhs with
      | None => Ret (Ok (Integer lhs), ctx)
      | Some s => Ret (Ok (Integer (lhs ^ s)), ctx)
      end
  | _ => Ret (Err unimplemented_function, ctx)
  end.

(** [&args[0]]; evaluate/forward.rs:56-72 *)
Definition arg0 (args : list ast) : outcome ast :=
  match args with
  | a :: _ => Ret a
  | [] => Panic PIndex
  end.

(** forward.rs:56-72 [evaluate_function] *)
Definition evaluate_function (W : Z) (f : symbol) (p : parameter) (ctx : context) : eval_out :=
  let args := arguments p in
  let n := name f in
  if str_eqb n (lit "first") then a <- arg0 args; with_ctx (first_fn a) ctx
  else if str_eqb n (lit "last") then a <- arg0 args; with_ctx (last_fn a) ctx
  else if str_eqb n (lit "length") then a <- arg0 args; with_ctx (length_fn a) ctx
  else if str_eqb n (lit "factorial") then a <- arg0 args; with_ctx (factorial_fn W a) ctx
  else if str_eqb n (lit "fibonacci") then a <- arg0 args; with_ctx (fibonacci_fn W a) ctx
  else if str_eqb n (lit "plus") then evaluate_additive args ctx
  else if str_eqb n (lit "times") then evaluate_multiplicative args ctx
  else if str_eqb n (lit "power") then evaluate_power args ctx
  else Ret (Err unimplemented_function, ctx).

(** forward.rs:10-23 [AST::forward] *)
Definition forward (W : Z) (a : ast) (ctx : context) : eval_out :=
  match a with
  | EmptyStatement | Boolean _ | Integer _ | Decimal _ | Sym _ | Str _ => Ret (Ok a, ctx)
  | Program _ => Panic PUnimplemented
  | Function s p =>
      match p with
      | [] => Ret (Ok (Sym s), ctx)
      | [p0] => evaluate_function W s p0 ctx
      | _ => Ret (Err unimplemented_function, ctx)
      end
  end.
