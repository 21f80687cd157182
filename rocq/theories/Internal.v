(** projects/sm-ast/src/internal/*.rs *)
From Verif Require Import Base AlgoError NumTypes AlgoGamma AlgoFib AlgoPrime Ast Display.
From Verif Require Export SmError.
Local Open Scope Z_scope.
Local Open Scope outcome_scope.

(** The [?] operator on an algorithm result inside a function returning SMResult.
    internal/elementary.rs:63-77, error/traits.rs:21-31 *)
Definition lift_alg (r : alg_result Z) : sm_result ast :=
  match r with
  | Ok n => Ok (Integer n)
  | Err e => Err (sm_of_alg e)
  end.

(** internal/list_like.rs:3-17 [head] *)
Definition head (e : ast) : ast :=
  match e with
  | Function s p =>
      match p with
      | [] => ast_symbol (lit "std::core::Symbol")
      | [_] => Sym s
      | _ => Function s (removelast p)
      end
  | Boolean _ => ast_symbol (lit "std::core::Boolean")
  | Integer _ => ast_symbol (lit "std::core::Integer")
  | Decimal _ => ast_symbol (lit "std::core::Decimal")
  | Sym _ => ast_symbol (lit "std::core::Symbol")
  | Str _ => ast_symbol (lit "std::core::String")
  | _ => EmptyStatement
  end.

(** internal/list_like.rs:19-24 [length]: [String::len] counts bytes. *)
Definition length_fn (e : ast) : outcome (sm_result ast) :=
  match e with
  | Str s => Ret (Ok (Integer (utf8_len s)))
  | _ => Panic PUnimplemented
  end.

(** internal/list_like.rs:26-34 [first] *)
Definition first_fn (e : ast) : outcome (sm_result ast) :=
  match e with
  | Str s => match s with
             | [] => Ret (Err (EmptyContainer (lit "Can't call `first` on empty string")))
             | c :: _ => Ret (Ok (Str [c]))
             end
  | _ => Panic PUnimplemented
  end.

(** internal/list_like.rs:36-44 [last]: [chars().rev().next()] *)
Definition last_fn (e : ast) : outcome (sm_result ast) :=
  match e with
  | Str s => match rev s with
             | [] => Ret (Err (EmptyContainer (lit "Can't call `last` on empty string")))
             | c :: _ => Ret (Ok (Str [c]))
             end
  | _ => Panic PUnimplemented
  end.

(** internal/elementary.rs:63-69 [factorial] *)
Definition factorial_fn (W : Z) (e : ast) : outcome (sm_result ast) :=
  match e with
  | Integer n => Ret (lift_alg (factorial_i W n))
  | Decimal d => Ret (Ok (Decimal d))
  | _ => Panic PUnimplemented
  end.

(** internal/elementary.rs:71-77 [fibonacci] *)
Definition fibonacci_fn (W : Z) (e : ast) : outcome (sm_result ast) :=
  match e with
  | Integer n => r <- fibonacci_i W n; Ret (lift_alg r)
  | Decimal d => Ret (Ok (Decimal d))
  | _ => Panic PUnimplemented
  end.

(** internal/number_theory.rs:40-46 [prime_sum] (private module, not called by
    the evaluator) *)
Definition prime_sum_fn (md : ovf_mode) (e : ast) : outcome (sm_result ast) :=
  match e with
  | Integer n => r <- prime_sum_i md n; Ret (lift_alg r)
  | Decimal d => Ret (Ok (Decimal d))
  | _ => Panic PUnimplemented
  end.

(** evaluate/rewrite.rs:5-33 [AST::rewrite] *)
Definition rewrite (e : ast) : ast :=
  match e with
  | Function _ _ => e
  | _ => e
  end.
