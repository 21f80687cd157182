(** projects/sm-ast/src/error/*.rs *)
From Verif Require Import Base AlgoError Ast.

(** error/mod.rs:3-14 [SMError].  Constructors get a prefix where Coq needs it.
    The payload of [SMParseError] (pest's rendered message) is left out here; it is in [Message.v]. *)
Inductive sm_error :=
| SMUnknown
| SMIOError (s : str)
| SMParseError
| EmptyContainer (s : str)
| Overflow
| Infinity
| SMComplexInfinity
| SMUnimplemented (s : str)
| SMUnreachable (s : str).

(** error/mod.rs:16 [SMResult] *)
Definition sm_result (A : Type) := result A sm_error.

(** error/mod.rs:18-28 [unimplemented_function!]: the text also contains the
    function's type name and line, not modelled. *)
Definition unimplemented_function : sm_error := SMUnimplemented (lit "Unimplemented Function").

(** error/traits.rs:21-31 [impl From<Algorithm> for SMError] *)
Definition sm_of_alg (e : alg_error) : sm_error :=
  match e with
  | OverFlow => Overflow
  | ComplexInfinity => SMComplexInfinity
  | IOError s => SMIOError s
  | Unimplemented => SMUnimplemented (lit "Unimplemented Algorithm")
  | _ => SMUnknown
  end.
