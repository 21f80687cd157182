(** projects/sm-algorithm/src/error.rs *)
From Verif Require Import Base.

(** error.rs:7-15 [enum Error] *)
Inductive alg_error :=
| OverFlow
| ComplexInfinity
| IOError (s : str)
| Unimplemented
| Indeterminate
| Undefined (s : str).

(** error.rs:17 [type Result<T>] *)
Definition alg_result (A : Type) := result A alg_error.

(** error.rs:19-27 [impl Display for Error]; the derived [Debug] (error.rs:7) of a
    variant without fields is its name *)
Definition display_alg_error (e : alg_error) : str :=
  match e with
  | IOError s => lit "IOError: " ++ s
  | Undefined s => lit "Undefined: " ++ s
  | OverFlow => lit "OverFlow"
  | ComplexInfinity => lit "ComplexInfinity"
  | Unimplemented => lit "Unimplemented"
  | Indeterminate => lit "Indeterminate"
  end.
