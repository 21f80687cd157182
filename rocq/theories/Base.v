(** Common vocabulary of the model: texts, Rust outcomes, results. *)
From Coq Require Export List NArith ZArith Lia Bool.
From Coq Require Import Ascii String.
Export ListNotations String.StringSyntax.

(** A Rust [char] is a Unicode scalar value, a Rust [&str]/[String] is the list
    of its chars (UTF-8 is only visible through byte lengths, see [utf8_len]).
    No code of the repository. *)
Definition char := N.
(** [&str], [String] (no code of the repository) *)
Definition str := list char.

(** ASCII literals of the source, as texts (no code). *)
Fixpoint lit (s : String.string) : str :=
  match s with
  | EmptyString => []
  | String a s' => N_of_ascii a :: lit s'
  end.
Arguments lit s%string_scope.

(** [==] on texts (no code of the repository) *)
Fixpoint str_eqb (a b : str) : bool :=
  match a, b with
  | [], [] => true
  | x :: a', y :: b' => N.eqb x y && str_eqb a' b'
  | _, _ => false
  end.

(** Number of bytes of a char in UTF-8 ([char::len_utf8]).
    std; used at internal/list_like.rs:19-24, parser/parse.rs:302, 367 *)
Definition utf8_width (c : char) : Z :=
  if (c <? 128)%N then 1
  else if (c <? 2048)%N then 2
  else if (c <? 65536)%N then 3
  else 4.

(** [str::len]: number of UTF-8 bytes. std; used at internal/list_like.rs:19-24. *)
Fixpoint utf8_len (s : str) : Z :=
  match s with
  | [] => 0
  | c :: s' => utf8_width c + utf8_len s'
  end%Z.

(** Ways a Rust computation can abort (no code; each use cites its line). *)
Inductive panic :=
| PUnimplemented      (* unimplemented!() *)
| PUnreachable        (* unreachable!(), also at the end of debug_cases! *)
| PIndex              (* slice / map index out of bounds *)
| PUnwrap             (* Option::unwrap / Result::unwrap / expect *)
| PDivZero            (* division or remainder by zero *)
| POverflow           (* checked arithmetic overflow; BigUint underflow *)
| PAssert             (* assert! *)
| PNegate             (* Neg for BigUint *)
| PPoisoned.          (* lock() on a poisoned mutex, unwrapped *)

(** Outcome of running Rust code: a value, a panic, or -- only in models of
    loops written with fuel -- fuel exhaustion, which is proved impossible (no code). *)
Inductive outcome (A : Type) : Type :=
| Ret (a : A)
| Panic (k : panic)
| OutOfFuel.
Arguments Ret {A} a.
Arguments Panic {A} k.
Arguments OutOfFuel {A}.

(** sequencing (no code) *)
Definition obind {A B} (x : outcome A) (f : A -> outcome B) : outcome B :=
  match x with
  | Ret a => f a
  | Panic k => Panic k
  | OutOfFuel => OutOfFuel
  end.

(** the result of a call under a function (no code) *)
Definition omap {A B} (f : A -> B) (x : outcome A) : outcome B :=
  obind x (fun a => Ret (f a)).

Declare Scope outcome_scope.
Delimit Scope outcome_scope with outcome.
Notation "x <- e ; f" := (obind e (fun x => f))
  (at level 61, e at next level, right associativity) : outcome_scope.
Notation "' p <- e ; f" := (obind e (fun p => f))
  (at level 61, p pattern, e at next level, right associativity) : outcome_scope.

(** [Result<T, E>] (std). *)
Inductive result (A E : Type) : Type :=
| Ok (a : A)
| Err (e : E).
Arguments Ok {A E} a.
Arguments Err {A E} e.

(** Run a fallible function over a list, left to right, stopping at a panic. *)
Section OmapM.
  Context {A B : Type} (f : A -> outcome B).
  (** [iter().map(..)] with calls that may panic (no code) *)
  Fixpoint omapM (l : list A) : outcome (list B) :=
    match l with
    | [] => Ret []
    | a :: l' => obind (f a) (fun b => obind (omapM l') (fun bs => Ret (b :: bs)))
    end.
End OmapM.

(** no code *)
Definition is_ret {A} (x : outcome A) : bool :=
  match x with Ret _ => true | _ => false end.

(** no code *)
Definition is_panic {A} (x : outcome A) : bool :=
  match x with Panic _ => true | _ => false end.

(** [0, 1, ..., len-1] shifted by [start], as integers; ranges such as [0..n] (std). *)
Fixpoint zseq (start : Z) (len : nat) : list Z :=
  match len with
  | O => []
  | S l => start :: zseq (start + 1)%Z l
  end.

(** [slice::join] / [[String]::join]. std; used at ast/traits.rs:57, tex/utils.rs:54. *)
Fixpoint join (sep : str) (l : list str) : str :=
  match l with
  | [] => []
  | [x] => x
  | x :: l' => x ++ sep ++ join sep l'
  end.
