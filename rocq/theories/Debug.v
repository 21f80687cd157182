(** The text of an error on the web page: [format!] with the derived Debug of
    projects/sm-ast/src/error/mod.rs:3-14 at projects/sm-playground/src/lib.rs:15 and 24.  How
    Debug writes a string is Rust's (core::fmt, core::char), not in /repo. *)
From Verif Require Import Base Ast SmError Peg Build Message.
Local Open Scope N_scope.

(** What differs between releases of Rust: whether the character 0 is written \0, whether
    single quotes get a backslash, and which characters are printable (a Unicode table). *)
Record style := mkStyle { short_nul : bool; single_escaped : bool; printable : char -> bool }.

(** a hexadecimal digit in lower case; core::char [escape_unicode] *)
Definition hex_letter (d : N) : char := if d <? 10 then 48 + d else 87 + d.
(** core::char [escape_unicode]: the digits before those in acc *)
Fixpoint hex_loop (fuel : nat) (n : N) (acc : str) : str :=
  match fuel with
  | O => acc
  | S f => let acc' := hex_letter (n mod 16) :: acc in if n <? 16 then acc' else hex_loop f (n / 16) acc'
  end.
(** core::char [escape_unicode], without zeros in front *)
Definition hex (n : N) : str := hex_loop (S (N.to_nat (N.log2 n))) n [].
(** core::char [escape_debug_ext], as [impl Debug for str] uses it *)
Definition escape_char (st : style) (c : char) : str :=
  if c =? 9 then lit "\t"
  else if c =? 13 then lit "\r"
  else if c =? 10 then lit "\n"
  else if (c =? 92) || (c =? 34) then [92; c]
  else if c =? 39 then (if single_escaped st then [92; c] else [c])
  else if (c =? 0) && short_nul st then lit "\0"
  else if printable st c then [c]
  else lit "\u{" ++ hex c ++ lit "}".
(** core::fmt [impl Debug for str], without the quotes *)
Definition escape_text (st : style) (s : str) : str := flat_map (escape_char st) s.
(** the derived Debug of a variant with one field *)
Definition variant_text (st : style) (name s : str) : str := name ++ lit "(""" ++ escape_text st s ++ lit """)".
(** error/mod.rs:3-14, derived Debug; text is the text whose evaluation gave the error, from
    which the payload of ParseError comes.  (There is a message for every refused text: C80.) *)
Definition debug_error (U : unicode) (st : style) (text : str) (e : sm_error) : str :=
  match e with
  | SMUnknown => lit "Unknown"
  | SMIOError s => variant_text st (lit "IOError") s
  | SMParseError => variant_text st (lit "ParseError") (match message U text with Some (Ret m) => m | _ => [] end)
  | EmptyContainer s => variant_text st (lit "EmptyContainer") s
  | Overflow => lit "Overflow"
  | Infinity => lit "Infinity"
  | SMComplexInfinity => lit "ComplexInfinity"
  | SMUnimplemented s => variant_text st (lit "Unimplemented") s
  | SMUnreachable s => variant_text st (lit "Unreachable") s
  end.
