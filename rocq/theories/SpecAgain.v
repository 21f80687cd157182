(** Giving a reply of the web page back to it as a text. *)
From Verif Require Import Base Ast Peg Build Runner Track Message Debug SpecSession SpecDebug.
Local Open Scope Z_scope.

(** numbers and truth values *)
Definition plain_value (b : ast) : Prop := match b with Integer _ | Decimal _ | Boolean _ => True | _ => False end.
Definition number (b : ast) : Prop := match b with Integer _ | Decimal _ => True | _ => False end.
(** the text w has the value b, and the page replies w to it *)
Definition reads_back (U : unicode) (W : Z) (st : style) (b : ast) (w : str) : Prop :=
  evaluates_to W (parse U (lit "anonymous")) w b /\ replies U W st w w.
(** digits, and at most one dot between digits *)
Definition unsigned_numeral (w : str) : Prop :=
  exists x y, (w = x \/ w = x ++ lit "." ++ y /\ y <> []) /\ x <> [] /\
    Forall (fun c => 48 <= c <= 57)%N (x ++ y).
