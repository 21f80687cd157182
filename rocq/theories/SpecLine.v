(** Where a line ends an expression. *)
From Verif Require Import Base Ast Peg SpecSyntax SpecSource.

(** white space and line comments with a line break among them *)
Definition line_break (h : str) : bool := spacing h && existsb line_end h.
(** a character that goes on with an expression on a new line: the sign of an infix operator *)
Definition goes_on (c : char) : bool := existsb (fun s => head_is (N.eqb c) s) (map fst operators ++ ignored).
(** a character a statement can start with: not white space, not a semicolon *)
Definition fresh (c : char) : bool := negb (white_space c) && negb (semi c) && negb (goes_on c).
