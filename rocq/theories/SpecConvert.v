(** Converting a file, as a whole. *)
From Verif Require Import Base Ast SmError Peg Build Wolfram ParseFile SpecSession.

(** what there is besides the program: reading bytes as text, the Unicode tables, capitalising, writing Wolfram values *)
Record surroundings := mkSurroundings {
  decoded : list byte -> option str;
  tables : unicode;
  capital : str -> str;
  encoded : wolfram -> list byte }.
(** the content of a source, read as a text *)
Definition source_text (E : surroundings) (f : fs) (from : path) (text : str) : Prop := exists c, f from = Some c /\ decoded E c = Some text.
(** the conversion of from to to, by a parser with the name n for its sources, may end well and then leaves the files g *)
Definition converts (E : surroundings) (n : str) (from to : path) (f g : fs) : Prop :=
  pf_reach (decoded E) (parse (tables E) n) (to_wolfram_bytes (capital E) (encoded E)) from to (f, AtRead) (g, Finished (Ret (Ok tt))).
