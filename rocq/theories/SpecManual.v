(** What the manual (projects/sm-book/docs/cn, projects/sm-parser/Readme.md) says
    about the syntax, in terms of characters. *)
From Verif Require Import Base Ast Peg SpecSyntax.

(** white space and line comments with a line break *)
Definition broken (ws : str) : bool := spacing ws && existsb line_end ws.
(** the characters operators between operands start with: = + - * × ⋅ ⊗ ⊙ / ÷ % ^ > . *)
Definition operator_start (c : char) : bool := existsb (N.eqb c) [61; 43; 45; 42; 215; 8901; 8855; 8857; 47; 247; 37; 94; 62; 46]%N.
(** the characters operands start with: ! ¬ + - * ( [ { # ¶ ⁋, the quote, digits, and the starts of words *)
Definition operand_start (U : unicode) (c : char) : bool :=
  prefix_char c || digit c || word_head U c || existsb (N.eqb c) [40; 91; 123; 35; 34; 182; 8267]%N.
(** | & $ ~ < \ ` ) ] } , *)
Definition foreign : list char := [124; 38; 36; 126; 60; 92; 96; 41; 93; 125; 44]%N.
(** operators of the manual, and of the grammar file, made of two signs *)
Definition pairs_of_signs : list str := [lit "=="; lit ">="; lit "->"; lit "=>"; lit ".."; lit "//"].
(** a line comment, without the end of its line *)
Definition line_comment (d : char) (body : str) : str := lit "//" ++ d :: body.
Definition one_line (body : str) : bool := forallb (fun c => negb (line_end c)) body.
