(** Characters without a meaning in the language, and texts in which no string and
    no comment starts. *)
From Verif Require Import Base Peg Grammar Track SpecPest Source SpecSyntax SpecSource SpecManual SpecPlace.

(** the signs with a meaning in the language, the quote first *)
Definition language_signs : str :=
  34%N :: lit "!#%'()*+,-./:;=>?@[]^_{|}" ++ [172; 182; 215; 247; 8267; 8759; 8855; 8857; 8901; 65292; 65306; 65307]%N.
(** none of them, no white space, no character of words or numerals; & $ < \ ` ~ for instance *)
Definition stranger (U : unicode) (c : char) : bool :=
  negb (white_space c || digit c || word_head U c || xid_continue U c || existsb (N.eqb c) language_signs).

(** the quote, and the starts of comments *)
Definition openings : list str := [[34%N]; lit "///"; lit "//?"; lit "//!"; lit "//*"; lit "%%%"].
(** strings and comments may contain anything *)
Definition bare (u : str) : bool := negb (existsb (fun k => contains k u) openings).

(** expressions on lines of their own: each starts with no operator and has a line break after it *)
Inductive lines (U : unicode) : str -> Prop :=
| lines_none : lines U []
| lines_more : forall x o ws t, expr U x o -> plain_start x = true -> head_is operator_start x = false -> broken ws = true ->
    lines U t -> lines U (x ++ ws ++ t).

(** the error of the text is said to be at offset i *)
Definition blamed (U : unicode) (text : str) (i : nat) : Prop :=
  i <= length text /\ error_place U text = Some (place text i).
(** the end of the text is among what the error says was expected there *)
Definition end_expected (U : unicode) (text : str) : Prop :=
  exists i yes no, parse_error U text = Some (i, yes, no) /\ In R_EOI yes.
(** the grammar file's rule r, tried at offset i, cannot be read there *)
Definition misses (U : unicode) (text : str) (i : nat) (r : rule) : Prop :=
  exists m st, reads U source m (Name r) (mkPs i (skipn i text) st) None.
