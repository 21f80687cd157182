(** A text in pieces: gaps, strings, comments and other characters. *)
From Verif Require Import Base Peg SpecSyntax SpecLayout SpecOutside.
Local Open Scope nat_scope.

Inductive piece :=
| Gap (broken : bool)     (* white space; is there a line break in it? *)
| Literal (w : str)       (* a string with its quotes, or all that follows the quote of a string without end *)
| Remark (block : bool)   (* a comment, from %%% to %%% or to the end of its line *)
| Mark (c : char).        (* any other character *)

(** [gap]: the white space since the last other piece, if any, and whether it has a line break *)
Fixpoint pieces_from (fuel : nat) (gap : option bool) (s : str) : list piece :=
  let before := match gap with Some b => [Gap b] | None => [] end in
  match fuel, s with
  | O, _ => []
  | S _, [] => before
  | S f, c :: s' =>
      if white_space c then pieces_from f (Some (line_break c || match gap with Some b => b | None => false end)) s'
      else before ++
        if (c =? 34)%N
        then match after_string s with Some r => Literal (firstn (length s - length r) s) :: pieces_from f None r | None => [Literal s] end
        else match after_comment s with
             | Some r => Remark (c =? 37)%N :: pieces_from f None r
             | None => Mark c :: pieces_from f None s'
             end
  end.
Definition pieces (text : str) : list piece := pieces_from (S (length text)) None text.
