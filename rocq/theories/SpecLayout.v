(** Layout: a text with every run of white space reduced to one blank, or to one
    line feed if the run has a line break. *)
From Verif Require Import Base Peg.

Definition line_break (c : char) : bool := ((c =? 10) || (c =? 13))%N.

(** a run of white space reduced; [b]: it has a line break *)
Definition reduced (b : bool) : char := if b then 10%N else 32%N.

(** [gap]: the white space since the last other character, if any, and whether it
    has a line break *)
Fixpoint layout_after (gap : option bool) (text : str) : str :=
  let before := match gap with Some b => [reduced b] | None => [] end in
  match text with
  | [] => before
  | c :: rest =>
      if white_space c
      then layout_after (Some (line_break c || match gap with Some b => b | None => false end)) rest
      else before ++ c :: layout_after None rest
  end.
Definition layout (text : str) : str := layout_after None text.

(** line ends as line feeds: CR LF and CR become LF *)
Fixpoint unix (text : str) : str :=
  match text with
  | 13%N :: rest => 10%N :: match rest with 10%N :: rest' => unix rest' | _ => unix rest end
  | c :: rest => c :: unix rest
  | [] => []
  end.
(** tabulators as blanks *)
Definition untabbed (text : str) : str := map (fun c => if (c =? 9)%N then 32%N else c) text.
(** blanks at the ends of lines left out *)
Fixpoint trimmed (text : str) : str :=
  match text with
  | c :: rest =>
      let r := trimmed rest in
      if ((c =? 32) || (c =? 9))%N then match r with [] => c :: r | d :: _ => if line_break d then r else c :: r end else c :: r
  | [] => []
  end.
