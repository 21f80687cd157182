(** Strings and comments, and what of a text is outside them. *)
From Verif Require Import Base SpecSyntax.
Local Open Scope nat_scope.

(** what follows a comment of the form /// //? //! or //*: the end of its line and the rest *)
Fixpoint next_line (s : str) : str :=
  match s with
  | [] => []
  | c :: s' => if line_end c then s else next_line s'
  end.
(** how often %%% stands in the text, counted from the left without overlap *)
Fixpoint markers (s : str) : nat :=
  match s with
  | c :: s1 =>
      match s1 with
      | d :: e :: s3 => if ((c =? 37) && (d =? 37) && (e =? 37))%N then S (markers s3) else markers s1
      | _ => 0
      end
  | [] => 0
  end.
(** what follows the first %%% *)
Fixpoint after_marker (s : str) : option str :=
  if starts_with (lit "%%%") s then Some (skipn 3 s) else match s with [] => None | _ :: s' => after_marker s' end.
(** what follows the comment at the start of the text, if there is one.  A %%% starts a comment if the number of those after it
    is odd, and the comment ends at the next one *)
Definition after_comment (s : str) : option str :=
  if starts_with (lit "%%%") s then (if Nat.odd (markers (skipn 3 s)) then after_marker (skipn 3 s) else None)
  else if comment_start s then Some (next_line s) else None.

(** what follows the next quote that is not escaped *)
Fixpoint after_quote (s : str) : option str :=
  match s with
  | [] => None
  | c :: s' =>
      if (c =? 34)%N then Some s'
      else if (c =? 92)%N
      then match s' with d :: s2 => if ((d =? 34) || (d =? 92))%N then after_quote s2 else after_quote s' | [] => None end
      else after_quote s'
  end.
(** what follows the next n quotes in a row *)
Fixpoint after_quotes (n : nat) (s : str) : option str :=
  if starts_with (repeat 34%N n) s then Some (skipn n s) else match s with [] => None | _ :: s' => after_quotes n s' end.
Fixpoint quotes (s : str) : nat := match s with c :: s' => if (c =? 34)%N then S (quotes s') else 0 | [] => 0 end.
(** what follows the string at the start of the text, which starts with a quote: the string is enclosed in three or more quotes if it can be *)
Definition after_string (s : str) : option str :=
  let n := quotes s in
  match (if 3 <=? n then after_quotes n (skipn n s) else None) with
  | Some s' => Some s'
  | None => after_quote (tl s)
  end.

(** the characters outside strings and comments; none if a string has no end *)
Fixpoint outside_from (fuel : nat) (s : str) : option str :=
  match fuel, s with
  | O, _ => None
  | S _, [] => Some []
  | S f, c :: s' =>
      if (c =? 34)%N then match after_string s with Some r => outside_from f r | None => None end
      else match after_comment s with
           | Some r => outside_from f r
           | None => match outside_from f s' with Some k => Some (c :: k) | None => None end
           end
  end.
Definition outside (text : str) : option str := outside_from (S (length text)) text.
