(** Shapes of words, numerals and white space in source texts, said without the
    parser. *)
From Verif Require Import Base Ast Peg.

(** the first character of the text, if any, satisfies P *)
Definition head_is (P : char -> bool) (w : str) : bool := match w with c :: _ => P c | [] => false end.

(** the characters with the Unicode property White_Space *)
Definition blanks : list char :=
  [9; 10; 11; 12; 13; 32; 133; 160; 5760; 8192; 8193; 8194; 8195; 8196; 8197; 8198; 8199; 8200; 8201; 8202; 8232; 8233; 8239; 8287; 12288]%N.
Definition white (s : str) : bool := forallb white_space s.
Definition line_end (c : char) : bool := ((c =? 10) || (c =? 13))%N.
(** white space and line comments; a line comment starts with /// or //? or //! or //* and reaches to the end of its line *)
Fixpoint spacing_from (in_comment : bool) (s : str) : bool :=
  match s with
  | [] => negb in_comment
  | c :: s' =>
      if in_comment then spacing_from (negb (line_end c)) s'
      else if white_space c then spacing_from false s'
      else match s' with
           | b :: d :: s2 => ((c =? 47) && (b =? 47) && ((d =? 47) || (d =? 63) || (d =? 33) || (d =? 42)))%N && spacing_from true s2
           | _ => false
           end
  end.
Definition spacing : str -> bool := spacing_from false.
(** the same at the end of a text, where a comment needs no line end *)
Definition closing (s : str) : bool := spacing (s ++ [10%N]).

(** decimal numerals without leading zeros *)
Definition digit (c : char) : bool := ((48 <=? c) && (c <=? 57))%N.
Definition numeral (s : str) : bool :=
  match s with
  | [] => false
  | c :: s' => if (c =? 48)%N then match s' with [] => true | _ => false end
               else digit c && forallb digit s'
  end.

(** signs beyond ASCII with a meaning of their own in the language *)
Definition signs : list char :=
  [172; 180; 182; 215; 247; 8230; 8267; 8274; 8730; 8743; 8744; 8759; 8800; 8810; 8811; 8853; 8855;
   8857; 8901; 8920; 8921; 65292; 65306; 65307]%N.
(** neither they nor white space are in the Unicode classes XID_Start and
    XID_Continue *)
Definition sane (U : unicode) : Prop :=
  forall c, existsb (N.eqb c) signs || white_space c = true -> xid_start U c = false /\ xid_continue U c = false.

(** words: XID_Start XID_Continue*, or _ XID_Continue+ *)
Definition word (U : unicode) (s : str) : bool :=
  match s with
  | [] => false
  | c :: s' =>
      xid_start U c && forallb (xid_continue U) s' ||
      (c =? 95)%N && match s' with [] => false | _ => forallb (xid_continue U) s' end
  end.
Definition word_head (U : unicode) (c : char) : bool := (xid_start U c || (c =? 95)%N).

(** digits of the bases 2, 8 and 16 *)
Definition bin_digit (c : char) : bool := ((48 <=? c) && (c <=? 49))%N.
Definition oct_digit (c : char) : bool := ((48 <=? c) && (c <=? 55))%N.
Definition hex_digit (c : char) : bool :=
  ((48 <=? c) && (c <=? 57) || (97 <=? c) && (c <=? 102) || (65 <=? c) && (c <=? 70))%N.
(** the letter after the 0, with the digits of its base *)
Inductive based : char -> (char -> bool) -> Prop :=
| based_b : based 98%N bin_digit | based_B : based 66%N bin_digit
| based_o : based 111%N oct_digit | based_O : based 79%N oct_digit
| based_x : based 120%N hex_digit | based_X : based 88%N hex_digit.
Definition base_of (b : char) : Z :=
  if ((b =? 120) || (b =? 88))%N then 16%Z else if ((b =? 111) || (b =? 79))%N then 8%Z else 2%Z.
(** digits, each with at most one _ before it *)
Fixpoint grouped (P : char -> bool) (s : str) : bool :=
  match s with
  | [] => true
  | c :: s' =>
      if (c =? 95)%N then match s' with d :: s'' => P d && grouped P s'' | [] => false end
      else P c && grouped P s'
  end.

(** value of a digit string in a base up to 16, underscores ignored *)
Definition figure (c : char) : Z :=
  (if digit c then Z.of_N c - 48
   else if ((97 <=? c) && (c <=? 102))%N then Z.of_N c - 97 + 10
   else Z.of_N c - 65 + 10)%Z.
Definition based_value (base : Z) (s : str) : Z :=
  fold_left (fun a c => if (c =? 95)%N then a else (base * a + figure c)%Z) s 0%Z.

(** a numeral other than 0 *)
Definition positive (s : str) : bool := numeral s && negb (str_eqb s [48%N]).

(** what may stand between the quotes of a one-line string literal: no bare quote,
    no unpaired backslash at the end; a backslash before a quote or a backslash
    belongs to it *)
Fixpoint quotable (s : str) : bool :=
  match s with
  | [] => true
  | c :: s' =>
      if (c =? 92)%N then
        match s' with
        | [] => false
        | d :: s'' => if (d =? 34)%N || (d =? 92)%N then quotable s'' else quotable s'
        end
      else negb (c =? 34)%N && quotable s'
  end.

(** a backslash before every quote and every backslash *)
Definition escape (s : str) : str := flat_map (fun c => if (c =? 34)%N || (c =? 92)%N then [92%N; c] else [c]) s.

(** n + 3 double quotes *)
Definition fence (n : nat) : str := repeat 34%N (3 + n).
Fixpoint contains (k s : str) : bool :=
  match strip_prefix k s with
  | Some _ => true
  | None => match s with [] => false | _ :: s' => contains k s' end
  end.

(** words that start a statement which is not an expression; they are recognised
    without looking at what follows them *)
Definition statement_words : list str :=
  [lit "using"; lit "class"; lit "trait"; lit "extends"; lit "return"; lit "break"; lit "pass"; lit "if"; lit "for"; lit "let"; lit "def"].
Definition starts_with (p s : str) : bool := match strip_prefix p s with Some _ => true | None => false end.
(** what comments start with *)
Definition comment_start (w : str) : bool := existsb (fun k => starts_with k w) [lit "///"; lit "//?"; lit "//!"; lit "//*"; lit "%%%"].
(** the same for the constants *)
Definition constant_words : list str := [lit "null"; lit "true"; lit "false"].
(** the text starts neither with a word that starts a statement nor with ; or @ *)
Definition plain_start (x : str) : bool :=
  negb (head_is (fun c => (c =? 59) || (c =? 65307) || (c =? 64))%N x) && negb (existsb (fun k => starts_with k x) statement_words).

(** ** Signs and enclosures *)
(** white space other than line breaks *)
Definition inline_space (c : char) : bool := white_space c && negb (c =? 10)%N && negb (c =? 13)%N.
Definition inline (s : str) : bool := forallb inline_space s.
(** ! ¬ + - * before an operand *)
Definition prefix_char (c : char) : bool := ((c =? 33) || (c =? 172) || (c =? 43) || (c =? 45) || (c =? 42))%N.
(** the letter of a based literal *)
Definition base_letter (c : char) : bool :=
  ((c =? 98) || (c =? 66) || (c =? 111) || (c =? 79) || (c =? 120) || (c =? 88))%N.
(** , : ; and their full-width forms *)
Definition comma_char (c : char) : bool := ((c =? 44) || (c =? 65292))%N.
Definition colon_char (c : char) : bool := ((c =? 58) || (c =? 65306))%N.
Definition semi (c : char) : bool := ((c =? 59) || (c =? 65307))%N.
Definition paren (x : str) : str := lit "(" ++ x ++ lit ")".
Definition quoted (s : str) : str := 34%N :: s ++ [34%N].
Definition fenced (n : nat) (s : str) : str := fence n ++ s ++ fence n.
(** s can stand between such quotes: it does not start with a quote, and the closing quotes are the first of their kind *)
Definition fenceable (n : nat) (s : str) : bool :=
  match s with [] => false | c :: _ => negb (c =? 34)%N end && negb (contains (fence n) (s ++ repeat 34%N (2 + n))).
Definition comment (body : str) : str := lit "%%%" ++ body ++ lit "%%%".
Definition no_percent (w : str) : bool := forallb (fun c => negb (c =? 37)%N) w.
(** a text that can start an expression: its first character is no white space
    and none of / % ] *)
Definition front (x : str) : bool :=
  match x with c :: _ => negb (white_space c) && negb (c =? 47)%N && negb (c =? 37)%N && negb (c =? 93)%N | [] => false end.

(** ** Names: one segment, or several joined by ::.  A segment is a word, or several joined
    by the single character ∷: the grammar takes it for ::, but the project does not
    cut names there *)
Fixpoint cut_at (c : char) (s : str) : list str :=
  match s with
  | [] => [[]]
  | d :: s' => if (d =? c)%N then [] :: cut_at c s'
               else match cut_at c s' with x :: l => (d :: x) :: l | [] => [[d]] end
  end.
Definition segment (U : unicode) (x : str) : bool := forallb (word U) (cut_at 8759%N x).
Fixpoint path_tail (l : list str) : str := match l with [] => [] | x :: l' => lit "::" ++ x ++ path_tail l' end.

(** ** Constants and based literals *)
(** [null] is meant to be std::constant::Null; the source text of the project has
    a single colon there *)
Inductive special : str -> ast -> Prop :=
| sp_null : special (lit "null") (Sym (mkSymbol [lit "std"] (lit "constant:Null") Normal 0))
| sp_true : special (lit "true") (Boolean true)
| sp_false : special (lit "false") (Boolean false).
Definition byte_value (b : char) (s : str) : outcome ast :=
  match s with 95%N :: _ => Panic PUnwrap | _ => Ret (Integer (based_value (base_of b) s)) end.
